(** The values of the envelope lie in [0,1] and its stages come in order (C33). *)
From Coq Require Import QArith Qround ZArith List Lia Bool Lqa.
Import ListNotations.
From Verif Require Import AdsrModel AdsrBlocks.
Open Scope Q_scope.

Lemma Qltb_spec x y : Qltb x y = true <-> x < y.
Proof.
  unfold Qltb. rewrite negb_true_iff. split; intros H.
  - apply Qnot_le_lt. intros L. apply Qle_bool_iff in L. congruence.
  - apply not_true_is_false. intros L. apply Qle_bool_iff in L. lra.
Qed.
Lemma Qltb_nspec x y : Qltb x y = false <-> y <= x.
Proof. unfold Qltb. rewrite negb_false_iff. apply Qle_bool_iff. Qed.
Lemma Qle_bool_nspec x y : Qle_bool x y = false <-> y < x.
Proof. rewrite <- Qltb_spec. unfold Qltb. rewrite negb_true_iff. reflexivity. Qed.

(** What a loop does, from what one turn does. *)
Lemma loop_spec (P R : env -> Prop) (O : Q -> Prop) step :
  (forall e, P e -> match step e with (Some y, e') => O y /\ P e' | (None, e') => R e' end) ->
  forall n e, P e -> Forall O (fst (loop step n e)) /\ (P (snd (loop step n e)) \/ R (snd (loop step n e))).
Proof.
  intros H. induction n as [|n IH]; intros e p; cbn [loop]; [split; [constructor|now left]|].
  specialize (H e p). destruct (step e) as [[y|] e'].
  - destruct H as [Oy p']. specialize (IH e' p'). destruct (loop step n e') as [l e2]. cbn in *.
    split; [constructor|]; tauto.
  - cbn. split; [constructor|now right].
Qed.

Section Range.
Variable rnd : Q -> Q.
(** What is used of the rounding of floats; true of rounding to nearest in absence of overflow. *)
Record rounding : Prop := Rounding {
  rnd_mono : forall x y, x <= y -> rnd x <= rnd y;
  rnd_idem : forall x, rnd (rnd x) == rnd x;
  rnd_opp : forall x, rnd (- x) == - rnd x;
  rnd_one : rnd 1 == 1 }.
Hypothesis RN : rounding.
Lemma rnd_zero : rnd 0 == 0.
Proof. pose proof (rnd_opp RN 0) as H. assert (rnd (-0) == rnd 0) as E by reflexivity. rewrite E in H. lra. Qed.
Lemma rnd_eq x y : x == y -> rnd x == rnd y.
Proof. intros E. pose proof (rnd_mono RN x y). pose proof (rnd_mono RN y x). lra. Qed.
Lemma rnd_pos x : 0 <= x -> 0 <= rnd x.
Proof. intros H. apply (rnd_mono RN) in H. pose proof rnd_zero. lra. Qed.
Lemma rnd_neg x : x <= 0 -> rnd x <= 0.
Proof. intros H. apply (rnd_mono RN) in H. pose proof rnd_zero. lra. Qed.
Lemma rnd_le1 x : x <= 1 -> rnd x <= 1.
Proof. intros H. apply (rnd_mono RN) in H. pose proof (rnd_one RN). lra. Qed.

Definition unit (x : Q) : Prop := 0 <= x <= 1.
(** [x] is a float. *)
Definition rep (x : Q) : Prop := rnd x == x.
Lemma rep_rnd x : rep (rnd x).
Proof. apply (rnd_idem RN). Qed.
(** The steepest slope of the final fade. *)
Definition steepest (e : env) : Q := rnd (- (1) / fade rnd e).

(** Parameters in range. *)
Record sound_params (e : env) : Prop := SP {
  sp_start : unit (e_start e) /\ rep (e_start e);
  sp_sus : unit (e_sus e) /\ rep (e_sus e);
  sp_attack : 0 <= e_astep e;
  sp_decay : unit (e_drate e);
  sp_release : unit (e_rrate e);
  sp_fade : 1 <= fade rnd e;
  (** a sustain level at which the envelope does not run freely is not tiny *)
  sp_held : e_free e = false -> 0 <= e_sus e + steepest e }.
(** State in range. *)
Record sound (e : env) : Prop := Sound {
  so_params : sound_params e;
  so_v : unit (e_v e) /\ rep (e_v e);
  so_td : steepest e <= e_td e <= 0;
  so_sustain : e_st e = SSustain -> e_free e = true ->
    0 <= e_v e + e_td e \/ (e_rel e = true /\ e_rd e = (-1)%Z);
  so_delay : e_st e <> SDelay -> (e_delay e <= 0)%Z;
  so_rd : (-1 <= e_rd e)%Z;
  (** no release is scheduled in advance for an envelope that runs freely *)
  so_free : e_free e = true -> beforeRelease (e_st e) = true -> (e_rd e <= 0)%Z }.

Definition soundp_ext e e' : params e' = params e -> sound_params e -> sound_params e'.
Proof.
  unfold params. intros E [A B C D F G H].
  assert (e_sus e' = e_sus e /\ e_free e' = e_free e /\ e_rate e' = e_rate e /\ e_astep e' = e_astep e /\
          e_drate e' = e_drate e /\ e_rrate e' = e_rrate e /\ e_start e' = e_start e) as
    (E1 & E2 & E3 & E4 & E5 & E6 & E7) by (repeat split; congruence).
  assert (fade rnd e' = fade rnd e) as E8 by (unfold fade; congruence).
  split; unfold steepest; rewrite ?E1, ?E2, ?E4, ?E5, ?E6, ?E7, ?E8; assumption.
Qed.
Lemma steepest_ext e e' : params e' = params e -> steepest e' = steepest e.
Proof. unfold params, steepest, fade. intros E. assert (e_rate e' = e_rate e) as -> by congruence. reflexivity. Qed.
Lemma steepest_neg e : sound_params e -> steepest e <= 0.
Proof.
  intros P. apply rnd_neg. pose proof (sp_fade e P). apply Qle_shift_div_r; lra.
Qed.
(** The slope to zero from [x] in [0,1] is not steeper. *)
Lemma slope e x : sound_params e -> unit x -> steepest e <= rnd (- x / fade rnd e) <= 0.
Proof.
  intros P [x0 x1]. pose proof (sp_fade e P) as F. split.
  - apply (rnd_mono RN). unfold Qdiv. apply Qmult_le_compat_r; [lra|].
    apply Qinv_le_0_compat. lra.
  - apply rnd_neg. apply Qle_shift_div_r; lra.
Qed.

Definition frames_ok (l : list Q) : Prop := Forall unit l.
(** Loops that change only the value keep what is said of the other fields. *)
Definition but_v (e e' : env) : Prop := exists v, e' = set_v v e.

Ltac fields := cbn [e_st e_v e_rel e_rd e_td e_delay e_hold e_astep e_drate e_rrate e_start e_sus e_thr e_free e_dyn e_rate
  set_v set_st set_rel set_rd set_td set_delay set_hold fst snd].

Lemma Qmaxf_cases x y : (Qmaxf x y = x /\ y <= x) \/ (Qmaxf x y = y /\ x <= y).
Proof.
  unfold Qmaxf. destruct (Qltb y x) eqn:L; [left|right]; split; try reflexivity.
  - apply Qltb_spec in L. lra.
  - now apply Qltb_nspec in L.
Qed.
Lemma mult_unit x y : unit x -> unit y -> unit (x * y).
Proof. unfold unit. intros. nra. Qed.
Lemma rnd_unit x : unit x -> unit (rnd x).
Proof. intros [A B]. split; [now apply rnd_pos|now apply rnd_le1]. Qed.

(** The switch. *)
Lemma segment_sound n e :
  sound e ->
  (e_st e = SSustain -> e_free e = true -> e_rel e = true -> (n <= 1)%nat /\ 0 <= e_v e + e_td e) ->
  frames_ok (fst (segment rnd n e)) /\
  sound_params (snd (segment rnd n e)) /\
  (unit (e_v (snd (segment rnd n e))) /\ rep (e_v (snd (segment rnd n e)))) /\
  steepest e <= e_td (snd (segment rnd n e)) <= 0 /\
  (e_st (snd (segment rnd n e)) = SSustain -> e_free e = true ->
   0 <= e_v (snd (segment rnd n e)) + e_td (snd (segment rnd n e)) \/
   (e_rel e = true /\ e_st e = SSustain)) /\
  (e_st (snd (segment rnd n e)) <> SDelay -> (e_delay (snd (segment rnd n e)) <= 0)%Z).
Proof.
  intros So Su.
  assert (sound_params (snd (segment rnd n e))) as PP.
  { eapply soundp_ext; [apply segment_params|apply so_params, So]. }
  destruct So as [SP V Td Ss De Rd Fr].
  enough (frames_ok (fst (segment rnd n e)) /\
  (unit (e_v (snd (segment rnd n e))) /\ rep (e_v (snd (segment rnd n e)))) /\
  steepest e <= e_td (snd (segment rnd n e)) <= 0 /\
  (e_st (snd (segment rnd n e)) = SSustain -> e_free e = true ->
   0 <= e_v (snd (segment rnd n e)) + e_td (snd (segment rnd n e)) \/
   (e_rel e = true /\ e_st e = SSustain)) /\
  (e_st (snd (segment rnd n e)) <> SDelay -> (e_delay (snd (segment rnd n e)) <= 0)%Z)) by tauto.
  clear PP. destruct V as [[v0 v1] vr].
  unfold segment. destruct (e_st e) eqn:St.
  - destruct (loop_spec
      (fun e' => e_st e' = SDelay /\ (unit (e_v e') /\ rep (e_v e')) /\ e_td e' = e_td e /\ e_start e' = e_start e)
      (fun e' => e_st e' = SDelay /\ (unit (e_v e') /\ rep (e_v e')) /\ e_td e' = e_td e /\ e_start e' = e_start e)
      unit stepDelay) with (n := n) (e := e) as [Fo H].
    + intros e1 (S1 & V1 & T1 & St1). unfold stepDelay. destruct (0 <? _)%Z; fields.
      * rewrite St1. pose proof (sp_start e SP) as [U R]. auto.
      * auto.
    + repeat split; auto.
    + destruct (loop stepDelay n e) as [l e1]. fields. cbn [fst snd] in *.
      assert (e_st e1 = SDelay /\ (unit (e_v e1) /\ rep (e_v e1)) /\ e_td e1 = e_td e) as (S1 & V1 & T1) by tauto.
      unfold afterDelay. destruct (Z.leb_spec (e_delay e1) 0); fields.
      * rewrite T1. repeat split; try assumption; try apply V1; try apply Td; try discriminate. auto.
      * rewrite T1, S1. repeat split; try assumption; try apply V1; try apply Td; try discriminate. congruence.
  - destruct (loop_spec
      (fun e' => exists v, e' = set_v v e /\ unit v /\ rep v)
      (fun e' => exists v, e' = set_v v e /\ 1 <= v)
      unit (stepAttack rnd)) with (n := n) (e := e) as [Fo H].
    + intros e1 (v & -> & U & R). unfold stepAttack. fields.
      pose proof (sp_attack e SP) as A.
      assert (0 <= rnd (v + e_astep e)) as P0 by (apply rnd_pos; unfold unit in U; lra).
      destruct (Qltb _ 1) eqn:L.
      * apply Qltb_spec in L. assert (unit (rnd (v + e_astep e))) by (unfold unit; lra).
        split; [assumption|]. eexists. split; [|split; [eassumption|apply rep_rnd]]. reflexivity.
      * apply Qltb_nspec in L. eexists. split; [|eassumption]. reflexivity.
    + exists (e_v e). repeat split; try assumption. destruct e; reflexivity.
    + destruct (loop (stepAttack rnd) n e) as [l e1]. fields. cbn [fst snd] in *.
      split; [assumption|]. unfold afterAttack.
      destruct H as [(v & -> & U & R)|(v & -> & L)]; fields.
      * destruct (Qle_bool 1 v) eqn:Q1; fields.
        { repeat split; try apply Td; try discriminate; try lra; try (apply (rnd_one RN)). intros _. apply De. discriminate. }
        { rewrite St. repeat split; try apply Td; try discriminate; try apply U; try apply R. intros _. apply De. discriminate. }
      * apply Qle_bool_iff in L. rewrite L. fields.
        repeat split; try apply Td; try discriminate; try lra; try (apply (rnd_one RN)). intros _. apply De. discriminate.
  - destruct (loop_spec
      (fun e' => exists h, e' = set_hold h e) (fun e' => exists h, e' = set_hold h e)
      unit stepHold) with (n := n) (e := e) as [Fo H].
    + intros e1 (h & ->). unfold stepHold. fields. destruct (0 <? h)%Z.
      * split; [unfold unit; lra|]. eexists. reflexivity.
      * eexists. reflexivity.
    + exists (e_hold e). destruct e; reflexivity.
    + destruct (loop stepHold n e) as [l e1]. fields. cbn [fst snd] in *. split; [assumption|].
      assert (exists h, e1 = set_hold h e) as (h & ->) by tauto. unfold afterHold. fields.
      destruct (h <=? 0)%Z; fields; rewrite ?St; repeat split; try assumption; try apply Td; try discriminate;
        intros _; apply De; discriminate.
  - destruct (loop_spec
      (fun e' => exists v, e' = set_v v e /\ unit v /\ rep v)
      (fun e' => exists v, e' = set_v v e /\ unit v /\ rep v)
      unit (stepDecay rnd)) with (n := n) (e := e) as [Fo H].
    + intros e1 (v & -> & U & R). unfold stepDecay. fields.
      assert (unit (rnd (v * e_drate e))) as U1 by (apply rnd_unit, mult_unit; [assumption|apply sp_decay, SP]).
      destruct (Qltb _ _); [split; [assumption|]|]; eexists; (split; [|split; [eassumption|apply rep_rnd]]); reflexivity.
    + exists (e_v e). repeat split; try assumption. destruct e; reflexivity.
    + destruct (loop (stepDecay rnd) n e) as [l e1]. fields. cbn [fst snd] in *. split; [assumption|].
      assert (exists v, e1 = set_v v e /\ unit v /\ rep v) as (v & -> & U & R) by tauto.
      unfold afterDecay. fields. destruct (Qle_bool v (e_thr e)); fields.
      * pose proof (sp_sus e SP) as [Us Rs].
        set (w := Qmaxf (e_sus e) v).
        assert (unit w /\ rep w /\ e_sus e <= w) as (Uw & Rw & Lw).
        { unfold w. destruct (Qmaxf_cases (e_sus e) v) as [[-> ?]|[-> ?]]; repeat split; try apply Us; try apply U; try assumption; lra. }
        assert (fade rnd (set_v w (set_st SSustain (set_v v e))) = fade rnd e) as Ef by reflexivity.
        assert (fade rnd (set_v v e) = fade rnd e) as Ef2 by reflexivity.
        rewrite ?Ef, ?Ef2. pose proof (sp_fade e SP) as F.
        assert (unit (- rnd (e_sus e - w))) as Ud.
        { assert (- rnd (e_sus e - w) == rnd (w - e_sus e)) as Eo.
          { pose proof (rnd_opp RN (e_sus e - w)). rewrite <- H0. apply rnd_eq. ring. }
          unfold unit. rewrite Eo. apply rnd_unit. unfold unit in *. lra. }
        assert (rnd (rnd (e_sus e - w) / fade rnd e) == rnd (- (- rnd (e_sus e - w)) / fade rnd e)) as Et.
        { apply rnd_eq. unfold Qdiv. apply Qmult_comp; [ring|reflexivity]. }
        pose proof (slope e _ SP Ud) as Sl. rewrite <- Et in Sl.
        split; [split; assumption|]. split; [exact Sl|]. split.
        { intros _ _. left.
          assert (rnd (rnd (e_sus e - w)) <= rnd (rnd (e_sus e - w) / fade rnd e)) as L1.
          { apply (rnd_mono RN). unfold unit in Ud. apply Qle_shift_div_l; [lra|]. nra. }
          assert (rnd (- w) <= rnd (e_sus e - w)) as L2 by (apply (rnd_mono RN); unfold unit in Us; lra).
          pose proof (rnd_opp RN w). pose proof (rnd_idem RN (e_sus e - w)). unfold rep in Rw. lra. }
        { intros _. apply De. discriminate. }
      * rewrite St. repeat split; try apply U; try apply R; try apply Td; try discriminate. intros _. apply De. discriminate.
  - destruct (negb (e_rel e) && e_free e) eqn:RF; fields.
    { rewrite St. split; [constructor|]. split; [repeat split; assumption|]. split; [exact Td|].
      split; [intros _ F; left|intros _; apply De; discriminate].
      apply andb_true_iff in RF as [RF _]. apply negb_true_iff in RF. destruct (Ss eq_refl F) as [|[? _]]; congruence. }
    pose proof (sp_sus e SP) as [Us Rs].
    assert (forall v, unit v -> (e_sus e < v -> 0 <= v + e_td e) -> 
              unit (if Qltb (e_sus e) v then rnd (v + e_td e) else v) ) as Un.
    { intros v U H. destruct (Qltb (e_sus e) v) eqn:L; [|assumption]. apply Qltb_spec in L.
      apply rnd_unit. specialize (H L). unfold unit in *. lra. }
    assert (forall v, rep v -> rep (if Qltb (e_sus e) v then rnd (v + e_td e) else v)) as Rp.
    { intros v R. destruct (Qltb _ _); [apply rep_rnd|assumption]. }
    destruct (e_free e) eqn:Fe.
    + destruct (e_rel e) eqn:Re; [|discriminate]. destruct (Su eq_refl eq_refl eq_refl) as [Su' Sv].
      destruct n as [|[|n]]; [| |lia].
      * cbn [loop]. fields. split; [constructor|]. split; [repeat split; assumption|]. split; [exact Td|].
        split; [auto|]. intros _. apply De. discriminate.
      * cbn [loop]. unfold stepSustain. fields. cbn [loop].
        assert (unit (if Qltb (e_sus e) (e_v e) then rnd (e_v e + e_td e) else e_v e)) as U1.
        { apply Un; [split; assumption|]. intros _. exact Sv. }
        fields. split; [apply Forall_cons; [exact U1|apply Forall_nil]|]. split; [split; [assumption|now apply Rp]|].
        split; [exact Td|]. split; [auto|]. intros _. apply De. discriminate.
    + destruct (loop_spec
      (fun e' => exists v, e' = set_v v e /\ unit v /\ rep v) (fun _ => False)
      unit (stepSustain rnd)) with (n := n) (e := e) as [Fo H].
      * intros e1 (v & -> & U & R). unfold stepSustain. fields.
        assert (unit (if Qltb (e_sus e) v then rnd (v + e_td e) else v)) as U1.
        { apply Un; [assumption|]. intros L. pose proof (sp_held e SP Fe). lra. }
        split; [assumption|]. eexists. split; [|split; [exact U1|now apply Rp]]. reflexivity.
      * exists (e_v e). repeat split; try assumption. destruct e; reflexivity.
      * destruct (loop (stepSustain rnd) n e) as [l e1]. fields. cbn [fst snd] in *.
        destruct H as [(v & -> & U & R)|[]]. fields. split; [assumption|]. split; [auto|]. split; [exact Td|].
        split; [congruence|]. intros _. apply De. discriminate.
  - assert (forall n e1, (exists v, e1 = set_v v e /\ unit v /\ rep v) ->
      let '(l, e2) := loop (stepRelease rnd) n e1 in
      Forall unit l /\ Forall rep l /\ exists v, e2 = set_v v e /\ unit v /\ rep v) as H.
    { clear -RN SP. induction n as [|n IH]; intros e1 (v & -> & U & R); cbn [loop].
      - repeat split; try constructor. exists v. auto.
      - unfold stepRelease at 1. fields.
        assert (unit (rnd (v * e_rrate e))) as U1 by (apply rnd_unit, mult_unit; [assumption|apply sp_release, SP]).
        destruct (Qltb _ _).
        + specialize (IH (set_v (rnd (v * e_rrate e)) e)).
          assert (set_v (rnd (v * e_rrate e)) (set_v v e) = set_v (rnd (v * e_rrate e)) e) as -> by reflexivity.
          destruct (loop _ n _) as [l e2]. destruct IH as (A & B & C).
          { eexists. split; [reflexivity|]. split; [assumption|apply rep_rnd]. }
          repeat split; try assumption; constructor; try assumption. apply rep_rnd.
        + repeat split; try constructor. eexists. split; [reflexivity|]. split; [assumption|apply rep_rnd]. }
    specialize (H n e). destruct (loop (stepRelease rnd) n e) as [l e1].
    destruct H as (A & B & v & -> & U & R).
    { exists (e_v e). repeat split; try assumption. destruct e; reflexivity. }
    fields. split; [assumption|]. unfold afterRelease. fields.
    assert (unit (last l (e_v e)) /\ rep (last l (e_v e))) as [Ul Rl].
    { assert (forall x, unit x -> rep x -> unit (last l x) /\ rep (last l x)) as La.
      { clear -A B. induction l as [|y l IH]; intros x Ux Rx; [auto|]. inversion A; inversion B; subst.
        cbn [last]. destruct l; [auto|]. now apply IH. }
      apply La; [split|]; assumption. }
    destruct (Qle_bool v _); fields.
    + assert (fade rnd (set_v v e) = fade rnd e) as -> by reflexivity.
      assert (unit (Qmaxf egReleaseThreshold (last l (e_v e)))) as Um.
      { destruct (Qmaxf_cases egReleaseThreshold (last l (e_v e))) as [[-> ?]|[-> ?]]; [|assumption].
        split; unfold egReleaseThreshold; lra. }
      split; [auto|]. split; [apply slope; assumption|]. split; [discriminate|]. intros _. apply De. discriminate.
    + rewrite St. split; [auto|]. split; [exact Td|]. split; [discriminate|]. intros _. apply De. discriminate.
  - destruct (loop_spec
      (fun e' => exists v, e' = set_v v e /\ unit v /\ rep v)
      (fun e' => exists v, e' = set_v v e /\ v <= 0)
      unit (stepFadeout rnd)) with (n := n) (e := e) as [Fo H].
    + intros e1 (v & -> & U & R). unfold stepFadeout. fields.
      destruct (Qltb _ _) eqn:L.
      * apply Qltb_spec in L. assert (unit (rnd (v + e_td e))).
        { split; [lra|]. apply rnd_le1. unfold unit in U. lra. }
        split; [assumption|]. eexists. split; [|split; [eassumption|apply rep_rnd]]. reflexivity.
      * apply Qltb_nspec in L. eexists. split; [|eassumption]. reflexivity.
    + exists (e_v e). repeat split; try assumption. destruct e; reflexivity.
    + destruct (loop (stepFadeout rnd) n e) as [l e1]. fields. cbn [fst snd] in *. split; [assumption|].
      unfold afterFadeout. destruct H as [(v & -> & U & R)|(v & -> & L)]; fields.
      * destruct (Qle_bool v 0); fields; rewrite ?St; repeat split; try apply U; try apply R; try apply Td; try discriminate; try lra;
          try apply rnd_zero; intros _; apply De; discriminate.
      * apply Qle_bool_iff in L. rewrite L. fields. repeat split; try apply Td; try discriminate; try lra; try apply rnd_zero.
        intros _. apply De. discriminate.
  - fields. rewrite St. split.
    { apply Forall_forall. intros x I. apply repeat_spec in I. subst. split; lra. }
    repeat split; try lra; try apply rnd_zero; try apply Td; try discriminate. intros _. apply De. discriminate.
Qed.

(** One turn of the outer loop. *)
Lemma pending_sound n e : (0 < n)%nat -> sound e ->
  sound (snd (pending n e)) /\
  (e_st (snd (pending n e)) = SSustain -> e_free e = true -> e_rel e = true ->
   (fst (pending n e) <= 1)%nat /\ 0 <= e_v e + e_td e).
Proof.
  intros n0 So. pose proof So as [SP V Td Ss De Rd Fr]. unfold pending.
  destruct (e_rel e) eqn:Re; [|fields; split; [assumption|congruence]].
  destruct (Z.ltb_spec 0 (e_rd e)) as [L|L].
  { fields. split; [assumption|]. intros S F _. exfalso. rewrite S in Fr. cbn in Fr. specialize (Fr F eq_refl). lia. }
  destruct (Z.eqb_spec (e_rd e) 0) as [Z0|Z0]; cbn [andb].
  - destruct (Z.leb_spec (e_delay e) 0) as [Ld|Ld]; cbn [andb].
    + destruct (Z.ltb_spec (e_delay e) 0) as [Ld'|Ld']; fields.
      * split; [|discriminate]. split; fields; try assumption; try (eapply soundp_ext; [|eassumption]; reflexivity); try discriminate; try lia.
      * split.
        { split; fields; try assumption; try (eapply soundp_ext; [|eassumption]; reflexivity); try lia.
          intros S F. destruct (Ss S F) as [X|X]; [now left|right; split; [assumption|reflexivity]]. }
        intros S F _. split; [lia|]. destruct (Ss S F) as [X|[_ X]]; [assumption|lia].
    + replace (e_rd e =? -1)%Z with false by (symmetry; apply Z.eqb_neq; lia). cbn [andb]. fields.
      split; [assumption|]. intros S F _. exfalso. assert (e_delay e <= 0)%Z by (apply De; congruence). lia.
  - destruct (Z.eqb_spec (e_rd e) (-1)) as [Z1|Z1]; cbn [andb]; [|lia].
    destruct (beforeRelease (e_st e)) eqn:B; cbn [andb].
    + destruct (Z.leb_spec (e_delay e) 0) as [Ld|Ld]; fields.
      * split; [|discriminate]. split; fields; try assumption; try (eapply soundp_ext; [|eassumption]; reflexivity); try discriminate; try lia.
      * split; [assumption|]. intros S F _. exfalso. assert (e_delay e <= 0)%Z by (apply De; congruence). lia.
    + fields. split; [assumption|]. intros S. rewrite S in B. discriminate.
Qed.
Lemma segment_control n e :
  e_rd (snd (segment rnd n e)) = e_rd e /\
  (e_rel (snd (segment rnd n e)) = e_rel e \/
     (e_rel e = false /\ e_rel (snd (segment rnd n e)) = true /\ e_st e = SSustain /\ fst (segment rnd n e) = [] /\
      e_st (snd (segment rnd n e)) = SSustain)) /\
  (rank (e_st e) <= rank (e_st (snd (segment rnd n e))))%nat /\
  (beforeRelease (e_st e) = true -> beforeRelease (e_st (snd (segment rnd n e))) = true).
Proof.
  assert (forall step, (forall e1, e_st (snd (step e1)) = e_st e1 /\ e_rd (snd (step e1)) = e_rd e1 /\ e_rel (snd (step e1)) = e_rel e1) ->
     e_st (snd (loop step n e)) = e_st e /\ e_rd (snd (loop step n e)) = e_rd e /\ e_rel (snd (loop step n e)) = e_rel e) as H.
  { intros step H. apply (loop_inv (fun e' => e_st e' = e_st e /\ e_rd e' = e_rd e /\ e_rel e' = e_rel e)); [|auto].
    intros e1 y e2 (A & B & C) E. destruct (H e1) as (A' & B' & C'). rewrite E in *. cbn in *. repeat split; congruence. }
  unfold segment. destruct (e_st e) eqn:St.
  - specialize (H stepDelay). destruct (loop stepDelay n e) as [l e1]. cbn [fst snd] in *.
    destruct H as (A & B & C). { intros. unfold stepDelay. destruct (0 <? _)%Z; auto. }
    unfold afterDelay. destruct (_ <=? 0)%Z; fields; rewrite ?A; cbn; auto with arith.
  - specialize (H (stepAttack rnd)). destruct (loop (stepAttack rnd) n e) as [l e1]. cbn [fst snd] in *.
    destruct H as (A & B & C). { auto. }
    unfold afterAttack. destruct (Qle_bool _ _); fields; rewrite ?A; cbn; auto with arith.
  - specialize (H stepHold). destruct (loop stepHold n e) as [l e1]. cbn [fst snd] in *.
    destruct H as (A & B & C). { auto. }
    unfold afterHold. destruct (_ <=? 0)%Z; fields; rewrite ?A; cbn; auto with arith.
  - specialize (H (stepDecay rnd)). destruct (loop (stepDecay rnd) n e) as [l e1]. cbn [fst snd] in *.
    destruct H as (A & B & C). { auto. }
    unfold afterDecay. destruct (Qle_bool _ _); fields; rewrite ?A; cbn; auto with arith.
  - destruct (negb (e_rel e) && e_free e) eqn:R; fields.
    + apply andb_true_iff in R as [R _]. apply negb_true_iff in R. rewrite St. repeat split; auto. right. auto.
    + specialize (H (stepSustain rnd)). destruct (loop (stepSustain rnd) n e) as [l e1]. cbn [fst snd] in *.
      destruct H as (A & B & C). { auto. } rewrite A. auto.
  - specialize (H (stepRelease rnd)). destruct (loop (stepRelease rnd) n e) as [l e1]. cbn [fst snd] in *.
    destruct H as (A & B & C). { auto. }
    unfold afterRelease. destruct (Qle_bool _ _); fields; rewrite ?A; cbn; auto with arith.
  - specialize (H (stepFadeout rnd)). destruct (loop (stepFadeout rnd) n e) as [l e1]. cbn [fst snd] in *.
    destruct H as (A & B & C). { auto. }
    unfold afterFadeout. destruct (Qle_bool _ _); fields; rewrite ?A; cbn; auto with arith.
  - fields. rewrite St. auto.
Qed.
Lemma iteration_sound n e : (0 < n)%nat -> sound e ->
  frames_ok (fst (iteration rnd n e)) /\ sound (snd (iteration rnd n e)).
Proof.
  intros n0 So. unfold iteration.
  pose proof (pending_sound n e n0 So) as [So1 Su].
  pose proof (pending_params n e) as PP.
  assert (e_rel (snd (pending n e)) = e_rel e /\ e_v (snd (pending n e)) = e_v e /\ e_td (snd (pending n e)) = e_td e) as (R1 & V1 & T1).
  { unfold pending. destruct (e_rel e) eqn:R; fields; auto. destruct (0 <? _)%Z; fields; auto.
    destruct (_ && _). { destruct (_ <? 0)%Z; fields; auto. } destruct (_ && _ && _); fields; auto. }
  assert (e_free (snd (pending n e)) = e_free e) as F1 by (unfold params in PP; congruence).
  assert (e_st (snd (pending n e)) = SSustain -> e_free e = true -> e_rel e = true -> e_rd (snd (pending n e)) = (-1)%Z) as Rm.
  { unfold pending. destruct (e_rel e) eqn:R; fields; [|congruence].
    destruct So as [_ _ _ _ De Rd Fr].
    destruct (Z.ltb_spec 0 (e_rd e)); fields.
    { intros S F _. rewrite S in Fr. specialize (Fr F eq_refl). lia. }
    destruct (Z.eqb_spec (e_rd e) 0); cbn [andb].
    - destruct (Z.leb_spec (e_delay e) 0); cbn [andb]. { destruct (_ <? 0)%Z; fields; auto. }
      replace (e_rd e =? -1)%Z with false by (symmetry; apply Z.eqb_neq; lia). cbn [andb]. fields.
      intros S F _. assert (e_delay e <= 0)%Z by (apply De; congruence). lia.
    - destruct (_ && _ && _); fields; intros; lia. }
  destruct (pending n e) as [n1 e1]. cbn [fst snd] in *.
  pose proof (segment_sound n1 e1 So1) as H. rewrite F1, R1, V1, T1 in H.
  specialize (H Su). pose proof (segment_control n1 e1) as (C1 & C2 & C3 & C4).
  pose proof (segment_params rnd n1 e1) as P2.
  destruct (segment rnd n1 e1) as [l e2]. cbn [fst snd] in *.
  destruct H as (Fo & SP & V & Td & Ss & De). split; [assumption|].
  assert (e_free e2 = e_free e) as F2 by (unfold params in P2; congruence).
  assert (steepest e2 = steepest e1) as St2 by now apply steepest_ext.
  assert (sound e2) as So2.
  { split; fields; try assumption.
    - now rewrite St2.
    - rewrite F2. intros S F. destruct (Ss S F) as [X|[X1 X2]]; [now left|]. right.
      specialize (Rm X2 F X1). split; [|congruence]. destruct C2 as [->|(X & _)]; congruence.
    - rewrite C1. apply So1.
    - rewrite F2, C1. intros F B. destruct So1 as [_ _ _ _ _ _ Fr1]. apply Fr1; [congruence|].
      unfold beforeRelease in *. apply Nat.ltb_lt in B. apply Nat.ltb_lt. lia. }
  unfold countdown. destruct (e_rel e2) eqn:R2; [|assumption].
  destruct So2 as [A1 A2 A3 A4 A5 A6 A7]. split; fields; try assumption; try (eapply soundp_ext; [|eassumption]; reflexivity); try lia.
  - intros S F. destruct (A4 S F) as [X|[_ X]]; [now left|right; split; [exact R2|lia]].
  - intros F B. specialize (A7 F B). lia.
Qed.
(** C33: from a sound state every sample of a block is in [0,1] and the state stays sound. *)
Theorem C33_in_range_partial f : forall n e l e',
  sound e -> getBlockInternal rnd f n e = Some (l, e') -> Forall (fun y => 0 <= y <= 1) l /\ sound e'.
Proof.
  induction f as [|f IH]; intros n e l e' So; cbn [getBlockInternal]; destruct n as [|n]; try discriminate;
    try (intros [= <- <-]; now split; [constructor|]).
  pose proof (iteration_sound (S n) e ltac:(lia) So) as [Fo So1].
  destruct (iteration rnd (S n) e) as [l1 e1]. cbn [fst snd] in *.
  destruct (getBlockInternal rnd f _ e1) as [[l2 e2]|] eqn:E; [|discriminate]. intros [= <- <-].
  destruct (IH _ _ _ _ So1 E) as [F2 So2]. split; [|assumption]. apply Forall_app. split; assumption.
Qed.

(** ** Stages come in order *)
(** No release is still to come once the envelope is being released. *)
Definition settled (e : env) : Prop :=
  beforeRelease (e_st e) = true \/ e_rel e = false \/ e_rd e = (-1)%Z.
Lemma beforeRelease_rank st : beforeRelease st = true -> (rank st <= 4)%nat.
Proof. unfold beforeRelease. rewrite Nat.ltb_lt. lia. Qed.
Lemma beforeRelease_not st : beforeRelease st = false -> (5 <= rank st)%nat.
Proof. unfold beforeRelease. rewrite Nat.ltb_ge. lia. Qed.
Lemma iteration_order n e : settled e ->
  (rank (e_st e) <= rank (e_st (snd (iteration rnd n e))))%nat /\ settled (snd (iteration rnd n e)).
Proof.
  intros Se. unfold iteration.
  assert ((rank (e_st e) <= rank (e_st (snd (pending n e))))%nat /\ settled (snd (pending n e))) as [L Se1].
  { unfold pending. destruct (e_rel e) eqn:R; fields; [|auto]. destruct (0 <? _)%Z eqn:Rd; fields; [auto|].
    apply Z.ltb_ge in Rd. destruct (Z.eqb_spec (e_rd e) 0) as [Z0|Z0]; cbn [andb].
    - destruct (e_delay e <=? 0)%Z; cbn [andb].
      + assert (settled (set_rd (-1) e)) by (right; right; reflexivity).
        assert (settled (set_rd (-1) (set_st SRelease e))) by (right; right; reflexivity).
        destruct (_ <? 0)%Z; fields; split; try assumption; [|lia].
        destruct Se as [B|[X|X]]; [apply beforeRelease_rank in B; cbn; lia|congruence|lia].
      + replace (e_rd e =? -1)%Z with false by (symmetry; apply Z.eqb_neq; lia). cbn [andb]. fields. auto.
    - destruct (Z.eqb_spec (e_rd e) (-1)) as [Z1|Z1]; cbn [andb]; [|fields; auto].
      destruct (beforeRelease (e_st e)) eqn:B; cbn [andb]; [|fields; auto].
      destruct (_ <=? 0)%Z; fields; [|auto]. apply beforeRelease_rank in B. split; [cbn; lia|].
      right. right. assumption. }
  destruct (pending n e) as [n1 e1]. cbn [fst snd] in *.
  pose proof (segment_control n1 e1) as (C1 & C2 & C3 & C4).
  destruct (segment rnd n1 e1) as [l e2]. cbn [fst snd] in *.
  assert (settled e2) as Se2.
  { destruct Se1 as [B|[X|X]]; [left; auto| |right; right; congruence].
    destruct C2 as [E|(_ & _ & _ & _ & E)]; [right; left; congruence|]. left. now rewrite E. }
  unfold countdown. destruct (e_rel e2) eqn:R2; fields; [|split; [lia|assumption]].
  split; [lia|]. destruct Se2 as [B|[X|X]]; [now left|congruence|]. right. right. fields. lia.
Qed.
(** C33: the stages come in order. *)
Theorem C33_stages_in_order f : forall n e l e',
  settled e -> getBlockInternal rnd f n e = Some (l, e') ->
  (rank (e_st e) <= rank (e_st e'))%nat /\ settled e'.
Proof.
  induction f as [|f IH]; intros n e l e' So; cbn [getBlockInternal]; destruct n as [|n]; try discriminate;
    try (intros [= <- <-]; now split).
  pose proof (iteration_order (S n) e So) as [Fo So1].
  destruct (iteration rnd (S n) e) as [l1 e1]. cbn [fst snd] in *.
  destruct (getBlockInternal rnd f _ e1) as [[l2 e2]|] eqn:E; [|discriminate]. intros [= <- <-].
  destruct (IH _ _ _ _ So1 E). split; [lia|assumption].
Qed.

(** ** Where sound states come from *)
Variable expo : Q -> Q.
Variable offTime : Q.
(** [exp] of a negative number. *)
Hypothesis expo_unit : forall x, x <= 0 -> unit (expo x).
Hypothesis off_pos : 0 < offTime.
Lemma Qclamp_unit x : unit (Qclamp x 0 1).
Proof.
  unfold Qclamp, Qminf. unfold unit. destruct (Qltb 1 x) eqn:L1.
  - destruct (Qmaxf_cases 1 0) as [[-> ?]|[-> ?]]; lra.
  - apply Qltb_nspec in L1. destruct (Qmaxf_cases x 0) as [[-> ?]|[-> ?]]; lra.
Qed.
Lemma Qclamp_rep x : rep x -> rep (Qclamp x 0 1).
Proof.
  intros R. unfold Qclamp, Qminf. destruct (Qltb 1 x).
  - destruct (Qmaxf_cases 1 0) as [[-> ?]|[-> ?]]; [apply (rnd_one RN)|apply rnd_zero].
  - destruct (Qmaxf_cases x 0) as [[-> ?]|[-> ?]]; [assumption|apply rnd_zero].
Qed.
Lemma linRate_pos rate t : 0 < rate -> 0 <= secondsToLinRate rnd rate t.
Proof.
  intros R. unfold secondsToLinRate. destruct (Qle_bool t 0) eqn:T; [lra|]. apply Qle_bool_nspec in T.
  apply rnd_pos. assert (0 <= rnd (rate * t)) as P by (apply rnd_pos; nra).
  unfold Qdiv. rewrite Qmult_1_l. now apply Qinv_le_0_compat.
Qed.
Lemma expRate_unit rate t : 0 < rate -> unit (secondsToExpRate rnd expo offTime rate t).
Proof.
  intros R. unfold secondsToExpRate. destruct (Qle_bool t 0) eqn:T; [unfold unit; lra|].
  apply rnd_unit, expo_unit, rnd_neg.
  assert (0 <= rnd (Qmaxf offTime t * rate)) as P.
  { apply rnd_pos. destruct (Qmaxf_cases offTime t) as [[-> ?]|[-> ?]]; [nra|]. assert (0 < t) by lra. nra. }
  unfold Qdiv. apply Qinv_le_0_compat in P. nra.
Qed.
(** The levels are floats. *)
Definition desc_rep (d : desc) : Prop := forall p, rep (d_sustain d p) /\ rep (d_start d p).
(** C33: resetting the envelope gives a sound state, for every description, every delay and any
    previous state, when the sample rate is not too low. *)
Theorem C33_reset_sound d osc delay rate e :
  desc_rep d -> 0 < rate -> 1 <= rnd (rate * egTransitionTime) ->
  - sustainFreeRunningThreshold <= rnd (- (1) / rnd (rate * egTransitionTime)) ->
  rnd (- (1) / rnd (rate * egTransitionTime)) <= e_td e <= 0 ->
  sound (reset rnd expo offTime d osc delay rate e) /\ settled (reset rnd expo offTime d osc delay rate e).
Proof.
  intros DR R F Fr Td. destruct (DR delay) as [D1 D2].
  split; [|left; reflexivity]. unfold reset, updateValues. fields. split; fields.
  - split; fields.
    + split; [apply Qclamp_unit|now apply Qclamp_rep].
    + split; [apply Qclamp_unit|now apply Qclamp_rep].
    + now apply linRate_pos.
    + now apply expRate_unit.
    + now apply expRate_unit.
    + exact F.
    + unfold steepest, fade. fields. intros H. apply orb_false_iff in H as [H _].
      apply Qle_bool_nspec in H. lra.
  - split; [apply Qclamp_unit|now apply Qclamp_rep].
  - exact Td.
  - discriminate.
  - congruence.
  - lia.
  - lia.
Qed.
(** Releasing keeps it so: at any delay when the envelope does not run freely, at the next frame
    otherwise. *)
Theorem C33_release_sound d e :
  sound e -> (0 <= d)%Z -> (e_free e = true -> d = 0%Z /\ e_rel e = false) ->
  sound (startRelease d e).
Proof.
  intros [A1 A2 A3 A4 A5 A6 A7] D F. unfold startRelease. split; fields; try assumption;
    try (eapply soundp_ext; [|eassumption]; reflexivity); try lia.
  - intros S Fe. destruct (A4 S Fe) as [X|[X _]]; [now left|]. destruct (F Fe). congruence.
  - intros Fe _. destruct (F Fe). lia.
Qed.
Theorem C33_off_sound t e : 0 < e_rate e -> sound e -> sound (stopDynamicUpdates (setReleaseTime rnd expo offTime t e)).
Proof.
  intros R [[B1 B2 B3 B4 B5 B6 B7] A2 A3 A4 A5 A6 A7].
  unfold stopDynamicUpdates, setReleaseTime. split; unfold set_dyn, set_rrate; fields; try assumption.
  split; fields; try assumption. now apply expRate_unit.
Qed.
End Range.
