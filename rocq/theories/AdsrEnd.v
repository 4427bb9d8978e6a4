(** A released envelope ends (C33). *)
From Coq Require Import QArith Qround ZArith List Lia Bool Lqa.
Import ListNotations.
From Verif Require Import AdsrModel AdsrBlocks AdsrRange.
Open Scope Q_scope.

Ltac fields := cbn [e_st e_v e_rel e_rd e_td e_delay e_hold e_astep e_drate e_rrate e_start e_sus e_thr e_free e_dyn e_rate
  set_v set_st set_rel set_rd set_td set_delay set_hold fst snd].

Section End.
Variable rnd : Q -> Q.
Hypothesis RN : rounding rnd.
(** Relative error of rounding. *)
Variable u : Q.
Hypothesis u_pos : 0 <= u.
Hypothesis u_lt : u < 1.
Hypothesis rnd_err : forall x, 0 <= x -> (1 - u) * x <= rnd x <= (1 + u) * x.
Lemma rnd_err_neg x : 0 <= x -> rnd (- x) <= - ((1 - u) * x).
Proof. intros H. pose proof (rnd_opp _ RN x). pose proof (rnd_err x H). lra. Qed.

(** What is needed of the parameters: the release falls in spite of rounding, and so does the
    final fade. *)
Record falling_params (e : env) : Prop := FP {
  fp_start : e_start e <= 1;
  fp_sus : e_sus e <= 1;
  fp_decay : 0 <= e_drate e <= 1;
  fp_release : 0 <= e_rrate e /\ e_rrate e * (1 + u) < 1;
  fp_fade : 1 <= fade rnd e /\ u * fade rnd e < 1 - u }.
(** The smallest step down in the two last stages. *)
Definition step_r (e : env) : Q := egReleaseThreshold * (1 - e_rrate e * (1 + u)).
Definition step_f (e : env) : Q := egReleaseThreshold * ((1 - u) / fade rnd e - u).
Definition down (e : env) : Q := if Qle_bool (step_r e) (step_f e) then step_r e else step_f e.
Lemma fade_inv e : falling_params e -> u < (1 - u) / fade rnd e.
Proof. intros P. destruct (fp_fade e P). apply Qlt_shift_div_l; lra. Qed.
Lemma down_spec e : falling_params e -> 0 < down e /\ down e <= step_r e /\ down e <= step_f e.
Proof.
  intros P. pose proof (fade_inv e P) as Fi. destruct (fp_release e P) as [_ R].
  assert (0 < step_r e) by (unfold step_r, egReleaseThreshold; lra).
  assert (0 < step_f e) by (unfold step_f, egReleaseThreshold; lra).
  unfold down. destruct (Qle_bool _ _) eqn:L.
  - apply Qle_bool_iff in L. lra.
  - apply Qle_bool_nspec in L. lra.
Qed.
Record falling (e : env) : Prop := Falling {
  fa_params : falling_params e;
  fa_v : e_v e <= 1;
  fa_td : e_td e <= 0;
  fa_fade : e_st e = SFadeout ->
    egReleaseThreshold * ((1 - u) / fade rnd e) <= - e_td e /\ e_v e * ((1 - u) / fade rnd e) <= - e_td e;
  fa_delay : e_st e <> SDelay -> (e_delay e <= 0)%Z;
  fa_rd : (-1 <= e_rd e)%Z }.
Lemma fallingp_ext e e' : params e' = params e -> falling_params e -> falling_params e'.
Proof.
  unfold params. intros E [A B C D F].
  assert (e_sus e' = e_sus e /\ e_rate e' = e_rate e /\
          e_drate e' = e_drate e /\ e_rrate e' = e_rrate e /\ e_start e' = e_start e) as
    (E1 & E3 & E5 & E6 & E7) by (repeat split; congruence).
  assert (fade rnd e' = fade rnd e) as E8 by (unfold fade; congruence).
  split; rewrite ?E1, ?E5, ?E6, ?E7, ?E8; assumption.
Qed.
Lemma down_ext e e' : params e' = params e -> down e' = down e.
Proof.
  unfold params. intros E. assert (e_rate e' = e_rate e /\ e_rrate e' = e_rrate e) as [E1 E2] by (split; congruence).
  unfold down, step_r, step_f, fade. now rewrite E1, E2.
Qed.

(** Number of steps of length [d] from [v] down to zero. *)
Definition steps (d v : Q) : nat := Z.to_nat (Qceiling (v / d)).
Lemma steps_mono d v w : 0 < d -> v <= w -> (steps d v <= steps d w)%nat.
Proof.
  intros D L. unfold steps.
  assert (Qceiling (v / d) <= Qceiling (w / d))%Z.
  { apply Qceiling_resp_le. unfold Qdiv. apply Qmult_le_compat_r; [assumption|]. apply Qinv_le_0_compat. lra. }
  lia.
Qed.
Lemma steps_down d v w : 0 < d -> 0 < w -> w <= v - d -> (steps d w + 1 <= steps d v)%nat.
Proof.
  intros D W L. unfold steps.
  assert (Qceiling (w / d) + 1 <= Qceiling (v / d))%Z as C.
  { assert (w / d + 1 <= v / d) as L1.
    { setoid_replace (w / d + 1) with ((w + d) / d) by (field; lra).
      unfold Qdiv. apply Qmult_le_compat_r; [lra|]. apply Qinv_le_0_compat. lra. }
    pose proof (Qceiling_lt (w / d)) as Q1. pose proof (Qle_ceiling (v / d)) as Q2.
    assert (inject_Z (Qceiling (w / d)) < inject_Z (Qceiling (v / d))) as Q3.
    { unfold Z.sub in Q1. rewrite inject_Z_plus in Q1. change (inject_Z (- (1))) with (-1 # 1) in Q1. lra. }
    rewrite <- Zlt_Qlt in Q3. lia. }
  assert (0 < Qceiling (w / d))%Z.
  { pose proof (Qle_ceiling (w / d)) as Q1. assert (0 < w / d) by (apply Qlt_shift_div_l; lra).
    assert (inject_Z 0 < inject_Z (Qceiling (w / d))) as Q2 by (change (inject_Z 0) with 0; lra).
    now rewrite <- Zlt_Qlt in Q2. }
  lia.
Qed.

(** Frames that remain. *)
Definition top (e : env) : nat := steps (down e) 1.
Definition potential (e : env) : nat :=
  if beforeRelease (e_st e) || (0 <=? e_rd e)%Z
  then (Z.to_nat (e_rd e + 1) + Z.to_nat (e_delay e) + 2 * top e + 2)%nat
  else match e_st e with
       | SRelease => (steps (down e) (e_v e) + top e + 1)%nat
       | SFadeout => steps (down e) (e_v e)
       | _ => 0%nat
       end.

Lemma last_cons (l : list Q) : forall a b, last (a :: l) b = last l a.
Proof. induction l as [|c l IH]; intros a b; [reflexivity|]. change (last (a :: c :: l) b) with (last (c :: l) b). now rewrite !IH. Qed.
(** Loops that fall. *)
Lemma loop_falls e0 (step : Q -> Q) (bottom d : Q) (stp : env -> option Q * env) (inv : Q -> Prop) :
  0 <= bottom -> 0 < d ->
  (forall v, stp (set_v v e0) = (if Qltb bottom (step v) then Some (step v) else None, set_v (step v) e0)) ->
  (forall v, inv v -> bottom < step v -> step v <= v - d /\ inv (step v)) ->
  forall n v, inv v ->
  let '(l, e1) := loop stp n (set_v v e0) in
  (exists w, e1 = set_v w e0 /\ ((length l < n)%nat -> w <= bottom) /\ (length l = n -> w = last l v)) /\
  (length l + steps d (last l v) <= steps d v)%nat /\ inv (last l v) /\ (l <> [] -> bottom < last l v) /\
  (length l <= n)%nat.
Proof.
  intros B D Hs Hf. induction n as [|n IH]; intros v Iv; cbn [loop].
  - split; [exists v; split; [reflexivity|]; split; intros; [cbn in *; lia|reflexivity]|].
    cbn. split; [lia|]. split; [assumption|]. split; [congruence|lia].
  - rewrite Hs. destruct (Qltb bottom (step v)) eqn:L.
    + apply Qltb_spec in L. destruct (Hf v Iv L) as [Le Iv']. specialize (IH (step v) Iv').
      destruct (loop stp n (set_v (step v) e0)) as [l e1].
      destruct IH as ((w & -> & W1 & W2) & St & Il & Bo & Ln).
      rewrite !last_cons. cbn [length].
      split; [exists w; split; [reflexivity|]; split; intros; [apply W1; lia|apply W2; lia]|].
      split; [|split; [assumption|split; [|lia]]].
      * pose proof (steps_down d v (step v) D ltac:(lra) Le). lia.
      * intros _. destruct l; [exact L|]. apply Bo. discriminate.
    + apply Qltb_nspec in L. cbn. split; [exists (step v); split; [reflexivity|]; split; intros; [assumption|lia]|].
      split; [lia|]. split; [assumption|]. split; [congruence|lia].
Qed.

Lemma set_v_self e : set_v (e_v e) e = e.
Proof. now destruct e. Qed.
(** The switch. *)
Lemma segment_falls n e : (0 < n)%nat -> falling e ->
  let '(l, e') := segment rnd n e in
  falling e' /\ (length l <= n)%nat /\
  (Z.of_nat (length l) + Z.max 0 (e_delay e') <= Z.max 0 (e_delay e) \/ e_st e <> SDelay /\ e_delay e' = e_delay e)%Z /\
  (e_st e = SRelease ->
     (e_st e' = SRelease /\ (length l + steps (down e) (e_v e') <= steps (down e) (e_v e))%nat) \/
     (e_st e' = SFadeout /\ (length l <= steps (down e) (e_v e))%nat)) /\
  (e_st e = SFadeout ->
     (e_st e' = SFadeout /\ (length l + steps (down e) (e_v e') <= steps (down e) (e_v e))%nat) \/
     (e_st e' = SDone /\ (length l <= steps (down e) (e_v e))%nat)).
Proof.
  intros n0 Fa.
  pose proof (segment_length rnd n e) as Ln.
  assert (falling_params (snd (segment rnd n e))) as PP.
  { eapply fallingp_ext; [apply segment_params|apply fa_params, Fa]. }
  pose proof (segment_control rnd n e) as (C1 & _ & C3 & _).
  destruct Fa as [FP V Td Ff De Rd]. revert Ln PP C1 C3.
  pose proof (down_spec e FP) as (D0 & D1 & D2).
  unfold segment. destruct (e_st e) eqn:St.
  - assert (forall n e1, e_st e1 = SDelay -> e_v e1 <= 1 -> e_td e1 <= 0 -> e_start e1 <= 1 ->
      let '(l, e2) := loop stepDelay n e1 in
      e_st e2 = SDelay /\ e_v e2 <= 1 /\ e_td e2 <= 0 /\
      (Z.of_nat (length l) + Z.max 0 (e_delay e2) <= Z.max 0 (e_delay e1))%Z) as H.
    { clear. induction n as [|n IH]; intros e1 S1 V1 T1 B1; cbn [loop]; [cbn; repeat split; try assumption; lia|].
      unfold stepDelay at 1. destruct (Z.ltb_spec 0 (e_delay e1)).
      - specialize (IH (set_v (e_start e1) (set_delay (e_delay e1 - 1) e1))). cbn [e_st e_v e_td e_start set_v set_delay] in IH.
        destruct (loop stepDelay n _) as [l e2]. destruct IH as (A & B & C & D); try assumption.
        repeat split; try assumption. cbn [length]. cbn [e_delay set_v set_delay] in D. lia.
      - cbn. repeat split; try assumption. lia. }
    specialize (H n e St V Td (fp_start e FP)). destruct (loop stepDelay n e) as [l e1]. destruct H as (A & B & C & D).
    cbn [fst snd]. intros Ln PP C1 C3. unfold afterDelay in *. destruct (Z.leb_spec (e_delay e1) 0); fields.
    + split; [split; fields; try assumption; try (eapply fallingp_ext; [|exact FP]; reflexivity); try discriminate; try lia; cbn [e_rd set_st] in C1; lia|].
      split; [assumption|]. split; [left; exact D|]. split; discriminate.
    + split; [split; fields; try assumption; try (eapply fallingp_ext; [|exact FP]; reflexivity); try congruence; lia|].
      split; [assumption|]. split; [left; exact D|]. split; discriminate.
  - destruct (loop_spec (fun e' => exists v, e' = set_v v e /\ v <= 1) (fun e' => exists v, e' = set_v v e /\ 1 <= v)
      (fun _ => True) (stepAttack rnd)) with (n := n) (e := e) as [_ H].
    + intros e1 (v & -> & L). unfold stepAttack. fields. destruct (Qltb _ 1) eqn:Q1.
      * apply Qltb_spec in Q1. split; [exact Logic.I|]. eexists. split; [reflexivity|]. lra.
      * apply Qltb_nspec in Q1. eexists. split; [reflexivity|]. assumption.
    + exists (e_v e). split; [now rewrite set_v_self|assumption].
    + destruct (loop (stepAttack rnd) n e) as [l e1]. cbn [fst snd] in *. intros Ln PP C1 C3.
      assert (falling (afterAttack e1) /\ e_delay (afterAttack e1) = e_delay e) as [X Y].
      { unfold afterAttack in *. destruct H as [(v & -> & L)|(v & -> & L)]; fields.
        - destruct (Qle_bool 1 v); fields; (split; [|reflexivity]); split; fields; try assumption; try (eapply fallingp_ext; [|exact FP]; reflexivity); try discriminate; try lra;
            try (intros _; apply De; discriminate). rewrite St; discriminate.
        - apply Qle_bool_iff in L. rewrite L in *. fields. split; [|reflexivity]. split; fields; try assumption; try (eapply fallingp_ext; [|exact FP]; reflexivity); try discriminate; try lra.
          intros _; apply De; discriminate. }
      split; [exact X|]. split; [assumption|]. split; [right; split; [discriminate|assumption]|]. split; discriminate.
  - destruct (loop_spec (fun e' => exists h, e' = set_hold h e) (fun e' => exists h, e' = set_hold h e)
      (fun _ => True) stepHold) with (n := n) (e := e) as [_ H].
    + intros e1 (h & ->). unfold stepHold. fields. destruct (0 <? h)%Z; [split; [exact Logic.I|]|]; eexists; reflexivity.
    + exists (e_hold e). destruct e; reflexivity.
    + destruct (loop stepHold n e) as [l e1]. cbn [fst snd] in *. intros Ln PP C1 C3.
      assert (exists h, e1 = set_hold h e) as (h & ->) by tauto.
      assert (falling (afterHold (set_hold h e)) /\ e_delay (afterHold (set_hold h e)) = e_delay e) as [X Y].
      { unfold afterHold in *. fields. cbn [e_hold set_hold] in *. destruct (h <=? 0)%Z; (split; [|reflexivity]); split; fields; try assumption; try (eapply fallingp_ext; [|exact FP]; reflexivity); try discriminate;
          try (intros _; apply De; discriminate). rewrite St; discriminate. }
      split; [exact X|]. split; [assumption|]. split; [right; split; [discriminate|assumption]|]. split; discriminate.
  - destruct (loop_spec (fun e' => exists v, e' = set_v v e /\ v <= 1) (fun e' => exists v, e' = set_v v e /\ v <= 1)
      (fun _ => True) (stepDecay rnd)) with (n := n) (e := e) as [_ H].
    + intros e1 (v & -> & L). unfold stepDecay. fields.
      assert (rnd (v * e_drate e) <= 1).
      { apply (rnd_le1 _ RN). pose proof (fp_decay e FP). nra. }
      destruct (Qltb _ _); [split; [exact Logic.I|]|]; eexists; split; try reflexivity; assumption.
    + exists (e_v e). split; [now rewrite set_v_self|assumption].
    + destruct (loop (stepDecay rnd) n e) as [l e1]. cbn [fst snd] in *. intros Ln PP C1 C3.
      assert (exists v, e1 = set_v v e /\ v <= 1) as (v & -> & L) by tauto.
      assert (falling (afterDecay rnd (set_v v e)) /\ e_delay (afterDecay rnd (set_v v e)) = e_delay e) as [X Y].
      { unfold afterDecay in *. cbn [e_v e_thr e_sus set_v] in *. destruct (Qle_bool v (e_thr e)); (split; [|reflexivity]); split; fields; try assumption; try (eapply fallingp_ext; [|exact FP]; reflexivity); try discriminate;
          try (intros _; apply De; discriminate).
        - pose proof (fp_sus e FP). destruct (Qmaxf_cases (e_sus e) v) as [[-> ?]|[-> ?]]; lra.
        - apply (rnd_neg _ RN). assert (fade rnd (set_v v e) = fade rnd e) as -> by reflexivity.
          destruct (fp_fade e FP). apply Qle_shift_div_r; [lra|]. rewrite Qmult_0_l. apply (rnd_neg _ RN).
          destruct (Qmaxf_cases (e_sus e) v) as [[-> ?]|[-> ?]]; lra.
        - rewrite St; discriminate. }
      split; [exact X|]. split; [assumption|]. split; [right; split; [discriminate|assumption]|]. split; discriminate.
  - destruct (negb (e_rel e) && e_free e) eqn:RF; fields.
    { intros Ln PP C1 C3. split; [split; fields; try assumption; try (eapply fallingp_ext; [|exact FP]; reflexivity); try (intros _; apply De; discriminate); rewrite St; discriminate|].
      split; [cbn; lia|]. split; [right; split; [discriminate|reflexivity]|]. split; discriminate. }
    destruct (loop_spec (fun e' => exists v, e' = set_v v e /\ v <= 1) (fun _ => False)
      (fun _ => True) (stepSustain rnd)) with (n := n) (e := e) as [_ H].
    + intros e1 (v & -> & L). unfold stepSustain. fields. split; [exact Logic.I|]. eexists. split; [reflexivity|].
      destruct (Qltb _ _); [|assumption]. apply (rnd_le1 _ RN). lra.
    + exists (e_v e). split; [now rewrite set_v_self|assumption].
    + destruct (loop (stepSustain rnd) n e) as [l e1]. cbn [fst snd] in *. intros Ln PP C1 C3.
      destruct H as [(v & -> & L)|[]].
      split; [split; fields; try assumption; try (eapply fallingp_ext; [|exact FP]; reflexivity); try (intros _; apply De; discriminate); rewrite St; discriminate|].
      split; [assumption|]. split; [right; split; [discriminate|reflexivity]|]. split; discriminate.
  - pose proof (loop_falls e (fun v => rnd (v * e_rrate e)) egReleaseThreshold (down e) (stepRelease rnd) (fun v => v <= 1)) as H.
    specialize (H ltac:(unfold egReleaseThreshold; lra) D0 ltac:(reflexivity)).
    assert (forall v, v <= 1 -> egReleaseThreshold < rnd (v * e_rrate e) -> rnd (v * e_rrate e) <= v - down e /\ rnd (v * e_rrate e) <= 1) as Hf.
    { intros v v1 L. destruct (fp_release e FP) as [r0 r1].
      assert (0 < v * e_rrate e) as P.
      { apply Qnot_le_lt. intros N. apply (rnd_neg _ RN) in N. unfold egReleaseThreshold in L. lra. }
      assert (0 < v). { apply Qnot_le_lt. intros N. nra. }
      pose proof (rnd_err (v * e_rrate e) ltac:(lra)) as [_ E].
      assert (egReleaseThreshold < v) as T. { eapply Qlt_le_trans; [exact L|]. eapply Qle_trans; [exact E|]. nra. }
      unfold step_r in D1. split; [|nra]. nra. }
    specialize (H Hf n (e_v e) V). rewrite set_v_self in H.
    destruct (loop (stepRelease rnd) n e) as [l e1]. destruct H as ((w & -> & W1 & W2) & Sp & I1 & Bo & L1).
    cbn [fst snd]. intros Ln PP C1 C3. unfold afterRelease in *. cbn [e_v set_v] in *.
    destruct (Qle_bool w egReleaseThreshold) eqn:Q1; fields.
    + assert (fade rnd (set_v w e) = fade rnd e) as Ef by reflexivity. rewrite Ef in *.
      destruct (fp_fade e FP) as [F1 F2].
      set (m := Qmaxf egReleaseThreshold (last l (e_v e))) in *.
      assert (egReleaseThreshold <= m /\ last l (e_v e) <= m) as [M1 M2].
      { unfold m. destruct (Qmaxf_cases egReleaseThreshold (last l (e_v e))) as [[-> ?]|[-> ?]]; lra. }
      assert (0 < m) by (unfold egReleaseThreshold in M1; lra).
      assert (0 <= m / fade rnd e) as Mp by (apply Qle_shift_div_l; lra).
      assert (rnd (- m / fade rnd e) <= - ((1 - u) * (m / fade rnd e))) as Tb.
      { rewrite (rnd_eq _ RN (- m / fade rnd e) (- (m / fade rnd e))) by (field; lra). now apply rnd_err_neg. }
      assert (forall x, x <= m -> x * ((1 - u) / fade rnd e) <= (1 - u) * (m / fade rnd e)) as Mm.
      { intros x X. assert (x * ((1 - u) / fade rnd e) == (1 - u) * (x / fade rnd e)) as -> by (field; lra).
        assert (x / fade rnd e <= m / fade rnd e).
        { unfold Qdiv. apply Qmult_le_compat_r; [assumption|]. apply Qinv_le_0_compat. lra. }
        nra. }
      split.
      { split; fields; try assumption; try (eapply fallingp_ext; [|exact FP]; reflexivity); try (intros _; apply De; discriminate).
        - nra.
        - intros _. match goal with |- context [fade rnd ?x] => change (fade rnd x) with (fade rnd e) end.
          split; [specialize (Mm _ M1)|specialize (Mm _ M2)]; lra. }
      split; [assumption|]. split; [right; split; [discriminate|reflexivity]|]. split; [|discriminate].
      intros _. right. split; [reflexivity|lia].
    + assert (length l = n) as Le.
      { destruct (Nat.lt_ge_cases (length l) n) as [X|X]; [|lia]. specialize (W1 X).
        apply Qle_bool_iff in W1. congruence. }
      rewrite (W2 Le).
      split; [split; fields; try assumption; try (eapply fallingp_ext; [|exact FP]; reflexivity); try (intros _; apply De; discriminate); try (rewrite St; discriminate)|].
      split; [assumption|]. split; [right; split; [discriminate|reflexivity]|]. split; [|discriminate].
      intros _. left. split; [assumption|lia].
  - destruct (Ff eq_refl) as [Ft Fv].
    pose proof (loop_falls e (fun v => rnd (v + e_td e)) 0 (down e) (stepFadeout rnd)
      (fun v => v <= 1 /\ v * ((1 - u) / fade rnd e) <= - e_td e)) as H.
    specialize (H ltac:(lra) D0 ltac:(reflexivity)).
    assert (0 < (1 - u) / fade rnd e) as Up by (pose proof (fade_inv e FP); lra).
    assert (forall v, v <= 1 /\ v * ((1 - u) / fade rnd e) <= - e_td e -> 0 < rnd (v + e_td e) ->
       rnd (v + e_td e) <= v - down e /\ (rnd (v + e_td e) <= 1 /\ rnd (v + e_td e) * ((1 - u) / fade rnd e) <= - e_td e)) as Hf.
    { intros v [v1 vt] L.
      assert (0 < v + e_td e) as P.
      { apply Qnot_le_lt. intros N. apply (rnd_neg _ RN) in N. lra. }
      pose proof (rnd_err (v + e_td e) ltac:(lra)) as [_ E].
      assert (rnd (v + e_td e) <= v - down e) as Le.
      { unfold step_f in D2. set (k := (1 - u) / fade rnd e) in *.
        assert (u < k) by (unfold k; now apply fade_inv).
        assert (e_td e + u * v <= - down e); [|nra].
        destruct (Qlt_le_dec v egReleaseThreshold) as [Lv|Lv].
        - assert (u * v <= u * egReleaseThreshold) by nra. lra.
        - assert (egReleaseThreshold * (k - u) <= v * (k - u)) by nra. lra. }
      repeat split; try lra. nra. }
    specialize (H Hf n (e_v e) (conj V Fv)). rewrite set_v_self in H.
    destruct (loop (stepFadeout rnd) n e) as [l e1]. destruct H as ((w & -> & W1 & W2) & Sp & [I1 I2] & Bo & L1).
    cbn [fst snd]. intros Ln PP C1 C3. unfold afterFadeout in *. cbn [e_v set_v] in *.
    destruct (Qle_bool w 0) eqn:Q1; fields.
    + split; [split; fields; try assumption; try (eapply fallingp_ext; [|exact FP]; reflexivity); try discriminate; try lra; intros _; apply De; discriminate|].
      split; [assumption|]. split; [right; split; [discriminate|reflexivity]|]. split; [discriminate|].
      intros _. right. split; [reflexivity|lia].
    + assert (length l = n) as Le.
      { destruct (Nat.lt_ge_cases (length l) n) as [X|X]; [|lia]. specialize (W1 X).
        apply Qle_bool_iff in W1. congruence. }
      rewrite (W2 Le). assert (fade rnd (set_v w e) = fade rnd e) as Ef by reflexivity.
      split; [split; fields; try assumption; try (eapply fallingp_ext; [|exact FP]; reflexivity); try (intros _; apply De; discriminate)|].
      { intros _. split; [exact Ft|exact I2]. }
      split; [assumption|]. split; [right; split; [discriminate|reflexivity]|]. split; [discriminate|].
      intros _. left. split; [assumption|lia].
  - fields. intros Ln PP C1 C3. split; [split; fields; try assumption; try (eapply fallingp_ext; [|exact FP]; reflexivity); try lra; try (intros _; apply De; discriminate); rewrite St; discriminate|].
    split; [assumption|]. split; [right; split; [discriminate|reflexivity]|]. split; discriminate.
Qed.

(** One turn of the outer loop uses up frames. *)
Definition finished (e : env) : Prop := e_st e = SDone /\ e_rd e = (-1)%Z.
Lemma top_ext e e' : params e' = params e -> top e' = top e.
Proof. intros E. unfold top. now rewrite (down_ext _ _ E). Qed.
Lemma steps_top e v : falling_params e -> v <= 1 -> (steps (down e) v <= top e)%nat.
Proof. intros P L. apply steps_mono; [apply down_spec, P|assumption]. Qed.
Lemma potential_le e : falling e -> e_rel e = true ->
  (potential e <= Z.to_nat (e_rd e + 1) + Z.to_nat (e_delay e) + 2 * top e + 2)%nat.
Proof.
  intros F _. unfold potential. destruct (_ || _); [lia|].
  pose proof (steps_top e (e_v e) (fa_params e F) (fa_v e F)). destruct (e_st e); lia.
Qed.
Lemma falls_set e st rd : falling e -> (-1 <= rd)%Z -> (st = e_st e \/ (st <> SFadeout /\ (e_delay e <= 0)%Z)) ->
  falling (set_rd rd (set_st st e)).
Proof.
  intros [A B C D E F] R H. split; fields; try assumption.
  - eapply fallingp_ext; [|exact A]. reflexivity.
  - destruct H as [->|[H _]]; [exact D|congruence].
  - destruct H as [->|[_ H]]; auto.
Qed.
(** The part of the turn that follows the handling of a pending release. *)
Lemma rest_falls n e : (0 < n)%nat -> falling e -> e_rel e = true ->
  (e_rd e > 0 -> Z.of_nat n <= e_rd e)%Z ->
  (e_rd e = 0 -> e_delay e > 0)%Z ->
  (beforeRelease (e_st e) = true -> e_rd e = -1 -> e_delay e > 0)%Z ->
  let '(l, e1) := segment rnd n e in
  let e' := countdown (length l) e1 in
  falling e' /\ e_rel e' = true /\ ((length l + potential e' <= potential e)%nat \/ (finished e /\ finished e')).
Proof.
  intros n0 F R H1 H2 H3. pose proof (segment_falls n e n0 F) as S. pose proof (segment_control rnd n e) as C.
  pose proof (segment_params rnd n e) as PP.
  assert (e_st e = SDone -> e_st (snd (segment rnd n e)) = SDone) as Dn by (intros X; unfold segment; rewrite X; exact X).
  destruct (segment rnd n e) as [l e1]. cbn [fst snd] in *. destruct S as (F1 & Ln & De & SR & SF).
  destruct C as (C1 & C2 & C3 & C4). assert (e_rel e1 = true) as R1 by (destruct C2 as [->|(X & _)]; congruence).
  unfold countdown. rewrite R1. fields.
  pose proof (fa_rd _ F) as Rd.
  assert (falling (set_rd (Z.max (-1) (e_rd e1 - Z.of_nat (length l))) e1)) as F2.
  { replace e1 with (set_st (e_st e1) e1) at 2 by (now destruct e1). apply falls_set; [assumption|lia|now left]. }
  split; [assumption|]. split; [assumption|].
  set (e2 := set_rd (Z.max (-1) (e_rd e1 - Z.of_nat (length l))) e1) in *.
  assert (top e2 = top e) as Tp by (apply top_ext; exact PP).
  assert (down e2 = down e) as Dw by (apply down_ext; exact PP).
  assert (e_st e2 = e_st e1 /\ e_v e2 = e_v e1 /\ e_delay e2 = e_delay e1 /\ e_rd e2 = Z.max (-1) (e_rd e - Z.of_nat (length l))) as (E1 & E2 & E3 & E4).
  { unfold e2. fields. rewrite C1. auto. }
  pose proof (potential_le e2 F2 R1) as Le. rewrite Tp, E3, E4 in Le.
  destruct (beforeRelease (e_st e) || (0 <=? e_rd e)%Z) eqn:B.
  - left. assert (potential e = Z.to_nat (e_rd e + 1) + Z.to_nat (e_delay e) + 2 * top e + 2)%nat as -> by (unfold potential; now rewrite B).
    apply orb_true_iff in B.
    destruct (Z.lt_trichotomy (e_rd e) 0) as [Q|[Q|Q]].
    + assert (e_rd e = -1)%Z by lia. assert (e_delay e > 0)%Z as D by (destruct B as [B|B]; [auto|apply Z.leb_le in B; lia]).
      assert (e_st e = SDelay). { destruct (e_st e) eqn:X; try reflexivity; exfalso; assert (e_delay e <= 0)%Z by (apply (fa_delay e F); congruence); lia. }
      destruct De as [De|[De _]]; [|congruence]. lia.
    + specialize (H2 Q).
      assert (e_st e = SDelay). { destruct (e_st e) eqn:X; try reflexivity; exfalso; assert (e_delay e <= 0)%Z by (apply (fa_delay e F); congruence); lia. }
      destruct De as [De|[De _]]; [|congruence]. lia.
    + specialize (H1 ltac:(lia)). destruct De as [De|[_ De]]; [|rewrite De in *]; lia.
  - apply orb_false_iff in B as [B1 B2]. apply Z.leb_gt in B2. assert (e_rd e = -1)%Z as Rm by lia.
    assert (e_rd e2 = -1)%Z as Rm2 by lia.
    assert (potential e = match e_st e with SRelease => (steps (down e) (e_v e) + top e + 1)%nat | SFadeout => steps (down e) (e_v e) | _ => 0%nat end) as ->.
    { unfold potential. rewrite B1, Rm. reflexivity. }
    assert (beforeRelease (e_st e2) = false) as B2'.
    { rewrite E1. apply beforeRelease_not in B1. unfold beforeRelease. apply Nat.ltb_ge. lia. }
    assert (potential e2 = match e_st e1 with SRelease => (steps (down e) (e_v e1) + top e + 1)%nat | SFadeout => steps (down e) (e_v e1) | _ => 0%nat end) as ->.
    { unfold potential. rewrite B2', Rm2, E1, E2, Dw, Tp. reflexivity. }
    pose proof (steps_top e (e_v e1) (fa_params e F) (fa_v e1 F1)) as Tv.
    destruct (e_st e) eqn:St; try discriminate.
    + left. destruct (SR eq_refl) as [[-> L]|[-> L]]; lia.
    + left. destruct (SF eq_refl) as [[-> L]|[-> L]]; lia.
    + right. split; split; try assumption. rewrite E1. auto.
Qed.
Lemma iteration_falls n e : (0 < n)%nat -> falling e -> e_rel e = true ->
  let '(l, e') := iteration rnd n e in
  falling e' /\ e_rel e' = true /\ ((length l + potential e' <= potential e)%nat \/ (finished e /\ finished e')).
Proof.
  intros n0 F R. unfold iteration, pending. rewrite R. pose proof (fa_rd _ F) as Rd.
  destruct (Z.ltb_spec 0 (e_rd e)) as [L|L].
  { pose proof (rest_falls (Nat.min n (Z.to_nat (e_rd e))) e) as H.
    destruct (segment rnd _ e) as [l e1]. apply H; try assumption; try lia. }
  destruct (Z.eqb_spec (e_rd e) 0) as [Z0|Z0]; cbn [andb].
  - destruct (Z.leb_spec (e_delay e) 0) as [Ld|Ld]; cbn [andb].
    + destruct (Z.ltb_spec (e_delay e) 0) as [Ld'|Ld'].
      * set (e0 := set_rd (-1) (set_st SRelease e)).
        assert (falling e0) as F0 by (apply falls_set; [assumption|lia|right; split; [discriminate|assumption]]).
        assert (top e0 = top e /\ down e0 = down e) as [Tp Dw] by (split; [apply top_ext|apply down_ext]; reflexivity).
        assert (potential e0 <= potential e)%nat as Le.
        { unfold potential at 2. replace (0 <=? e_rd e)%Z with true by (symmetry; apply Z.leb_le; lia). rewrite orb_true_r.
          assert (potential e0 = steps (down e0) (e_v e) + top e0 + 1)%nat as -> by reflexivity. rewrite Tp, Dw.
          pose proof (steps_top e (e_v e) (fa_params e F) (fa_v e F)). lia. }
        pose proof (rest_falls n e0 n0 F0 R) as H. unfold e0 in H at 1 2 3 4 5 6 7. cbn [e_rd set_rd e_st set_st] in H.
        specialize (H ltac:(lia) ltac:(lia) ltac:(discriminate)).
        destruct (segment rnd n e0) as [l e1]. destruct H as (A & B & [C|[[C _] _]]); [|discriminate].
        split; [assumption|]. split; [assumption|]. left. lia.
      * (* one more frame *)
        set (e0 := set_rd (-1) e).
        assert (falling e0) as F0.
        { unfold e0. replace e with (set_st (e_st e) e) at 1 by (now destruct e). apply falls_set; [assumption|lia|now left]. }
        pose proof (segment_falls 1 e0 ltac:(lia) F0) as S. pose proof (segment_control rnd 1 e0) as C.
        pose proof (segment_params rnd 1 e0) as PP.
        destruct (segment rnd 1 e0) as [l e1]. cbn [fst snd] in *. destruct S as (F1 & Ln & De & SR & SF).
        destruct C as (C1 & C2 & C3 & C4).
        assert (e_rel e1 = true) as R1 by (destruct C2 as [E|(X & _)]; [rewrite E; exact R|unfold e0 in X; cbn [e_rel set_rd] in X; congruence]).
        unfold countdown. rewrite R1.
        set (e2 := set_rd (Z.max (-1) (e_rd e1 - Z.of_nat (length l))) e1).
        assert (falling e2) as F2.
        { unfold e2. replace e1 with (set_st (e_st e1) e1) at 2 by (now destruct e1). apply falls_set; [assumption|lia|now left]. }
        split; [exact F2|]. split; [exact R1|]. left.
        assert (top e2 = top e) as Tp by (apply top_ext; exact PP).
        pose proof (potential_le e2 F2 R1) as Le. rewrite Tp in Le.
        assert (potential e = Z.to_nat (e_rd e + 1) + Z.to_nat (e_delay e) + 2 * top e + 2)%nat as ->.
        { unfold potential. replace (0 <=? e_rd e)%Z with true by (symmetry; apply Z.leb_le; lia). now rewrite orb_true_r. }
        assert (e_rd e2 = -1)%Z as Rm by (unfold e2; cbn [e_rd set_rd]; rewrite C1; unfold e0; cbn [e_rd set_rd]; lia).
        rewrite Rm in Le. change (e_delay e2) with (e_delay e1) in Le. change (e_delay e0) with (e_delay e) in De.
        destruct De as [De|[_ De]]; lia.
    + replace (e_rd e =? -1)%Z with false by (symmetry; apply Z.eqb_neq; lia). cbn [andb].
      pose proof (rest_falls n e) as H. destruct (segment rnd n e) as [l e1]. apply H; try assumption; try lia.
  - assert (e_rd e = -1)%Z as Z1 by lia. replace (e_rd e =? -1)%Z with true by (symmetry; apply Z.eqb_eq; lia). cbn [andb].
    destruct (beforeRelease (e_st e)) eqn:B; cbn [andb].
    + destruct (Z.leb_spec (e_delay e) 0) as [Ld|Ld].
      * set (e0 := set_st SRelease e).
        assert (falling e0) as F0.
        { replace e0 with (set_rd (e_rd e) (set_st SRelease e)) by (now destruct e). apply falls_set; [assumption|lia|right; split; [discriminate|assumption]]. }
        assert (top e0 = top e /\ down e0 = down e) as [Tp Dw] by (split; [apply top_ext|apply down_ext]; reflexivity).
        assert (potential e0 <= potential e)%nat as Le.
        { unfold potential at 2. rewrite B. cbn [orb].
          assert (potential e0 = steps (down e0) (e_v e) + top e0 + 1)%nat as ->.
          { unfold potential, e0. cbn [e_st set_st e_rd]. rewrite Z1. reflexivity. }
          rewrite Tp, Dw. pose proof (steps_top e (e_v e) (fa_params e F) (fa_v e F)). lia. }
        pose proof (rest_falls n e0 n0 F0 R) as H. change (e_rd e0) with (e_rd e) in H. change (e_st e0) with SRelease in H.
        specialize (H ltac:(lia) ltac:(lia) ltac:(discriminate)).
        destruct (segment rnd n e0) as [l e1]. destruct H as (X & Y & [C|[[C _] _]]); [|discriminate].
        split; [assumption|]. split; [assumption|]. left. lia.
      * pose proof (rest_falls n e) as H. destruct (segment rnd n e) as [l e1]. apply H; try assumption; try lia.
    + pose proof (rest_falls n e) as H. destruct (segment rnd n e) as [l e1]. apply H; try assumption; try lia. congruence.
Qed.
Lemma iteration_finished n e : finished e ->
  fst (iteration rnd n e) = repeat 0 n /\ finished (snd (iteration rnd n e)).
Proof.
  intros [A B]. assert (pending n e = (n, e)) as P.
  { unfold pending. destruct (e_rel e); [|reflexivity]. rewrite A, B. reflexivity. }
  unfold iteration. rewrite P. unfold segment. rewrite A. unfold countdown, finished. fields.
  destruct (e_rel e); fields; rewrite A, B; repeat split. lia.
Qed.
(** C33: once it has ended the envelope stays silent. *)
Theorem C33_silent_after_end f : forall n e l e',
  finished e -> getBlockInternal rnd f n e = Some (l, e') -> l = repeat 0 n /\ finished e'.
Proof.
  induction f as [|f IH]; intros n e l e' F; cbn [getBlockInternal]; destruct n as [|n]; try discriminate;
    try (intros [= <- <-]; now split).
  pose proof (iteration_finished (S n) e F) as [H F1].
  destruct (iteration rnd (S n) e) as [l1 e1]. cbn [fst snd] in *. subst l1. rewrite repeat_length, Nat.sub_diag.
  destruct (getBlockInternal rnd f 0 e1) as [[l2 e2]|] eqn:E; [|discriminate]. intros [= <- <-].
  destruct (IH _ _ _ _ F1 E) as [-> F2]. cbn [repeat]. rewrite app_nil_r. auto.
Qed.
Lemma run_falls f : forall n e l e', falling e -> e_rel e = true -> getBlockInternal rnd f n e = Some (l, e') ->
  falling e' /\ e_rel e' = true /\ (finished e' \/ (n + potential e' <= potential e)%nat) /\ (finished e -> finished e').
Proof.
  induction f as [|f IH]; intros n e l e' F R; cbn [getBlockInternal]; destruct n as [|n]; try discriminate;
    try (intros [= <- <-]; split; [assumption|]; split; [assumption|]; split; [right; lia|auto]).
  pose proof (iteration_falls (S n) e ltac:(lia) F R) as H.
  pose proof (iteration_length rnd (S n) e ltac:(lia)) as Ln.
  destruct (iteration rnd (S n) e) as [l1 e1] eqn:It. destruct H as (F1 & R1 & H). cbn [fst] in Ln.
  destruct (getBlockInternal rnd f _ e1) as [[l2 e2]|] eqn:E; [|discriminate]. intros [= <- <-].
  destruct (IH _ _ _ _ F1 R1 E) as (F2 & R2 & H2 & H3). split; [assumption|]. split; [assumption|].
  assert (finished e -> finished e1) as Fi.
  { intros X. pose proof (iteration_finished (S n) e X) as [_ Y]. rewrite It in Y. exact Y. }
  split; [|auto]. destruct H as [H|[_ H]]; [|left; auto]. destruct H2 as [H2|H2]; [now left|right; lia].
Qed.

(** Blocks of given sizes, one after the other. *)
Fixpoint blocks (f : nat) (ns : list nat) (e : env) : option (list Q * env) :=
  match ns with
  | [] => Some ([], e)
  | n :: ns =>
      match getBlockInternal rnd f n e with
      | Some (l, e) => match blocks f ns e with Some (l', e') => Some (l ++ l', e') | None => None end
      | None => None
      end
  end.
(** C33: a released envelope has ended after finitely many frames, however they are divided in
    blocks. *)
Theorem C33_ends e : falling e -> e_rel e = true ->
  exists N, forall f ns l e', blocks f ns e = Some (l, e') -> (N < fold_right plus 0 ns)%nat -> finished e'.
Proof.
  intros F R. exists (potential e). intros f ns. revert e F R.
  assert (forall e l e', falling e -> e_rel e = true -> blocks f ns e = Some (l, e') ->
     finished e' \/ (fold_right plus 0 ns + potential e' <= potential e)%nat) as H.
  { induction ns as [|n ns IH]; intros e l e' F R; cbn [blocks].
    - intros [= <- <-]. right. cbn. lia.
    - destruct (getBlockInternal rnd f n e) as [[l1 e1]|] eqn:E1; [|discriminate].
      destruct (blocks f ns e1) as [[l2 e2]|] eqn:E2; [|discriminate]. intros [= <- <-].
      destruct (run_falls _ _ _ _ _ F R E1) as (F1 & R1 & H1 & H2).
      assert (finished e1 -> finished e2) as Fi.
      { clear -E2. revert e1 l2 E2. induction ns as [|m ns IH]; intros e1 l2; cbn [blocks]; [now intros [= <- <-]|].
        destruct (getBlockInternal rnd f m e1) as [[l3 e3]|] eqn:E3; [|discriminate].
        destruct (blocks f ns e3) as [[l4 e4]|] eqn:E4; [|discriminate]. intros [= <- <-] X.
        apply (IH _ _ E4). eapply C33_silent_after_end; eassumption. }
      cbn [fold_right]. destruct (IH _ _ _ F1 R1 E2) as [X|X]; [now left|].
      destruct H1 as [H1|H1]; [left; auto|right; lia]. }
  intros e F R l e' E L. destruct (H _ _ _ F R E) as [X|X]; [assumption|lia].
Qed.
(** Envelopes that have been reset fall once released, when the release time is such that its
    rate stays below one in spite of rounding. *)
Variable expo : Q -> Q.
Variable offTime : Q.
Hypothesis expo_unit : forall x, x <= 0 -> unit (expo x).
Hypothesis off_pos : 0 < offTime.
Theorem C33_reset_falling d osc delay rate e :
  0 < rate -> 1 <= rnd (rate * egTransitionTime) -> u * rnd (rate * egTransitionTime) < 1 - u ->
  secondsToExpRate rnd expo offTime rate (d_release d delay) * (1 + u) < 1 ->
  e_td e <= 0 ->
  falling (reset rnd expo offTime d osc delay rate e).
Proof.
  intros R F U Ex Td. unfold reset, updateValues. fields. split; fields; try assumption; try discriminate; try lia.
  - split; fields.
    + apply Qclamp_unit.
    + apply Qclamp_unit.
    + apply (expRate_unit rnd RN expo offTime expo_unit off_pos). assumption.
    + split; [apply (expRate_unit rnd RN expo offTime expo_unit off_pos); assumption|assumption].
    + split; assumption.
  - apply Qclamp_unit.
  - congruence.
Qed.
(** Rendering keeps it so, and so does a release. *)
Lemma iteration_falling n e : (0 < n)%nat -> falling e -> falling (snd (iteration rnd n e)).
Proof.
  intros n0 F. destruct (e_rel e) eqn:R.
  - pose proof (iteration_falls n e n0 F R) as H. destruct (iteration rnd n e) as [l e']. apply H.
  - unfold iteration, pending. rewrite R. pose proof (segment_falls n e n0 F) as S.
    destruct (segment rnd n e) as [l e1]. destruct S as (F1 & _). fields. unfold countdown.
    destruct (e_rel e1); [|assumption].
    replace e1 with (set_st (e_st e1) e1) at 2 by (now destruct e1). apply falls_set; [assumption|lia|now left].
Qed.
Theorem C33_stays_falling f : forall n e l e',
  falling e -> getBlockInternal rnd f n e = Some (l, e') -> falling e'.
Proof.
  induction f as [|f IH]; intros n e l e' F; cbn [getBlockInternal]; destruct n as [|n]; try discriminate;
    try (intros [= <- <-]; assumption).
  pose proof (iteration_falling (S n) e ltac:(lia) F) as F1.
  destruct (iteration rnd (S n) e) as [l1 e1]. cbn [snd] in F1.
  destruct (getBlockInternal rnd f _ e1) as [[l2 e2]|] eqn:E; [|discriminate]. intros [= <- <-].
  eapply IH; eassumption.
Qed.
Theorem C33_release_falling d e : falling e -> (0 <= d)%Z -> falling (startRelease d e).
Proof.
  intros [A B C D E F] H. unfold startRelease. split; fields; try assumption; [|lia].
  eapply fallingp_ext; [|exact A]. reflexivity.
Qed.
End End.
