(** C20: polyphony limits; C53: a start finds a voice. *)
From Coq Require Import ZArith QArith List Bool Lia Arith Permutation.
From Verif Require Import ContainersModel MidiModel LayerModel VoiceModel VoiceRings VoiceInv VoiceSteps
  VoiceProps VoiceExamples VoiceEvent.
Import ListNotations.
Local Open Scope nat_scope.

(** * Specification *)

(** The number of voices that play, are not being turned off, and whose region satisfies [P]. *)
Definition counts (m : vman) (P : nat -> bool) (i : nat) : bool :=
  match v_state (m_voice m i), v_offed (m_voice m i), v_region (m_voice m i) with
  | VPlaying, false, Some k => P k
  | _, _, _ => false
  end.
Definition sounding (m : vman) (P : nat -> bool) : nat := length (filter (counts m P) (seq 0 (m_n m))).

Definition in_region (k : nat) : nat -> bool := Nat.eqb k.
Definition in_group (I : instr) (g : Z) (k : nat) : bool := (vi_group (i_info I k) =? g)%Z.
Definition in_set (I : instr) (s k : nat) : bool := existsb (Nat.eqb s) (vi_sets (i_info I k)).
Definition in_engine (k : nat) : bool := true.

(** A limit of zero lets one voice play. *)
Definition below (n : nat) (limit : Z) : Prop := (Z.of_nat n <= Z.max 1 limit)%Z.

(** * Counting *)
Lemma filter_le : forall (f g : nat -> bool) l, (forall x, In x l -> f x = true -> g x = true) ->
  length (filter f l) <= length (filter g l).
Proof.
  intros f g l. induction l as [|x l IH]; intros H; cbn [filter length]; auto.
  assert (IH' := IH (fun y Hy => H y (or_intror Hy))).
  destruct (f x) eqn:F; [rewrite (H x (or_introl eq_refl) F); cbn [length]; lia|].
  destruct (g x); cbn [length]; lia.
Qed.
Lemma filter_lt : forall (f g : nat -> bool) l, (forall x, In x l -> f x = true -> g x = true) ->
  (exists x, In x l /\ g x = true /\ f x = false) -> length (filter f l) < length (filter g l).
Proof.
  intros f g l. induction l as [|x l IH]; intros H (y & Hy & G & F); [destruct Hy|].
  cbn [filter]. assert (H' : forall z, In z l -> f z = true -> g z = true) by (intros; apply H; auto; now right).
  destruct Hy as [->|Hy].
  - rewrite F, G. cbn [length]. pose proof (filter_le f g l H'). lia.
  - assert (IH' : length (filter f l) < length (filter g l)) by (apply IH; eauto).
    destruct (f x) eqn:Fx; [rewrite (H x (or_introl eq_refl) Fx); cbn [length]; lia|].
    destruct (g x); cbn [length]; lia.
Qed.
Lemma filter_plus : forall (f g : nat -> bool) l i, NoDup l ->
  (forall x, In x l -> x <> i -> f x = true -> g x = true) ->
  length (filter f l) <= S (length (filter g l)).
Proof.
  intros f g l i ND. induction ND as [|x l N ND IH]; intros H; cbn [filter length]; [lia|].
  assert (IH' := IH (fun y Hy => H y (or_intror Hy))).
  destruct (Nat.eq_dec x i) as [->|Hx].
  - assert (length (filter f l) <= length (filter g l)).
    { apply filter_le. intros y Hy. apply H; [now right|]. intros ->. contradiction. }
    destruct (f i), (g i); cbn [length]; lia.
  - destruct (f x) eqn:F; [rewrite (H x (or_introl eq_refl) Hx F); cbn [length]; lia|].
    destruct (g x); cbn [length]; lia.
Qed.

Lemma counts_spec : forall m P i, counts m P i = true <->
  live m i = true /\ exists k, rg m i = Some k /\ P k = true.
Proof.
  intros m P i. unfold counts, live, offedOrFree, rg.
  destruct (v_state (m_voice m i)), (v_offed (m_voice m i)), (v_region (m_voice m i)) as [k|]; cbn;
    split; intros H; try discriminate; try (split; eauto); try (destruct H as [H1 (k' & H2 & H3)]; congruence).
Qed.
Lemma sounding_quiet : forall m m' P, quiet m m' -> sounding m' P <= sounding m P.
Proof.
  intros m m' P Q. unfold sounding. rewrite (q_n _ _ Q). apply filter_le. intros i _ H.
  apply counts_spec in H as [L (k & K & HP)]. apply counts_spec.
  split; [eapply quiet_live; eauto|]. rewrite (quiet_rg _ _ _ Q) in K. eauto.
Qed.
Lemma sounding_start : forall I si k e i m m' P, started I si k e i m m' ->
  sounding m' P <= sounding m P + if P k then 1 else 0.
Proof.
  intros I si k e i m m' P S. unfold sounding. rewrite (sd_n _ _ _ _ _ _ _ S).
  assert (O : forall x, x <> i -> counts m' P x = true -> counts m P x = true).
  { intros x Hx H. pose proof (core_st _ _ _ (sd_other _ _ _ _ _ _ _ S x Hx)) as (_ & R & _ & _ & L & _).
    apply counts_spec in H. apply counts_spec. rewrite <- L, <- R. exact H. }
  destruct (P k) eqn:PK.
  - rewrite Nat.add_1_r. apply filter_plus with (i := i); [apply seq_NoDup|]. auto.
  - rewrite Nat.add_0_r. apply filter_le. intros x _ H. destruct (Nat.eq_dec x i) as [->|Hx]; auto.
    apply counts_spec in H as [_ (k' & K & HP)]. rewrite (sd_rg _ _ _ _ _ _ _ S) in K. congruence.
Qed.
Lemma sounding_reset : forall I i m P, vinv I m -> i < m_n m -> sounding (v_reset I i m) P <= sounding m P.
Proof.
  intros I i m P V Hi. pose proof (v_reset_spec I i m V Hi) as R. unfold sounding.
  rewrite (rs_n _ _ _ _ R). apply filter_le. intros x _ H. destruct (Nat.eq_dec x i) as [->|Hx].
  - apply counts_spec in H as [_ (k & K & _)]. rewrite (rs_rg _ _ _ _ R) in K. discriminate.
  - pose proof (core_st _ _ _ (rs_core _ _ _ _ R x Hx)) as (_ & RG & _ & _ & L & _).
    apply counts_spec in H. apply counts_spec. rewrite <- L, <- RG. exact H.
Qed.

(** The lists the checks look at hold exactly the voices that count. *)
Lemma list_counts : forall I m (Q : nat -> Prop) P l cond, vinv I m -> list_ok I m Q l ->
  (forall k, P k = true -> Q k) ->
  (forall i, In i l -> cond i = counts m P i) ->
  length (filter cond l) = sounding m P.
Proof.
  intros I m Q P l cond V [ND LO] PQ HC. unfold sounding. apply Permutation_length.
  apply NoDup_Permutation; [now apply NoDup_filter|apply NoDup_filter, seq_NoDup|].
  intros i. rewrite !filter_In, in_seq. split.
  - intros [Hi H]. rewrite <- HC by auto. apply LO in Hi as [Hi _]. split; auto. lia.
  - intros [Hi H]. assert (Hin : In i l).
    { apply LO. apply counts_spec in H as [L (k & K & HP)]. apply live_spec in L as [L _].
      split; [lia|]. split; [congruence|]. exists k. split; auto. split; auto.
      eapply iv_play; eauto. lia. }
    split; auto. now rewrite HC.
Qed.
Lemma live_counts : forall I m Q P l i, vinv I m -> list_ok I m Q l -> (forall k, Q k -> P k = true) ->
  In i l -> live m i = counts m P i.
Proof.
  intros I m Q P l i V [_ LO] QP Hi. apply LO in Hi as (_ & _ & k & K & _ & HQ).
  apply Bool.eq_true_iff_eq. rewrite counts_spec. split; [|tauto]. intros H. split; auto. exists k. auto.
Qed.

(** A check leaves room for one more voice. *)
Lemma check_room : forall I d cond l p m m' P, ring_ok m -> (forall i, In i l -> i < m_n m) ->
  (forall i, In i l -> cond i = counts m P i) ->
  length (filter cond l) = sounding m P ->
  steal_and_off I d cond l p m = Some m' -> below (sounding m P) p ->
  quiet m m' /\ (Z.of_nat (sounding m' P) < Z.max 1 p)%Z.
Proof.
  intros I d cond l p m m' P R B HC HL H HB.
  assert (Q : quiet m m') by (eapply steal_and_off_quiet; eauto). split; auto.
  pose proof (sounding_quiet m m' P Q) as LE. unfold below in HB.
  unfold steal_and_off in H. apply bind_inv in H as (c & E & H). apply steal_spec in E.
  destruct c as [x|].
  - destruct E as (Hx & CX & _).
    destruct (offAllSisters_some I d m x R (B x Hx)) as (r & m2 & _ & E2 & _ & OF & _).
    rewrite E2 in H. apply some_inj in H. subst m2.
    assert (LT : sounding m' P < sounding m P); [|lia].
    unfold sounding. rewrite (q_n _ _ Q). apply filter_lt.
    + intros i _ Hi. apply counts_spec in Hi as [L (k & K & HP)]. apply counts_spec.
      split; [eapply quiet_live; eauto|]. rewrite (quiet_rg _ _ _ Q) in K. eauto.
    + exists x. split; [apply in_seq; specialize (B x Hx); lia|]. split; [rewrite <- HC; auto|].
      destruct (counts m' P x) eqn:CC; auto. apply counts_spec in CC as [L _].
      apply live_spec in L as [_ L]. rewrite OF in L; [discriminate|now left].
  - destruct E as [E|E]; [lia|]. rewrite E in HL. cbn in HL. lia.
Qed.

Definition limits (I : instr) (m : vman) : Prop :=
  (forall k, below (sounding m (in_region k)) (vi_poly (i_info I k)))
  /\ (forall g, below (sounding m (in_group I g)) (i_glimit I g))
  /\ (forall s, below (sounding m (in_set I s)) (i_slimit I s))
  /\ below (sounding m in_engine) (m_required m).

Lemma below_le : forall a b p, a <= b -> below b p -> below a p.
Proof. unfold below. intros. lia. Qed.
Lemma limits_quiet : forall I m m', quiet m m' -> limits I m -> limits I m'.
Proof.
  intros I m m' Q (A & B & C & D). unfold limits. rewrite (q_required _ _ Q).
  split; [|split; [|split]]; intros; (eapply below_le; [apply sounding_quiet; exact Q|auto]).
Qed.

Lemma in_set_spec : forall I s k, in_set I s k = true <-> In s (vi_sets (i_info I k)).
Proof.
  intros. unfold in_set. rewrite existsb_exists. split.
  - intros (x & Hx & E). apply Nat.eqb_eq in E. congruence.
  - intros H. exists s. split; auto. apply Nat.eqb_refl.
Qed.

Lemma room_quiet : forall m m' P p, quiet m m' -> (Z.of_nat (sounding m P) < p)%Z ->
  (Z.of_nat (sounding m' P) < p)%Z.
Proof. intros m m' P p Q H. pose proof (sounding_quiet m m' P Q). lia. Qed.

Lemma checkSet_room : forall I d ss m m', vinv I m ->
  (forall s, below (sounding m (in_set I s)) (i_slimit I s)) ->
  checkSetPolyphony I ss d m = Some m' ->
  forall s, In s ss -> (Z.of_nat (sounding m' (in_set I s)) < Z.max 1 (i_slimit I s))%Z.
Proof.
  intros I d ss. induction ss as [|s0 ss IH]; intros m m' V HB H s Hs; [destruct Hs|].
  cbn [checkSetPolyphony] in H. apply bind_inv in H as (m1 & E & H).
  destruct (check_room I d (live m) (m_slist m s0) (i_slimit I s0) m m1 (in_set I s0)) as [Q R]; auto.
  { apply V. } { intros i Hi. eapply list_ok_lt; [apply (iv_set _ _ V s0)|exact Hi]. }
  { intros i Hi. eapply live_counts; [exact V|apply (iv_set _ _ V s0)| |exact Hi].
    intros k. apply in_set_spec. }
  { eapply list_counts; [exact V|apply (iv_set _ _ V s0)| |].
    - intros k. apply in_set_spec.
    - intros i Hi. eapply live_counts; [exact V|apply (iv_set _ _ V s0)| |exact Hi].
      intros k. apply in_set_spec. }
  assert (V1 : vinv I m1) by (eapply quiet_vinv; eauto).
  destruct Hs as [->|Hs].
  - eapply room_quiet; [eapply checkSet_quiet; eauto|exact R].
  - eapply IH; eauto. intros s'. eapply below_le; [apply sounding_quiet; exact Q|auto].
Qed.

Lemma checkPolyphony_room : forall I k d e m m', vinv I m -> limits I m ->
  checkPolyphony I k d e m = Some m' ->
  (Z.of_nat (sounding m' (in_region k)) < Z.max 1 (vi_poly (i_info I k)))%Z
  /\ (Z.of_nat (sounding m' (in_group I (vi_group (i_info I k)))) < Z.max 1 (i_glimit I (vi_group (i_info I k))))%Z
  /\ (forall s, In s (vi_sets (i_info I k)) ->
        (Z.of_nat (sounding m' (in_set I s)) < Z.max 1 (i_slimit I s))%Z)
  /\ (Z.of_nat (sounding m' in_engine) < Z.max 1 (m_required m))%Z.
Proof.
  intros I k d e m m' V L H. unfold checkPolyphony in H.
  apply bind_inv in H as (m1 & E1 & H). apply bind_inv in H as (m2 & E2 & H).
  apply bind_inv in H as (m3 & E3 & H). apply bind_inv in H as (m4 & E4 & H).
  assert (Q1 : quiet m m1) by (eapply checkNote_quiet; eauto).
  assert (V1 : vinv I m1) by (eapply quiet_vinv; eauto).
  assert (L1 : limits I m1) by (eapply limits_quiet; eauto).
  assert (CR : forall i, In i (m_active m1) -> live m1 i && of_region m1 k i = counts m1 (in_region k) i).
  { intros i _. apply Bool.eq_true_iff_eq. rewrite andb_true_iff, counts_spec. unfold of_region, rg, in_region.
    destruct (v_region (m_voice m1 i)) as [k'|].
    - split; intros [A B]; split; auto.
      + exists k'. split; auto. now rewrite Nat.eqb_sym.
      + destruct B as (k'' & X & Y). injection X as <-. now rewrite Nat.eqb_sym.
    - split; intros [A B]; [discriminate|]. destruct B as (? & X & _). discriminate. }
  destruct (check_room _ _ _ _ _ _ _ (in_region k) (iv_ring _ _ V1) ltac:(intros i; apply (vinv_active_lt I); exact V1)
    CR ltac:(eapply list_counts; [exact V1|apply (iv_active _ _ V1)|intros; exact Logic.I|exact CR]) E2 (proj1 L1 k)) as [Q2 R2].
  assert (V2 : vinv I m2) by (eapply quiet_vinv; eauto).
  assert (L2 : limits I m2) by (eapply limits_quiet; eauto).
  unfold checkGroupPolyphony in E3. cbv zeta in E3. set (g := vi_group (i_info I k)) in *.
  assert (CG : forall i, In i (m_glist m2 g) -> live m2 i = counts m2 (in_group I g) i).
  { intros i Hi. eapply live_counts; [exact V2|apply (iv_group _ _ V2 g)| |exact Hi].
    intros k' Hk. now apply Z.eqb_eq. }
  destruct (check_room _ _ _ _ _ _ _ (in_group I g) (iv_ring _ _ V2)
    ltac:(intros i Hi; eapply list_ok_lt; [apply (iv_group _ _ V2 g)|exact Hi])
    CG ltac:(eapply list_counts; [exact V2|apply (iv_group _ _ V2 g)|intros k' Hk; now apply Z.eqb_eq|exact CG])
    E3 (proj1 (proj2 L2) g)) as [Q3 R3].
  assert (V3 : vinv I m3) by (eapply quiet_vinv; eauto).
  assert (L3 : limits I m3) by (eapply limits_quiet; eauto).
  assert (Q4 : quiet m3 m4) by (eapply checkSet_quiet; eauto).
  assert (R4 := checkSet_room _ _ _ _ _ V3 (proj1 (proj2 (proj2 L3))) E4).
  assert (V4 : vinv I m4) by (eapply quiet_vinv; eauto).
  assert (L4 : limits I m4) by (eapply limits_quiet; eauto).
  assert (CE : forall i, In i (m_active m4) -> live m4 i = counts m4 in_engine i).
  { intros i Hi. eapply live_counts; [exact V4|apply (iv_active _ _ V4)| |exact Hi]. reflexivity. }
  destruct (check_room _ _ _ _ _ _ _ in_engine (iv_ring _ _ V4) ltac:(intros i; apply (vinv_active_lt I); exact V4)
    CE ltac:(eapply list_counts; [exact V4|apply (iv_active _ _ V4)|intros; exact Logic.I|exact CE]) H (proj2 (proj2 (proj2 L4)))) as [Q5 R5].
  assert (QQ : m_required m4 = m_required m).
  { rewrite (q_required _ _ Q4), (q_required _ _ Q3), (q_required _ _ Q2). apply Q1. }
  split; [eapply room_quiet; [|exact R2]; eauto using quiet_trans|].
  split; [eapply room_quiet; [|exact R3]; eauto using quiet_trans|].
  split; [intros s Hs; eapply room_quiet; [exact Q5|auto]|]. rewrite <- QQ. exact R5.
Qed.

Definition sized (m : vman) : Prop := m_n m = Z.to_nat (effective_voices (m_required m)).

Lemma limits_closed : forall I, closed_all I (fun m => vinv I m /\ limits I m /\ sized m).
Proof.
  intros I. constructor.
  - constructor.
    + tauto.
    + intros m m' Q (V & L & Z). split; [eapply quiet_vinv; eauto|]. split; [eapply limits_quiet; eauto|].
      unfold sized. rewrite (q_n _ _ Q), (q_required _ _ Q). exact Z.
    + intros md si k d e ring m m' ring' _ (V & L & Z) HO H.
      destruct (vm_start_spec _ _ _ _ _ _ _ _ _ _ V HO H) as (m1 & EC & Q & V' & _ & LN & D).
      split; auto.
      assert (L1 : limits I m1) by (eapply limits_quiet; eauto).
      destruct D as [(_ & -> & _)|(i & _ & S)].
      { split; auto. unfold sized. rewrite (q_n _ _ Q), (q_required _ _ Q). exact Z. }
      destruct (checkPolyphony_room _ _ _ _ _ _ V L EC) as (R1 & R2 & R3 & R4).
      assert (RQ : m_required m' = m_required m) by (rewrite (sd_required _ _ _ _ _ _ _ S); apply Q).
      split; [|unfold sized; rewrite LN, RQ; exact Z].
      destruct L1 as (A & B & C & D). unfold limits. rewrite RQ.
      assert (Q' := q_required _ _ Q). rewrite Q' in D.
      split; [|split; [|split]].
      * intros k'. pose proof (sounding_start _ _ _ _ _ _ _ (in_region k') S) as SS.
        unfold below in *. specialize (A k'). unfold in_region at 3 in SS.
        destruct (Nat.eqb_spec k' k) as [->|]; lia.
      * intros g. pose proof (sounding_start _ _ _ _ _ _ _ (in_group I g) S) as SS.
        unfold below in *. specialize (B g). unfold in_group at 3 in SS.
        destruct (Z.eqb_spec (vi_group (i_info I k)) g) as [<-|]; lia.
      * intros s. pose proof (sounding_start _ _ _ _ _ _ _ (in_set I s) S) as SS.
        unfold below in *. specialize (C s). specialize (R3 s). rewrite <- in_set_spec in R3.
        destruct (in_set I s k); [specialize (R3 eq_refl)|]; lia.
      * pose proof (sounding_start _ _ _ _ _ _ _ in_engine S) as SS.
        unfold below in *. cbn [in_engine] in SS. lia.
  - intros m i Hi (V & (A & B & C & D) & Z). pose proof (v_reset_spec I i m V Hi) as R.
    split; [apply R|]. split.
    + unfold limits. rewrite (rs_required _ _ _ _ R).
      split; [|split; [|split]]; intros; (eapply below_le; [apply (sounding_reset I); auto|auto]).
    + unfold sized. rewrite (rs_n _ _ _ _ R), (rs_required _ _ _ _ R). exact Z.
  - intros n stamps. split; [apply new_voices_vinv|]. split; [|reflexivity].
    assert (G : forall P, sounding (new_voices n stamps) P = 0).
    { intros P. unfold sounding. replace (filter _ _) with (@nil nat); auto.
      symmetry. induction (seq 0 (m_n (new_voices n stamps))); cbn [filter]; auto. }
    unfold limits, below. repeat split; intros; rewrite G; lia.
Qed.

Lemma frun_limits : forall I E defaults md sw bps count n os s,
  frun I E defaults (f_load I md sw bps count n) os = Some s ->
  vinv I (f_vm s) /\ limits I (f_vm s) /\ sized (f_vm s).
Proof.
  intros. refine (frun_closed I _ (limits_closed I) E defaults os _ _ _ H).
  apply (ca_new _ _ (limits_closed I)).
Qed.

(** * C20 *)

(** At every moment, at most the allowed number of voices play (a limit of zero acts as one)
    for each region, each polyphony group, each region set, and in total. *)
Theorem C20_limits : forall I E defaults md sw bps count n os s,
  frun I E defaults (f_load I md sw bps count n) os = Some s ->
  (forall k, (Z.of_nat (sounding (f_vm s) (in_region k)) <= Z.max 1 (vi_poly (i_info I k)))%Z)
  /\ (forall g, (Z.of_nat (sounding (f_vm s) (in_group I g)) <= Z.max 1 (i_glimit I g))%Z)
  /\ (forall t, (Z.of_nat (sounding (f_vm s) (in_set I t)) <= Z.max 1 (i_slimit I t))%Z)
  /\ (Z.of_nat (sounding (f_vm s) in_engine) <= Z.max 1 (m_required (f_vm s)))%Z.
Proof.
  intros I E defaults md sw bps count n os s H.
  destruct (frun_limits _ _ _ _ _ _ _ _ _ _ H) as (_ & L & _).
  exact L.
Qed.

(** C53: with between 1 and 256 voices asked for, every start of a voice gets one. *)
Theorem C53_start_gets_voice : forall I E defaults md sw bps count n os s k d e ring s' ring',
  frun I E defaults (f_load I md sw bps count n) os = Some s ->
  (1 <= m_required (f_vm s) <= 256)%Z -> head_ok (f_vm s) ring ->
  f_startVoice I E k d e (s, ring) = Some (s', ring') ->
  exists i, i < m_n (f_vm s) /\ live (f_vm s') i = (negb (vi_disabled (i_info I k)) && si_file (e_start E (f_tick s)))
    /\ v_region (m_voice (f_vm s') i) = Some k /\ te_type (v_ev (m_voice (f_vm s') i)) = te_type e.
Proof.
  intros I E defaults md sw bps count n os s k d e ring s' ring' H HN HO HS.
  destruct (frun_limits _ _ _ _ _ _ _ _ _ _ H) as (V & L & Z).
  rewrite f_startVoice_vm in HS. destruct (vm_start _ _ _ _ _ _ _ _) as [[m' r']|] eqn:EV; [|discriminate].
  apply some_inj in HS. pose proof (f_equal fst HS) as HS'. cbn [fst] in HS'. subst s'. cbn [f_vm].
  destruct (vm_start_spec _ _ _ _ _ _ _ _ _ _ V HO EV) as (m1 & EC & Q & V' & _ & LN & D).
  destruct D as [(F & _ & _)|(i & F & S)].
  - exfalso. destruct (checkPolyphony_room _ _ _ _ _ _ V L EC) as (_ & _ & _ & R).
    apply find_free_none in F as [_ F].
    assert (V1 : vinv I m1) by (eapply quiet_vinv; eauto).
    assert (SA : sounding m1 in_engine = m_n m1).
    { unfold sounding. rewrite <- (seq_length (m_n m1) 0) at 2. f_equal.
      assert (G : forall l, (forall i, In i l -> counts m1 in_engine i = true) -> filter (counts m1 in_engine) l = l).
      { induction l as [|x l IH]; intros Hl; cbn [filter]; auto. rewrite Hl by now left. f_equal.
        apply IH. intros. apply Hl. now right. }
      apply G. intros i Hi. apply counts_spec. split; auto.
      destruct (rg m1 i) as [k'|] eqn:K; [exists k'; auto|].
      apply (iv_idle _ _ V1) in K. 2: { apply in_seq in Hi. lia. }
      apply F in Hi. apply live_spec in Hi as [Hi _]. congruence. }
    rewrite SA, (q_n _ _ Q), Z in R. unfold effective_voices in R. lia.
  - exists i. split; [rewrite <- (q_n _ _ Q); apply S|].
    split; [|split; [apply S|apply S]].
    pose proof (sd_st _ _ _ _ _ _ _ S) as ST. pose proof (sd_offed _ _ _ _ _ _ _ S) as OF.
    unfold live, offedOrFree. unfold st in ST. unfold offed in OF. rewrite ST.
    destruct (_ && _); [now rewrite OF|reflexivity].
Qed.

(** * Note polyphony *)
Definition same_note (I : instr) (g n : Z) (m : vman) (i : nat) : bool :=
  counts m (in_group I g) i && (te_num (v_ev (m_voice m i)) =? n)%Z.
Definition sounding_note (I : instr) (g n : Z) (m : vman) : nat :=
  length (filter (same_note I g n m) (seq 0 (m_n m))).

Lemma note_match_same : forall I g n m i, note_match I g n m i = same_note I g n m i.
Proof.
  intros. unfold note_match, same_note. f_equal. unfold live, offedOrFree, counts, in_group.
  destruct (v_state (m_voice m i)), (v_offed (m_voice m i)), (v_region (m_voice m i)); cbn; auto.
Qed.

(** The loop turns off voices of the list from its front until the count is at most [t]. *)
Lemma note_loop_spec : forall I d l c t m m', ring_ok m -> (forall i, In i l -> i < m_n m) ->
  note_loop I d l c t m = Some m' ->
  exists l1 l2, l = l1 ++ l2 /\ (forall i, In i l1 -> live m' i = false)
  /\ (l2 = [] \/ (c - Z.of_nat (length l1) <= t)%Z).
Proof.
  intros I d l. induction l as [|v l IH]; intros c t m m' R B H; cbn [note_loop] in H.
  - exists [], []. split; auto. split; [intros i []|auto].
  - destruct (Z.ltb_spec t c) as [TC|TC].
    2: { exists [], (v :: l). split; auto. split; [intros i []|]. right. cbn [length]. lia. }
    apply bind_inv in H as (m1 & E & H).
    assert (Q : quiet m m1 /\ live m1 v = false).
    { destruct (live m v) eqn:LV.
      - destruct (offAllSisters_some I d m v R (B v (or_introl eq_refl))) as (x & m2 & _ & E2 & Q & OF & _).
        rewrite E2 in E. apply some_inj in E. subst m2. split; auto.
        destruct (live m1 v) eqn:L1; auto. apply live_spec in L1 as [_ L1].
        rewrite OF in L1; [discriminate|now left].
      - apply some_inj in E. subst m1. split; auto. apply quiet_refl. }
    destruct Q as [Q LV].
    assert (R1 : ring_ok m1) by (eapply same_links_ring_ok; [apply quiet_links; exact Q|exact R]).
    assert (B1 : forall i, In i l -> i < m_n m1) by (intros i Hi; rewrite (q_n _ _ Q); apply B; now right).
    pose proof (note_loop_quiet _ _ _ _ _ _ _ R1 B1 H) as Q'.
    destruct (IH _ _ _ _ R1 B1 H) as (l1 & l2 & -> & A & D).
    exists (v :: l1), l2. split; auto. split.
    + intros i [<-|Hi]; auto. destruct (live m' v) eqn:L'; auto.
      rewrite (quiet_live _ _ _ Q' L') in LV. discriminate.
    + destruct D as [D|D]; auto. right. cbn [length]. lia.
Qed.

Lemma nodup_app : forall (a b : list nat), NoDup a -> NoDup b -> (forall x, In x a -> ~ In x b) ->
  NoDup (a ++ b).
Proof.
  intros a b NA NB D. induction NA as [|x a N NA IH]; cbn [app]; auto. constructor.
  - rewrite in_app_iff. intros [H|H]; [auto|]. apply (D x); auto. now left.
  - apply IH. intros y Hy. apply D. now right.
Qed.
Lemma nodup_app_l : forall (a b : list nat), NoDup (a ++ b) -> NoDup a.
Proof.
  intros a b. induction a as [|x a IH]; intros H; [constructor|]. inversion H; subst.
  constructor; [|auto]. intros Hc. apply H2, in_app_iff. auto.
Qed.

(** After the check for note polyphony [p]: fewer than [p] voices of the group play the note, or
    (with self-masking) the ones left are all louder than the new one. *)
Lemma checkNote_room : forall I k d e m m' p, vinv I m -> vi_notePoly (i_info I k) = Some p ->
  (1 <= p <= 256)%Z ->
  checkNotePolyphony I k d e m = Some m' ->
  let g := vi_group (i_info I k) in
  (Z.of_nat (sounding_note I g (te_num e) m') < p)%Z
  \/ (vi_mask (i_info I k) = true
      /\ forall i, i < m_n m -> same_note I g (te_num e) m' i = true -> (te_val e < te_val (ev m' i))%Q).
Proof.
  intros I k d e m m' p V HP Hp H g.
  assert (QQ : quiet m m') by (eapply checkNote_quiet; eauto).
  unfold checkNotePolyphony in H. cbv zeta in H. rewrite HP in H. fold g in H.
  set (found := filter (note_match I g (te_num e) m) (m_active m)) in *.
  set (msk := fun i : nat => negb (vi_mask (i_info I k)) || Qle_bool (te_val (v_ev (m_voice m i))) (te_val e)) in *.
  match type of H with note_loop _ _ ?l _ _ _ = _ => set (srt := l) in H end.
  assert (PS : Permutation srt (filter msk found)) by (subst srt; destruct (vi_mask _); apply sort_by_perm).
  clearbody srt.
  assert (NF : NoDup found) by (apply NoDup_filter, (iv_active _ _ V)).
  assert (NS : NoDup srt) by (eapply Permutation_NoDup; [symmetry; exact PS|now apply NoDup_filter]).
  assert (SF : forall i, i < m_n m -> same_note I g (te_num e) m' i = true -> In i found).
  { intros i Hi HS. unfold same_note in HS. apply andb_true_iff in HS as [HC HN].
    apply counts_spec in HC as [L (k' & K & G)].
    assert (L0 := quiet_live _ _ _ QQ L). rewrite (quiet_rg _ _ _ QQ) in K.
    apply filter_In. split.
    - apply (iv_active _ _ V). apply live_spec in L0 as [L0 _]. split; auto. split; [congruence|].
      exists k'. split; auto. split; auto. eapply iv_play; eauto.
    - rewrite note_match_same. unfold same_note. apply andb_true_iff. split.
      + apply counts_spec. eauto.
      + pose proof (quiet_ev _ _ i QQ) as EE. unfold ev in EE. now rewrite <- EE. }
  destruct (note_loop_spec _ _ _ _ _ _ _ (iv_ring _ _ V) ltac:(
    intros i Hi; eapply Permutation_in in Hi; [|exact PS]; apply filter_In in Hi as [Hi _];
    apply filter_In in Hi as [Hi _]; eapply vinv_active_lt; eauto) H) as (l1 & l2 & ES & OFF & D).
  assert (U : (u32 (p - 1) = p - 1)%Z) by (unfold u32; rewrite Z.mod_small; lia). rewrite U in D.
  (* at most |found| - |l1| remain *)
  assert (LEN : sounding_note I g (te_num e) m' + length l1 <= length found).
  { unfold sounding_note. rewrite <- app_length. apply NoDup_incl_length.
    - apply nodup_app.
      + apply NoDup_filter, seq_NoDup.
      + rewrite ES in NS. eapply nodup_app_l; eauto.
      + intros x Hx Hl. apply filter_In in Hx as [_ Hx]. apply andb_true_iff in Hx as [Hx _].
        apply counts_spec in Hx as [Hx _]. rewrite (OFF x Hl) in Hx. discriminate.
    - intros x Hx. apply in_app_iff in Hx as [Hx|Hx].
      + apply filter_In in Hx as [Hi Hx]. apply in_seq in Hi. rewrite (q_n _ _ QQ) in Hi. apply SF; auto. lia.
      + assert (HI : In x srt) by (rewrite ES; apply in_app_iff; auto).
        eapply Permutation_in in HI; [|exact PS]. now apply filter_In in HI as [HI _]. }
  destruct D as [D|D]; [|left; lia].
  subst l2. rewrite app_nil_r in ES. subst l1.
  destruct (vi_mask (i_info I k)) eqn:MK.
  - right. split; auto. intros i Hi HS. pose proof (SF i Hi HS) as HF.
    apply Qnot_le_lt. intros LE. unfold same_note in HS. apply andb_true_iff in HS as [HS _].
    apply counts_spec in HS as [HS _]. rewrite OFF in HS; [discriminate|].
    eapply Permutation_in; [symmetry; exact PS|]. apply filter_In. split; auto. subst msk. cbv beta.
    cbn [negb orb]. apply Qle_bool_iff. pose proof (quiet_ev _ _ i QQ) as EE. unfold ev in EE, LE.
    now rewrite <- EE.
  - left. apply Permutation_length in PS.
    replace (filter msk found) with found in PS; [lia|]. subst msk. cbv beta. clear.
    induction found as [|x l IH]; cbn [filter negb orb]; auto. now f_equal.
Qed.

Lemma same_note_quiet : forall I g n m m' i, quiet m m' -> same_note I g n m' i = true ->
  same_note I g n m i = true.
Proof.
  intros I g n m m' i Q H. unfold same_note in *. apply andb_true_iff in H as [A B].
  apply andb_true_iff. split.
  - apply counts_spec in A as [L (k & K & G)]. apply counts_spec. split; [eapply quiet_live; eauto|].
    rewrite (quiet_rg _ _ _ Q) in K. eauto.
  - pose proof (quiet_ev _ _ i Q) as EE. unfold ev in EE. now rewrite <- EE.
Qed.

(** A start of a region with note_polyphony [p] by a note: afterwards at most [p] voices of its
    group play this note, except that with self-masking louder voices are left alone. *)
Theorem C20_note_polyphony : forall I E defaults md sw bps count n os s k d e ring s' ring' p,
  frun I E defaults (f_load I md sw bps count n) os = Some s -> head_ok (f_vm s) ring ->
  vi_notePoly (i_info I k) = Some p -> (1 <= p <= 256)%Z -> te_type e <> ECC ->
  f_startVoice I E k d e (s, ring) = Some (s', ring') ->
  let g := vi_group (i_info I k) in
  (Z.of_nat (sounding_note I g (te_num e) (f_vm s')) <= p)%Z
  \/ (vi_mask (i_info I k) = true
      /\ exists i, forall j, j < m_n (f_vm s') -> j <> i ->
           same_note I g (te_num e) (f_vm s') j = true ->
           (te_val e < te_val (v_ev (m_voice (f_vm s') j)))%Q).
Proof.
  intros I E defaults md sw bps count n os s k d e ring s' ring' p H HO HP Hp HT HS g.
  pose proof (frun_vinv _ _ _ _ _ _ _ _ _ _ H) as V.
  rewrite f_startVoice_vm in HS. destruct (vm_start _ _ _ _ _ _ _ _) as [[m' r']|] eqn:EV; [|discriminate].
  apply some_inj in HS. pose proof (f_equal fst HS) as HS'. cbn [fst] in HS'. subst s'. cbn [f_vm].
  destruct (vm_start_spec _ _ _ _ _ _ _ _ _ _ V HO EV) as (m1 & EC & Q & V' & _ & LN & D).
  unfold checkPolyphony in EC. apply bind_inv in EC as (m0 & E0 & EC).
  assert (Q0 : quiet (f_vm s) m0) by (eapply checkNote_quiet; eauto).
  assert (V0 : vinv I m0) by (eapply quiet_vinv; eauto).
  assert (Q1 : quiet m0 m1).
  { apply bind_inv in EC as (m2 & E2 & EC). apply bind_inv in EC as (m3 & E3 & EC).
    apply bind_inv in EC as (m4 & E4 & EC).
    assert (A2 : quiet m0 m2).
    { eapply steal_and_off_quiet; [apply V0| |exact E2]. intros i. apply (vinv_active_lt I). exact V0. }
    assert (V2 : vinv I m2) by (eapply quiet_vinv; eauto).
    assert (A3 : quiet m2 m3).
    { eapply steal_and_off_quiet; [apply V2| |exact E3]. intros i Hi.
      eapply list_ok_lt; [apply (iv_group _ _ V2 (vi_group (i_info I k)))|exact Hi]. }
    assert (V3 : vinv I m3) by (eapply quiet_vinv; eauto).
    assert (A4 : quiet m3 m4) by (eapply checkSet_quiet; eauto).
    assert (V4 : vinv I m4) by (eapply quiet_vinv; eauto).
    assert (A5 : quiet m4 m1).
    { eapply steal_and_off_quiet; [apply V4| |exact EC]. intros i. apply (vinv_active_lt I). exact V4. }
    eauto using quiet_trans. }
  clear EC. pose proof (checkNote_room _ _ _ _ _ _ _ V HP Hp E0) as R. cbv zeta in R. fold g in R.
  assert (LE : forall i, same_note I g (te_num e) m1 i = true -> same_note I g (te_num e) m0 i = true)
    by (intros i; now apply same_note_quiet).
  destruct D as [(_ & -> & _)|(i & _ & S)].
  - destruct R as [R|[M R]].
    + left. assert (sounding_note I g (te_num e) m1 <= sounding_note I g (te_num e) m0); [|lia].
      unfold sounding_note. rewrite (q_n _ _ Q1). apply filter_le. auto.
    + right. split; auto. exists 0. intros j Hj _ HJ. rewrite (q_n _ _ Q) in Hj.
      pose proof (quiet_ev _ _ j Q1) as EE. unfold ev in EE. rewrite EE. apply R; auto.
  - assert (OT : forall j, j <> i -> same_note I g (te_num e) m' j = true -> same_note I g (te_num e) m1 j = true
       /\ v_ev (m_voice m' j) = v_ev (m_voice m1 j)).
    { intros j Hj HJ. pose proof (core_st _ _ _ (sd_other _ _ _ _ _ _ _ S j Hj)) as (A1 & A2 & A3 & A4 & A5 & _).
      unfold ev in A3. split; auto. unfold same_note in *. rewrite <- A3. apply andb_true_iff in HJ as [X Y].
      apply andb_true_iff. split; auto. apply counts_spec in X. apply counts_spec. rewrite <- A5, <- A2. exact X. }
    destruct R as [R|[M R]].
    + left. assert (sounding_note I g (te_num e) m' <= Datatypes.S (sounding_note I g (te_num e) m0)); [|lia].
      unfold sounding_note. rewrite LN, (q_n _ _ Q0). apply filter_plus with (i := i); [apply seq_NoDup|].
      intros x _ Hx HX. apply LE. now apply OT.
    + right. split; auto. exists i. intros j Hj Hn HJ. destruct (OT j Hn HJ) as [X Y]. rewrite Y.
      pose proof (quiet_ev _ _ j Q1) as EE. unfold ev in EE. rewrite EE. apply R; auto. now rewrite <- LN.
Qed.

(** * Examples *)
Local Open Scope Z_scope.

(** Two regions are struck; the first has polyphony 2.  Its third note turns off the first note
    of both regions, which are one ring. *)
Definition poly_instr : instr := xinstr SOldest 5 256 [(xa, xinfo 0 None 2 None true); (xa, xi)].
Definition poly_ops : list fop :=
  [xop (ONoteOn 0 60 1%Q); xop (OBlock 64); xop (ONoteOn 0 61 1%Q); xop (OBlock 64)].
Example C20_ex :
  option_map (fun s => (sounding (f_vm s) (in_region 0), sounding (f_vm s) (in_group poly_instr 0),
                        sounding (f_vm s) in_engine, length (m_active (f_vm s)))) (xrun poly_instr 2 8 poly_ops)
  = Some (2%nat, 4%nat, 4%nat, 4%nat)
  /\ option_map (fun s => (sounding (f_vm s) (in_region 0), sounding (f_vm s) (in_group poly_instr 0),
                        sounding (f_vm s) in_engine, length (m_active (f_vm s))))
    (xrun poly_instr 2 8 (poly_ops ++ [xop (ONoteOn 0 62 1%Q)]))
  = Some (2%nat, 4%nat, 4%nat, 6%nat).
Proof. split; vm_compute; reflexivity. Qed.

(** A region with polyphony=0 plays all the same. *)
Theorem C20_zero_limit_refuted : exists I s, vi_poly (i_info I 0) = 0
  /\ xrun I 1 8 [xop (ONoteOn 0 60 1%Q)] = Some s /\ sounding (f_vm s) (in_region 0) = 1%nat.
Proof.
  pose (I := xinstr SOldest 256 256 [(xa, xinfo 0 None 0 None true)]).
  assert (H : option_map (fun s => sounding (f_vm s) (in_region 0)) (xrun I 1 8 [xop (ONoteOn 0 60 1%Q)])
     = Some 1%nat) by (vm_compute; reflexivity).
  apply option_map_inv in H as (s & R & A). exists I, s. split; [reflexivity|]. split; [exact R|exact A].
Qed.

(** note_polyphony=1 with the default self-masking: a softer note does not turn off a louder one. *)
Theorem C20_self_mask_refuted : exists I s, vi_notePoly (i_info I 0) = Some 1 /\ vi_mask (i_info I 0) = true
  /\ xrun I 1 8 [xop (ONoteOn 0 60 1%Q); xop (OBlock 64); xop (ONoteOn 0 60 (1#2)%Q)] = Some s
  /\ sounding_note I 0 60 (f_vm s) = 2%nat.
Proof.
  pose (I := xinstr SOldest 256 256 [(xa, xinfo 0 None 256 (Some 1) true)]).
  assert (H : option_map (fun s => sounding_note I 0 60 (f_vm s))
     (xrun I 1 8 [xop (ONoteOn 0 60 1%Q); xop (OBlock 64); xop (ONoteOn 0 60 (1#2)%Q)])
     = Some 2%nat) by (vm_compute; reflexivity).
  apply option_map_inv in H as (s & R & A). exists I, s. split; [reflexivity|]. split; [reflexivity|].
  split; [exact R|exact A].
Qed.

(** note_polyphony=1 without self-masking on a region started by a controller: its voices carry the
    key centre as their note, the check looks for the controller number. *)
Theorem C20_controller_refuted : exists I s, vi_notePoly (i_info I 0) = Some 1 /\ vi_mask (i_info I 0) = false
  /\ xrun I 1 8 [xop (OCC 0 20 1%Q); xop (OCC 10 20 0%Q); xop (OCC 20 20 1%Q)] = Some s
  /\ sounding_note I 0 60 (f_vm s) = 2%nat.
Proof.
  pose (I := xinstr SOldest 256 256 [(xregion TAttack 0 127 [(20, ((1#2)%Q, 1%Q))], xinfo 0 None 256 (Some 1) false)]).
  assert (H : option_map (fun s => sounding_note I 0 60 (f_vm s))
     (xrun I 1 8 [xop (OCC 0 20 1%Q); xop (OCC 10 20 0%Q); xop (OCC 20 20 1%Q)])
     = Some 2%nat) by (vm_compute; reflexivity).
  apply option_map_inv in H as (s & R & A). exists I, s. split; [reflexivity|]. split; [reflexivity|].
  split; [exact R|exact A].
Qed.

(** The limit of [C20_note_polyphony] is reached without self-masking, and kept. *)
Definition note_instr : instr := xinstr SOldest 256 256 [(xa, xinfo 0 None 256 (Some 2) false)].
Example C20_note_polyphony_ex :
  option_map (fun s => (sounding_note note_instr 0 60 (f_vm s), length (m_active (f_vm s))))
    (xrun note_instr 1 8 (concat (repeat [xop (ONoteOn 0 60 1%Q); xop (OBlock 64)] 4)))
  = Some (2%nat, 4%nat).
Proof. vm_compute. reflexivity. Qed.

(** One voice asked for, five there: the sixth start takes the oldest of the voices turned off. *)
Example C53_ex :
  option_map (fun s => (m_n (f_vm s), show (f_vm s)))
    (xrun (xinstr SOldest 256 256 [(xa, xi)]) 1 1
       (map (fun k => xop (ONoteOn 0 k 1%Q)) [60; 61; 62; 63; 64; 65]))
  = Some (5%nat, [(0%nat, VPlaying, Some 0%nat, 65, false); (1%nat, VPlaying, Some 0%nat, 61, true);
                  (2%nat, VPlaying, Some 0%nat, 62, true); (3%nat, VPlaying, Some 0%nat, 63, true);
                  (4%nat, VPlaying, Some 0%nat, 64, true)]).
Proof. vm_compute. reflexivity. Qed.
