(** C23: which voices a starting region turns off. *)
From Coq Require Import ZArith QArith List Bool Lia Arith Permutation.
From Verif Require Import ContainersModel MidiModel MidiProps LayerModel LayerProofs LayerSteps VoiceModel VoiceRings VoiceInv
  VoiceSteps VoiceProps VoiceExamples VoiceEvent VoicePoly VoiceChoke.
Import ListNotations.
Local Open Scope nat_scope.

(** The voices region [other] turns off when it starts on number [n]: those sounding a region
    whose off_by is its group, except release voices, voices already off, and voices of its own
    group and number whose region still has its controller conditions met. *)
Definition chokes (I : instr) (s : fsys) (other : nat) (n : Z) (i : nat) : Prop :=
  exists k, v_region (m_voice (f_vm s) i) = Some k
    /\ v_offed (m_voice (f_vm s) i) = false
    /\ te_type (v_ev (m_voice (f_vm s) i)) <> ENoteOff
    /\ vi_offBy (i_info I k) = Some (vi_group (i_info I other))
    /\ (vi_group (i_info I k) <> vi_group (i_info I other)
        \/ (exists r l, nth_error (s_layers (f_sys s)) k = Some (r, l) /\ bits_all (l_cc l) = false)
        \/ te_num (v_ev (m_voice (f_vm s) i)) <> n).

Lemma off_group_spec : forall I s other n i, off_group I s other n i = true <-> chokes I s other n i.
Proof.
  intros I s other n i. unfold off_group, chokes. cbv zeta.
  destruct (v_region _) as [k|]; [|split; [discriminate|intros (k & A & _); discriminate]].
  rewrite !andb_true_iff, !orb_true_iff, !negb_true_iff, !Z.eqb_neq. split.
  - intros (((A & B) & C) & D). exists k. split; auto. split; auto.
    split; [destruct (te_type _); congruence|]. split.
    + destruct (vi_offBy _); [apply Z.eqb_eq in C; now subst|discriminate].
    + destruct D as [[D|D]|D]; auto. right. left.
      destruct (nth_error _ _) as [[r l]|]; [|discriminate]. exists r, l. split; auto. now apply negb_true_iff.
  - intros (k' & EK & A & B & C & D). injection EK as <-. rewrite A, C, Z.eqb_refl.
    split; [split; [split; auto; destruct (te_type _); congruence|auto]|].
    destruct D as [D|[(r & l & EL & D)|D]]; auto.
    left; right. rewrite EL. now rewrite D.
Qed.

(** * What note-off dispatch leaves alone *)
Lemma ofold_rel : forall A B (f : A -> B -> option A) (R : A -> A -> Prop) l a a',
  (forall a, R a a) -> (forall a b c, R a b -> R b c -> R a c) ->
  (forall a b a', In b l -> f a b = Some a' -> R a a') -> ofold f l a = Some a' -> R a a'.
Proof.
  intros A B f R l. induction l as [|b l IH]; intros a a' Rr Rt Hf H; cbn [ofold] in H.
  - apply some_inj in H. now subst.
  - apply bind_inv in H as (a1 & E & H). eapply Rt; [eapply Hf; [now left|exact E]|].
    eapply IH; eauto. intros. eapply Hf; eauto. now right.
Qed.

Section DISPATCH.
Variable I : instr.
Variable E : env.
(** A relation between states before and after, kept by what the dispatch is made of. *)
Variable R : fsys -> fsys -> Prop.
Hypothesis Rr : forall s, R s s.
Hypothesis Rt : forall a b c, R a b -> R b c -> R a c.
Hypothesis Rtick : forall s, R s (tick s).
Hypothesis Rswitch : forall s n, R s (put_sys s (all_layers (switch_off n) (f_sys s))).
Hypothesis Rlayer : forall s k n v rnd att, R s (put_sys s (fst (off_layer k n v rnd att (f_sys s)))).
Hypothesis Roff : forall s i d, i < m_n (f_vm s) -> R s (put_vm s (v_off I d i (f_vm s))).
Hypothesis Rstart : forall k d n v s r s' r', vinv I (f_vm s) -> head_ok (f_vm s) r ->
  f_startVoice I E k d (TE ENoteOff n v) (s, r) = Some (s', r') -> R s s'.

Definition RV (s s' : fsys) : Prop :=
  vinv I (f_vm s) -> R s s' /\ vinv I (f_vm s') /\ m_n (f_vm s') = m_n (f_vm s).
Lemma RV_refl : forall s, RV s s. Proof. intros s V. auto. Qed.
Lemma RV_trans : forall a b c, RV a b -> RV b c -> RV a c.
Proof.
  intros a b c H1 H2 V. destruct (H1 V) as (A & B & C). destruct (H2 B) as (A2 & B2 & C2).
  split; [eauto|]. split; auto. congruence.
Qed.
Lemma RV_sys : forall s x, R s (put_sys s x) -> RV s (put_sys s x).
Proof. intros s x H V. auto. Qed.

Lemma step_rel : forall dispatch other d n byCC s i s', i < m_n (f_vm s) ->
  (forall n v s s', dispatch n v s = Some s' -> RV s s') ->
  off_group_step I dispatch other d n byCC s i = Some s' -> RV s s'.
Proof.
  intros dispatch other d n byCC s i s' Hi HD H. unfold off_group_step in H.
  assert (O : RV s (put_vm s (v_off I d i (f_vm s)))).
  { intros V. split; [now apply Roff|]. cbn [put_vm f_vm].
    split; [eapply quiet_vinv; [apply v_off_quiet|exact V]|]. apply (q_n _ _ (v_off_quiet I d i (f_vm s))). }
  destruct (off_group _ _ _ _ _); [|apply some_inj in H; subst; apply RV_refl]. cbv zeta in H.
  destruct (_ && _).
  - eapply RV_trans; [exact O|]. eapply HD; eauto.
  - apply some_inj in H. subst. exact O.
Qed.
Lemma check_rel_list : forall dispatch other d n byCC,
  (forall n v s s', dispatch n v s = Some s' -> RV s s') ->
  forall l a a', (forall i, In i l -> i < m_n (f_vm a)) ->
    ofold (off_group_step I dispatch other d n byCC) l a = Some a' -> RV a a'.
Proof.
  intros dispatch other d n byCC HD l. induction l as [|i l IH]; intros a a' Hl HH; cbn [ofold] in HH.
  - apply some_inj in HH. subst. apply RV_refl.
  - apply bind_inv in HH as (a1 & E1 & HH).
    assert (S1 : RV a a1) by (eapply step_rel; eauto; apply Hl; now left).
    intros V. destruct (S1 V) as (R1 & V1 & N1).
    destruct (IH a1 a') as (R2 & V2 & N2); auto.
    { intros j Hj. rewrite N1. apply Hl. now right. }
    split; [eauto|]. split; auto. congruence.
Qed.
Lemma check_rel : forall dispatch other d n byCC s s',
  (forall n v s s', dispatch n v s = Some s' -> RV s s') ->
  checkOffGroups I dispatch other d n byCC s = Some s' -> RV s s'.
Proof.
  intros dispatch other d n byCC s s' HD H. unfold checkOffGroups in H.
  eapply check_rel_list; [exact HD| |exact H]. intros i Hi. apply in_seq in Hi. lia.
Qed.
Lemma dispatch_rel : forall fuel d n v s s', f_noteOffDispatch fuel I E d n v s = Some s' -> RV s s'.
Proof.
  intros fuel. induction fuel as [|fuel IH]; intros d n v s s' H; [discriminate|].
  cbn [f_noteOffDispatch] in H. cbv zeta in H.
  match type of H with omap_fst ?x = _ => destruct x as [[s1 r1]|] eqn:EO; [|discriminate] end.
  cbn [omap_fst] in H. apply some_inj in H. subst s1.
  apply ofold_rel with (R := fun a b => head_ok (f_vm (fst a)) (snd a) -> vinv I (f_vm (fst a)) ->
    RV (fst a) (fst b) /\ head_ok (f_vm (fst b)) (snd b)) in EO.
  - cbn [fst snd] in EO. intros V. destruct EO as [EO _]; [exact Logic.I|exact V|].
    destruct (EO V) as (R1 & V1 & N1). split; [|split; auto].
    eapply Rt; [|exact R1]. eapply Rt; [apply (Rswitch s n)|]. apply Rtick.
  - intros [s0 r0] HO V. split; [apply RV_refl|exact HO].
  - intros [a ra] [b rb] [c rc] H1 H2 HO V. cbn [fst snd] in *.
    destruct (H1 HO V) as [X1 Y1]. destruct (X1 V) as (_ & VB & _).
    destruct (H2 Y1 VB) as [X2 Y2]. split; auto. eapply RV_trans; eauto.
  - intros [s0 r0] k [s2 r2] _ HK HO V. cbn [fst snd] in *. unfold f_off_layer in HK.
    pose proof (Rlayer s0 k n v (e_rand E (f_tick s)) (playingAttackVoice I (f_vm s0) k)) as RL.
    destruct (off_layer _ _ _ _ _ _) as [x t]. cbn [fst] in RL. destruct t.
    + apply bind_inv in HK as (s3 & E3 & HK).
      assert (C : RV (put_sys s0 x) s3) by (eapply check_rel; [|exact E3]; intros; eapply IH; eauto).
      destruct (C V) as (R3 & V3 & N3).
      assert (HO3 : head_ok (f_vm s3) r0).
      { destruct r0; cbn in *; [rewrite N3|]; auto. }
      pose proof (Rstart _ _ _ _ _ _ _ _ V3 HO3 HK) as RS.
      rewrite f_startVoice_vm in HK. destruct (vm_start _ _ _ _ _ _ _ _) as [[m' r']|] eqn:EV; [|discriminate].
      apply some_inj in HK. injection HK as HS HR. subst r'.
      destruct (vm_start_spec _ _ _ _ _ _ _ _ _ _ V3 HO3 EV) as (m1 & _ & _ & V' & HO' & LN & _).
      rewrite <- HS at 2. cbn [f_vm]. split; [|exact HO']. intros _.
      rewrite <- HS at 2 3. cbn [f_vm]. split; [|split; [exact V'|rewrite LN; exact N3]].
      eapply Rt; [exact RL|]. eapply Rt; [exact R3|exact RS].
    + apply some_inj in HK. injection HK as <- <-. split; [now apply RV_sys|exact HO].
Qed.
End DISPATCH.

(** * No voice becomes chokeable, no controller condition changes *)
Definition conds (s : fsys) (k : nat) : option (Z -> bool) :=
  option_map (fun p => l_cc (snd p)) (nth_error (s_layers (f_sys s)) k).
Definition keeps (s s' : fsys) : Prop :=
  (forall i, chokeable (f_vm s') i = true ->
     chokeable (f_vm s) i = true /\ v_region (m_voice (f_vm s') i) = v_region (m_voice (f_vm s) i)
     /\ v_ev (m_voice (f_vm s') i) = v_ev (m_voice (f_vm s) i))
  /\ (forall k, conds s' k = conds s k).

Lemma quiet_keeps : forall s m, quiet (f_vm s) m -> keeps s (put_vm s m).
Proof.
  intros s m Q. split; [|reflexivity]. intros i H. cbn [put_vm f_vm] in *.
  split; [now apply (chokeable_quiet _ _ _ Q)|]. split; [apply (quiet_rg _ _ i Q)|apply (quiet_ev _ _ i Q)].
Qed.
Lemma sys_keeps : forall s x, (forall k, conds (put_sys s x) k = conds s k) -> keeps s (put_sys s x).
Proof. intros s x H. split; auto. Qed.
Lemma keeps_refl : forall s, keeps s s. Proof. intros s. split; auto. Qed.
Lemma keeps_trans : forall a b c, keeps a b -> keeps b c -> keeps a c.
Proof.
  intros a b c [A1 A2] [B1 B2]. split.
  - intros i H. destruct (B1 i H) as (X & Y & Z0). destruct (A1 i X) as (X1 & Y1 & Z1).
    split; auto. split; congruence.
  - intros k. now rewrite B2, A2.
Qed.
Lemma keeps_layer : forall s k n v rnd att,
  keeps s (put_sys s (fst (off_layer k n v rnd att (f_sys s)))).
Proof.
  intros s k n v rnd att. apply sys_keeps. intros j. unfold conds. cbn [put_sys f_sys].
  pose proof (off_layer_lay k n v rnd att (f_sys s) j) as H. unfold lay in H. rewrite H.
  destruct (nth_error (s_layers (f_sys s)) j) as [[r l]|]; [|reflexivity].
  destruct (_ && _); [|reflexivity]. cbn [option_map snd]. f_equal. apply registerNoteOff_fields.
Qed.
Lemma keeps_switch : forall s n, keeps s (put_sys s (all_layers (switch_off n) (f_sys s))).
Proof.
  intros s n. apply sys_keeps. intros j. unfold conds. cbn [put_sys f_sys].
  pose proof (lay_all (switch_off n) (f_sys s) j) as H. unfold lay in H. rewrite H.
  destruct (nth_error (s_layers (f_sys s)) j) as [[r l]|]; [|reflexivity].
  cbn [option_map snd fst]. f_equal. apply switch_off_fields.
Qed.
Lemma keeps_start : forall I E k d n v s r s' r', vinv I (f_vm s) -> head_ok (f_vm s) r ->
  f_startVoice I E k d (TE ENoteOff n v) (s, r) = Some (s', r') -> keeps s s'.
Proof.
  intros I E k d n v s r s' r' V HO H. rewrite f_startVoice_vm in H.
  destruct (vm_start _ _ _ _ _ _ _ _) as [[m' r1]|] eqn:EV; [|discriminate].
  apply some_inj in H. injection H as <- _.
  destruct (vm_start_spec _ _ _ _ _ _ _ _ _ _ V HO EV) as (m1 & EC & Q & V' & HO' & LN & DD).
  split; [|reflexivity]. cbn [f_vm]. intros i H.
  assert (H1 : chokeable m1 i = true /\ rg m' i = rg m1 i /\ ev m' i = ev m1 i).
  { destruct DD as [(_ & -> & _)|(j & _ & S)]; [auto|].
    apply chokeable_spec in H as (A & B & C). destruct (Nat.eq_dec i j) as [->|Hx].
    - rewrite (sd_type _ _ _ _ _ _ _ S) in C. cbn [te_type] in C. congruence.
    - pose proof (core_st _ _ _ (sd_other _ _ _ _ _ _ _ S i Hx)) as (_ & RG & EV0 & O & _).
      split; auto. apply chokeable_spec. rewrite <- RG, <- EV0, <- O. auto. }
  destruct H1 as (A & B & C). split; [now apply (chokeable_quiet _ _ _ Q)|].
  split; [exact (eq_trans B (quiet_rg _ _ i Q))|exact (eq_trans C (quiet_ev _ _ i Q))].
Qed.
Lemma dispatch_keeps : forall I E fuel d n v s s', f_noteOffDispatch fuel I E d n v s = Some s' ->
  RV I keeps s s'.
Proof.
  intros I E. apply dispatch_rel.
  - apply keeps_refl.
  - apply keeps_trans.
  - intros s. split; auto.
  - apply keeps_switch.
  - intros. apply keeps_layer.
  - intros. apply quiet_keeps, v_off_quiet.
  - intros. eapply keeps_start; eauto.
Qed.
Lemma keeps_chokes : forall I s s' other n i, keeps s s' -> chokes I s' other n i -> chokes I s other n i.
Proof.
  intros I s s' other n i [A B] (k & RG & O & T & OB & D).
  assert (C : chokeable (f_vm s') i = true).
  { apply chokeable_spec. unfold rg, offed, ev. rewrite RG, O. repeat split; auto. discriminate. }
  destruct (A i C) as (C0 & R0 & E0). apply chokeable_spec in C0 as (_ & O0 & _).
  exists k. rewrite <- R0, <- E0. split; auto. split; [exact O0|]. split; auto. split; auto.
  destruct D as [D|[(r & l & EL & D)|D]]; auto. right; left.
  specialize (B k). unfold conds in B. rewrite EL in B. cbn [option_map snd] in B.
  destruct (nth_error (s_layers (f_sys s)) k) as [[r0 l0]|]; [|discriminate].
  exists r0, l0. split; auto. cbn [option_map snd] in B. injection B as B. now rewrite <- B.
Qed.

(** * Nothing left to choke *)
Lemma check_none_left : forall I E fuel other d n byCC s s', vinv I (f_vm s) ->
  checkOffGroups I (fun n v => f_noteOffDispatch fuel I E d n v) other d n byCC s = Some s' ->
  keeps s s' /\ vinv I (f_vm s') /\ m_n (f_vm s') = m_n (f_vm s)
  /\ forall i, i < m_n (f_vm s) -> ~ chokes I s' other n i.
Proof.
  intros I E fuel other d n byCC s s' V H. unfold checkOffGroups in H.
  set (disp := fun n v => f_noteOffDispatch fuel I E d n v) in *.
  assert (HD : forall n v s s', disp n v s = Some s' -> RV I keeps s s')
    by (intros; eapply dispatch_keeps; eauto).
  assert (ST : forall a i a', vinv I (f_vm a) -> i < m_n (f_vm a) ->
     off_group_step I disp other d n byCC a i = Some a' ->
     (keeps a a' /\ vinv I (f_vm a') /\ m_n (f_vm a') = m_n (f_vm a)) /\ ~ chokes I a' other n i).
  { intros a i a' Va Hi HS.
    assert (K : keeps a a' /\ vinv I (f_vm a') /\ m_n (f_vm a') = m_n (f_vm a)).
    { eapply (step_rel I keeps keeps_refl keeps_trans); eauto. 1: intros; apply quiet_keeps, v_off_quiet. }
    split; [exact K|]. intros CH. unfold off_group_step in HS.
    destruct (off_group I a other n i) eqn:OG.
    - cbv zeta in HS.
      assert (K2 : keeps (put_vm a (v_off I d i (f_vm a))) a').
      { destruct (_ && _).
        - eapply HD; [exact HS|]. cbn [put_vm f_vm]. eapply quiet_vinv; [apply v_off_quiet|exact Va].
        - apply some_inj in HS. subst. apply keeps_refl. }
      apply (keeps_chokes _ _ _ _ _ _ K2) in CH as (k & _ & O & _). cbn [put_vm f_vm] in O.
      pose proof (v_off_offed I d i (f_vm a)) as O2. unfold offed in O2. congruence.
    - apply some_inj in HS. subst. apply off_group_spec in CH. congruence. }
  assert (G : forall l a a', vinv I (f_vm a) -> (forall i, In i l -> i < m_n (f_vm a)) ->
    ofold (off_group_step I disp other d n byCC) l a = Some a' ->
    keeps a a' /\ vinv I (f_vm a') /\ m_n (f_vm a') = m_n (f_vm a) /\ forall i, In i l -> ~ chokes I a' other n i).
  { induction l as [|j l IH]; intros a a' Va Hl HH; cbn [ofold] in HH.
    - apply some_inj in HH. subst. split; [apply keeps_refl|]. auto.
    - apply bind_inv in HH as (a1 & E1 & HH).
      destruct (ST a j a1 Va (Hl j (or_introl eq_refl)) E1) as ((K1 & V1 & N1) & C1).
      destruct (IH a1 a' V1) as (K2 & V2 & N2 & C2); auto.
      { intros i Hi. rewrite N1. apply Hl. now right. }
      split; [eapply keeps_trans; eauto|]. split; auto. split; [congruence|].
      intros i [<-|Hi]; auto. intros CH. apply C1. eapply keeps_chokes; eauto. }
  assert (LT : forall i, In i (seq 0 (m_n (f_vm s))) -> i < m_n (f_vm s)) by (intros i Hi; apply in_seq in Hi; lia).
  destruct (G _ _ _ V LT H) as (K & V' & N' & C).
  split; auto. split; auto. split; auto. intros i Hi. apply C. apply in_seq. lia.
Qed.

(** * Termination for every instrument *)
Lemma keeps_chokeables : forall s s', keeps s s' -> m_n (f_vm s') = m_n (f_vm s) ->
  chokeables (f_vm s') <= chokeables (f_vm s).
Proof.
  intros s s' [K _] N. unfold chokeables. rewrite N. apply filter_le. intros i _ H. now apply K.
Qed.
Lemma ofold_ext_inv : forall A B (f g : A -> B -> option A) (Q : A -> Prop) l a,
  (forall a b, In b l -> Q a -> f a b = g a b) ->
  (forall a b a', In b l -> Q a -> f a b = Some a' -> Q a') -> Q a -> ofold f l a = ofold g l a.
Proof.
  intros A B f g Q l. induction l as [|b l IH]; intros a H1 H2 Ha; cbn [ofold]; auto.
  rewrite <- H1 by (auto; now left). destruct (f a b) as [a'|] eqn:E; cbn [bind]; auto.
  apply IH; auto.
  - intros. apply H1; auto. now right.
  - intros. eapply H2; eauto. now right.
  - eapply H2; eauto. now left.
Qed.

(** C22, for every instrument: once the depth allowed exceeds the number of voices still to be
    turned off, it no longer matters, so the recursion is never deeper than that.  (When the
    result is [None], a voice stealer was undefined, see [C22_calls_return].) *)
Theorem C22_bounded_depth : forall I E fuel fuel' d n v s, vinv I (f_vm s) ->
  chokeables (f_vm s) < fuel -> chokeables (f_vm s) < fuel' ->
  f_noteOffDispatch fuel I E d n v s = f_noteOffDispatch fuel' I E d n v s.
Proof.
  intros I E fuel. induction fuel as [|fuel IH]; intros fuel' d n v s V L L'; [lia|].
  destruct fuel' as [|fuel']; [lia|]. cbn [f_noteOffDispatch]. cbv zeta. f_equal.
  set (M := chokeables (f_vm s)) in *.
  assert (KD : forall F n v s s', f_noteOffDispatch F I E d n v s = Some s' -> RV I keeps s s')
    by (intros; eapply dispatch_keeps; eauto).
  (* checkOffGroups does not depend on the depth either *)
  assert (CK : forall other n0 s0, vinv I (f_vm s0) -> chokeables (f_vm s0) <= M ->
    checkOffGroups I (fun n v => f_noteOffDispatch fuel I E d n v) other d n0 false s0
    = checkOffGroups I (fun n v => f_noteOffDispatch fuel' I E d n v) other d n0 false s0).
  { intros other n0 s0 V0 L0. unfold checkOffGroups.
    apply ofold_ext_inv with (Q := fun a => vinv I (f_vm a) /\ chokeables (f_vm a) <= M /\ m_n (f_vm a) = m_n (f_vm s0)).
    - intros a i Hi (Va & La & Na). unfold off_group_step.
      destruct (off_group I a other n0 i) eqn:OG; auto. cbv zeta. destruct (_ && _); auto.
      apply off_group_chokeable in OG. apply in_seq in Hi.
      pose proof (chokeables_off I d i (f_vm a) ltac:(lia) OG) as LT.
      apply IH; cbn [put_vm f_vm]; [|lia|lia]. eapply quiet_vinv; [apply v_off_quiet|exact Va].
    - intros a i a' Hi (Va & La & Na) HS. apply in_seq in Hi.
      assert (K : keeps a a' /\ vinv I (f_vm a') /\ m_n (f_vm a') = m_n (f_vm a)).
      { eapply (step_rel I keeps keeps_refl keeps_trans); [| | |exact HS|exact Va].
        - intros; apply quiet_keeps, v_off_quiet.
        - lia.
        - intros. eapply KD; eauto. }
      destruct K as (K & Va' & Na'). split; auto. split; [|congruence].
      pose proof (keeps_chokeables _ _ K Na'). lia.
    - auto. }
  apply ofold_ext_inv with (Q := fun a => vinv I (f_vm (fst a)) /\ chokeables (f_vm (fst a)) <= M
                                          /\ head_ok (f_vm (fst a)) (snd a)).
  - intros [s0 r0] k _ (V0 & L0 & _). cbn [fst snd] in *. unfold f_off_layer.
    destruct (off_layer _ _ _ _ _ _) as [x t]. destruct t; auto. rewrite CK; auto.
  - intros [s0 r0] k [s2 r2] _ (V0 & L0 & HO) HK. cbn [fst snd] in *. unfold f_off_layer in HK.
    destruct (off_layer _ _ _ _ _ _) as [x t]. destruct t.
    + apply bind_inv in HK as (s3 & E3 & HK).
      assert (V1 : vinv I (f_vm (put_sys s0 x))) by exact V0.
      destruct (check_none_left _ _ _ _ _ _ _ _ _ V1 E3) as (K3 & V3 & N3 & _).
      assert (HO3 : head_ok (f_vm s3) r0) by (destruct r0; cbn in *; [rewrite N3|]; auto).
      pose proof (keeps_chokeables _ _ K3 N3) as L3. cbn [put_sys f_vm] in L3.
      pose proof (keeps_start _ _ _ _ _ _ _ _ _ _ V3 HO3 HK) as KS.
      rewrite f_startVoice_vm in HK. destruct (vm_start _ _ _ _ _ _ _ _) as [[m' r']|] eqn:EV; [|discriminate].
      apply some_inj in HK. injection HK as HS HR. subst r'.
      destruct (vm_start_spec _ _ _ _ _ _ _ _ _ _ V3 HO3 EV) as (m1 & _ & _ & V' & HO' & LN & _).
      assert (EM : f_vm s2 = m') by (rewrite <- HS; reflexivity).
      rewrite EM. split; auto. split; auto. rewrite <- EM.
      pose proof (keeps_chokeables _ _ KS ltac:(rewrite EM; exact LN)). lia.
    + apply some_inj in HK. injection HK as <- <-. auto.
  - cbn [fst snd]. split; [exact V|]. split; [apply Nat.le_refl|exact Logic.I].
Qed.

(** * Nothing else is turned off *)
Definition outs (s : fsys) : nat := length (s_out (f_sys s)).
Lemma start_outs : forall I E k d e s r s' r', f_startVoice I E k d e (s, r) = Some (s', r') ->
  outs s' = S (outs s).
Proof.
  intros I E k d e s r s' r' H. rewrite f_startVoice_vm in H.
  destruct (vm_start _ _ _ _ _ _ _ _) as [[m' r1]|]; [|discriminate].
  apply some_inj in H. injection H as <- _. unfold outs. cbn [f_sys emit s_out].
  rewrite app_length. cbn [length]. lia.
Qed.
(** Dispatching a note-off that starts nothing changes no voice. *)
Lemma dispatch_outs : forall I E fuel d n v s s', f_noteOffDispatch fuel I E d n v s = Some s' ->
  outs s <= outs s' /\ (outs s' = outs s -> f_vm s' = f_vm s).
Proof.
  intros I E fuel. induction fuel as [|fuel IH]; intros d n v s s' H; [discriminate|].
  assert (CH : forall l other n0 a a',
    ofold (off_group_step I (fun n v => f_noteOffDispatch fuel I E d n v) other d n0 false) l a = Some a' ->
    outs a <= outs a').
  { intros l other n0 a a' HH.
    apply ofold_rel with (R := fun a b => outs a <= outs b) in HH; auto.
    - intros; lia.
    - intros b i b' _ HS. unfold off_group_step in HS. destruct (off_group _ _ _ _ _); [|apply some_inj in HS; now subst].
      cbv zeta in HS. destruct (_ && _).
      + apply IH in HS as [HS _]. exact HS.
      + apply some_inj in HS. now subst. }
  cbn [f_noteOffDispatch] in H. cbv zeta in H.
  match type of H with omap_fst ?x = _ => destruct x as [[s1 r1]|] eqn:EO; [|discriminate] end.
  cbn [omap_fst] in H. apply some_inj in H. subst s1.
  apply ofold_rel with (R := fun a b => outs (fst a) <= outs (fst b)
    /\ (outs (fst b) = outs (fst a) -> f_vm (fst b) = f_vm (fst a))) in EO.
  - exact EO.
  - auto.
  - intros a b c [A1 A2] [B1 B2]. split; [lia|]. intros H. rewrite B2, A2; auto; lia.
  - intros [s0 r0] k [s2 r2] _ HK. cbn [fst]. unfold f_off_layer in HK.
    pose proof (off_layer_other k n v (e_rand E (f_tick s)) (playingAttackVoice I (f_vm s0) k) (f_sys s0)) as (_ & _ & OO & _).
    destruct (off_layer _ _ _ _ _ _) as [x t]. cbn [fst] in OO. destruct t.
    + apply bind_inv in HK as (s3 & E3 & HK). unfold checkOffGroups in E3. apply CH in E3.
      apply start_outs in HK. unfold outs in E3 at 1. cbn [put_sys f_sys] in E3. rewrite OO in E3.
      fold (outs s0) in E3. split; lia.
    + apply some_inj in HK. injection HK as <- _. unfold outs. cbn [put_sys f_sys f_vm]. rewrite OO. auto.
Qed.

(** Turned off by being choked, or left as it was. *)
Definition choked_or_same (I : instr) (s s' : fsys) (other : nat) (n : Z) (i : nat) : Prop :=
  (chokes I s other n i ->
     v_offed (m_voice (f_vm s') i) = true
     /\ v_region (m_voice (f_vm s') i) = v_region (m_voice (f_vm s) i)
     /\ v_ev (m_voice (f_vm s') i) = v_ev (m_voice (f_vm s) i))
  /\ (~ chokes I s other n i -> m_voice (f_vm s') i = m_voice (f_vm s) i).

Lemma check_exact : forall I E fuel other d n byCC s s', vinv I (f_vm s) ->
  checkOffGroups I (fun n v => f_noteOffDispatch fuel I E d n v) other d n byCC s = Some s' ->
  outs s <= outs s'
  /\ (outs s' = outs s -> forall i, i < m_n (f_vm s) -> choked_or_same I s s' other n i).
Proof.
  intros I E fuel other d n byCC s s' V H. unfold checkOffGroups in H.
  set (disp := fun n v => f_noteOffDispatch fuel I E d n v) in *.
  assert (ST : forall a i a', vinv I (f_vm a) -> i < m_n (f_vm a) ->
     off_group_step I disp other d n byCC a i = Some a' ->
     keeps a a' /\ vinv I (f_vm a') /\ m_n (f_vm a') = m_n (f_vm a) /\ outs a <= outs a'
     /\ (outs a' = outs a -> f_vm a' = if off_group I a other n i then v_off I d i (f_vm a) else f_vm a)).
  { intros a i a' Va Hi HS.
    assert (K : keeps a a' /\ vinv I (f_vm a') /\ m_n (f_vm a') = m_n (f_vm a)).
    { eapply (step_rel I keeps keeps_refl keeps_trans); eauto.
      - intros; apply quiet_keeps, v_off_quiet.
      - intros. eapply dispatch_keeps; eauto. }
    destruct K as (K1 & K2 & K3). split; auto. split; auto. split; auto.
    unfold off_group_step in HS. destruct (off_group I a other n i).
    - cbv zeta in HS. destruct (_ && _).
      + apply dispatch_outs in HS. exact HS.
      + apply some_inj in HS. subst. auto.
    - apply some_inj in HS. subst. auto. }
  assert (G : forall l a a', NoDup l -> vinv I (f_vm a) -> (forall i, In i l -> i < m_n (f_vm a)) ->
    ofold (off_group_step I disp other d n byCC) l a = Some a' ->
    outs a <= outs a' /\
    (outs a' = outs a -> (forall i, In i l -> choked_or_same I a a' other n i)
       /\ (forall i, ~ In i l -> m_voice (f_vm a') i = m_voice (f_vm a) i))).
  { induction l as [|j l IH]; intros a a' ND Va Hl HH; cbn [ofold] in HH.
    - apply some_inj in HH. subst. split; auto. intros _. split; [intros i []|auto].
    - apply bind_inv in HH as (a1 & E1 & HH). inversion ND; subst.
      destruct (ST a j a1 Va (Hl j (or_introl eq_refl)) E1) as (K1 & V1 & N1 & L1 & X1).
      destruct (IH a1 a') as (L2 & X2); auto.
      { intros i Hi. rewrite N1. apply Hl. now right. }
      split; [lia|]. intros EQ. specialize (X1 ltac:(lia)). destruct (X2 ltac:(lia)) as [X3 X4].
      assert (OTH : forall i, i <> j -> m_voice (f_vm a1) i = m_voice (f_vm a) i).
      { intros i Hn. rewrite X1. destruct (off_group _ _ _ _ _); auto. now apply v_off_other. }
      split.
      + intros i [<-|Hi].
        * unfold choked_or_same. rewrite (X4 j) by auto. rewrite X1.
          destruct (off_group I a other n j) eqn:OG.
          -- apply off_group_spec in OG. split; [|tauto]. intros _.
             pose proof (v_off_quiet I d j (f_vm a)) as Q.
             split; [exact (v_off_offed I d j (f_vm a))|].
             split; [exact (quiet_rg _ _ j Q)|exact (quiet_ev _ _ j Q)].
          -- split; [|auto]. intros CH. apply off_group_spec in CH. congruence.
        * assert (Hn : i <> j) by (intros ->; auto).
          specialize (X3 i Hi). unfold choked_or_same in *. rewrite <- (OTH i Hn).
          assert (EQC : chokes I a other n i <-> chokes I a1 other n i).
          { split; [|apply keeps_chokes; auto].
            intros (k & A & B & C & D & F). exists k. rewrite (OTH i Hn). repeat (split; auto).
            destruct F as [F|[(r & l0 & EL & F)|F]]; auto. right; left.
            destruct K1 as [_ KC]. specialize (KC k). unfold conds in KC. rewrite EL in KC.
            destruct (nth_error (s_layers (f_sys a1)) k) as [[r1 l1]|]; [|discriminate].
            exists r1, l1. split; auto. cbn [option_map snd] in KC. injection KC as KC. now rewrite KC. }
          rewrite EQC. exact X3.
      + intros i Hi. rewrite X4 by (intros X; apply Hi; now right). apply OTH. intros ->. apply Hi. now left. }
  assert (LT : forall i, In i (seq 0 (m_n (f_vm s))) -> i < m_n (f_vm s)) by (intros i Hi; apply in_seq in Hi; lia).
  destruct (G _ _ _ (seq_NoDup _ _) V LT H) as (L & X).
  split; auto. intros EQ i Hi. apply X; auto. apply in_seq. lia.
Qed.

Lemma check_cc_outs : forall I disp other d n s s',
  checkOffGroups I disp other d n true s = Some s' -> outs s' = outs s.
Proof.
  intros I disp other d n s s' H. unfold checkOffGroups in H.
  apply ofold_rel with (R := fun a b => outs b = outs a) in H; auto; [intros; congruence|].
  intros a i a' _ HS. unfold off_group_step in HS.
  destruct (off_group _ _ _ _ _); [|apply some_inj in HS; now subst]. cbv zeta in HS.
  rewrite andb_false_r in HS. apply some_inj in HS. now subst.
Qed.

(** C23: when a note-on starts region [k] from state [s], just before the voice is started (state
    [s1]) no voice it chokes is left, the voices that can be choked are among those that could be,
    and if the choking started no release region, exactly the voices it chokes were turned off. *)
Theorem C23_note_on_chokes : forall I E d n vel rnd s ring k s' ring',
  vinv I (f_vm s) -> f_on_layer I E d n vel rnd (s, ring) k = Some (s', ring') -> outs s' <> outs s ->
  exists s1, f_startVoice I E k d (TE ENoteOn n vel) (s1, ring) = Some (s', ring')
    /\ (forall i, i < m_n (f_vm s) -> ~ chokes I s1 k n i)
    /\ keeps s s1
    /\ (outs s' = S (outs s) -> forall i, i < m_n (f_vm s) -> choked_or_same I s s1 k n i).
Proof.
  intros I E d n vel rnd s ring k s' ring' V H HO. unfold f_on_layer in H.
  destruct (nth_error (s_layers (f_sys s)) k) as [[r l]|] eqn:EL; [|apply some_inj in H; injection H as <- _; congruence].
  destruct (negb _); [apply some_inj in H; injection H as <- _; congruence|].
  pose proof (registerNoteOn_fields r (s_midi (f_sys s)) n vel rnd l) as RF.
  destruct (registerNoteOn r (s_midi (f_sys s)) n vel rnd l) as [l' t]. cbv zeta in H. cbn [fst] in RF.
  set (s1 := put_sys s (on_layer k (fun _ _ => l') (f_sys s))) in *.
  assert (KS : forall j, conds s1 j = conds s j).
  { intros j. unfold conds, s1. cbn [put_sys f_sys].
    pose proof (lay_on_layer k (fun _ _ => l') (f_sys s) j) as LO. unfold lay in LO. rewrite LO.
    destruct (Nat.eqb_spec j k) as [JK|]; auto. rewrite JK, EL. cbn [option_map fst snd]. f_equal. rewrite RF.
    destruct (inZ _ _ _); auto. }
  destruct (_ && _).
  2: { apply some_inj in H. injection H as <- _. unfold outs, s1 in HO. cbn in HO. congruence. }
  apply bind_inv in H as (s2 & E2 & H). exists s2. split; [exact H|].
  unfold top_dispatch in E2.
  assert (V1 : vinv I (f_vm s1)) by exact V.
  destruct (check_none_left _ _ _ _ _ _ _ _ _ V1 E2) as (K & _ & _ & NL).
  destruct (check_exact _ _ _ _ _ _ _ _ _ V1 E2) as (LE & EX).
  assert (C1 : forall i, chokes I s k n i <-> chokes I s1 k n i).
  { assert (Kb : keeps s1 s) by (split; [auto|intros; now rewrite KS]).
    assert (Kf : keeps s s1) by (split; [auto|intros; now rewrite KS]).
    intros i. split; apply keeps_chokes; auto. }
  split; [exact NL|]. split.
  - eapply keeps_trans; [|exact K]. split; auto.
  - intros EQ i Hi. apply start_outs in H. specialize (EX ltac:(change (outs s1) with (outs s) in *; lia) i Hi).
    unfold choked_or_same in *. rewrite (C1 i). exact EX.
Qed.

(** The same for a release region started by a note-off. *)
Theorem C23_note_off_chokes : forall I E fuel d n vel rnd s ring k s' ring',
  vinv I (f_vm s) ->
  f_off_layer I E (fun n v => f_noteOffDispatch fuel I E d n v) d n vel rnd (s, ring) k = Some (s', ring') ->
  outs s' <> outs s ->
  exists s1, f_startVoice I E k d (TE ENoteOff n vel) (s1, ring) = Some (s', ring')
    /\ (forall i, i < m_n (f_vm s) -> ~ chokes I s1 k n i)
    /\ keeps s s1
    /\ (outs s' = S (outs s) -> forall i, i < m_n (f_vm s) -> choked_or_same I s s1 k n i).
Proof.
  intros I E fuel d n vel rnd s ring k s' ring' V H HO. unfold f_off_layer in H.
  pose proof (keeps_layer s k n vel rnd (playingAttackVoice I (f_vm s) k)) as K0.
  pose proof (off_layer_other k n vel rnd (playingAttackVoice I (f_vm s) k) (f_sys s)) as (_ & _ & OO & _).
  destruct (off_layer _ _ _ _ _ _) as [x t]. cbn [fst] in *.
  assert (OS : outs (put_sys s x) = outs s) by (unfold outs; cbn [put_sys f_sys]; now rewrite OO).
  destruct t; [|apply some_inj in H; injection H as <- _; congruence].
  apply bind_inv in H as (s2 & E2 & H). exists s2. split; [exact H|].
  assert (V1 : vinv I (f_vm (put_sys s x))) by exact V.
  destruct (check_none_left _ _ _ _ _ _ _ _ _ V1 E2) as (K & _ & _ & NL).
  destruct (check_exact _ _ _ _ _ _ _ _ _ V1 E2) as (LE & EX).
  assert (C1 : forall i, chokes I s k n i <-> chokes I (put_sys s x) k n i).
  { assert (Kb : keeps (put_sys s x) s) by (split; [auto|intros; now rewrite (proj2 K0)]).
    intros i. split; apply keeps_chokes; auto. }
  split; [exact NL|]. split; [eapply keeps_trans; eauto|].
  intros EQ i Hi. apply start_outs in H. specialize (EX ltac:(lia) i Hi).
  unfold choked_or_same in *. rewrite (C1 i). exact EX.
Qed.

(** A region started by a controller turns off exactly the voices it chokes, judged after its
    own conditions were updated (state [s0]). *)
Theorem C23_controller_chokes : forall I E d cc v rnd ext s ring k r l s' ring',
  vinv I (f_vm s) -> nth_error (s_layers (f_sys s)) k = Some (r, l) ->
  f_cc_register I E d cc v rnd ext k (s, ring) = Some (s', ring') -> outs s' <> outs s ->
  let s0 := put_sys s (on_layer k (fun _ _ => fst (registerCC r (s_midi (f_sys s)) cc v rnd ext l)) (f_sys s)) in
  exists s1, f_startVoice I E k d (TE ECC cc v) (s1, ring) = Some (s', ring')
    /\ forall i, i < m_n (f_vm s) -> ~ chokes I s1 k cc i /\ choked_or_same I s0 s1 k cc i.
Proof.
  intros I E d cc v rnd ext s ring k r l s' ring' V EL H HO s0. unfold f_cc_register in H. rewrite EL in H.
  subst s0. destruct (registerCC r (s_midi (f_sys s)) cc v rnd ext l) as [l' t]. cbv zeta in H. cbn [fst].
  set (s1 := put_sys s (on_layer k (fun _ _ => l') (f_sys s))) in *.
  destruct (_ && _).
  2: { apply some_inj in H. injection H as <- _. unfold outs, s1 in HO. cbn in HO. congruence. }
  apply bind_inv in H as (s2 & E2 & H). exists s2. split; [exact H|].
  pose proof (check_cc_outs _ _ _ _ _ _ _ E2) as OE. unfold top_dispatch in E2.
  assert (V1 : vinv I (f_vm s1)) by exact V.
  destruct (check_none_left _ _ _ _ _ _ _ _ _ V1 E2) as (_ & _ & _ & NL).
  destruct (check_exact _ _ _ _ _ _ _ _ _ V1 E2) as (LE & EX).
  intros i Hi. split; [now apply NL|]. now apply EX.
Qed.

(** * Examples *)
Local Open Scope Z_scope.
Definition xkey (t : trigger) (k : Z) := xregion t k k [].

(** Key 61 (group 2) turns off key 60 (off_by 2) and not key 62. *)
Definition choke_instr : instr := xinstr SOldest 256 256
  [(xkey TAttack 60, xinfo 1 (Some 2) 256 None true);
   (xkey TAttack 61, xinfo 2 None 256 None true);
   (xkey TAttack 62, xinfo 1 None 256 None true)].
Definition choke_ops := [xop (ONoteOn 0 60 1%Q); xop (ONoteOn 0 62 1%Q); xop (OBlock 64)].
Lemma xrun_vinv : forall I count n os s, xrun I count n os = Some s -> vinv I (f_vm s).
Proof. intros I count n os s H. exact (frun_vinv _ _ _ _ _ _ _ _ _ _ H). Qed.
Lemma C23_ex_state :
  option_map (fun s => (off_group choke_instr s 1 61 0, off_group choke_instr s 1 61 1,
     option_map (fun r => outs (fst r)) (f_on_layer choke_instr xenv 0 61 1%Q 0%Q (s, None) 1), outs s))
     (xrun choke_instr 3 8 choke_ops) = Some (true, false, Some 3%nat, 2%nat).
Proof. vm_compute. reflexivity. Qed.
Example C23_ex :
  option_map (fun s => show (f_vm s)) (xrun choke_instr 3 8 (choke_ops ++ [xop (ONoteOn 0 61 1%Q)]))
  = Some [(0%nat, VPlaying, Some 0%nat, 60, true); (1%nat, VPlaying, Some 2%nat, 62, false);
          (2%nat, VPlaying, Some 1%nat, 61, false)]
  /\ exists s, xrun choke_instr 3 8 choke_ops = Some s /\ vinv choke_instr (f_vm s)
     /\ chokes choke_instr s 1 61 0 /\ ~ chokes choke_instr s 1 61 1
     /\ option_map (fun r => outs (fst r)) (f_on_layer choke_instr xenv 0 61 1%Q 0%Q (s, None) 1) = Some 3%nat
     /\ outs s = 2%nat.
Proof.
  split; [vm_compute; reflexivity|].
  destruct (option_map_inv C23_ex_state) as (s & ES & F).
  apply pair_equal_spec in F as [F F4]. apply pair_equal_spec in F as [F F3]. apply pair_equal_spec in F as [F1 F2].
  exists s. split; [exact ES|]. split; [exact (xrun_vinv _ _ _ _ _ ES)|].
  split; [apply off_group_spec; exact F1|].
  split; [intros C; apply off_group_spec in C; rewrite F2 in C; discriminate C|]. split; [exact F3|exact F4].
Qed.

(** A controller starts region 1 and so turns off key 60. *)
Definition choke_cc_instr : instr := xinstr SOldest 256 256
  [(xkey TAttack 60, xinfo 1 (Some 2) 256 None true);
   (xregion TAttack 100 100 [(20, (1#2, 1)%Q)], xinfo 2 None 256 None true)].
Example C23_controller_ex :
  option_map (fun s => show (f_vm s)) (xrun choke_cc_instr 2 8
    [xop (ONoteOn 0 60 1%Q); xop (OBlock 64); xop (OCC 0 20 1%Q)])
  = Some [(0%nat, VPlaying, Some 0%nat, 60, true); (1%nat, VPlaying, Some 1%nat, 60, false)].
Proof. vm_compute. reflexivity. Qed.

(** Not every voice with a matching off_by: a key struck twice on a region of group 1 with off_by 1
    leaves its first voice sounding. *)
Theorem C23_same_key_refuted :
  exists I os s i k, xrun I 1 8 (os ++ [xop (ONoteOn 0 60 1%Q)]) = Some s
    /\ v_region (m_voice (f_vm s) i) = Some k /\ vi_offBy (i_info I k) = Some (vi_group (i_info I 0%nat))
    /\ v_offed (m_voice (f_vm s) i) = false /\ live (f_vm s) i = true
    /\ option_map (fun s => live (f_vm s) i) (xrun I 1 8 os) = Some true.
Proof.
  set (I := xinstr SOldest 256 256 [(xkey TAttack 60, xinfo 1 (Some 1) 256 None true)]).
  set (os := [xop (ONoteOn 0 60 1%Q); xop (OBlock 64)]).
  assert (H : option_map (fun s => (v_region (m_voice (f_vm s) 0%nat), v_offed (m_voice (f_vm s) 0%nat), live (f_vm s) 0))
    (xrun I 1 8 (os ++ [xop (ONoteOn 0 60 1%Q)])) = Some (Some 0%nat, false, true)) by (vm_compute; reflexivity).
  apply option_map_inv in H as (s & ES & F). apply pair_equal_spec in F as [F F3]. apply pair_equal_spec in F as [F1 F2].
  exists I, os, s, 0%nat, 0%nat. split; [exact ES|]. split; [exact F1|]. split; [reflexivity|].
  split; [exact F2|]. split; [exact F3|]. vm_compute. reflexivity.
Qed.
(** Release voices are never choked. *)
Theorem C23_release_voice_refuted :
  exists I os s i k, xrun I 2 8 os = Some s
    /\ v_region (m_voice (f_vm s) i) = Some k /\ vi_offBy (i_info I k) = Some 2
    /\ live (f_vm s) i = true /\ last os FAllSoundOff = xop (ONoteOn 0 61 1%Q)
    /\ option_map (fun s => s_out (f_sys s)) (xrun I 2 8 os)
       = Some [Start 0 ENoteOff 60 1%Q; Start 1 ENoteOn 61 1%Q]
    /\ vi_group (i_info I 1) = 2.
Proof.
  set (I := xinstr SOldest 256 256 [(xkey TReleaseKey 60, xinfo 1 (Some 2) 256 None true); (xkey TAttack 61, xinfo 2 None 256 None true)]).
  set (os := [xop (ONoteOn 0 60 1%Q); xop (OBlock 64); xop (ONoteOff 0 60 1%Q); xop (OBlock 64); xop (ONoteOn 0 61 1%Q)]).
  assert (H : option_map (fun s => (v_region (m_voice (f_vm s) 0%nat), live (f_vm s) 0)) (xrun I 2 8 os)
    = Some (Some 0%nat, true)) by (vm_compute; reflexivity).
  apply option_map_inv in H as (s & ES & F). apply pair_equal_spec in F as [F1 F2].
  exists I, os, s, 0%nat, 0%nat. split; [exact ES|]. split; [exact F1|]. split; [reflexivity|].
  split; [exact F2|]. split; [reflexivity|]. split; [vm_compute; reflexivity|reflexivity].
Qed.

(** Key 61 chokes key 60, whose note-off starts region 3 (group 3), which chokes key 62, though
    key 62 does not name group 2. *)
Definition nested_instr : instr := xinstr SOldest 256 256
  [(xkey TAttack 60, xinfo 1 (Some 2) 256 None true);
   (xkey TAttack 61, xinfo 2 (Some 1) 256 None true);
   (xkey TAttack 62, xinfo 1 (Some 3) 256 None true);
   (xr, xinfo 3 (Some 3) 256 None true)].
Theorem C23_nested_refuted :
  exists I os s i k, xrun I 4 8 (os ++ [xop (ONoteOn 0 61 1%Q)]) = Some s
    /\ v_region (m_voice (f_vm s) i) = Some k /\ vi_offBy (i_info I k) <> Some (vi_group (i_info I 1))
    /\ v_offed (m_voice (f_vm s) i) = true
    /\ option_map (fun s => (v_offed (m_voice (f_vm s) i), v_region (m_voice (f_vm s) i))) (xrun I 4 8 os)
       = Some (false, Some k).
Proof.
  set (os := choke_ops).
  assert (H : option_map (fun s => (v_region (m_voice (f_vm s) 1%nat), v_offed (m_voice (f_vm s) 1%nat)))
    (xrun nested_instr 4 8 (os ++ [xop (ONoteOn 0 61 1%Q)])) = Some (Some 2%nat, true)) by (vm_compute; reflexivity).
  apply option_map_inv in H as (s & ES & F). apply pair_equal_spec in F as [F1 F2].
  exists nested_instr, os, s, 1%nat, 2%nat. split; [exact ES|]. split; [exact F1|].
  split; [cbn; congruence|]. split; [exact F2|]. vm_compute. reflexivity.
Qed.

(** C22 on groups that refer to each other in a circle: the calls return, and the note-off of
    key 60 needs depth 2. *)
Example C22_ex :
  option_map (fun s => show (f_vm s)) (xrun nested_instr 4 8 (choke_ops ++ [xop (ONoteOn 0 61 1%Q)]))
  = Some [(0%nat, VPlaying, Some 0%nat, 60, true); (1%nat, VPlaying, Some 2%nat, 62, true);
          (2%nat, VPlaying, Some 3%nat, 62, false); (3%nat, VPlaying, Some 3%nat, 60, false);
          (4%nat, VPlaying, Some 1%nat, 61, false)]
  /\ option_map (fun s => (chokeables (f_vm s),
       match f_noteOffDispatch 1 nested_instr xenv 0 60 1%Q s with None => true | Some _ => false end,
       match f_noteOffDispatch 2 nested_instr xenv 0 60 1%Q s with None => true | Some _ => false end))
       (xrun nested_instr 4 8 choke_ops) = Some (2%nat, true, false)
  /\ positive_limits nested_instr 8
  /\ Forall (flegal nested_instr) (choke_ops ++ [xop (ONoteOn 0 61 1%Q)]).
Proof.
  split; [vm_compute; reflexivity|]. split; [vm_compute; reflexivity|].
  split; [intros S; discriminate|]. repeat constructor; cbn; discriminate.
Qed.

(** The limits matter: with the envelope stealer and a polyphony of 0, the first note is
    undefined behaviour. *)
Theorem C22_zero_limit_refuted :
  exists I os, Forall (flegal I) os /\ xrun I 1 8 os = None.
Proof.
  exists (xinstr SEnvelope 256 256 [(xa, xinfo 0 None 0 None true)]), [xop (ONoteOn 0 60 1%Q)].
  split; [repeat constructor; cbn; discriminate|]. vm_compute. reflexivity.
Qed.
