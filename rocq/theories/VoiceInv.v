(** Invariants of the voice manager and their preservation by the voice operations. *)
From Coq Require Import ZArith QArith List Bool Lia Arith Permutation.
From Verif Require Import ContainersModel ContainersProps MidiModel LayerModel VoiceModel VoiceRings.
Import ListNotations.
Local Open Scope nat_scope.

Definition st (m : vman) (i : nat) : vstate := v_state (m_voice m i).
Definition rg (m : vman) (i : nat) : option nat := v_region (m_voice m i).
Definition offed (m : vman) (i : nat) : bool := v_offed (m_voice m i).
Definition ev (m : vman) (i : nat) : tevent := v_ev (m_voice m i).

Lemma state_eqb_spec : forall a b, reflect (a = b) (state_eqb a b).
Proof. intros [] []; cbn; constructor; congruence. Qed.

(** * Lists of voices *)
Lemma pop_voice_spec : forall i l, NoDup l ->
  NoDup (pop_voice i l) /\ forall j, In j (pop_voice i l) <-> In j l /\ j <> i.
Proof.
  intros i l Hd. unfold pop_voice.
  destruct (C31_swapAndPopFirst nat (Nat.eqb i) l) as [[Hf E]|(m1 & x & m2 & v' & E & Hf & Hx & R & P)].
  - rewrite E. split; auto. intros j. split; [intros Hj; split; auto|tauto].
    intros ->. rewrite Forall_forall in Hf. specialize (Hf i Hj). now rewrite Nat.eqb_refl in Hf.
  - rewrite R. apply Nat.eqb_eq in Hx. subst x l.
    assert (Hp : NoDup (i :: m1 ++ m2)).
    { eapply Permutation_NoDup; [|exact Hd]. symmetry. apply Permutation_middle. }
    inversion Hp as [|? ? Hni Hnd]; subst.
    split; [eapply Permutation_NoDup; [symmetry; exact P|exact Hnd]|].
    intros j. split.
    + intros Hj. assert (Hj' : In j (m1 ++ m2)) by (eapply Permutation_in; eauto).
      split; [|intros ->; contradiction]. apply in_app_iff in Hj'. apply in_app_iff. cbn; tauto.
    + intros [Hj Hne]. eapply Permutation_in; [symmetry; exact P|]. apply in_app_iff in Hj.
      apply in_app_iff. destruct Hj as [Hj|[Hj|Hj]]; try tauto. congruence.
Qed.
Lemma push_voice_spec : forall i l, NoDup l ->
  NoDup (push_voice i l) /\ forall j, In j (push_voice i l) <-> In j l \/ j = i.
Proof.
  intros i l Hd. unfold push_voice. destruct (existsb (Nat.eqb i) l) eqn:E.
  - apply existsb_exists in E as (x & Hx & Ex). apply Nat.eqb_eq in Ex. subst x.
    split; auto. intros j. split; [tauto|]. intros [Hj|Hj]; subst; auto.
  - assert (Hn : ~ In i l).
    { intros Hin. assert (existsb (Nat.eqb i) l = true); [|congruence].
      apply existsb_exists. exists i. split; auto. apply Nat.eqb_refl. }
    split.
    + eapply Permutation_NoDup; [apply Permutation_cons_append|]. now constructor.
    + intros j. rewrite in_app_iff. cbn. intuition congruence.
Qed.
Lemma on_sets_pop : forall i ss sl, (forall s, NoDup (sl s)) ->
  forall s, NoDup (on_sets (pop_voice i) ss sl s)
  /\ forall j, In j (on_sets (pop_voice i) ss sl s) <-> In j (sl s) /\ (j <> i \/ ~ In s ss).
Proof.
  intros i ss. unfold on_sets. induction ss as [|x ss IH]; intros sl Hd s.
  - cbn. split; auto. intros j. intuition.
  - cbn [fold_left]. destruct (pop_voice_spec i (sl x) (Hd x)) as [P1 P2].
    destruct (IH (updn sl x (pop_voice i (sl x)))) with (s := s) as [A B].
    { intros s'. unfold updn. destruct (Nat.eqb_spec s' x); auto. }
    split; auto. intros j. rewrite B. unfold updn. cbn [In].
    destruct (Nat.eqb_spec s x) as [->|Hs].
    + rewrite P2. destruct (Nat.eq_dec j i); intuition congruence.
    + intuition congruence.
Qed.
Lemma on_sets_push : forall i ss sl, (forall s, NoDup (sl s)) ->
  forall s, NoDup (on_sets (push_voice i) ss sl s)
  /\ forall j, In j (on_sets (push_voice i) ss sl s) <-> In j (sl s) \/ (j = i /\ In s ss).
Proof.
  intros i ss. unfold on_sets. induction ss as [|x ss IH]; intros sl Hd s.
  - cbn. split; auto. intros j. intuition.
  - cbn [fold_left]. destruct (push_voice_spec i (sl x) (Hd x)) as [P1 P2].
    destruct (IH (updn sl x (push_voice i (sl x)))) with (s := s) as [A B].
    { intros s'. unfold updn. destruct (Nat.eqb_spec s' x); auto. }
    split; auto. intros j. rewrite B. unfold updn. cbn [In].
    destruct (Nat.eqb_spec s x) as [->|Hs].
    + rewrite P2. intuition congruence.
    + intuition congruence.
Qed.

(** * The invariant *)
Definition belongs (I : instr) (m : vman) (P : nat -> Prop) (i : nat) : Prop :=
  i < m_n m /\ st m i <> VIdle
  /\ exists k, rg m i = Some k /\ vi_disabled (i_info I k) = false /\ P k.
Definition list_ok (I : instr) (m : vman) (P : nat -> Prop) (l : list nat) : Prop :=
  NoDup l /\ forall i, In i l <-> belongs I m P i.
Record vinv (I : instr) (m : vman) : Prop := VInv {
  iv_ring : ring_ok m;
  iv_idle : forall i, i < m_n m -> (st m i = VIdle <-> rg m i = None);
  iv_play : forall i k, i < m_n m -> st m i = VPlaying -> rg m i = Some k ->
            vi_disabled (i_info I k) = false;
  iv_active : list_ok I m (fun _ => True) (m_active m);
  iv_group : forall g, list_ok I m (fun k => vi_group (i_info I k) = g) (m_glist m g);
  iv_set : forall s, list_ok I m (fun k => In s (vi_sets (i_info I k))) (m_slist m s) }.

(** * Quiet changes: no voice starts, ends or changes lists *)
Definition qvoice (v v' : voice) : Prop :=
  v_region v' = v_region v /\ v_ev v' = v_ev v /\ v_next v' = v_next v /\ v_prev v' = v_prev v
  /\ (v_state v' = v_state v \/ (v_state v = VPlaying /\ v_state v' = VClean))
  /\ (v_offed v = true -> v_offed v' = true).
Record quiet (m m' : vman) : Prop := Quiet {
  q_n : m_n m' = m_n m;
  q_active : m_active m' = m_active m;
  q_glist : m_glist m' = m_glist m;
  q_gstamp : m_gstamp m' = m_gstamp m;
  q_slist : m_slist m' = m_slist m;
  q_required : m_required m' = m_required m;
  q_voice : forall i, qvoice (m_voice m i) (m_voice m' i) }.

Lemma qvoice_refl : forall v, qvoice v v.
Proof. unfold qvoice. intuition. Qed.
Lemma qvoice_trans : forall a b c, qvoice a b -> qvoice b c -> qvoice a c.
Proof. unfold qvoice. intros a b c H1 H2. intuition congruence. Qed.
Lemma quiet_refl : forall m, quiet m m.
Proof. intros m. constructor; auto. intros. apply qvoice_refl. Qed.
Lemma quiet_trans : forall a b c, quiet a b -> quiet b c -> quiet a c.
Proof.
  intros a b c [] []. constructor; try congruence. intros i. eapply qvoice_trans; eauto.
Qed.
Lemma quiet_put : forall m i v, qvoice (m_voice m i) v -> quiet m (put m i v).
Proof.
  intros m i v H. constructor; try reflexivity. intros j. unfold put. cbn [m_voice].
  destruct (Nat.eq_dec j i) as [->|Hn]; [rewrite updn_eq; auto|rewrite updn_neq by auto; apply qvoice_refl].
Qed.
Lemma quiet_links : forall m m', quiet m m' -> same_links m m'.
Proof.
  intros m m' Q. split; [apply Q|]. intros i. pose proof (q_voice _ _ Q i) as V.
  unfold qvoice in V. unfold nx, pv. tauto.
Qed.
Lemma quiet_rg : forall m m' i, quiet m m' -> rg m' i = rg m i.
Proof. intros m m' i Q. apply (q_voice _ _ Q i). Qed.
Lemma quiet_ev : forall m m' i, quiet m m' -> ev m' i = ev m i.
Proof. intros m m' i Q. apply (q_voice _ _ Q i). Qed.
Lemma quiet_idle : forall m m' i, quiet m m' -> (st m' i = VIdle <-> st m i = VIdle).
Proof.
  intros m m' i Q. pose proof (q_voice _ _ Q i) as (_ & _ & _ & _ & V & _). unfold st in *.
  destruct V as [V|[V1 V2]]; [rewrite V; tauto|]. rewrite V1, V2. split; congruence.
Qed.
Lemma quiet_playing : forall m m' i, quiet m m' -> st m' i = VPlaying -> st m i = VPlaying.
Proof.
  intros m m' i Q. pose proof (q_voice _ _ Q i) as (_ & _ & _ & _ & V & _). unfold st in *.
  destruct V as [V|[V1 V2]]; congruence.
Qed.
Lemma quiet_offed : forall m m' i, quiet m m' -> offed m i = true -> offed m' i = true.
Proof. intros m m' i Q. apply (q_voice _ _ Q i). Qed.
Lemma live_spec : forall m i, live m i = true <-> st m i = VPlaying /\ offed m i = false.
Proof.
  intros m i. unfold live, offedOrFree, st, offed.
  destruct (v_state (m_voice m i)), (v_offed (m_voice m i)); cbn; intuition congruence.
Qed.
Lemma quiet_live : forall m m' i, quiet m m' -> live m' i = true -> live m i = true.
Proof.
  intros m m' i Q. rewrite !live_spec. intros [A B]. split; [eapply quiet_playing; eauto|].
  destruct (offed m i) eqn:E; auto. rewrite (quiet_offed _ _ _ Q E) in B. congruence.
Qed.
Lemma quiet_list_ok : forall I m m' P l, quiet m m' -> list_ok I m P l -> list_ok I m' P l.
Proof.
  intros I m m' P l Q [A B]. split; auto. intros i. rewrite B. unfold belongs.
  rewrite (q_n _ _ Q), (quiet_rg _ _ _ Q), (quiet_idle m m' i Q). tauto.
Qed.
Lemma quiet_vinv : forall I m m', quiet m m' -> vinv I m -> vinv I m'.
Proof.
  intros I m m' Q [R A P L G S]. constructor.
  - eapply same_links_ring_ok; eauto. now apply quiet_links.
  - intros i Hi. rewrite (q_n _ _ Q) in Hi. rewrite (quiet_rg _ _ _ Q), (quiet_idle _ _ _ Q). auto.
  - intros i k Hi H1 H2. rewrite (q_n _ _ Q) in Hi. rewrite (quiet_rg _ _ _ Q) in H2.
    eapply P; eauto. eapply quiet_playing; eauto.
  - rewrite (q_active _ _ Q). eapply quiet_list_ok; eauto.
  - intros g. rewrite (q_glist _ _ Q). eapply quiet_list_ok; eauto.
  - intros s. rewrite (q_slist _ _ Q). eapply quiet_list_ok; eauto.
Qed.

Lemma switchState_clean : forall I i m, st m i <> VIdle -> quiet m (switchState I i VClean m).
Proof.
  intros I i m H. unfold switchState. destruct (state_eqb_spec VClean (v_state (m_voice m i))).
  { apply quiet_refl. }
  assert (E : forall m, listener I i VClean m = m).
  { intros m0. unfold listener. destruct (v_region (m_voice m0 i)); reflexivity. }
  rewrite E. apply quiet_put. unfold qvoice, set_state.
  cbn [v_region v_ev v_next v_prev v_state v_offed].
  unfold st in H. destruct (v_state (m_voice m i)); intuition congruence.
Qed.
Lemma put_same : forall m i v, m_voice (put m i v) i = v.
Proof. intros. unfold put. cbn [m_voice]. apply updn_eq. Qed.
Lemma put_other : forall m i v j, j <> i -> m_voice (put m i v) j = m_voice m j.
Proof. intros. unfold put. cbn [m_voice]. now apply updn_neq. Qed.
Lemma switchState_clean_other : forall I i m j, j <> i ->
  m_voice (switchState I i VClean m) j = m_voice m j.
Proof.
  intros I i m j H. unfold switchState. destruct (state_eqb VClean _); auto.
  unfold listener. destruct (v_region _); now apply put_other.
Qed.
Lemma switchState_clean_offed : forall I i m j,
  offed (switchState I i VClean m) j = offed m j.
Proof.
  intros I i m j. unfold switchState, offed. destruct (state_eqb VClean _); auto.
  unfold listener. destruct (Nat.eq_dec j i) as [->|H].
  - destruct (v_region _); cbn [m_voice lists]; rewrite put_same; reflexivity.
  - destruct (v_region _); cbn [m_voice lists]; rewrite put_other; auto.
Qed.

Lemma v_release_quiet : forall I i d m, quiet m (v_release I i d m).
Proof.
  intros I i d m. unfold v_release. destruct (state_eqb_spec VPlaying (v_state (m_voice m i))).
  2: apply quiet_refl.
  cbv zeta. match goal with |- quiet m (put ?x i _) => set (m1 := x) end.
  assert (Q : quiet m m1).
  { subst m1. destruct (_ <? _)%Z; [|apply quiet_refl]. apply switchState_clean. unfold st. congruence. }
  eapply quiet_trans; [exact Q|]. apply quiet_put. unfold qvoice, set_amp. cbn. intuition.
Qed.
Lemma v_release_other : forall I i d m j, j <> i -> m_voice (v_release I i d m) j = m_voice m j.
Proof.
  intros I i d m j H. unfold v_release. destruct (state_eqb VPlaying _); auto. cbv zeta.
  rewrite put_other by auto. destruct (_ <? _)%Z; auto. now apply switchState_clean_other.
Qed.
Lemma v_release_offed : forall I i d m j, offed (v_release I i d m) j = offed m j.
Proof.
  intros I i d m j. unfold v_release. destruct (state_eqb VPlaying _); auto. cbv zeta.
  unfold offed. destruct (Nat.eq_dec j i) as [->|H].
  - rewrite put_same. unfold set_amp. cbn [v_offed]. destruct (_ <? _)%Z; auto.
    apply (switchState_clean_offed I i m i).
  - rewrite put_other by auto. destruct (_ <? _)%Z; auto. apply (switchState_clean_offed I i m j).
Qed.
Lemma v_off_quiet : forall I d i m, quiet m (v_off I d i m).
Proof.
  intros I d i m. unfold v_off. eapply quiet_trans; [|apply v_release_quiet].
  apply quiet_put. unfold qvoice, set_offed. cbn. intuition.
Qed.
Lemma v_off_other : forall I d i m j, j <> i -> m_voice (v_off I d i m) j = m_voice m j.
Proof. intros. unfold v_off. rewrite v_release_other by auto. now apply put_other. Qed.
Lemma v_off_offed : forall I d i m, offed (v_off I d i m) i = true.
Proof.
  intros. unfold v_off. rewrite v_release_offed. unfold offed. rewrite put_same. reflexivity.
Qed.

Lemma v_registerNoteOff_quiet : forall I d n m i, quiet m (v_registerNoteOff I d n m i).
Proof.
  intros I d n m i. unfold v_registerNoteOff. destruct (v_region _) as [k|]; [|apply quiet_refl].
  destruct (_ && _ && _); [|apply quiet_refl]. cbv zeta.
  match goal with |- context [v_release I i d ?x] => set (m1 := x) end.
  assert (Q : quiet m m1).
  { subst m1. apply quiet_put. unfold qvoice, set_hold. cbn. intuition. }
  destruct (vi_oneShot _); auto. destruct (pedals_allow _ _); auto.
  eapply quiet_trans; [exact Q|apply v_release_quiet].
Qed.
Lemma v_registerCC_quiet : forall I d cc x m i, quiet m (v_registerCC I d cc x m i).
Proof.
  intros I d cc x m i. unfold v_registerCC. destruct (v_region _) as [k|]; [|apply quiet_refl].
  destruct (negb _); [apply quiet_refl|]. destruct (_ && _); [apply quiet_refl|]. cbv zeta.
  match goal with |- context [v_release I i d ?x] => set (m1 := x) end.
  assert (Q : quiet m m1).
  { subst m1. apply quiet_put. unfold qvoice, set_hold. cbn. intuition. }
  match goal with |- context [v_released (m_voice ?x i)] => set (m2 := x) end.
  assert (Q2 : quiet m m2).
  { subst m2. destruct (_ && _ && _); auto. eapply quiet_trans; [exact Q|apply v_release_quiet]. }
  destruct (_ && _ && _ && _ && _); auto. eapply quiet_trans; [exact Q2|].
  apply quiet_put. unfold qvoice, set_amp. cbn. intuition.
Qed.

Lemma fold_quiet : forall A (f : vman -> A -> vman) l m,
  (forall m a, In a l -> quiet m (f m a)) -> quiet m (fold_left f l m).
Proof.
  intros A f l. induction l as [|a l IH]; intros m H; cbn [fold_left]; [apply quiet_refl|].
  eapply quiet_trans; [apply H; now left|]. apply IH. intros. apply H. now right.
Qed.
Lemma fold_quiet' : forall A (f : A -> vman -> vman) l m,
  (forall a m, quiet m (f a m)) -> quiet m (fold_left (fun m a => f a m) l m).
Proof. intros. apply fold_quiet. intros. apply H. Qed.

(** * Turning a ring off *)
Lemma fold_off : forall I d l m,
  let m' := fold_left (fun m i => v_off I d i m) l m in
  quiet m m' /\ (forall i, In i l -> offed m' i = true)
  /\ (forall j, ~ In j l -> m_voice m' j = m_voice m j).
Proof.
  intros I d l. induction l as [|a l IH]; intros m; cbn [fold_left].
  - split; [apply quiet_refl|]. split; [intros i []|auto].
  - destruct (IH (v_off I d a m)) as (A & B & C). split; [|split].
    + eapply quiet_trans; [apply v_off_quiet|exact A].
    + intros i [->|Hi]; auto. eapply quiet_offed; [exact A|]. apply v_off_offed.
    + intros j Hj. rewrite C by (intros Hc; apply Hj; now right). apply v_off_other.
      intros ->. apply Hj. now left.
Qed.

Lemma applyToRing_off : forall I d m i l, is_ring m (i :: l) ->
  applyToRing (v_off I d) i m = Some (fold_left (fun m i => v_off I d i m) (l ++ [i]) m).
Proof.
  intros I d m i l H. apply applyToRing_visit; auto. intros j m0. apply quiet_links. apply v_off_quiet.
Qed.

(** A ring walk always ends; it turns off exactly the ring. *)
Lemma offAllSisters_some : forall I d m i, ring_ok m -> i < m_n m ->
  exists l m', is_ring m (i :: l) /\ offAllSisters I d (Some i) m = Some m' /\ quiet m m'
  /\ (forall j, In j (i :: l) -> offed m' j = true)
  /\ (forall j, ~ In j (i :: l) -> m_voice m' j = m_voice m j).
Proof.
  intros I d m i H Hi. destruct (ring_exists m i H Hi) as (l & Hr & _).
  exists l. eexists. split; [exact Hr|]. split; [cbn [offAllSisters]; apply applyToRing_off; eauto|].
  destruct (fold_off I d (l ++ [i]) m) as (A & B & C). split; [exact A|]. split.
  - intros j Hj. apply B. apply in_app_iff. cbn in *. tauto.
  - intros j Hj. apply C. intros Hc. apply Hj. apply in_app_iff in Hc. cbn in *. tauto.
Qed.
Lemma offAllSisters_quiet : forall I d c m m', ring_ok m ->
  (forall i, c = Some i -> i < m_n m) -> offAllSisters I d c m = Some m' -> quiet m m'.
Proof.
  intros I d [i|] m m' H Hi E.
  - destruct (offAllSisters_some I d m i H (Hi i eq_refl)) as (l & m1 & _ & E' & Q & _).
    rewrite E in E'. injection E' as ->. exact Q.
  - cbn in E. injection E as <-. apply quiet_refl.
Qed.

(** * Resetting a voice *)

(** Everything but the links. *)
Definition core (v : voice) := (v_state v, v_region v, v_ev v, v_offed v, v_hold v, v_time v, v_amp v).
Lemma core_st : forall m m' j, core (m_voice m' j) = core (m_voice m j) ->
  st m' j = st m j /\ rg m' j = rg m j /\ ev m' j = ev m j /\ offed m' j = offed m j
  /\ live m' j = live m j /\ age m' j = age m j.
Proof.
  intros m m' j H. unfold core in H. injection H as A B C D E F G.
  unfold st, rg, ev, offed, live, offedOrFree, age. rewrite A, B, C, D, F. auto 10.
Qed.
Lemma core_setNext : forall i j m x, core (m_voice (setNext i j m) x) = core (m_voice m x).
Proof.
  intros. unfold setNext. destruct (Nat.eq_dec x i) as [->|H].
  - rewrite put_same. reflexivity.
  - now rewrite put_other.
Qed.
Lemma core_setPrev : forall i j m x, core (m_voice (setPrev i j m) x) = core (m_voice m x).
Proof.
  intros. unfold setPrev. destruct (Nat.eq_dec x i) as [->|H].
  - rewrite put_same. reflexivity.
  - now rewrite put_other.
Qed.
Lemma core_remove : forall i m x, core (m_voice (removeVoiceFromRing i m) x) = core (m_voice m x).
Proof. intros. unfold removeVoiceFromRing. now rewrite core_setNext, !core_setPrev, core_setNext. Qed.
Lemma core_add : forall i h m x, core (m_voice (fst (addVoiceToRing i h m)) x) = core (m_voice m x).
Proof.
  intros. unfold addVoiceToRing. cbn [fst]. now rewrite core_setNext, !core_setPrev, core_setNext.
Qed.
Lemma lists_remove : forall i m,
  let m' := removeVoiceFromRing i m in
  m_active m' = m_active m /\ m_glist m' = m_glist m /\ m_slist m' = m_slist m
  /\ m_gstamp m' = m_gstamp m /\ m_required m' = m_required m.
Proof. intros. repeat split. Qed.
Lemma lists_add : forall i h m,
  let m' := fst (addVoiceToRing i h m) in
  m_active m' = m_active m /\ m_glist m' = m_glist m /\ m_slist m' = m_slist m
  /\ m_gstamp m' = m_gstamp m /\ m_required m' = m_required m.
Proof. intros. repeat split. Qed.

(** The state just before the ring is changed. *)
Definition pre_reset (I : instr) (i : nat) (m : vman) : vman :=
  let m1 := switchState I i VIdle m in put m1 i (reset_fields (m_voice m1 i)).
Lemma v_reset_eq : forall I i m, v_reset I i m = removeVoiceFromRing i (pre_reset I i m).
Proof. reflexivity. Qed.

Lemma switchState_voices : forall I i x m j,
  m_voice (switchState I i x m) j
  = if Nat.eqb j i then set_state (m_voice m i) x else m_voice m j.
Proof.
  intros I i x m j. unfold switchState.
  destruct (state_eqb_spec x (v_state (m_voice m i))) as [E|E].
  - destruct (Nat.eqb_spec j i) as [->|]; auto. unfold set_state. rewrite E.
    now destruct (m_voice m i).
  - unfold listener. destruct (v_region _) as [k|]; [destruct x|]; cbn [m_voice lists];
      unfold put; cbn [m_voice]; unfold updn; destruct (Nat.eqb j i); reflexivity.
Qed.
Lemma switchState_n : forall I i x m, m_n (switchState I i x m) = m_n m.
Proof.
  intros. unfold switchState. destruct (state_eqb _ _); auto. unfold listener.
  destruct (v_region _) as [k|]; [destruct x|]; reflexivity.
Qed.
Lemma switchState_required : forall I i x m, m_required (switchState I i x m) = m_required m.
Proof.
  intros. unfold switchState. destruct (state_eqb _ _); auto. unfold listener.
  destruct (v_region _) as [k|]; [destruct x|]; reflexivity.
Qed.

Lemma pre_reset_voices : forall I i m,
  (forall j, j <> i -> m_voice (pre_reset I i m) j = m_voice m j)
  /\ st (pre_reset I i m) i = VIdle /\ rg (pre_reset I i m) i = None
  /\ offed (pre_reset I i m) i = false /\ ev (pre_reset I i m) i = ev m i
  /\ nx (pre_reset I i m) i = nx m i /\ pv (pre_reset I i m) i = pv m i
  /\ m_n (pre_reset I i m) = m_n m.
Proof.
  intros I i m. unfold pre_reset. cbv zeta. unfold st, rg, offed, ev, nx, pv. rewrite put_same.
  rewrite switchState_voices, Nat.eqb_refl. cbn [reset_fields set_state v_state v_region v_offed v_ev v_next v_prev].
  split; [|repeat split; auto].
  - intros j H. rewrite put_other by auto. rewrite switchState_voices.
    destruct (Nat.eqb_spec j i); congruence.
  - unfold put. cbn [m_n]. apply switchState_n.
Qed.
Lemma pre_reset_links : forall I i m, same_links m (pre_reset I i m).
Proof.
  intros I i m. destruct (pre_reset_voices I i m) as (A & _ & _ & _ & _ & B & C & D).
  split; auto. intros j. destruct (Nat.eq_dec j i) as [->|H]; auto.
  unfold nx, pv. now rewrite A.
Qed.

Record reset_spec (I : instr) (i : nat) (m m' : vman) : Prop := ResetSpec {
  rs_n : m_n m' = m_n m;
  rs_required : m_required m' = m_required m;
  rs_core : forall j, j <> i -> core (m_voice m' j) = core (m_voice m j);
  rs_st : st m' i = VIdle;
  rs_rg : rg m' i = None;
  rs_offed : offed m' i = false;
  rs_alone : nx m' i = i /\ pv m' i = i;
  rs_links : forall x, x < m_n m ->
    nx m' x = if Nat.eqb x i then i else if Nat.eqb (nx m x) i then nx m i else nx m x;
  rs_vinv : vinv I m' }.

Lemma list_ok_eqv : forall I m m' P l l', list_ok I m P l -> NoDup l' ->
  (forall j, In j l' <-> belongs I m' P j) -> list_ok I m' P l'.
Proof. intros. split; auto. Qed.

Lemma v_reset_spec : forall I i m, vinv I m -> i < m_n m -> reset_spec I i m (v_reset I i m).
Proof.
  intros I i m V Hi. rewrite v_reset_eq.
  destruct (pre_reset_voices I i m) as (A & S & R & O & E & N & P & L).
  pose proof (pre_reset_links I i m) as SL.
  assert (RO : ring_ok (pre_reset I i m)) by (eapply same_links_ring_ok; [exact SL|apply V]).
  assert (Hi' : i < m_n (pre_reset I i m)) by (rewrite L; auto).
  assert (CO : forall j, j <> i -> core (m_voice (removeVoiceFromRing i (pre_reset I i m)) j)
                                   = core (m_voice m j)).
  { intros j H. rewrite core_remove, A; auto. }
  pose proof (core_st _ _ _ (core_remove i (pre_reset I i m) i)) as (CS & CR & CE & COf & _).
  rewrite S in CS. rewrite R in CR. rewrite O in COf.
  assert (NX : forall x, x < m_n m -> nx (removeVoiceFromRing i (pre_reset I i m)) x
     = if Nat.eqb x i then i else if Nat.eqb (nx m x) i then nx m i else nx m x).
  { intros x Hx. rewrite nx_remove by (auto; rewrite L; auto).
    destruct SL as [_ SL]. destruct (SL x) as [SL1 _]. destruct (SL i) as [SL2 _].
    now rewrite SL1, SL2. }
  assert (REQ : m_required (removeVoiceFromRing i (pre_reset I i m)) = m_required m).
  { change (m_required (removeVoiceFromRing i (pre_reset I i m))) with (m_required (switchState I i VIdle m)).
    apply switchState_required. }
  constructor; auto.
  - split.
    + rewrite nx_remove by auto. now rewrite Nat.eqb_refl.
    + rewrite pv_remove by auto. now rewrite Nat.eqb_refl.
  - set (m' := removeVoiceFromRing i (pre_reset I i m)) in *.
    assert (Ln : m_n m' = m_n m) by exact L.
    assert (OT : forall j, j <> i -> st m' j = st m j /\ rg m' j = rg m j).
    { intros j H. destruct (core_st _ _ _ (CO j H)) as (X & Y & _). auto. }
    (* lists *)
    assert (B : forall Q j, belongs I m' Q j <-> belongs I m Q j /\ j <> i).
    { intros Q j. unfold belongs. rewrite Ln. destruct (Nat.eq_dec j i) as [->|H].
      - rewrite CS. intuition congruence.
      - destruct (OT j H) as [-> ->]. intuition. }
    assert (LS : (NoDup (m_active m') /\ forall j, In j (m_active m') <-> In j (m_active m) /\ j <> i)
      /\ (forall g, NoDup (m_glist m' g) /\ forall j, In j (m_glist m' g) <-> In j (m_glist m g) /\ j <> i)
      /\ (forall s, NoDup (m_slist m' s) /\ forall j, In j (m_slist m' s) <-> In j (m_slist m s) /\ j <> i)).
    { change (m_active m') with (m_active (switchState I i VIdle m)).
      change (m_glist m') with (m_glist (switchState I i VIdle m)).
      change (m_slist m') with (m_slist (switchState I i VIdle m)).
      destruct (iv_active _ _ V) as [AD AI].
      assert (GD : forall g, NoDup (m_glist m g)) by (intros g; apply (iv_group _ _ V g)).
      assert (SD : forall s, NoDup (m_slist m s)) by (intros s; apply (iv_set _ _ V s)).
      assert (GI : forall g j, In j (m_glist m g) <-> belongs I m (fun k => vi_group (i_info I k) = g) j)
        by (intros g; apply (iv_group _ _ V g)).
      assert (SI : forall s j, In j (m_slist m s) <-> belongs I m (fun k => In s (vi_sets (i_info I k))) j)
        by (intros s; apply (iv_set _ _ V s)).
      unfold switchState. destruct (state_eqb_spec VIdle (v_state (m_voice m i))) as [EI|EI].
      - assert (NB : forall Q, ~ belongs I m Q i) by (intros Q (_ & Hc & _); unfold st in Hc; congruence).
        assert (G : forall Q l, NoDup l -> (forall j, In j l <-> belongs I m Q j) ->
                    NoDup l /\ forall j, In j l <-> In j l /\ j <> i).
        { intros Q l D HI. split; auto. intros j. split; [|tauto]. intros Hj. split; auto.
          intros ->. apply (NB Q). now apply HI. }
        split; [eapply G; eauto|]. split; intros; eapply G; eauto.
      - destruct (v_region (m_voice m i)) as [k|] eqn:EK.
        2: { exfalso. apply EI. symmetry. apply (iv_idle _ _ V i Hi). exact EK. }
        unfold listener. rewrite put_same. unfold set_state. cbn [v_region]. rewrite EK.
        cbn [m_active m_glist m_slist lists put].
        split; [apply pop_voice_spec; auto|]. split.
        + intros g. unfold upd. destruct (Z.eqb_spec g (vi_group (i_info I k))) as [->|Hg].
          * apply pop_voice_spec; auto.
          * split; auto. intros j. split; [|tauto]. intros Hj. split; auto. intros ->.
            apply GI in Hj as (_ & _ & k' & Hk' & _ & Hg'). unfold rg in Hk'. congruence.
        + intros s. destruct (on_sets_pop i (vi_sets (i_info I k)) (m_slist m) SD s) as [D HI].
          split; auto. intros j. rewrite HI. split; [|tauto]. intros [Hj HH]. split; auto.
          destruct HH as [HH|HH]; auto. intros ->. apply HH.
          apply SI in Hj as (_ & _ & k' & Hk' & _ & Hg'). unfold rg in Hk'. congruence. }
    destruct LS as (LA & LG & LSs).
    constructor.
    + now apply remove_ring_ok.
    + intros j Hj. rewrite Ln in Hj. destruct (Nat.eq_dec j i) as [->|H].
      * rewrite CS, CR. tauto.
      * destruct (OT j H) as [-> ->]. apply V; auto.
    + intros j k Hj H1 H2. rewrite Ln in Hj. destruct (Nat.eq_dec j i) as [->|H].
      * congruence.
      * destruct (OT j H) as [X Y]. rewrite X in H1. rewrite Y in H2. eapply iv_play; eauto.
    + split; [apply LA|]. intros j. rewrite B. destruct LA as [_ ->].
      destruct (iv_active _ _ V) as [_ AI]. rewrite AI. tauto.
    + intros g. split; [apply LG|]. intros j. rewrite B. destruct (LG g) as [_ ->].
      destruct (iv_group _ _ V g) as [_ AI]. rewrite AI. tauto.
    + intros s. split; [apply LSs|]. intros j. rewrite B. destruct (LSs s) as [_ ->].
      destruct (iv_set _ _ V s) as [_ AI]. rewrite AI. tauto.
Qed.

(** * Starting a voice *)
Definition start_num (I : instr) (k : nat) (e : tevent) : Z :=
  match te_type e with ECC => vi_center (i_info I k) | _ => te_num e end.
Record start_spec (I : instr) (si : sinfo) (k : nat) (e : tevent) (i : nat) (m m' : vman)
  (ok : bool) : Prop := StartSpec {
  ss_n : m_n m' = m_n m;
  ss_required : m_required m' = m_required m;
  ss_other : forall j, j <> i -> m_voice m' j = m_voice m j;
  ss_rg : rg m' i = Some k;
  ss_type : te_type (ev m' i) = te_type e;
  ss_num : te_num (ev m' i) = start_num I k e;
  ss_offed : offed m' i = offed m i;
  ss_links : same_links m m';
  ss_ok : ok = negb (vi_disabled (i_info I k)) && si_file si;
  ss_st : st m' i = if ok then VPlaying else VClean;
  ss_vinv : vinv I m' }.

(** Switching to the playing state registers the voice. *)
Lemma switch_playing_vinv : forall I i k m m0, vinv I m0 -> i < m_n m0 ->
  st m0 i = VIdle -> st m i = VIdle -> rg m i = Some k -> vi_disabled (i_info I k) = false ->
  (forall j, j <> i -> m_voice m j = m_voice m0 j) ->
  same_links m0 m ->
  m_active m = m_active m0 -> m_glist m = m_glist m0 -> m_slist m = m_slist m0 ->
  let m' := switchState I i VPlaying m in
  vinv I m' /\ m_required m' = m_required m.
Proof.
  intros I i k m m0 V Hi S0 S1 R D OT SL EA EG ES m'.
  split; [|apply switchState_required].
  assert (Ln : m_n m' = m_n m0).
  { unfold m'. rewrite switchState_n. apply SL. }
  assert (VO : forall j, m_voice m' j = if Nat.eqb j i then set_state (m_voice m i) VPlaying else m_voice m j)
    by (intros; apply switchState_voices).
  assert (SLm : same_links m m').
  { split; [now rewrite Ln, (proj1 SL)|]. intros j. unfold nx, pv. rewrite VO.
    destruct (Nat.eqb_spec j i) as [->|]; auto. }
  assert (O2 : forall j, j <> i -> st m' j = st m0 j /\ rg m' j = rg m0 j).
  { intros j H. unfold st, rg. rewrite VO. destruct (Nat.eqb_spec j i); [congruence|]. now rewrite OT. }
  assert (Si : st m' i = VPlaying) by (unfold st; rewrite VO, Nat.eqb_refl; reflexivity).
  assert (Ri : rg m' i = Some k) by (unfold rg; rewrite VO, Nat.eqb_refl; exact R).
  assert (B : forall Q j, belongs I m' Q j <-> belongs I m0 Q j \/ (j = i /\ Q k)).
  { intros Q j. unfold belongs. rewrite Ln. destruct (Nat.eq_dec j i) as [->|H].
    - rewrite Si, Ri, S0. split.
      + intros (_ & _ & k' & E & _ & HQ). right. injection E as <-. auto.
      + intros [(_ & Hc & _)|[_ HQ]]; [congruence|]. repeat split; auto; [congruence|]. eauto.
    - destruct (O2 j H) as [-> ->]. intuition. }
  assert (NB : forall Q, ~ belongs I m0 Q i) by (intros Q (_ & Hc & _); congruence).
  destruct (iv_active _ _ V) as [AD AI].
  assert (GD : forall g, NoDup (m_glist m0 g)) by (intros g; apply (iv_group _ _ V g)).
  assert (SD : forall s, NoDup (m_slist m0 s)) by (intros s; apply (iv_set _ _ V s)).
  assert (GI : forall g j, In j (m_glist m0 g) <-> belongs I m0 (fun k => vi_group (i_info I k) = g) j)
    by (intros g; apply (iv_group _ _ V g)).
  assert (SI : forall s j, In j (m_slist m0 s) <-> belongs I m0 (fun k => In s (vi_sets (i_info I k))) j)
    by (intros s; apply (iv_set _ _ V s)).
  assert (LL : m_active m' = m_active m0 ++ [i]
    /\ m_glist m' = upd (m_glist m0) (vi_group (i_info I k)) (push_voice i (m_glist m0 (vi_group (i_info I k))))
    /\ m_slist m' = on_sets (push_voice i) (vi_sets (i_info I k)) (m_slist m0)).
  { unfold m', switchState. fold (st m i). rewrite S1. cbn [state_eqb]. unfold listener.
    rewrite put_same. cbn [set_state v_region]. fold (rg m i). rewrite R.
    cbn [m_active m_glist m_slist lists put]. rewrite EA, EG, ES. auto. }
  destruct LL as (LA & LG & LS).
  constructor.
  - eapply same_links_ring_ok; [|apply V]. eapply same_links_trans; eauto.
  - intros j Hj. rewrite Ln in Hj. destruct (Nat.eq_dec j i) as [->|H].
    + rewrite Si, Ri. split; congruence.
    + destruct (O2 j H) as [-> ->]. apply V; auto.
  - intros j k' Hj H1 H2. rewrite Ln in Hj. destruct (Nat.eq_dec j i) as [->|H].
    + congruence.
    + destruct (O2 j H) as [X Y]. rewrite X in H1. rewrite Y in H2. eapply iv_play; eauto.
  - rewrite LA. split.
    + eapply Permutation_NoDup; [apply Permutation_cons_append|]. constructor; auto.
      intros Hc. apply AI in Hc. eapply NB; eauto.
    + intros j. rewrite B, in_app_iff, AI. cbn. intuition.
  - intros g. rewrite LG. unfold upd. destruct (Z.eqb_spec g (vi_group (i_info I k))) as [->|Hg].
    + destruct (push_voice_spec i (m_glist m0 (vi_group (i_info I k)))) as [PD PI]; auto.
      split; auto. intros j. rewrite PI, B, GI. intuition.
    + split; auto. intros j. rewrite B, GI. intuition congruence.
  - intros s. rewrite LS. destruct (on_sets_push i (vi_sets (i_info I k)) (m_slist m0) SD s) as [PD PI].
    split; auto. intros j. rewrite PI, B, SI. tauto.
Qed.

Lemma v_start_spec : forall I md si k d e i m m' ok, vinv I m -> i < m_n m -> st m i = VIdle ->
  v_start I md si k d e i m = (m', ok) -> start_spec I si k e i m m' ok.
Proof.
  intros I md si k d e i m m' ok V Hi S E. unfold v_start in E. cbv zeta in E.
  set (v1 := Voice (v_state (m_voice m i)) (Some k) _ _ _ _ _ _ _) in E.
  destruct (vi_disabled (i_info I k)) eqn:D.
  - injection E as <- <-.
    set (mm := put m i v1).
    assert (S1 : st mm i = VIdle) by (unfold mm, st; rewrite put_same; exact S).
    assert (EQ : switchState I i VClean mm = put mm i (set_state (m_voice mm i) VClean)).
    { unfold switchState. unfold st in S1. rewrite S1. cbn [state_eqb]. unfold listener.
      destruct (v_region _); reflexivity. }
    rewrite EQ. set (m' := put mm i (set_state (m_voice mm i) VClean)).
    assert (VI : m_voice m' i = set_state v1 VClean).
    { unfold m'. rewrite put_same. unfold mm. now rewrite put_same. }
    assert (VO : forall j, j <> i -> m_voice m' j = m_voice m j).
    { intros j H. unfold m', mm. now rewrite !put_other. }
    assert (SL : same_links m m').
    { split; [reflexivity|]. intros j. unfold nx, pv. destruct (Nat.eq_dec j i) as [->|H].
      - rewrite VI. auto.
      - now rewrite VO. }
    assert (B : forall Q j, belongs I m' Q j <-> belongs I m Q j).
    { intros Q j. unfold belongs. change (m_n m') with (m_n m). destruct (Nat.eq_dec j i) as [->|H].
      - unfold st at 1, rg at 1. rewrite VI. cbn [set_state v_state v_region v1]. rewrite S. split.
        + intros (_ & _ & k' & E & Hd & _). injection E as <-. congruence.
        + intros (_ & Hc & _). congruence.
      - unfold st, rg. rewrite VO by auto. tauto. }
    constructor; try reflexivity; auto.
    + unfold rg. rewrite VI. reflexivity.
    + unfold ev. rewrite VI. reflexivity.
    + unfold ev. rewrite VI. reflexivity.
    + unfold offed. rewrite VI. reflexivity.
    + now rewrite D.
    + unfold st. rewrite VI. reflexivity.
    + constructor.
      * eapply same_links_ring_ok; [exact SL|apply V].
      * intros j Hj. change (m_n m') with (m_n m) in Hj. destruct (Nat.eq_dec j i) as [->|H].
        -- unfold st, rg. rewrite VI. cbn. split; congruence.
        -- unfold st, rg. rewrite VO by auto. apply V; auto.
      * intros j k' Hj H1 H2. change (m_n m') with (m_n m) in Hj. destruct (Nat.eq_dec j i) as [->|H].
        -- unfold st in H1. rewrite VI in H1. cbn in H1. congruence.
        -- unfold st, rg in *. rewrite VO in H1, H2 by auto. eapply (iv_play _ _ V); eauto.
      * split; [apply (iv_active _ _ V)|]. intros j. rewrite B. apply (iv_active _ _ V).
      * intros g. split; [apply (iv_group _ _ V)|]. intros j. rewrite B. apply (iv_group _ _ V).
      * intros s. split; [apply (iv_set _ _ V)|]. intros j. rewrite B. apply (iv_set _ _ V).
  - set (v2 := set_time v1 _) in E. set (m2 := put (put m i v1) i v2) in E.
    set (m3 := switchState I i VPlaying m2) in E.
    assert (V2 : m_voice m2 i = v2) by (unfold m2; apply put_same).
    assert (O2 : forall j, j <> i -> m_voice m2 j = m_voice m j).
    { intros j H. unfold m2. now rewrite !put_other. }
    assert (SL2 : same_links m m2).
    { split; [reflexivity|]. intros j. unfold nx, pv. destruct (Nat.eq_dec j i) as [->|H].
      - rewrite V2. auto.
      - now rewrite O2. }
    destruct (switch_playing_vinv I i k m2 m) as [V3 R3]; auto.
    { unfold st. rewrite V2. exact S. }
    { unfold rg. rewrite V2. reflexivity. }
    fold m3 in V3, R3.
    assert (VO3 : forall j, m_voice m3 j = if Nat.eqb j i then set_state v2 VPlaying else m_voice m2 j).
    { intros j. unfold m3. rewrite switchState_voices, V2. reflexivity. }
    assert (L3 : m_n m3 = m_n m) by (unfold m3; rewrite switchState_n; reflexivity).
    assert (SL3 : same_links m m3).
    { split; auto. intros j. unfold nx, pv. rewrite VO3. destruct (Nat.eqb_spec j i) as [->|H]; auto.
      now rewrite O2. }
    assert (O3 : forall j, j <> i -> m_voice m3 j = m_voice m j).
    { intros j H. rewrite VO3. destruct (Nat.eqb_spec j i); [congruence|]. auto. }
    assert (VI3 : m_voice m3 i = set_state v2 VPlaying) by (rewrite VO3, Nat.eqb_refl; reflexivity).
    assert (S3 : st m3 i = VPlaying) by (unfold st; rewrite VI3; reflexivity).
    destruct (si_file si) eqn:F; cbn [negb] in E.
    + injection E as <- <-.
      match goal with |- start_spec _ _ _ _ _ _ (put m3 i ?x) _ => set (v4 := x) end.
      assert (Q : quiet m3 (put m3 i v4)).
      { apply quiet_put. unfold qvoice, v4. cbn. intuition. }
      constructor; auto.
      * intros j H. rewrite put_other by auto. auto.
      * rewrite (quiet_rg _ _ _ Q). unfold rg. rewrite VI3. reflexivity.
      * rewrite (quiet_ev _ _ _ Q). unfold ev. rewrite VI3. reflexivity.
      * rewrite (quiet_ev _ _ _ Q). unfold ev. rewrite VI3. reflexivity.
      * unfold offed. rewrite put_same. unfold v4. cbn. rewrite VI3. reflexivity.
      * eapply same_links_trans; [exact SL3|]. apply quiet_links; auto.
      * now rewrite D, F.
      * unfold st. rewrite put_same. exact S3.
      * eapply quiet_vinv; eauto.
    + injection E as <- <-.
      assert (Q : quiet m3 (switchState I i VClean m3)) by (apply switchState_clean; congruence).
      constructor; auto.
      * rewrite switchState_n. auto.
      * rewrite switchState_required. auto.
      * intros j H. rewrite switchState_clean_other by auto. auto.
      * rewrite (quiet_rg _ _ _ Q). unfold rg. rewrite VI3. reflexivity.
      * rewrite (quiet_ev _ _ _ Q). unfold ev. rewrite VI3. reflexivity.
      * rewrite (quiet_ev _ _ _ Q). unfold ev. rewrite VI3. reflexivity.
      * rewrite switchState_clean_offed. unfold offed. rewrite VI3. reflexivity.
      * eapply same_links_trans; [exact SL3|]. apply quiet_links; auto.
      * now rewrite D, F.
      * unfold st. rewrite switchState_voices, Nat.eqb_refl. reflexivity.
      * eapply quiet_vinv; eauto.
Qed.

(** * Adding to a ring *)
Lemma add_vinv : forall I i h m, vinv I m -> i < m_n m -> head_ok m h -> nx m i = i ->
  vinv I (fst (addVoiceToRing i h m)).
Proof.
  intros I i h m V Hi Hh E. set (m' := fst (addVoiceToRing i h m)).
  assert (C : forall j, st m' j = st m j /\ rg m' j = rg m j).
  { intros j. destruct (core_st _ _ _ (core_add i h m j)) as (A & B & _). auto. }
  assert (B : forall Q j, belongs I m' Q j <-> belongs I m Q j).
  { intros Q j. unfold belongs. change (m_n m') with (m_n m). destruct (C j) as [-> ->]. tauto. }
  constructor.
  - now apply add_ring_ok; [apply V| | |].
  - intros j Hj. destruct (C j) as [-> ->]. apply V; auto.
  - intros j k Hj. destruct (C j) as [-> ->]. eapply iv_play; eauto.
  - split; [apply (iv_active _ _ V)|]. intros j. rewrite B. apply (iv_active _ _ V).
  - intros g. split; [apply (iv_group _ _ V)|]. intros j. rewrite B. apply (iv_group _ _ V).
  - intros s. split; [apply (iv_set _ _ V)|]. intros j. rewrite B. apply (iv_set _ _ V).
Qed.

Lemma new_voices_vinv : forall I n stamps, vinv I (new_voices n stamps).
Proof.
  intros I n stamps. assert (N : forall Q j, ~ belongs I (new_voices n stamps) Q j).
  { intros Q j (_ & Hc & _). apply Hc. reflexivity. }
  constructor.
  - intros i Hi. unfold nx, pv, new_voices in *. cbn [m_voice m_n fresh_voice v_next v_prev] in *. auto.
  - intros. unfold st, rg. cbn. tauto.
  - intros i k Hi H1 H2. discriminate.
  - split; [constructor|]. intros i. split; [intros []|]. intros H. exfalso. eapply N; eauto.
  - intros g. split; [constructor|]. intros i. split; [intros []|]. intros H. exfalso. eapply N; eauto.
  - intros s. split; [constructor|]. intros i. split; [intros []|]. intros H. exfalso. eapply N; eauto.
Qed.

(** * Polyphony checks are quiet *)
Lemma list_ok_lt : forall I m P l i, list_ok I m P l -> In i l -> i < m_n m.
Proof. intros I m P l i [_ H] Hi. apply H in Hi. apply Hi. Qed.

Lemma generic_step_in : forall cond better l acc, 
  (forall c, fst (fold_left (generic_step cond better) l acc) = Some c ->
     fst acc = Some c \/ (In c l /\ cond c = true)).
Proof.
  intros cond better l. induction l as [|x l IH]; intros acc c H; cbn [fold_left] in H; auto.
  apply IH in H as [H|[H1 H2]]; [|right; split; [now right|auto]].
  unfold generic_step in H. destruct (cond x) eqn:E; auto. cbn [fst] in H.
  destruct (fst acc) as [a|]; [destruct (better x a)|]; injection H as <-;
    (right; split; [now left|exact E]) || (left; reflexivity).
Qed.
Lemma generic_count : forall cond better l acc,
  snd (fold_left (generic_step cond better) l acc)
  = (snd acc + Z.of_nat (length (filter cond l)))%Z.
Proof.
  intros cond better l. induction l as [|x l IH]; intros acc; cbn [fold_left filter].
  - cbn [length]. lia.
  - rewrite IH. unfold generic_step. destruct (cond x); cbn [snd length]; lia.
Qed.
Lemma generic_some : forall cond better l acc, (fst acc <> None \/ filter cond l <> []) ->
  fst (fold_left (generic_step cond better) l acc) <> None.
Proof.
  intros cond better l. induction l as [|x l IH]; intros acc H; cbn [fold_left].
  - destruct H as [H|H]; auto.
  - apply IH. unfold generic_step. cbn [filter] in H. destruct (cond x).
    + left. cbn [fst]. destruct (fst acc); [destruct (better _ _)|]; discriminate.
    + exact H.
Qed.
Lemma generic_spec : forall cond better l p c, genericPolyphonyCheck cond better l p = c ->
  match c with
  | Some x => In x l /\ cond x = true /\ (p <= Z.of_nat (length (filter cond l)))%Z
  | None => (Z.of_nat (length (filter cond l)) < p)%Z \/ filter cond l = []
  end.
Proof.
  intros cond better l p c H. unfold genericPolyphonyCheck in H.
  destruct (fold_left (generic_step cond better) l (None, 0%Z)) as [x num] eqn:E.
  pose proof (generic_count cond better l (None, 0%Z)) as N. rewrite E in N. cbn [snd] in N.
  destruct (p <=? num)%Z eqn:L.
  - subst x. destruct c as [x|].
    + destruct (generic_step_in cond better l (None, 0%Z) x) as [Hc|[A B]].
      * now rewrite E.
      * discriminate.
      * split; auto. split; auto. apply Z.leb_le in L. lia.
    + right. destruct (filter cond l) eqn:F; auto. exfalso.
      apply (generic_some cond better l (None, 0%Z)); [|now rewrite E].
      right. rewrite F. discriminate.
  - subst c. left. apply Z.leb_gt in L. lia.
Qed.

Lemma insert_by_perm : forall lt x l, Permutation (insert_by lt x l) (x :: l).
Proof.
  intros lt x l. induction l as [|y l IH]; cbn [insert_by]; auto.
  destruct (lt x y); auto. rewrite IH. apply perm_swap.
Qed.
Lemma sort_by_perm_acc : forall lt l acc,
  Permutation (fold_left (fun acc x => insert_by lt x acc) l acc) (acc ++ l).
Proof.
  intros lt l. induction l as [|x l IH]; intros acc; cbn [fold_left].
  - rewrite app_nil_r. reflexivity.
  - rewrite IH. rewrite insert_by_perm. cbn [app]. apply Permutation_middle.
Qed.
Lemma sort_by_perm : forall lt l, Permutation (sort_by lt l) l.
Proof. intros lt l. unfold sort_by. rewrite sort_by_perm_acc. reflexivity. Qed.

Lemma drop_while_incl : forall f l x, In x (drop_while f l) -> In x l.
Proof.
  intros f l. induction l as [|y l IH]; intros x H; cbn [drop_while] in H; auto.
  destruct (f y); auto. right. auto.
Qed.
Lemma drop_while_length : forall f l, length (drop_while f l) <= length l.
Proof.
  intros f l. induction l as [|y l IH]; cbn [drop_while]; auto. destruct (f y); cbn [length] in *; lia.
Qed.
Lemma steal_loop_in : forall fuel m front th al l c,
  steal_loop fuel m front th al l = Some c -> c = front \/ In c l.
Proof.
  intros fuel. induction fuel as [|fuel IH]; intros m front th al l c H;
    destruct l as [|r l]; cbn [steal_loop] in H; try (injection H as <-; auto; fail).
  - destruct (_ <=? _)%Z; [injection H as <-; auto|]. destruct (ring_of r m); [|discriminate].
    destruct (Qlt_bool _ _); [injection H as <-; right; now left|discriminate].
  - destruct (_ <=? _)%Z; [injection H as <-; auto|]. destruct (ring_of r m); [|discriminate].
    destruct (Qlt_bool _ _); [injection H as <-; right; now left|].
    apply IH in H as [H|H]; auto. right. right. eapply drop_while_incl; eauto.
Qed.
Lemma steal_loop_some : forall fuel m front th al l, ring_ok m -> (forall x, In x l -> x < m_n m) ->
  length l <= fuel -> exists c, steal_loop fuel m front th al l = Some c.
Proof.
  intros fuel. induction fuel as [|fuel IH]; intros m front th al l R B L;
    destruct l as [|r l]; cbn [steal_loop]; eauto.
  - cbn [length] in L. lia.
  - destruct (_ <=? _)%Z; eauto.
    destruct (ring_exists m r R) as (rl & Hr & _). { apply B. now left. }
    rewrite (ring_of_visit m r rl Hr). cbv zeta. destruct (Qlt_bool _ _); eauto.
    apply IH; auto.
    + intros x Hx. apply B. right. eapply drop_while_incl; eauto.
    + pose proof (drop_while_length (sisterVoices m r) l). cbn [length] in L. lia.
Qed.

(** What the stealers choose: a voice meeting the condition when the limit is reached. *)
Lemma steal_spec : forall I m cond l p c, steal I m cond l p = Some c ->
  match c with
  | Some x => In x l /\ cond x = true /\ (p <= Z.of_nat (length (filter cond l)))%Z
  | None => (Z.of_nat (length (filter cond l)) < p)%Z \/ filter cond l = []
  end.
Proof.
  intros I m cond l p c H. unfold steal in H. destruct (i_stealer I).
  - injection H as H. eapply generic_spec; eauto.
  - injection H as H. eapply generic_spec; eauto.
  - destruct (p <=? Z.of_nat (length (filter cond l)))%Z eqn:L.
    + unfold stealEnvelopeAndAge in H. cbv zeta in H.
      destruct (sort_by (voiceOrdering m) (filter cond l)) as [|f s] eqn:S; [discriminate|].
      destruct (steal_loop _ _ _ _ _ _) as [x|] eqn:E; [|discriminate].
      cbn [option_map] in H. injection H as <-.
      assert (Hx : In x (f :: s)).
      { apply steal_loop_in in E as [->|E]; auto. now left. }
      rewrite <- S in Hx. eapply Permutation_in in Hx; [|apply sort_by_perm].
      apply filter_In in Hx as [A B]. split; auto. split; auto. apply Z.leb_le in L. lia.
    + injection H as <-. left. apply Z.leb_gt in L. lia.
Qed.
Lemma steal_some : forall I m cond l p, ring_ok m -> (forall x, In x l -> x < m_n m) ->
  (i_stealer I = SEnvelope -> (1 <= p)%Z) -> exists c, steal I m cond l p = Some c.
Proof.
  intros I m cond l p R B HP. unfold steal. destruct (i_stealer I) eqn:ST; eauto.
  specialize (HP eq_refl). destruct (p <=? Z.of_nat (length (filter cond l)))%Z eqn:L; eauto.
  unfold stealEnvelopeAndAge. cbv zeta.
  destruct (sort_by (voiceOrdering m) (filter cond l)) as [|f s] eqn:S.
  - exfalso. pose proof (Permutation_length (sort_by_perm (voiceOrdering m) (filter cond l))) as PL.
    rewrite S in PL. cbn [length] in PL. apply Z.leb_le in L. lia.
  - edestruct (steal_loop_some (length (f :: s)) m f) as [c E]; [exact R| |apply Nat.le_refl|].
    + intros x Hx. rewrite <- S in Hx. eapply Permutation_in in Hx; [|apply sort_by_perm].
      apply filter_In in Hx. apply B. tauto.
    + erewrite E. cbn [option_map]. eauto.
Qed.
