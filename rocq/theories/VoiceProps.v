(** Theorems on voices: bookkeeping (C19), all sound off (C45), sister rings (C21). *)
From Coq Require Import ZArith QArith List Bool Lia Arith Permutation.
From Verif Require Import ContainersModel MidiModel LayerModel VoiceModel VoiceRings VoiceInv VoiceSteps.
Import ListNotations.
Local Open Scope nat_scope.

(** * C19: active voices *)

(** The lists contain exactly the voices that are not idle and whose region can sound, each
    once. *)
Theorem C19_active_lists : forall I E defaults md sw bps count n os s,
  frun I E defaults (f_load I md sw bps count n) os = Some s ->
  let m := f_vm s in
  let sounding i := i < m_n m /\ v_state (m_voice m i) <> VIdle
    /\ exists k, v_region (m_voice m i) = Some k /\ vi_disabled (i_info I k) = false in
  NoDup (m_active m) /\ (forall i, In i (m_active m) <-> sounding i)
  /\ (forall g, NoDup (m_glist m g) /\ forall i, In i (m_glist m g) <->
        In i (m_active m) /\ exists k, v_region (m_voice m i) = Some k /\ vi_group (i_info I k) = g)
  /\ (forall x, NoDup (m_slist m x) /\ forall i, In i (m_slist m x) <->
        In i (m_active m) /\ exists k, v_region (m_voice m i) = Some k /\ In x (vi_sets (i_info I k))).
Proof.
  intros I E defaults md sw bps count n os s H m sounding.
  pose proof (frun_vinv _ _ _ _ _ _ _ _ _ _ H) as V. fold m in V.
  destruct (iv_active _ _ V) as [AD AI].
  assert (A : forall i, In i (m_active m) <-> sounding i).
  { intros i. rewrite AI. unfold belongs, sounding, st, rg. split.
    - intros (X & Y & k & Z & W & _). eauto 6.
    - intros (X & Y & k & Z & W). split; auto. split; auto. exists k. auto. }
  split; [exact AD|]. split; [exact A|].
  assert (G : forall P l, list_ok I m P l -> NoDup l /\ forall i, In i l <->
        In i (m_active m) /\ exists k, v_region (m_voice m i) = Some k /\ P k).
  { intros P l [D HI]. split; auto. intros i. rewrite HI, A. unfold belongs, sounding, st, rg. split.
    - intros (X & Y & k & Z & W & HP). split; [eauto 6|eauto].
    - intros [(X & Y & k & Z & W) (k' & Z' & HP)]. split; auto. split; auto.
      exists k. rewrite Z in Z'. injection Z' as <-. auto. }
  split; intros; apply G; [apply (iv_group _ _ V)|apply (iv_set _ _ V)].
Qed.

(** Without disabled regions: exactly the voices that are not idle. *)
Theorem C19_active_exact : forall I E defaults md sw bps count n os s,
  (forall k, vi_disabled (i_info I k) = false) ->
  frun I E defaults (f_load I md sw bps count n) os = Some s ->
  let m := f_vm s in
  NoDup (m_active m)
  /\ forall i, In i (m_active m) <-> i < m_n m /\ v_state (m_voice m i) <> VIdle.
Proof.
  intros I E defaults md sw bps count n os s D H m.
  pose proof (frun_vinv _ _ _ _ _ _ _ _ _ _ H) as V. fold m in V.
  destruct (iv_active _ _ V) as [AD AI]. split; auto. intros i. rewrite AI. unfold belongs, st. split.
  - intros (X & Y & _). auto.
  - intros (X & Y). split; auto. split; auto. destruct (rg m i) as [k|] eqn:R.
    + exists k. auto.
    + exfalso. apply Y. now apply (iv_idle _ _ V i X).
Qed.

(** A voice is idle exactly when it has no region. *)
Theorem C19_idle_region : forall I E defaults md sw bps count n os s,
  frun I E defaults (f_load I md sw bps count n) os = Some s ->
  forall i, i < m_n (f_vm s) ->
    (v_state (m_voice (f_vm s) i) = VIdle <-> v_region (m_voice (f_vm s) i) = None).
Proof.
  intros I E defaults md sw bps count n os s H i Hi.
  exact (iv_idle _ _ (frun_vinv _ _ _ _ _ _ _ _ _ _ H) i Hi).
Qed.

(** * C45: all sound off *)
Definition silent (m : vman) (i : nat) : Prop :=
  st m i = VIdle /\ rg m i = None /\ nx m i = i /\ pv m i = i.
Lemma reset_keeps_silent : forall I i m j, vinv I m -> i < m_n m -> j < m_n m -> silent m j ->
  silent (v_reset I i m) j.
Proof.
  intros I i m j V Hi Hj (S & R & N & P). pose proof (v_reset_spec I i m V Hi) as RS.
  destruct (Nat.eq_dec j i) as [->|H].
  - split; [apply RS|]. split; [apply RS|]. apply RS.
  - destruct (core_st _ _ _ (rs_core _ _ _ _ RS j H)) as (A & B & _).
    assert (NX : nx (v_reset I i m) j = j).
    { rewrite (rs_links _ _ _ _ RS) by auto. rewrite N. destruct (Nat.eqb_spec j i); congruence. }
    split; [congruence|]. split; [congruence|]. split; auto.
    assert (Hj' : j < m_n (v_reset I i m)) by (rewrite v_reset_n; auto).
    destruct (iv_ring _ _ (rs_vinv _ _ _ _ RS) j Hj') as (_ & _ & _ & Q). congruence.
Qed.
Lemma reset_all_silent : forall I m, vinv I m ->
  let m' := f_reset_all I m in
  vinv I m' /\ m_n m' = m_n m /\ m_required m' = m_required m
  /\ forall i, i < m_n m -> silent m' i.
Proof.
  intros I m V. unfold f_reset_all, each_voice.
  assert (G : forall l m0, vinv I m0 -> (forall i, In i l -> i < m_n m0) ->
    let m' := fold_left (fun m i => v_reset I i m) l m0 in
    vinv I m' /\ m_n m' = m_n m0 /\ m_required m' = m_required m0
    /\ (forall i, In i l -> silent m' i)
    /\ (forall i, i < m_n m0 -> silent m0 i -> silent m' i)).
  { induction l as [|i l IH]; intros m0 V0 B; cbn [fold_left].
    - split; [exact V0|]. split; [reflexivity|]. split; [reflexivity|]. split; [intros i []|auto].
    - assert (Hi : i < m_n m0) by (apply B; now left).
      pose proof (v_reset_spec I i m0 V0 Hi) as RS.
      destruct (IH (v_reset I i m0)) as (A1 & A2 & A3 & A4 & A5).
      { apply RS. } { intros j Hj. rewrite v_reset_n. apply B. now right. }
      rewrite v_reset_n in *.
      split; auto. split; auto. split; [rewrite A3; apply RS|]. split.
      + intros j [<-|Hj]; auto. apply A5; auto. split; [apply RS|]. split; apply RS.
      + intros j Hj HS. apply A5; auto. apply reset_keeps_silent; auto. }
  destruct (G (seq 0 (m_n m)) m V) as (A1 & A2 & A3 & A4 & _).
  { intros i Hi. apply in_seq in Hi. lia. }
  split; auto. split; auto. split; auto. intros i Hi. apply A4. apply in_seq. lia.
Qed.
Lemma silent_lists : forall I m, vinv I m -> (forall i, i < m_n m -> silent m i) ->
  m_active m = [] /\ (forall g, m_glist m g = []) /\ (forall x, m_slist m x = []).
Proof.
  intros I m V S. assert (G : forall P l, list_ok I m P l -> l = []).
  { intros P [|x l] [_ H]; auto. exfalso. destruct (H x) as [H1 _].
    destruct H1 as (A & B & _); [now left|]. apply B. apply S. exact A. }
  split; [eapply G; apply V|]. split; intros; eapply G; apply V.
Qed.

(** After allSoundOff, or the controllers 120 and 123, every voice is idle and alone in its ring,
    and no list refers to a voice. *)
Theorem C45_all_sound_off : forall I E defaults md sw bps count n os o s s',
  frun I E defaults (f_load I md sw bps count n) os = Some s ->
  (o = FAllSoundOff \/ exists d v rands ri, o = FOp (OCC d 120 v) rands ri \/ o = FOp (OCC d 123 v) rands ri) ->
  fstep I E defaults s o = Some s' ->
  let m := f_vm s' in
  m_n m = m_n (f_vm s) /\ m_active m = [] /\ (forall g, m_glist m g = []) /\ (forall x, m_slist m x = [])
  /\ forall i, i < m_n m -> v_state (m_voice m i) = VIdle /\ v_region (m_voice m i) = None
       /\ v_next (m_voice m i) = i /\ v_prev (m_voice m i) = i.
Proof.
  intros I E defaults md sw bps count n os o s s' H Ho H' m.
  pose proof (frun_vinv _ _ _ _ _ _ _ _ _ _ H) as V.
  assert (EQ : m = f_reset_all I (f_vm s)).
  { unfold m. destruct Ho as [->|(d & v & rands & ri & [->| ->])]; unfold fstep in H'; cbv zeta in H'.
    - injection H' as <-. reflexivity.
    - cbn [Z.eqb Pos.eqb orb] in H'. apply bind_inv in H' as (x1 & _ & H'). injection H' as <-. reflexivity.
    - cbn [Z.eqb Pos.eqb orb] in H'. apply bind_inv in H' as (x1 & _ & H'). injection H' as <-. reflexivity. }
  destruct (reset_all_silent I (f_vm s) V) as (A1 & A2 & _ & A4). rewrite <- EQ in *.
  assert (S : forall i, i < m_n m -> silent m i) by (intros i Hi; apply A4; congruence).
  destruct (silent_lists I m A1 S) as (B1 & B2 & B3).
  do 4 (split; [assumption|]). exact S.
Qed.

(** * C21: sister rings *)

(** In a reachable state every voice is in one ring, whose walk ends; its members have the same
    ring, in rotated order. *)
Lemma is_ring_rotate : forall m a b l, is_ring m (a :: b :: l) -> is_ring m (b :: l ++ [a]).
Proof.
  intros m a b l (D & B & C). cbn [is_ring].
  assert (P : Permutation (a :: b :: l) (b :: l ++ [a])).
  { change (b :: l ++ [a]) with ((b :: l) ++ [a]). apply Permutation_cons_append. }
  split; [eapply Permutation_NoDup; eauto|].
  split; [intros x Hx; apply B; eapply Permutation_in; [symmetry; exact P|exact Hx]|].
  cbn [chain] in C. destruct C as (C1 & C2 & C3).
  assert (G : forall l x z, chain m x l z -> nx m z = b -> pv m b = z -> chain m x (l ++ [z]) b).
  { induction l0 as [|y l0 IH]; intros x z H; cbn [chain app] in *.
    - intuition.
    - intros. destruct H as (? & ? & ?). split; auto. }
  apply G; auto.
Qed.
Lemma is_ring_move : forall m l1 a x l2, is_ring m (a :: l1 ++ x :: l2) -> is_ring m (x :: l2 ++ a :: l1).
Proof.
  intros m l1. induction l1 as [|b l1 IH]; intros a x l2 H; cbn [app] in H.
  - apply is_ring_rotate in H. exact H.
  - apply is_ring_rotate in H. rewrite <- app_assoc in H. cbn [app] in H.
    specialize (IH b x (l2 ++ [a])). rewrite <- app_assoc in IH. cbn [app] in IH.
    apply IH. exact H.
Qed.
Theorem C21_rings_partition : forall I E defaults md sw bps count n os s,
  frun I E defaults (f_load I md sw bps count n) os = Some s ->
  let m := f_vm s in
  forall i, i < m_n m -> exists l, ring_of i m = Some l /\ NoDup l /\ In i l
    /\ (forall j, In j l -> j < m_n m /\ exists l', ring_of j m = Some l' /\ Permutation l l')
    /\ (forall j, j < m_n m -> ~ In j l -> exists l', ring_of j m = Some l' /\ forall x, In x l -> ~ In x l').
Proof.
  intros I E defaults md sw bps count n os s H m i Hi.
  pose proof (frun_vinv _ _ _ _ _ _ _ _ _ _ H) as V. fold m in V.
  pose proof (iv_ring _ _ V) as R.
  destruct (ring_exists m i R Hi) as (l & Hl & _).
  assert (SAME : forall a l, is_ring m (a :: l) -> forall j, In j (a :: l) ->
            exists l', is_ring m (j :: l') /\ Permutation (a :: l) (j :: l')).
  { intros a l0 H0 j [<-|Hj]; [eauto|]. apply in_split in Hj as (l1 & l2 & ->).
    exists (l2 ++ a :: l1). split; [now apply is_ring_move|].
    change (a :: l1 ++ j :: l2) with ((a :: l1) ++ j :: l2).
    change (j :: l2 ++ a :: l1) with ((j :: l2) ++ a :: l1). apply Permutation_app_comm. }
  assert (PERM : forall (j : nat) l', Permutation (j :: l') (l' ++ [j])) by (intros; apply Permutation_cons_append).
  exists (l ++ [i]). split; [now apply ring_of_visit|].
  split; [eapply Permutation_NoDup; [apply PERM|apply Hl]|].
  split; [apply in_app_iff; cbn; auto|]. split.
  - intros j Hj. eapply Permutation_in in Hj; [|symmetry; apply PERM].
    split; [now apply Hl|]. destruct (SAME i l Hl j Hj) as (l' & Hl' & P).
    exists (l' ++ [j]). split; [now apply ring_of_visit|].
    rewrite <- !PERM. exact P.
  - intros j Hj Hn. destruct (ring_exists m j R Hj) as (l' & Hl' & _).
    exists (l' ++ [j]). split; [now apply ring_of_visit|]. intros x Hx Hx'. apply Hn.
    eapply Permutation_in in Hx; [|symmetry; apply PERM].
    eapply Permutation_in in Hx'; [|symmetry; apply PERM].
    destruct (SAME i l Hl x Hx) as (l1 & H1 & P1). destruct (SAME j l' Hl' x Hx') as (l2 & H2 & P2).
    assert (EQ : Some (l1 ++ [x]) = Some (l2 ++ [x])).
    { rewrite <- (ring_of_visit m x l1 H1). apply (ring_of_visit m x l2 H2). }
    apply some_inj in EQ. apply app_inj_tail in EQ as [EQ _]. subst l2.
    assert (Hin : In j (i :: l)).
    { eapply Permutation_in; [symmetry; exact P1|]. eapply Permutation_in; [exact P2|]. now left. }
    eapply Permutation_in; [apply PERM|exact Hin].
Qed.


(** Removing a voice from the links. *)
Section REMOVE.
Variable m : vman.
Variable i : nat.
Hypothesis R : ring_ok m.
Hypothesis Hi : i < m_n m.
Let m' := removeVoiceFromRing i m.
Lemma chain_remove_other : forall l a z, (forall x, In x (a :: l ++ [z]) -> x < m_n m /\ x <> i) ->
  chain m a l z -> chain m' a l z.
Proof.
  induction l as [|b l IH]; intros a z B H; cbn [chain] in *.
  - destruct (B a) as [A1 A2]; [now left|]. destruct (B z) as [Z1 Z2]; [right; now left|].
    destruct H as [H1 H2]. unfold m'. rewrite nx_remove, pv_remove by auto.
    destruct (Nat.eqb_spec a i); [congruence|]. destruct (Nat.eqb_spec z i); [congruence|].
    rewrite H1, H2. destruct (Nat.eqb_spec z i); [congruence|]. destruct (Nat.eqb_spec a i); [congruence|].
    auto.
  - destruct (B a) as [A1 A2]; [now left|]. destruct (B b) as [Z1 Z2]; [right; now left|].
    destruct H as (H1 & H2 & H3).
    split; [|split; [|apply IH; auto; intros x Hx; apply B; now right]].
    + unfold m'. rewrite nx_remove by auto. destruct (Nat.eqb_spec a i); [congruence|].
      destruct (Nat.eqb_spec (nx m a) i); congruence.
    + unfold m'. rewrite pv_remove by auto. destruct (Nat.eqb_spec b i); [congruence|].
      destruct (Nat.eqb_spec (pv m b) i); congruence.
Qed.
Lemma remove_id : forall l, ~ In i l -> remove Nat.eq_dec i l = l.
Proof. intros l H. apply notin_remove. exact H. Qed.
Lemma chain_remove : forall l a z, NoDup l -> a < m_n m -> a <> i -> z < m_n m -> z <> i ->
  (forall x, In x l -> x < m_n m) -> chain m a l z -> chain m' a (remove Nat.eq_dec i l) z.
Proof.
  induction l as [|b l IH]; intros a z D A1 A2 Z1 Z2 B H.
  - cbn [remove]. apply chain_remove_other; auto. intros x [<-|[<-|[]]]; auto.
  - inversion D as [|? ? Hn D']; subst. cbn [remove]. destruct (Nat.eq_dec i b) as [<-|Hb].
    + rewrite remove_id by auto. cbn [chain] in H. destruct H as (H1 & H2 & H3).
      assert (NA : nx m' a = nx m i).
      { unfold m'. rewrite nx_remove by auto. destruct (Nat.eqb_spec a i); [congruence|].
        destruct (Nat.eqb_spec (nx m a) i); congruence. }
      assert (PC : forall c, c < m_n m -> c <> i -> pv m c = i -> pv m' c = a).
      { intros c C1 C2 C3. unfold m'. rewrite pv_remove by auto.
        destruct (Nat.eqb_spec c i); [congruence|]. destruct (Nat.eqb_spec (pv m c) i); congruence. }
      destruct l as [|c l]; cbn [chain] in *.
      * destruct H3 as [H3 H4]. split; [congruence|]. apply PC; auto.
      * destruct H3 as (H3 & H4 & H5). split; [congruence|].
        assert (C2 : c <> i) by (intros ->; apply Hn; now left).
        split; [apply PC; auto; apply B; right; now left|].
        apply chain_remove_other; auto. intros x Hx.
        assert (Hx' : In x (c :: l) \/ x = z).
        { destruct Hx as [Hx|Hx]; [left; now left|]. apply in_app_iff in Hx as [Hx|[Hx|[]]]; auto.
          left. now right. }
        destruct Hx' as [Hx'| ->]; auto. split; [apply B; now right|].
        intros ->. contradiction.
    + cbn [chain] in *. destruct H as (H1 & H2 & H3).
      assert (B1 : b < m_n m) by (apply B; now left).
      split; [|split; [|apply IH; auto; intros x Hx; apply B; now right]].
      * unfold m'. rewrite nx_remove by auto. destruct (Nat.eqb_spec a i); [congruence|].
        destruct (Nat.eqb_spec (nx m a) i); congruence.
      * unfold m'. rewrite pv_remove by auto. destruct (Nat.eqb_spec b i); [congruence|].
        destruct (Nat.eqb_spec (pv m b) i); congruence.
Qed.
Lemma ring_remove : forall j l, j <> i -> is_ring m (j :: l) ->
  is_ring m' (j :: remove Nat.eq_dec i l).
Proof.
  intros j l Hj (D & B & C). inversion D as [|? ? Hn D']; subst. cbn [is_ring].
  assert (IN : forall x, In x (remove Nat.eq_dec i l) -> In x l) by (intros x Hx; eapply in_remove; eauto).
  split; [|split].
  - constructor; [intros Hc; auto|]. clear - D'. induction l as [|b l IH]; cbn [remove]; [constructor|].
    inversion D' as [|? ? Hn D]; subst. destruct (Nat.eq_dec i b); auto. constructor; auto.
    intros Hc. apply Hn. eapply in_remove; eauto.
  - intros x [<-|Hx]; [apply B; now left|]. apply B. right. auto.
  - apply chain_remove; auto; intros; apply B; [now left|now left|now right].
Qed.
End REMOVE.

Lemma pre_reset_ring : forall I i m l, is_ring m l -> is_ring (pre_reset I i m) l.
Proof. intros. eapply same_links_is_ring; [apply pre_reset_links|auto]. Qed.
Lemma reset_ring : forall I i j m l, vinv I m -> i < m_n m -> j <> i -> is_ring m (j :: l) ->
  is_ring (v_reset I i m) (j :: remove Nat.eq_dec i l).
Proof.
  intros I i j m l V Hi Hj H. rewrite v_reset_eq. apply ring_remove; auto.
  - eapply same_links_ring_ok; [apply pre_reset_links|apply V].
  - destruct (pre_reset_links I i m) as [E _]. now rewrite E.
  - now apply pre_reset_ring.
Qed.
Lemma ring_of_inv : forall m j l, ring_ok m -> j < m_n m -> ring_of j m = Some l ->
  exists l0, l = l0 ++ [j] /\ is_ring m (j :: l0).
Proof.
  intros m j l R Hj H. destruct (ring_exists m j R Hj) as (l0 & H0 & _).
  rewrite (ring_of_visit m j l0 H0) in H. apply some_inj in H. eauto.
Qed.

(** Resetting a voice takes it out of its ring and changes no other ring. *)
Theorem C21_reset : forall I E defaults md sw bps count n os s,
  frun I E defaults (f_load I md sw bps count n) os = Some s ->
  let m := f_vm s in
  forall i, i < m_n m ->
  ring_of i (v_reset I i m) = Some [i]
  /\ forall j l, j < m_n m -> j <> i -> ring_of j m = Some l ->
       ring_of j (v_reset I i m) = Some (remove Nat.eq_dec i l).
Proof.
  intros I E defaults md sw bps count n os s H m i Hi.
  pose proof (frun_vinv _ _ _ _ _ _ _ _ _ _ H) as V. fold m in V.
  pose proof (v_reset_spec I i m V Hi) as RS. split.
  - apply (ring_of_visit _ i []). destruct (rs_alone _ _ _ _ RS) as [A B].
    cbn [is_ring chain]. split; [repeat constructor; auto|]. split; [|auto].
    intros x [<-|[]]. now rewrite v_reset_n.
  - intros j l Hj Hn HR. destruct (ring_of_inv m j l (iv_ring _ _ V) Hj HR) as (l0 & -> & H0).
    rewrite remove_app. cbn [remove]. destruct (Nat.eq_dec i j); [congruence|].
    apply ring_of_visit. now apply reset_ring.
Qed.

(** Adding a voice that is alone. *)
Section ADD.
Variable m : vman.
Variables i h : nat.
Hypothesis R : ring_ok m.
Hypothesis Hi : i < m_n m.
Hypothesis Hh : h < m_n m.
Hypothesis Hn : h <> i.
Hypothesis Al : nx m i = i.
Let m' := fst (addVoiceToRing i (Some h) m).
Lemma pvh : nx m (pv m h) = h /\ pv m h < m_n m.
Proof. destruct (R h Hh) as (_ & A & B & _). auto. Qed.
Lemma chain_add : forall l a, ~ In i (a :: l) -> ~ In h l -> chain m a l h ->
  chain m' a (l ++ [i]) h.
Proof.
  induction l as [|b l IH]; intros a N1 N2 H; cbn [chain app] in *.
  - destruct H as [H1 H2]. unfold m'. rewrite !nx_add, !pv_add by auto.
    rewrite Nat.eqb_refl. destruct (Nat.eqb_spec a i); [exfalso; apply N1; now left|].
    destruct (Nat.eqb_spec a (pv m h)); [|congruence]. destruct (Nat.eqb_spec h i); [congruence|].
    rewrite Nat.eqb_refl. auto.
  - destruct H as (H1 & H2 & H3). pose proof pvh as [P1 P2].
    split; [|split; [|apply IH; [intros Hc; apply N1; now right|intros Hc; apply N2; now right|exact H3]]].
    + unfold m'. rewrite nx_add by auto. destruct (Nat.eqb_spec a i); [exfalso; apply N1; now left|].
      destruct (Nat.eqb_spec a (pv m h)); [|auto]. exfalso. apply N2. left. congruence.
    + unfold m'. rewrite pv_add by auto.
      destruct (Nat.eqb_spec b i); [exfalso; apply N1; right; now left|].
      destruct (Nat.eqb_spec b h); [exfalso; apply N2; now left|auto].
Qed.
Lemma ring_add : forall l, is_ring m (h :: l) -> is_ring m' (h :: l ++ [i]).
Proof.
  intros l (D & B & C). assert (NI : ~ In i (h :: l)).
  { intros Hc. assert (S : forall l a, chain m a l h -> In i (a :: l) -> a = i \/ i = h \/ exists x, In x (a :: l) /\ nx m x = i /\ x <> i).
    { clear - Hn Al. induction l as [|b l IH]; intros a C [->|H]; auto; cbn [chain] in C.
      - destruct H.
      - destruct C as (C1 & C2 & C3). destruct (Nat.eq_dec a i); auto.
        destruct (IH b C3 H) as [X|[X|(x & X1 & X2 & X3)]].
        + right. right. exists a. split; [now left|]. split; congruence.
        + auto.
        + right. right. exists x. split; [now right|auto]. }
    destruct (S l h C Hc) as [X|[X|(x & X1 & X2 & X3)]]; try congruence.
    apply X3. eapply ring_ok_inj; [exact R|now apply B|exact Hi|]. congruence. }
  inversion D as [|? ? Dn D']; subst. cbn [is_ring]. split; [|split].
  - change (h :: l ++ [i]) with ((h :: l) ++ [i]).
    eapply Permutation_NoDup; [apply Permutation_cons_append|]. constructor; auto.
  - intros x [<-|Hx]; [exact Hh|]. apply in_app_iff in Hx as [Hx|[<-|[]]]; [apply B; now right|exact Hi].
  - apply chain_add; auto.
Qed.
Lemma ring_add_other : forall a l, is_ring m (a :: l) -> ~ In h (a :: l) -> ~ In i (a :: l) ->
  is_ring m' (a :: l).
Proof.
  intros a l (D & B & C) NH NI. cbn [is_ring]. split; auto. split; auto.
  pose proof pvh as [P1 P2].
  assert (G : forall l0 x, incl (x :: l0) (a :: l) -> chain m x l0 a -> chain m' x l0 a).
  { induction l0 as [|b l0 IH]; intros x HI H; cbn [chain] in *.
    - assert (X1 : In x (a :: l)) by (apply HI; now left). destruct H as [H1 H2].
      unfold m'. rewrite nx_add, pv_add by auto.
      destruct (Nat.eqb_spec x i); [congruence|]. destruct (Nat.eqb_spec a i); [exfalso; apply NI; now left|].
      destruct (Nat.eqb_spec x (pv m h)); [exfalso; apply NH; left; congruence|].
      destruct (Nat.eqb_spec a h); [exfalso; apply NH; now left|]. auto.
    - assert (X1 : In x (a :: l)) by (apply HI; now left).
      assert (X2 : In b (a :: l)) by (apply HI; right; now left). destruct H as (H1 & H2 & H3).
      split; [|split; [|apply IH; auto; intros y Hy; apply HI; now right]].
      + unfold m'. rewrite nx_add by auto. destruct (Nat.eqb_spec x i); [congruence|].
        destruct (Nat.eqb_spec x (pv m h)); [exfalso; apply NH; congruence|auto].
      + unfold m'. rewrite pv_add by auto. destruct (Nat.eqb_spec b i); [congruence|].
        destruct (Nat.eqb_spec b h); [congruence|auto]. }
  apply G; auto. apply incl_refl.
Qed.
End ADD.

Theorem C21_add : forall I E defaults md sw bps count n os s,
  frun I E defaults (f_load I md sw bps count n) os = Some s ->
  let m := f_vm s in
  forall i h, i < m_n m -> h < m_n m -> h <> i -> ring_of i m = Some [i] ->
  let m' := fst (addVoiceToRing i (Some h) m) in
  (forall l, ring_of h m = Some (l ++ [h]) -> ring_of h m' = Some (l ++ [i; h]))
  /\ (forall j l, j < m_n m -> ring_of j m = Some l -> ~ In h l -> ~ In i l -> ring_of j m' = Some l).
Proof.
  intros I E defaults md sw bps count n os s H m i h Hi Hh Hn Al m'.
  pose proof (frun_vinv _ _ _ _ _ _ _ _ _ _ H) as V. fold m in V.
  pose proof (iv_ring _ _ V) as R.
  assert (A : nx m i = i).
  { destruct (ring_of_inv m i [i] R Hi Al) as (l0 & E0 & (_ & _ & C)).
    change [i] with ([] ++ [i]) in E0. apply app_inj_tail in E0 as [<- _]. cbn in C. tauto. }
  split.
  - intros l HR. destruct (ring_of_inv m h _ R Hh HR) as (l0 & E0 & H0).
    apply app_inj_tail in E0 as [-> _]. change [i; h] with ([i] ++ [h]). rewrite app_assoc.
    apply ring_of_visit. now apply ring_add.
  - intros j l Hj HR NH NI. destruct (ring_of_inv m j l R Hj HR) as (l0 & -> & H0).
    apply ring_of_visit. apply ring_add_other; auto.
    + intros Hc. apply NH. apply in_app_iff. cbn in *. tauto.
    + intros Hc. apply NI. apply in_app_iff. cbn in *. tauto.
Qed.

(** * Walking a ring while resetting its voices *)
Lemma ring_loop_reset : forall I l m fuel v start, vinv I m ->
  is_ring m (start :: v :: l) -> length l < fuel ->
  ring_loop fuel (v_reset I) start v m
  = Some (fold_left (fun m i => v_reset I i m) (v :: l ++ [start]) m).
Proof.
  intros I l. induction l as [|b l IH]; intros m fuel v start V (D & B & C) L.
  - destruct fuel as [|fuel]; [lia|]. cbn [ring_loop].
    destruct (Nat.eqb_spec v start) as [->|]. { inversion D. exfalso. apply H1. now left. }
    cbn [chain] in C. destruct C as (C1 & C2 & C3 & C4).
    change (v_next (m_voice m v)) with (nx m v). rewrite C3.
    destruct fuel; cbn [ring_loop]; rewrite Nat.eqb_refl; reflexivity.
  - destruct fuel as [|fuel]; [cbn [length] in L; lia|]. cbn [ring_loop].
    assert (Hv : v <> start).
    { intros ->. inversion D. apply H1. now left. }
    destruct (Nat.eqb_spec v start); [congruence|].
    assert (Hvn : v < m_n m) by (apply B; right; now left).
    assert (Nv : ~ In v (b :: l)).
    { inversion D. inversion H2. auto. }
    change (v_next (m_voice m v)) with (nx m v).
    assert (E : nx m v = b) by (cbn [chain] in C; tauto). rewrite E.
    rewrite IH.
    + reflexivity.
    + now apply v_reset_spec.
    + assert (RR : is_ring (v_reset I v m) (start :: remove Nat.eq_dec v (v :: b :: l))).
      { apply reset_ring; auto. split; auto. }
      cbn [remove] in RR. destruct (Nat.eq_dec v v); [|congruence].
      destruct (Nat.eq_dec v b); [subst; exfalso; apply Nv; now left|].
      rewrite remove_id in RR by (intros Hc; apply Nv; now right). exact RR.
    + cbn [length] in L. lia.
Qed.

(** Walking a ring ends even when the visited voices are reset: every member becomes idle and
    alone; the state and links of the other voices do not change. *)
Theorem C21_walk_with_resets : forall I E defaults md sw bps count n os s,
  frun I E defaults (f_load I md sw bps count n) os = Some s ->
  let m := f_vm s in
  forall i l, i < m_n m -> ring_of i m = Some l ->
  exists m', applyToRing (v_reset I) i m = Some m'
  /\ (forall j, In j l -> v_state (m_voice m' j) = VIdle /\ v_region (m_voice m' j) = None /\ ring_of j m' = Some [j])
  /\ (forall j, j < m_n m -> ~ In j l -> v_state (m_voice m' j) = v_state (m_voice m j)
        /\ v_region (m_voice m' j) = v_region (m_voice m j) /\ ring_of j m' = ring_of j m).
Proof.
  intros I E defaults md sw bps count n os s H m i l Hi HR.
  pose proof (frun_vinv _ _ _ _ _ _ _ _ _ _ H) as V. fold m in V. clearbody m. clear H.
  destruct (ring_of_inv m i l (iv_ring _ _ V) Hi HR) as (l0 & -> & H0).
  exists (fold_left (fun m i => v_reset I i m) (l0 ++ [i]) m). split.
  - unfold applyToRing. change (v_next (m_voice m i)) with (nx m i).
    destruct l0 as [|b l0].
    + assert (E1 : nx m i = i) by (destruct H0 as (_ & _ & C); cbn in C; tauto). rewrite E1.
      destruct (m_n m); cbn [ring_loop]; rewrite Nat.eqb_refl; reflexivity.
    + assert (E1 : nx m i = b) by (destruct H0 as (_ & _ & C); cbn in C; tauto). rewrite E1.
      apply ring_loop_reset; auto. destruct H0 as (D & B & _).
      pose proof (nodup_bounded _ _ D B). cbn [length] in *. lia.
  - set (ll := l0 ++ [i]) in *.
    assert (IN : forall j, In j ll -> j < m_n m).
    { intros j Hj. apply H0. subst ll. apply in_app_iff in Hj. cbn in *. tauto. }
    assert (G : forall q m0, vinv I m0 -> (forall j, In j q -> j < m_n m0) ->
      let m1 := fold_left (fun m i => v_reset I i m) q m0 in
      vinv I m1 /\ m_n m1 = m_n m0 /\ (forall j, In j q -> silent m1 j)
      /\ (forall j, j < m_n m0 -> silent m0 j -> silent m1 j)
      /\ (forall j, j < m_n m0 -> ~ In j q -> st m1 j = st m0 j /\ rg m1 j = rg m0 j)
      /\ (forall a r, is_ring m0 (a :: r) -> (forall x, In x (a :: r) -> ~ In x q) -> is_ring m1 (a :: r))).
    { induction q as [|x q IH]; intros m0 V0 B0; cbn [fold_left].
      - split; [exact V0|]. split; [reflexivity|]. split; [intros j []|]. auto.
      - assert (Hx : x < m_n m0) by (apply B0; now left).
        pose proof (v_reset_spec I x m0 V0 Hx) as RS.
        destruct (IH (v_reset I x m0)) as (A1 & A2 & A3 & A4 & A5 & A6).
        { apply RS. } { intros j Hj. rewrite v_reset_n. apply B0. now right. }
        rewrite v_reset_n in *. split; auto. split; auto. split; [|split; [|split]].
        + intros j [<-|Hj]; auto. apply A4; auto. split; [apply RS|]. split; apply RS.
        + intros j Hj HS. apply A4; auto. now apply reset_keeps_silent.
        + intros j Hj Hnj. destruct (A5 j Hj) as [-> ->]. { intros Hc. apply Hnj. now right. }
          assert (Hjx : j <> x) by (intros ->; apply Hnj; now left).
          destruct (core_st _ _ _ (rs_core _ _ _ _ RS j Hjx)) as (X & Y & _). auto.
        + intros a r Ha Hd. apply A6.
          * assert (Hax : a <> x) by (intros ->; apply (Hd x); now left).
            pose proof (reset_ring I x a m0 r V0 Hx Hax Ha) as RR.
            rewrite remove_id in RR; auto. intros Hc. apply (Hd x); [now right|now left].
          * intros y Hy Hc. apply (Hd y); [auto|now right]. }
    destruct (G ll m V IN) as (A1 & A2 & A3 & A4 & A5 & A6). split.
    + intros j Hj. destruct (A3 j Hj) as (S1 & S2 & S3 & S4). split; auto. split; auto.
      apply (ring_of_visit _ j []). cbn [is_ring chain]. split; [repeat constructor; auto|].
      split; [|auto]. intros x [<-|[]]. rewrite A2. auto.
    + intros j Hj Hnj. destruct (A5 j Hj Hnj) as [S1 S2]. split; auto. split; auto.
      destruct (ring_exists m j (iv_ring _ _ V) Hj) as (r & Hr & _).
      rewrite (ring_of_visit m j r Hr). apply ring_of_visit. apply A6; auto.
      intros x Hx Hc. apply Hnj.
      (* x is in both rings *)
      assert (SAME : forall a l, is_ring m (a :: l) -> forall y, In y (a :: l) ->
            exists l', is_ring m (y :: l') /\ Permutation (a :: l) (y :: l')).
      { intros a l1 H1 y [<-|Hy]; [eauto|]. apply in_split in Hy as (p1 & p2 & ->).
        exists (p2 ++ a :: p1). split; [now apply is_ring_move|].
        change (a :: p1 ++ y :: p2) with ((a :: p1) ++ y :: p2).
        change (y :: p2 ++ a :: p1) with ((y :: p2) ++ a :: p1). apply Permutation_app_comm. }
      assert (Hc' : In x (i :: l0)) by (subst ll; apply in_app_iff in Hc; cbn in *; tauto).
      destruct (SAME i l0 H0 x Hc') as (l1 & H1 & P1). destruct (SAME j r Hr x Hx) as (l2 & H2 & P2).
      assert (EQ : Some (l1 ++ [x]) = Some (l2 ++ [x])).
      { rewrite <- (ring_of_visit m x l1 H1). apply (ring_of_visit m x l2 H2). }
      apply some_inj in EQ. apply app_inj_tail in EQ as [EQ _]. subst l2.
      assert (Hin : In j (i :: l0)).
      { eapply Permutation_in; [symmetry; exact P1|]. eapply Permutation_in; [exact P2|]. now left. }
      subst ll. apply in_app_iff. cbn in *. tauto.
Qed.
