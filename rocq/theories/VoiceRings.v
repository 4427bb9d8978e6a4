(** Rings of sister voices: representation, walks, insertions and removals. *)
From Coq Require Import ZArith QArith List Bool Lia Arith.
From Verif Require Import ContainersModel MidiModel LayerModel VoiceModel.
Import ListNotations.
Local Open Scope nat_scope.

(** * Reading after writing *)
Definition nx (m : vman) (i : nat) : nat := v_next (m_voice m i).
Definition pv (m : vman) (i : nat) : nat := v_prev (m_voice m i).

Lemma updn_eq : forall A (f : nat -> A) k v, updn f k v k = v.
Proof. intros. unfold updn. now rewrite Nat.eqb_refl. Qed.
Lemma updn_neq : forall A (f : nat -> A) k v x, x <> k -> updn f k v x = f x.
Proof. intros. unfold updn. destruct (Nat.eqb_spec x k); congruence. Qed.

Lemma nx_setNext : forall m i j x, nx (setNext i j m) x = if Nat.eqb x i then j else nx m x.
Proof.
  intros. unfold nx, setNext, put, updn. cbn [m_voice].
  destruct (Nat.eqb_spec x i); [subst|]; reflexivity.
Qed.
Lemma pv_setNext : forall m i j x, pv (setNext i j m) x = pv m x.
Proof.
  intros. unfold pv, setNext, put, updn. cbn [m_voice].
  destruct (Nat.eqb_spec x i); [subst|]; reflexivity.
Qed.
Lemma nx_setPrev : forall m i j x, nx (setPrev i j m) x = nx m x.
Proof.
  intros. unfold nx, setPrev, put, updn. cbn [m_voice].
  destruct (Nat.eqb_spec x i); [subst|]; reflexivity.
Qed.
Lemma pv_setPrev : forall m i j x, pv (setPrev i j m) x = if Nat.eqb x i then j else pv m x.
Proof.
  intros. unfold pv, setPrev, put, updn. cbn [m_voice].
  destruct (Nat.eqb_spec x i); [subst|]; reflexivity.
Qed.

(** * Well formed links *)
Definition ring_ok (m : vman) : Prop :=
  forall i, i < m_n m ->
    nx m i < m_n m /\ pv m i < m_n m /\ nx m (pv m i) = i /\ pv m (nx m i) = i.

Lemma ring_ok_inj : forall m i j, ring_ok m -> i < m_n m -> j < m_n m -> nx m i = nx m j -> i = j.
Proof.
  intros m i j H Hi Hj E. destruct (H i Hi) as (_ & _ & _ & A). destruct (H j Hj) as (_ & _ & _ & B).
  congruence.
Qed.

(** Links after a removal. *)
Lemma nx_remove : forall m i x, ring_ok m -> i < m_n m -> x < m_n m ->
  nx (removeVoiceFromRing i m) x =
    if Nat.eqb x i then i else if Nat.eqb (nx m x) i then nx m i else nx m x.
Proof.
  intros m i x H Hi Hx. unfold removeVoiceFromRing.
  rewrite nx_setNext. destruct (Nat.eqb_spec x i) as [->|Hxi]; [reflexivity|].
  rewrite nx_setPrev, nx_setPrev, nx_setNext.
  change (v_prev (m_voice m i)) with (pv m i). change (v_next (m_voice m i)) with (nx m i).
  destruct (H i Hi) as (A & B & C & D). destruct (H x Hx) as (A' & B' & C' & D').
  destruct (Nat.eqb_spec x (pv m i)) as [H1|H1]; destruct (Nat.eqb_spec (nx m x) i) as [H2|H2];
    try reflexivity; congruence.
Qed.
Lemma pv_remove : forall m i x, ring_ok m -> i < m_n m -> x < m_n m ->
  pv (removeVoiceFromRing i m) x =
    if Nat.eqb x i then i else if Nat.eqb (pv m x) i then pv m i else pv m x.
Proof.
  intros m i x H Hi Hx. unfold removeVoiceFromRing.
  rewrite pv_setNext, pv_setPrev. destruct (Nat.eqb_spec x i) as [->|Hxi]; [reflexivity|].
  rewrite pv_setPrev. rewrite pv_setNext.
  match goal with |- context [v_next (m_voice ?q i)] =>
    change (v_next (m_voice q i)) with (nx q i); change (v_prev (m_voice q i)) with (pv q i) end.
  rewrite pv_setNext, nx_setNext.
  change (v_prev (m_voice m i)) with (pv m i). change (v_next (m_voice m i)) with (nx m i).
  destruct (H i Hi) as (A & B & C & D). destruct (H x Hx) as (A' & B' & C' & D').
  replace (if Nat.eqb i (pv m i) then nx m i else nx m i) with (nx m i)
    by (destruct (Nat.eqb i (pv m i)); reflexivity).
  destruct (Nat.eqb_spec x (nx m i)) as [H1|H1]; destruct (Nat.eqb_spec (pv m x) i) as [H2|H2];
    try reflexivity; congruence.
Qed.
Lemma n_remove : forall m i, m_n (removeVoiceFromRing i m) = m_n m.
Proof. reflexivity. Qed.

Lemma remove_ring_ok : forall m i, ring_ok m -> i < m_n m -> ring_ok (removeVoiceFromRing i m).
Proof.
  intros m i H Hi x Hx. rewrite n_remove in *.
  pose proof (H i Hi) as (A & B & C & D). pose proof (H x Hx) as (A' & B' & C' & D').
  assert (N : nx (removeVoiceFromRing i m) x < m_n m
              /\ pv (removeVoiceFromRing i m) x < m_n m).
  { rewrite nx_remove, pv_remove by assumption.
    destruct (Nat.eqb x i), (Nat.eqb (nx m x) i), (Nat.eqb (pv m x) i); auto. }
  destruct N as [N P]. split; [exact N|]. split; [exact P|].
  rewrite nx_remove by assumption. rewrite (pv_remove m i (nx _ _)) by assumption.
  rewrite (nx_remove m i x), (pv_remove m i x) by assumption.
  destruct (Nat.eqb_spec x i) as [->|Hxi].
  { rewrite Nat.eqb_refl. auto. }
  split.
  - destruct (Nat.eqb_spec (pv m x) i) as [E|E].
    + destruct (Nat.eqb_spec (pv m i) i) as [F|F]; [congruence|].
      rewrite C, Nat.eqb_refl. congruence.
    + destruct (Nat.eqb_spec (pv m x) i) as [F|F]; [congruence|].
      destruct (Nat.eqb_spec (nx m (pv m x)) i); congruence.
  - destruct (Nat.eqb_spec (nx m x) i) as [E|E].
    + destruct (Nat.eqb_spec (nx m i) i) as [F|F]; [congruence|].
      rewrite D, Nat.eqb_refl. congruence.
    + destruct (Nat.eqb_spec (nx m x) i) as [F|F]; [congruence|].
      destruct (Nat.eqb_spec (pv m (nx m x)) i); congruence.
Qed.

(** Links after an insertion of a voice that is alone. *)
Lemma nx_add : forall m i h x, ring_ok m -> i < m_n m -> h < m_n m -> nx m i = i -> h <> i ->
  nx (fst (addVoiceToRing i (Some h) m)) x =
    if Nat.eqb x i then h else if Nat.eqb x (pv m h) then i else nx m x.
Proof.
  intros m i h x H Hi Hh E Hn. unfold addVoiceToRing. cbn [fst].
  rewrite nx_setNext, nx_setPrev, nx_setPrev, nx_setNext.
  change (v_prev (m_voice m h)) with (pv m h).
  destruct (Nat.eqb_spec x (pv m h)) as [F|F]; [|reflexivity].
  destruct (Nat.eqb_spec x i) as [G|G]; [|reflexivity].
  exfalso. destruct (H h Hh) as (_ & _ & C & _). rewrite <- F, G, E in C. congruence.
Qed.
Lemma pv_add : forall m i h x, ring_ok m -> i < m_n m -> h < m_n m -> nx m i = i -> h <> i ->
  pv (fst (addVoiceToRing i (Some h) m)) x =
    if Nat.eqb x i then pv m h else if Nat.eqb x h then i else pv m x.
Proof.
  intros m i h x H Hi Hh E Hn. unfold addVoiceToRing. cbn [fst].
  rewrite pv_setNext, pv_setPrev, pv_setPrev, pv_setNext.
  change (v_prev (m_voice m h)) with (pv m h).
  destruct (Nat.eqb_spec x h) as [F|F]; [|reflexivity].
  destruct (Nat.eqb_spec x i) as [G|G]; [congruence|reflexivity].
Qed.
(** Adding to an empty builder, or to a builder whose head is the voice itself. *)
Lemma nx_add_self : forall m i x, nx m i = i -> pv m i = i ->
  nx (fst (addVoiceToRing i (Some i) m)) x = nx m x
  /\ pv (fst (addVoiceToRing i (Some i) m)) x = pv m x.
Proof.
  intros m i x E F. unfold addVoiceToRing. cbn [fst].
  rewrite nx_setNext, nx_setPrev, nx_setPrev, nx_setNext,
    pv_setNext, pv_setPrev, pv_setPrev, pv_setNext.
  change (v_prev (m_voice m i)) with (pv m i). rewrite F.
  destruct (Nat.eqb_spec x i); [subst; auto|auto].
Qed.
Lemma add_none : forall m i, addVoiceToRing i None m = addVoiceToRing i (Some i) m.
Proof. reflexivity. Qed.
Lemma n_add : forall m i h, m_n (fst (addVoiceToRing i h m)) = m_n m.
Proof. reflexivity. Qed.

Definition head_ok (m : vman) (h : option nat) : Prop :=
  match h with Some x => x < m_n m | None => True end.

Lemma add_ring_ok : forall m i h, ring_ok m -> i < m_n m -> head_ok m h -> nx m i = i ->
  ring_ok (fst (addVoiceToRing i h m)).
Proof.
  intros m i h H Hi Hh E.
  assert (F : pv m i = i).
  { destruct (H i Hi) as (_ & _ & _ & D). congruence. }
  assert (S : forall h, h = i -> ring_ok (fst (addVoiceToRing i (Some h) m))).
  { intros h0 ->. intros x Hx. rewrite n_add in *.
    destruct (nx_add_self m i x E F) as [A B]. rewrite A, B.
    destruct (H x Hx) as (P & Q & R & T).
    destruct (nx_add_self m i (pv m x) E F) as [A' _].
    destruct (nx_add_self m i (nx m x) E F) as [_ B']. rewrite A', B'. auto. }
  destruct h as [h|]; [|rewrite add_none; apply S; reflexivity].
  destruct (Nat.eq_dec h i) as [->|Hn]; [apply S; reflexivity|].
  cbn [head_ok] in Hh. pose proof (H h Hh) as (A & B & C & D).
  intros x Hx. rewrite n_add in *. pose proof (H x Hx) as (A' & B' & C' & D').
  rewrite !(nx_add m i h), !(pv_add m i h) by assumption.
  assert (NB : pv m h <> i) by (intros G; rewrite G, E in C; congruence).
  split; [destruct (Nat.eqb x i), (Nat.eqb x (pv m h)); assumption|].
  split; [destruct (Nat.eqb x i), (Nat.eqb x h); assumption|].
  split.
  - destruct (Nat.eqb_spec x i) as [->|Hxi].
    + destruct (Nat.eqb_spec (pv m h) i); [congruence|]. now rewrite Nat.eqb_refl.
    + destruct (Nat.eqb_spec x h) as [->|Hxh]; [now rewrite Nat.eqb_refl|].
      destruct (Nat.eqb_spec (pv m x) i) as [G|G]; [congruence|].
      destruct (Nat.eqb_spec (pv m x) (pv m h)); congruence.
  - destruct (Nat.eqb_spec x i) as [->|Hxi].
    + destruct (Nat.eqb_spec h i); [congruence|]. now rewrite Nat.eqb_refl.
    + destruct (Nat.eqb_spec x (pv m h)) as [->|Hxh]; [now rewrite Nat.eqb_refl|].
      destruct (Nat.eqb_spec (nx m x) i) as [G|G]; [congruence|].
      destruct (Nat.eqb_spec (nx m x) h); congruence.
Qed.

(** * Rings as lists *)

(** [chain m a l z]: from [a] through [l] to [z] by next, and back by previous. *)
Fixpoint chain (m : vman) (a : nat) (l : list nat) (z : nat) : Prop :=
  match l with
  | [] => nx m a = z /\ pv m z = a
  | b :: l' => nx m a = b /\ pv m b = a /\ chain m b l' z
  end.
(** The ring of [a]: its members in order. *)
Definition is_ring (m : vman) (l : list nat) : Prop :=
  match l with
  | [] => False
  | a :: l' => NoDup l /\ (forall x, In x l -> x < m_n m) /\ chain m a l' a
  end.

Fixpoint iter_nx (m : vman) (k : nat) (a : nat) : nat :=
  match k with O => a | S k' => iter_nx m k' (nx m a) end.
Lemma iter_nx_lt : forall m k a, ring_ok m -> a < m_n m -> iter_nx m k a < m_n m.
Proof.
  intros m k. induction k as [|k IH]; intros a H Ha; cbn [iter_nx]; auto.
  apply IH; auto. apply (H a Ha).
Qed.
Lemma iter_nx_S : forall m k a, iter_nx m (S k) a = nx m (iter_nx m k a).
Proof. intros m k. induction k as [|k IH]; intros a; cbn [iter_nx] in *; auto. Qed.
Lemma iter_nx_add : forall m j k a, iter_nx m (j + k) a = iter_nx m j (iter_nx m k a).
Proof.
  intros m j k. induction k as [|k IH]; intros a.
  - rewrite Nat.add_0_r. reflexivity.
  - rewrite Nat.add_succ_r. cbn [iter_nx]. apply IH.
Qed.
Lemma iter_nx_inj : forall m k a b, ring_ok m -> a < m_n m -> b < m_n m ->
  iter_nx m k a = iter_nx m k b -> a = b.
Proof.
  intros m k. induction k as [|k IH]; intros a b H Ha Hb E; cbn [iter_nx] in E; auto.
  apply IH in E; auto; try apply H; auto. eapply ring_ok_inj; eauto.
Qed.

Lemma nodup_or_dup : forall (l : list nat), NoDup l \/ exists a l1 l2 l3, l = l1 ++ a :: l2 ++ a :: l3.
Proof.
  induction l as [|x l IH].
  - left. constructor.
  - destruct IH as [IH|(a & l1 & l2 & l3 & ->)].
    + destruct (in_dec Nat.eq_dec x l) as [Hin|Hin].
      * right. apply in_split in Hin as (l2 & l3 & ->). exists x, [], l2, l3. reflexivity.
      * left. constructor; auto.
    + right. exists a, (x :: l1), l2, l3. reflexivity.
Qed.
Lemma nodup_bounded : forall (l : list nat) n, NoDup l -> (forall x, In x l -> x < n) ->
  length l <= n.
Proof.
  intros l n Hd Hb. rewrite <- (seq_length n 0).
  apply NoDup_incl_length; auto. intros x Hx. apply in_seq. specialize (Hb x Hx). lia.
Qed.

(** Pigeonhole: a walk of [n] steps meets a voice twice. *)
Lemma walk_dup : forall (f : nat -> nat) n, (forall k, f k < n) ->
  exists i j, i < j /\ j <= n /\ f i = f j.
Proof.
  intros f n Hf. destruct (nodup_or_dup (map f (seq 0 (S n)))) as [H|(a & l1 & l2 & l3 & E)].
  - exfalso. apply nodup_bounded with (n := n) in H.
    + rewrite map_length, seq_length in H. lia.
    + intros x Hx. apply in_map_iff in Hx as (k & <- & _). auto.
  - exists (length l1), (length l1 + S (length l2)).
    assert (L : length (map f (seq 0 (S n))) = S n) by now rewrite map_length, seq_length.
    assert (N : forall p, p < S n -> nth_error (map f (seq 0 (S n))) p = Some (f p)).
    { intros p Hp. rewrite nth_error_map.
      rewrite (nth_error_nth' (seq 0 (S n)) 0) by (rewrite seq_length; lia).
      rewrite seq_nth by lia. reflexivity. }
    rewrite E in L. rewrite !app_length in L. cbn [length] in L. rewrite app_length in L.
    cbn [length] in L.
    assert (P1 : nth_error (map f (seq 0 (S n))) (length l1) = Some a).
    { rewrite E, nth_error_app2, Nat.sub_diag by lia. reflexivity. }
    assert (P2 : nth_error (map f (seq 0 (S n))) (length l1 + S (length l2)) = Some a).
    { rewrite E, nth_error_app2 by lia.
      replace (length l1 + S (length l2) - length l1) with (S (length l2)) by lia.
      cbn [nth_error]. rewrite nth_error_app2, Nat.sub_diag by lia. reflexivity. }
    rewrite N in P1 by lia. rewrite N in P2 by lia. split; [lia|]. split; [lia|congruence].
Qed.

Lemma returns : forall m a, ring_ok m -> a < m_n m ->
  exists p, p < m_n m /\ iter_nx m (S p) a = a.
Proof.
  intros m a H Ha.
  destruct (walk_dup (fun k => iter_nx m k a) (m_n m)) as (i & j & Hij & Hj & E).
  { intros k. now apply iter_nx_lt. }
  exists (j - i - 1). split; [lia|]. replace (S (j - i - 1)) with (j - i) by lia.
  replace j with (i + (j - i)) in E by lia. rewrite iter_nx_add in E.
  symmetry. eapply iter_nx_inj with (k := i); eauto. now apply iter_nx_lt.
Qed.

(** The chain of the first [k] steps. *)
Lemma chain_steps : forall m k a, ring_ok m -> a < m_n m ->
  chain m a (map (fun j => iter_nx m (S j) a) (seq 0 k)) (iter_nx m (S k) a).
Proof.
  intros m k. induction k as [|k IH]; intros a H Ha.
  - cbn [seq map chain iter_nx]. split; auto. apply (H a Ha).
  - cbn [seq map chain]. rewrite <- seq_shift, map_map. cbn [iter_nx].
    split; [reflexivity|]. split; [apply (H a Ha)|]. apply (IH (nx m a)); auto. apply (H a Ha).
Qed.

Lemma least : forall (P : nat -> Prop) n, (forall k, P k \/ ~ P k) -> P n ->
  exists k, k <= n /\ P k /\ forall j, j < k -> ~ P j.
Proof.
  intros P n D. induction n as [n IH] using (well_founded_induction lt_wf). intros Hn.
  assert (B : (exists j, j < n /\ P j) \/ forall j, j < n -> ~ P j).
  { clear IH Hn. induction n as [|n IHn].
    - right. lia.
    - destruct IHn as [(j & Hj & HP)|Hno].
      + left. exists j. split; auto; lia.
      + destruct (D n) as [HP|HP].
        * left. exists n. split; auto.
        * right. intros j Hj. destruct (Nat.eq_dec j n); [subst; auto|apply Hno; lia]. }
  destruct B as [(j & Hj & HP)|Hno].
  - destruct (IH j Hj HP) as (k & Hk & HPk & Hmin). exists k. repeat split; auto. lia.
  - exists n. auto.
Qed.

(** Every voice is in a ring, which has at most as many members as there are voices. *)
Lemma ring_exists : forall m a, ring_ok m -> a < m_n m ->
  exists l, is_ring m (a :: l) /\ length l < m_n m.
Proof.
  intros m a H Ha. destruct (returns m a H Ha) as (p0 & Hp0 & E0).
  destruct (least (fun p => iter_nx m (S p) a = a) p0) as (p & Hp & E & Hmin).
  { intros k. destruct (Nat.eq_dec (iter_nx m (S k) a) a); auto. }
  { exact E0. }
  exists (map (fun j => iter_nx m (S j) a) (seq 0 p)).
  split; [|rewrite map_length, seq_length; lia]. cbn [is_ring].
  assert (Hlt : forall k, iter_nx m k a < m_n m) by (intros; now apply iter_nx_lt).
  split; [|split].
  - constructor.
    + intros Hin. apply in_map_iff in Hin as (j & Ej & Hj). apply in_seq in Hj.
      apply (Hmin j); [lia|exact Ej].
    + destruct (nodup_or_dup (map (fun j => iter_nx m (S j) a) (seq 0 p))) as [Hd|Hd]; [exact Hd|].
      exfalso. destruct Hd as (b & l1 & l2 & l3 & EL).
      set (g := fun j => iter_nx m (S j) a) in *.
      assert (L : length (map g (seq 0 p)) = p) by now rewrite map_length, seq_length.
      assert (N : forall q, q < p -> nth_error (map g (seq 0 p)) q = Some (g q)).
      { intros q Hq. rewrite nth_error_map.
        rewrite (nth_error_nth' (seq 0 p) 0) by (rewrite seq_length; lia).
        rewrite seq_nth by lia. reflexivity. }
      rewrite EL in L. rewrite !app_length in L. cbn [length] in L. rewrite app_length in L.
      cbn [length] in L.
      assert (P1 : nth_error (map g (seq 0 p)) (length l1) = Some b).
      { rewrite EL, nth_error_app2, Nat.sub_diag by lia. reflexivity. }
      assert (P2 : nth_error (map g (seq 0 p)) (length l1 + S (length l2)) = Some b).
      { rewrite EL, nth_error_app2 by lia.
        replace (length l1 + S (length l2) - length l1) with (S (length l2)) by lia.
        cbn [nth_error]. rewrite nth_error_app2, Nat.sub_diag by lia. reflexivity. }
      rewrite N in P1 by lia. rewrite N in P2 by lia. assert (EE : g (length l1) = g (length l1 + S (length l2))) by congruence.
      unfold g in EE. replace (S (length l1 + S (length l2))) with (S (length l1) + S (length l2)) in EE by lia.
      rewrite iter_nx_add in EE. apply iter_nx_inj in EE; auto.
      apply (Hmin (length l2)); [lia|congruence].
  - intros x [<-|Hx]; auto. apply in_map_iff in Hx as (j & <- & _). auto.
  - pose proof (chain_steps m p a H Ha) as HC. rewrite E in HC. exact HC.
Qed.

(** * Walks *)

(** Links unchanged. *)
Definition same_links (m m' : vman) : Prop :=
  m_n m' = m_n m /\ forall i, nx m' i = nx m i /\ pv m' i = pv m i.
Lemma same_links_refl : forall m, same_links m m.
Proof. intros m. split; auto. Qed.
Lemma same_links_trans : forall a b c, same_links a b -> same_links b c -> same_links a c.
Proof.
  intros a b c [A1 A2] [B1 B2]. split; [congruence|]. intros i. specialize (A2 i). specialize (B2 i).
  intuition congruence.
Qed.
Lemma same_links_ring_ok : forall m m', same_links m m' -> ring_ok m -> ring_ok m'.
Proof.
  intros m m' [E F] H i Hi. rewrite E in *. destruct (F i) as [F1 F2]. rewrite F1, F2.
  destruct (F (pv m i)) as [F3 _]. destruct (F (nx m i)) as [_ F4]. rewrite F3, F4. auto.
Qed.
Lemma same_links_chain : forall m m' l a z, same_links m m' -> chain m a l z -> chain m' a l z.
Proof.
  intros m m' l. induction l as [|b l IH]; intros a z [E F] H; cbn [chain] in *.
  - destruct (F a) as [F1 _]. destruct (F z) as [_ F2]. intuition congruence.
  - destruct H as (H1 & H2 & H3). destruct (F a) as [F1 _]. destruct (F b) as [_ F2].
    split; [congruence|]. split; [congruence|]. apply IH; auto. split; auto.
Qed.
Lemma same_links_is_ring : forall m m' l, same_links m m' -> is_ring m l -> is_ring m' l.
Proof.
  intros m m' [|a l] HL; cbn [is_ring]; auto. intros (A & B & C).
  split; auto. split; [intros x Hx; destruct HL as [E _]; rewrite E; auto|].
  eapply same_links_chain; eauto.
Qed.

Lemma chain_cons_nx : forall m a b l z, chain m a (b :: l) z -> chain m b l z.
Proof. intros m a b l z H. cbn [chain] in H. tauto. Qed.

(** The loop visits the members in order, the start last. *)
Lemma ring_loop_visit : forall (f : nat -> vman -> vman),
  (forall i m, same_links m (f i m)) ->
  forall l m fuel v start z,
  chain m v l z -> z = start -> v <> start -> ~ In start l -> (length l < fuel)%nat ->
  ring_loop fuel f start v m = Some (fold_left (fun m i => f i m) (v :: l ++ [start]) m).
Proof.
  intros f Hf l. induction l as [|b l IH]; intros m fuel v start z Hc Hz Hv Hs Hlen.
  - destruct fuel as [|fuel]; [lia|]. cbn [ring_loop].
    destruct (Nat.eqb_spec v start); [congruence|]. cbn [chain] in Hc. destruct Hc as [Hc _].
    change (v_next (m_voice m v)) with (nx m v). rewrite Hc, Hz.
    destruct fuel; cbn [ring_loop]; rewrite Nat.eqb_refl; reflexivity.
  - destruct fuel as [|fuel]; [cbn [length] in Hlen; lia|]. cbn [ring_loop].
    destruct (Nat.eqb_spec v start); [congruence|].
    change (v_next (m_voice m v)) with (nx m v).
    assert (E : nx m v = b) by (cbn [chain] in Hc; tauto). rewrite E.
    erewrite IH with (z := z).
    + reflexivity.
    + eapply same_links_chain; [apply Hf|]. eapply chain_cons_nx; eauto.
    + exact Hz.
    + intros ->. apply Hs. now left.
    + intros Hin. apply Hs. now right.
    + cbn [length] in Hlen. lia.
Qed.

Lemma applyToRing_visit : forall (f : nat -> vman -> vman),
  (forall i m, same_links m (f i m)) ->
  forall m a l, is_ring m (a :: l) ->
  applyToRing f a m = Some (fold_left (fun m i => f i m) (l ++ [a]) m).
Proof.
  intros f Hf m a l (Hd & Hb & Hc). unfold applyToRing.
  change (v_next (m_voice m a)) with (nx m a).
  assert (Hn : (length (a :: l) <= m_n m)%nat) by (apply nodup_bounded; auto).
  destruct l as [|b l].
  - cbn [chain] in Hc. destruct Hc as [Hc _]. rewrite Hc. destruct (m_n m); cbn [ring_loop];
      rewrite Nat.eqb_refl; reflexivity.
  - assert (E : nx m a = b) by (cbn [chain] in Hc; tauto). rewrite E.
    apply (ring_loop_visit f Hf l m (m_n m) b a a).
    + eapply chain_cons_nx; eauto.
    + reflexivity.
    + intros ->. inversion Hd. apply H1. now left.
    + intros Hin. inversion Hd. apply H1. now right.
    + cbn [length] in Hn. lia.
Qed.

Lemma ring_members_visit : forall l m fuel v start z,
  chain m v l z -> z = start -> v <> start -> ~ In start l -> (length l < fuel)%nat ->
  ring_members fuel start v m = Some (v :: l ++ [start]).
Proof.
  intros l. induction l as [|b l IH]; intros m fuel v start z Hc Hz Hv Hs Hlen.
  - destruct fuel as [|fuel]; [lia|]. cbn [ring_members].
    destruct (Nat.eqb_spec v start); [congruence|]. cbn [chain] in Hc. destruct Hc as [Hc _].
    change (v_next (m_voice m v)) with (nx m v). rewrite Hc, Hz.
    destruct fuel; cbn [ring_members]; rewrite Nat.eqb_refl; reflexivity.
  - destruct fuel as [|fuel]; [cbn [length] in Hlen; lia|]. cbn [ring_members].
    destruct (Nat.eqb_spec v start); [congruence|].
    change (v_next (m_voice m v)) with (nx m v).
    assert (E : nx m v = b) by (cbn [chain] in Hc; tauto). rewrite E.
    erewrite IH with (z := z).
    + reflexivity.
    + eapply chain_cons_nx; eauto.
    + exact Hz.
    + intros ->. apply Hs. now left.
    + intros Hin. apply Hs. now right.
    + cbn [length] in Hlen. lia.
Qed.
Lemma ring_of_visit : forall m a l, is_ring m (a :: l) -> ring_of a m = Some (l ++ [a]).
Proof.
  intros m a l (Hd & Hb & Hc). unfold ring_of.
  change (v_next (m_voice m a)) with (nx m a).
  assert (Hn : (length (a :: l) <= m_n m)%nat) by (apply nodup_bounded; auto).
  destruct l as [|b l].
  - cbn [chain] in Hc. destruct Hc as [Hc _]. rewrite Hc. destruct (m_n m); cbn [ring_members];
      rewrite Nat.eqb_refl; reflexivity.
  - assert (E : nx m a = b) by (cbn [chain] in Hc; tauto). rewrite E.
    apply (ring_members_visit l m (m_n m) b a a).
    + eapply chain_cons_nx; eauto.
    + reflexivity.
    + intros ->. inversion Hd. apply H1. now left.
    + intros Hin. inversion Hd. apply H1. now right.
    + cbn [length] in Hn. lia.
Qed.
