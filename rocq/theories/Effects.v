(** C101: the effects of the buses, block by block. *)
From Coq Require Import List Arith Bool Lia.
Import ListNotations.
Require Import Verif.EffectsModel.

Section Lists.
  Context {X : world}.
  Notation V := (w_V X).
  Implicit Types m : @store X.

  Definition eqm (m m' : @store X) : Prop := forall b i, m b i = m' b i.

  Lemma block_length : forall (m : @store X) b n, length (block m b n) = n.
  Proof. intros. unfold block. rewrite map_length, seq_length. reflexivity. Qed.
  Lemma block_ext : forall (m m' : @store X) b b' n, (forall i, i < n -> m b i = m' b' i) -> block m b n = block m' b' n.
  Proof. intros. unfold block. apply map_ext_in. intros i Hi. apply in_seq in Hi. apply H. lia. Qed.
  Lemma block_S : forall (m : @store X) b n, block m b (S n) = block m b n ++ [m b n].
  Proof. intros. unfold block. rewrite seq_S, map_app. reflexivity. Qed.
  Lemma block_nth : forall (m : @store X) b n i d, i < n -> nth i (block m b n) d = m b i.
  Proof.
    intros. unfold block. rewrite nth_indep with (d' := m b 0) by (rewrite map_length, seq_length; lia).
    rewrite map_nth, seq_nth by lia. reflexivity.
  Qed.
  Lemma put_same : forall m b l n, length l = n -> block (put m b l) b n = l.
  Proof.
    intros m b l n <-. apply nth_ext with (d := m b 0) (d' := m b 0).
    - apply block_length.
    - intros i Hi. rewrite block_length in Hi. rewrite block_nth by lia. unfold put. rewrite Nat.eqb_refl.
      apply nth_indep. lia.
  Qed.
  Lemma put_other : forall m b l b' n, b' <> b -> block (put m b l) b' n = block m b' n.
  Proof. intros. apply block_ext. intros. unfold put. destruct (Nat.eqb_spec b' b); congruence. Qed.
  Lemma eqm_block : forall m m' b n, eqm m m' -> block m b n = block m' b n.
  Proof. intros. apply block_ext. auto. Qed.
  Lemma put_block : forall m b n, eqm (put m b (block m b n)) m.
  Proof.
    intros m b n b' i. unfold put. destruct (Nat.eqb_spec b' b); auto. subst.
    destruct (Nat.lt_ge_cases i n); [ apply block_nth; auto | apply nth_overflow; rewrite block_length; auto ].
  Qed.
  Lemma eqm_put : forall m m' b l, eqm m m' -> eqm (put m b l) (put m' b l).
  Proof. intros m m' b l H b' i. unfold put. rewrite !H. reflexivity. Qed.
  Lemma put_put : forall m b l l', length l = length l' -> eqm (put (put m b l) b l') (put m b l').
  Proof.
    intros m b l l' H b' i. unfold put. destruct (Nat.eqb_spec b' b); auto. rewrite Nat.eqb_refl.
    destruct (Nat.lt_ge_cases i (length l')); [ apply nth_indep; auto | rewrite !nth_overflow by lia; reflexivity ].
  Qed.

  Lemma run_app : forall S A B (f : S -> A -> S * B) l1 l2 s s1 s2 r1 r2,
    run f s l1 = (s1, r1) -> run f s1 l2 = (s2, r2) -> run f s (l1 ++ l2) = (s2, r1 ++ r2).
  Proof.
    induction l1 as [|a l1 IH]; cbn [run app]; intros l2 s s1 s2 r1 r2 H1 H2.
    - inversion H1; subst. auto.
    - destruct (f s a) as [s' b]. destruct (run f s' l1) as [s'' r] eqn:E1. inversion H1; subst.
      rewrite (IH l2 s' s1 s2 r r2 E1 H2). reflexivity.
  Qed.
  Lemma run_length : forall S A B (f : S -> A -> S * B) l s, length (snd (run f s l)) = length l.
  Proof.
    induction l as [|a l IH]; intros s; cbn [run]; auto. destruct (f s a) as [s' b]. specialize (IH s').
    destruct (run f s' l). cbn [snd length] in *. congruence.
  Qed.

  (** The loop that reads in[i] and writes out[i], in place or not. *)
  Lemma pass_spec : forall S (f : S -> V -> S * V) src dst n s m,
    fst (pass f src dst n s m) = fst (run f s (block m src n)) /\
    eqm (snd (pass f src dst n s m)) (put m dst (snd (run f s (block m src n)))).
  Proof.
    intros S f src dst n s m. induction n as [|n [IH1 IH2]].
    - split; [ reflexivity | ]. intros b i. unfold put. destruct (Nat.eqb_spec b dst); subst; destruct i; reflexivity.
    - assert (E : pass f src dst (Datatypes.S n) s m =
        (let '(s, m) := pass f src dst n s m in let '(s', y) := f s (m src n) in (s', write m dst n y))).
      { unfold pass, loop. rewrite seq_S, fold_left_app. reflexivity. }
      rewrite E, block_S. clear E.
      pose proof (run_length _ _ _ f (block m src n) s) as L. rewrite block_length in L.
      destruct (pass f src dst n s m) as [s1 m1]. destruct (run f s (block m src n)) as [s2 r1] eqn:E1.
      cbn [fst snd] in *. subst s2.
      assert (R : m1 src n = m src n).
      { rewrite IH2. unfold put. destruct (Nat.eqb_spec src dst); auto. subst. apply nth_overflow. lia. }
      rewrite R. destruct (f s1 (m src n)) as [s' y] eqn:Ef.
      rewrite (run_app _ _ _ f _ [m src n] s s1 s' r1 [y] E1) by (cbn [run]; rewrite Ef; reflexivity).
      cbn [fst snd]. split; auto. intros b i. unfold write, put in *.
      destruct (Nat.eqb_spec b dst); cbn [andb].
      + subst b. destruct (Nat.eqb_spec i n).
        * subst i. rewrite app_nth2 by lia. rewrite L, Nat.sub_diag. reflexivity.
        * rewrite IH2, Nat.eqb_refl. destruct (Nat.lt_ge_cases i n).
          -- rewrite app_nth1 by lia. reflexivity.
          -- rewrite !nth_overflow; auto. rewrite app_length. cbn [length]. lia. lia.
      + rewrite IH2. destruct (Nat.eqb_spec b dst); congruence.
  Qed.
  Lemma pass_eq : forall S (f : S -> V -> S * V) src dst n s m s' l,
    run f s (block m src n) = (s', l) -> exists m', pass f src dst n s m = (s', m') /\ eqm m' (put m dst l) /\ length l = n.
  Proof.
    intros. destruct (pass_spec S f src dst n s m) as [A B]. pose proof (run_length _ _ _ f (block m src n) s) as L.
    rewrite block_length in L. rewrite H in *. cbn [fst snd] in *.
    destruct (pass f src dst n s m) as [s1 m1]. cbn [fst snd] in *. subst. eauto.
  Qed.

  Lemma combine_block_S : forall (m : @store X) a b n, combine (block m a (S n)) (block m b (S n)) = combine (block m a n) (block m b n) ++ [(m a n, m b n)].
  Proof.
    intros. rewrite !block_S. generalize (block_length m a n) (block_length m b n). generalize (block m a n), (block m b n).
    intros l1 l2 H1 H2. rewrite <- H1 in H2 at 1. symmetry in H2. clear H1. revert l2 H2.
    induction l1; destruct l2; cbn [length app combine]; intros; try discriminate; auto.
    injection H2 as H2. rewrite IHl1; auto.
  Qed.
  Lemma combine_block_length : forall (m : @store X) a b n, length (combine (block m a n) (block m b n)) = n.
  Proof. intros. rewrite combine_length, !block_length. apply Nat.min_id. Qed.

  Lemma pass2_spec : forall S (f : S -> V * V -> S * (V * V)) i0 i1 o0 o1 n s m,
    o0 <> o1 ->
    fst (pass2 f i0 i1 o0 o1 n s m) = fst (run f s (combine (block m i0 n) (block m i1 n))) /\
    eqm (snd (pass2 f i0 i1 o0 o1 n s m))
        (put (put m o0 (map fst (snd (run f s (combine (block m i0 n) (block m i1 n))))))
             o1 (map snd (snd (run f s (combine (block m i0 n) (block m i1 n)))))).
  Proof.
    intros S f i0 i1 o0 o1 n s m Ho. induction n as [|n [IH1 IH2]].
    - split; [ reflexivity | ]. intros b i. unfold put, pass2, loop; cbn [seq fold_left snd block map combine run].
      destruct (Nat.eqb_spec b o1), (Nat.eqb_spec b o0); subst; destruct i; cbn [nth]; rewrite ?Nat.eqb_refl; try reflexivity;
        destruct (Nat.eqb_spec o1 o0); auto; congruence.
    - assert (E : pass2 f i0 i1 o0 o1 (Datatypes.S n) s m =
        (let '(s, m) := pass2 f i0 i1 o0 o1 n s m in
         let '(s', (y, z)) := f s (m i0 n, m i1 n) in (s', write (write m o0 n y) o1 n z))).
      { unfold pass2, loop. rewrite seq_S, fold_left_app. reflexivity. }
      rewrite E, combine_block_S. clear E.
      pose proof (run_length _ _ _ f (combine (block m i0 n) (block m i1 n)) s) as L. rewrite combine_block_length in L.
      destruct (pass2 f i0 i1 o0 o1 n s m) as [s1 m1]. destruct (run f s (combine (block m i0 n) (block m i1 n))) as [s2 r1] eqn:E1.
      cbn [fst snd] in *. subst s2.
      assert (R : forall b, m1 b n = m b n).
      { intros b. rewrite IH2. unfold put.
        destruct (Nat.eqb_spec b o1), (Nat.eqb_spec b o0); subst; rewrite ?Nat.eqb_refl; rewrite ?nth_overflow by (rewrite map_length; lia); auto.
        destruct (Nat.eqb_spec o1 o0); congruence. }
      rewrite !R. destruct (f s1 (m i0 n, m i1 n)) as [s' [y z]] eqn:Ef.
      rewrite (run_app _ _ _ f _ [(m i0 n, m i1 n)] s s1 s' r1 [(y, z)] E1) by (cbn [run]; rewrite Ef; reflexivity).
      cbn [fst snd]. split; auto. intros b i. rewrite !map_app. cbn [map fst snd]. unfold write, put in *.
      assert (L0 : length (map fst r1) = n) by (rewrite map_length; auto).
      assert (L1 : length (map snd r1) = n) by (rewrite map_length; auto).
      assert (N : forall (l : list V) x d, length l = n -> nth i (l ++ [x]) d = if i =? n then x else nth i l d).
      { intros l x d Hl. destruct (Nat.eqb_spec i n) as [Hi|Hi].
        - rewrite app_nth2 by lia. replace (i - length l) with 0 by lia. reflexivity.
        - destruct (Nat.lt_ge_cases i (length l)); [ rewrite app_nth1 by lia; auto | rewrite !nth_overflow; auto; rewrite app_length; cbn [length]; lia ]. }
      rewrite !N by assumption. rewrite !IH2. clear L L0 L1 N R.
      destruct (Nat.eqb_spec b o1), (Nat.eqb_spec b o0); subst; try congruence; cbn [andb]; destruct (Nat.eqb_spec i n); rewrite ?Nat.eqb_refl; auto.
  Qed.

  Lemma copy_eq : forall src dst n m, eqm (copy src dst n m) (put m dst (block m src n)).
  Proof.
    intros. unfold copy. destruct (Nat.eqb_spec src dst).
    - subst. intros b i. symmetry. apply put_block.
    - intros b i. reflexivity.
  Qed.
End Lists.

Section Semantics.
  Context {X : world}.
  Notation V := (w_V X).
  Implicit Types m : @store X.

  (** *** Loops that use the index *)
  Lemma loop_pass : forall (g : nat -> V -> V) src dst n m,
    pass (fun k x => (S k, g k x)) src dst n 0 m = (n, loop n (fun i m => write m dst i (g i (m src i))) m).
  Proof.
    intros. induction n as [|n IH]; [ reflexivity | ]. unfold pass, loop in *. rewrite seq_S, !fold_left_app, IH. reflexivity.
  Qed.
  Lemma loop_pass2 : forall (g : nat -> V * V -> V * V) i0 i1 o0 o1 n m,
    pass2 (fun k x => (S k, g k x)) i0 i1 o0 o1 n 0 m =
    (n, loop n (fun i m => let '(y, z) := g i (m i0 i, m i1 i) in write (write m o0 i y) o1 i z) m).
  Proof.
    intros. induction n as [|n IH]; [ reflexivity | ]. unfold pass2, loop in *. rewrite seq_S, !fold_left_app, IH. cbn [fold_left Nat.add].
    destruct (g n _); reflexivity.
  Qed.
  Lemma run_nth : forall A B C (g : C -> A -> B) (d : C) l mods pre, length mods = length l ->
    snd (run (fun k x => (S k, g (nth k (pre ++ mods) d) x)) (length pre) l) = map (fun '(a, x) => g a x) (combine mods l).
  Proof.
    induction l as [|x l IH]; intros [|c mods] pre H; cbn [run combine map length] in *; try discriminate; auto.
    specialize (IH mods (pre ++ [c])). rewrite <- app_assoc, app_length in IH. cbn [app length] in IH. rewrite Nat.add_1_r in IH.
    destruct (run _ (S (length pre)) l) as [k r]. cbn [snd] in *.
    rewrite IH by lia. f_equal. rewrite app_nth2, Nat.sub_diag by lia. reflexivity.
  Qed.
  Lemma run_map : forall A B (g : A -> B) l, snd (run (fun (s : unit) x => (s, g x)) tt l) = map g l.
  Proof. induction l; cbn [run map]; auto. destruct (run _ tt l). cbn [snd] in *. congruence. Qed.

  Lemma zipWith_app : forall (f : V -> V -> V) a1 b1 a2 b2, length a1 = length b1 -> zipWith f (a1 ++ a2) (b1 ++ b2) = zipWith f a1 b1 ++ zipWith f a2 b2.
  Proof. induction a1; destruct b1; cbn [length app zipWith]; intros; try discriminate; auto. f_equal. auto. Qed.
  Lemma zipWith_length : forall (f : V -> V -> V) a b, length a = length b -> length (zipWith f a b) = length a.
  Proof. induction a; destruct b; cbn [length zipWith]; intros; try discriminate; auto. Qed.
  Lemma combine_app : forall A B (a1 : list A) (b1 : list B) a2 b2, length a1 = length b1 -> combine (a1 ++ a2) (b1 ++ b2) = combine a1 b1 ++ combine a2 b2.
  Proof. induction a1; destruct b1; cbn [length app combine]; intros; try discriminate; auto. f_equal. auto. Qed.
  Lemma zipWith_snoc : forall (f : V -> V -> V) a b x y, length a = length b -> zipWith f (a ++ [x]) (b ++ [y]) = zipWith f a b ++ [f x y].
  Proof. intros. rewrite zipWith_app; auto. Qed.

  Lemma loop_mix : forall (g : V -> V -> V) src dst n m,
    eqm (loop n (fun i m => write m dst i (g (m dst i) (m src i))) m) (put m dst (zipWith g (block m dst n) (block m src n))).
  Proof.
    intros g src dst n m. induction n as [|n IH].
    - intros b i. unfold put. cbn [loop seq fold_left block map zipWith]. destruct (Nat.eqb_spec b dst); subst; destruct i; reflexivity.
    - unfold loop in *. rewrite seq_S, fold_left_app. cbn [fold_left Nat.add]. rewrite !block_S, zipWith_snoc by (rewrite !block_length; auto).
      assert (L : length (zipWith g (block m dst n) (block m src n)) = n) by (rewrite zipWith_length; rewrite !block_length; auto).
      remember (zipWith g (block m dst n) (block m src n)) as r eqn:Er. clear Er.
      remember (fold_left _ (seq 0 n) m) as m1 eqn:Em. clear Em.
      assert (R : forall b, m1 b n = m b n).
      { intros b. rewrite IH. unfold put. destruct (Nat.eqb_spec b dst) as [e|]; auto. rewrite e. apply nth_overflow. lia. }
      rewrite !R. intros b i. unfold write, put in *. destruct (Nat.eqb_spec b dst) as [->|Hb]; cbn [andb].
      + destruct (Nat.eqb_spec i n) as [->|Hi].
        * rewrite app_nth2 by lia. replace (n - length r) with 0 by lia. reflexivity.
        * rewrite IH, Nat.eqb_refl. destruct (Nat.lt_ge_cases i n).
          -- rewrite app_nth1 by lia. reflexivity.
          -- rewrite !nth_overflow; auto; try rewrite app_length; cbn [length]; lia.
      + rewrite IH. destruct (Nat.eqb_spec b dst); congruence.
  Qed.

  (** *** Oversampling *)
  Lemma upBlock_app : forall cs l1 l2 (s s1 s2 : @hmem X) r1 r2,
    upBlock cs s l1 = (s1, r1) -> upBlock cs s1 l2 = (s2, r2) -> upBlock cs s (l1 ++ l2) = (s2, r1 ++ r2).
  Proof.
    induction l1 as [|a l1 IH]; cbn [upBlock app]; intros l2 s s1 s2 r1 r2 H1 H2.
    - inversion H1; subst. auto.
    - destruct (upSample cs s a) as [s' [x y]]. destruct (upBlock cs s' l1) as [s'' r] eqn:E1. inversion H1; subst.
      rewrite (IH l2 s' s1 s2 r r2 E1 H2). reflexivity.
  Qed.
  Lemma upBlock_length : forall cs l (s : @hmem X) s' r, upBlock cs s l = (s', r) -> length r = 2 * length l.
  Proof.
    induction l as [|a l IH]; cbn [upBlock]; intros s s' r H; [ inversion H; reflexivity | ].
    destruct (upSample cs s a) as [s1 [x y]]. destruct (upBlock cs s1 l) as [s'' r1] eqn:E1. inversion H; subst. apply IH in E1. cbn [length]. lia.
  Qed.
  Lemma downBlock_app : forall cs n1 n2 l1 l2 (s s1 s2 : @hmem X) r1 r2, length l1 = 2 * n1 ->
    downBlock n1 cs s l1 = (s1, r1) -> downBlock n2 cs s1 l2 = (s2, r2) -> downBlock (n1 + n2) cs s (l1 ++ l2) = (s2, r1 ++ r2).
  Proof.
    induction n1 as [|n1 IH]; intros n2 l1 l2 s s1 s2 r1 r2 L H1 H2.
    - destruct l1; [ | discriminate ]. cbn [downBlock] in H1. inversion H1; subst. auto.
    - destruct l1 as [|a [|b l1]]; cbn [length] in L; try lia. cbn [downBlock app Nat.add] in *.
      destruct (downSample cs s (a, b)) as [s' y]. destruct (downBlock n1 cs s' l1) as [s'' r] eqn:E1. inversion H1; subst.
      rewrite (IH n2 l1 l2 s' s1 s2 r r2) by (auto; lia). reflexivity.
  Qed.
  Lemma downBlock_length : forall cs n l (s : @hmem X) s' r, length l = 2 * n -> downBlock n cs s l = (s', r) -> length r = n.
  Proof.
    induction n as [|n IH]; intros l s s' r L H.
    - cbn [downBlock] in H. inversion H; reflexivity.
    - destruct l as [|a [|b l]]; cbn [length] in L; try lia. cbn [downBlock] in H.
      destruct (downSample cs s (a, b)) as [s1 y]. destruct (downBlock n cs s1 l) as [s2 r1] eqn:E1. inversion H; subst. cbn [length].
      rewrite (IH l s1 s' r1); auto; lia.
  Qed.
  Lemma run_length' : forall S A B (f : S -> A -> S * B) l s s' r, run f s l = (s', r) -> length r = length l.
  Proof. intros. pose proof (run_length _ _ _ f l s) as L. rewrite H in L. exact L. Qed.

  Lemma up8_app : forall l1 l2 (a b c a1 b1 c1 a2 b2 c2 : @hmem X) r1 r2,
    up8 a b c l1 = (a1, b1, c1, r1) -> up8 a1 b1 c1 l2 = (a2, b2, c2, r2) -> up8 a b c (l1 ++ l2) = (a2, b2, c2, r1 ++ r2).
  Proof.
    unfold up8. intros l1 l2 a b c a1 b1 c1 a2 b2 c2 r1 r2 H1 H2.
    destruct (upBlock (w_cs2 X) a l1) as [x1 p1] eqn:E1. destruct (upBlock (w_cs4 X) b p1) as [x2 p2] eqn:E2.
    destruct (upBlock (w_cs8 X) c p2) as [x3 p3] eqn:E3. inversion H1; subst.
    destruct (upBlock (w_cs2 X) a1 l2) as [y1 q1] eqn:F1. destruct (upBlock (w_cs4 X) b1 q1) as [y2 q2] eqn:F2.
    destruct (upBlock (w_cs8 X) c1 q2) as [y3 q3] eqn:F3. inversion H2; subst.
    rewrite (upBlock_app _ _ _ _ _ _ _ _ E1 F1), (upBlock_app _ _ _ _ _ _ _ _ E2 F2), (upBlock_app _ _ _ _ _ _ _ _ E3 F3). reflexivity.
  Qed.
  Lemma up8_length : forall l (a b c a1 b1 c1 : @hmem X) r, up8 a b c l = (a1, b1, c1, r) -> length r = 8 * length l.
  Proof.
    unfold up8. intros l a b c a1 b1 c1 r H1.
    destruct (upBlock (w_cs2 X) a l) as [x1 p1] eqn:E1. destruct (upBlock (w_cs4 X) b p1) as [x2 p2] eqn:E2.
    destruct (upBlock (w_cs8 X) c p2) as [x3 p3] eqn:E3. inversion H1; subst.
    apply upBlock_length in E1, E2, E3. lia.
  Qed.
  Lemma down8_app : forall n1 n2 l1 l2 (a b c a1 b1 c1 a2 b2 c2 : @hmem X) r1 r2, length l1 = 8 * n1 ->
    down8 n1 a b c l1 = (a1, b1, c1, r1) -> down8 n2 a1 b1 c1 l2 = (a2, b2, c2, r2) -> down8 (n1 + n2) a b c (l1 ++ l2) = (a2, b2, c2, r1 ++ r2).
  Proof.
    unfold down8. intros n1 n2 l1 l2 a b c a1 b1 c1 a2 b2 c2 r1 r2 L H1 H2.
    destruct (downBlock (4 * n1) (w_cs8 X) a l1) as [x1 p1] eqn:E1. destruct (downBlock (2 * n1) (w_cs4 X) b p1) as [x2 p2] eqn:E2.
    destruct (downBlock n1 (w_cs2 X) c p2) as [x3 p3] eqn:E3. inversion H1; subst.
    destruct (downBlock (4 * n2) (w_cs8 X) a1 l2) as [y1 q1] eqn:F1. destruct (downBlock (2 * n2) (w_cs4 X) b1 q1) as [y2 q2] eqn:F2.
    destruct (downBlock n2 (w_cs2 X) c1 q2) as [y3 q3] eqn:F3. inversion H2; subst.
    pose proof (downBlock_length (w_cs8 X) (4 * n1) l1 _ _ _ ltac:(lia) E1) as L1.
    pose proof (downBlock_length (w_cs4 X) (2 * n1) p1 _ _ _ ltac:(lia) E2) as L2.
    replace (4 * (n1 + n2)) with (4 * n1 + 4 * n2) by lia. replace (2 * (n1 + n2)) with (2 * n1 + 2 * n2) by lia.
    rewrite (downBlock_app (w_cs8 X) (4 * n1) (4 * n2) l1 l2 _ _ _ _ _ ltac:(lia) E1 F1).
    rewrite (downBlock_app (w_cs4 X) (2 * n1) (2 * n2) p1 q1 _ _ _ _ _ ltac:(lia) E2 F2).
    rewrite (downBlock_app (w_cs2 X) n1 n2 p2 q2 _ _ _ _ _ ltac:(lia) E3 F3). reflexivity.
  Qed.
  Lemma down8_length : forall n l (a b c a1 b1 c1 : @hmem X) r, length l = 8 * n -> down8 n a b c l = (a1, b1, c1, r) -> length r = n.
  Proof.
    unfold down8. intros n1 l1 a b c a1 b1 c1 r1 L H1.
    destruct (downBlock (4 * n1) (w_cs8 X) a l1) as [x1 p1] eqn:E1. destruct (downBlock (2 * n1) (w_cs4 X) b p1) as [x2 p2] eqn:E2.
    destruct (downBlock n1 (w_cs2 X) c p2) as [x3 p3] eqn:E3. inversion H1; subst.
    pose proof (downBlock_length (w_cs8 X) (4 * n1) l1 _ _ _ ltac:(lia) E1) as L1.
    pose proof (downBlock_length (w_cs4 X) (2 * n1) p1 _ _ _ ltac:(lia) E2) as L2.
    exact (downBlock_length (w_cs2 X) n1 p2 _ _ _ ltac:(lia) E3).
  Qed.
  Lemma distoStages_app : forall k depth st l1 l2 (st1 st2 : list (w_DS X)) r1 r2,
    distoStages k depth st l1 = (st1, r1) -> distoStages k depth st1 l2 = (st2, r2) -> distoStages k depth st (l1 ++ l2) = (st2, r1 ++ r2).
  Proof.
    induction k as [|k IH]; intros depth st l1 l2 st1 st2 r1 r2 H1 H2; cbn [distoStages] in *.
    - inversion H1; subst. inversion H2; subst. reflexivity.
    - destruct st as [|s st]; [ inversion H1; subst; inversion H2; subst; reflexivity | ].
      destruct (run (w_disto X depth) s l1) as [s' p] eqn:E1. destruct (distoStages k depth st p) as [st' q] eqn:E2. inversion H1; subst.
      destruct (run (w_disto X depth) s' l2) as [s'' p'] eqn:F1. destruct (distoStages k depth st' p') as [st'' q'] eqn:F2. inversion H2; subst.
      rewrite (run_app _ _ _ _ _ _ _ _ _ _ _ E1 F1), (IH _ _ _ _ _ _ _ _ E2 F2). reflexivity.
  Qed.
  Lemma distoStages_length : forall k depth st l (st1 : list (w_DS X)) r, distoStages k depth st l = (st1, r) -> length r = length l /\ length st1 = length st.
  Proof.
    induction k as [|k IH]; intros depth st l st1 r H1; cbn [distoStages] in *; [ inversion H1; auto | ].
    destruct st as [|s st]; [ inversion H1; auto | ].
    destruct (run (w_disto X depth) s l) as [s' p] eqn:E1. destruct (distoStages k depth st p) as [st' q] eqn:E2. inversion H1; subst.
    apply run_length' in E1. apply IH in E2. cbn [length]. lia.
  Qed.
  Lemma resonate_app : forall (ss : list (w_RP X * w_RS X)) l1 l2 o1 o2 ss1 ss2 r1 r2, length l1 = length o1 ->
    resonate ss l1 o1 = (ss1, r1) -> resonate ss1 l2 o2 = (ss2, r2) -> resonate ss (l1 ++ l2) (o1 ++ o2) = (ss2, r1 ++ r2).
  Proof.
    induction ss as [|[p s] ss IH]; intros l1 l2 o1 o2 ss1 ss2 r1 r2 L H1 H2; cbn [resonate] in *.
    - inversion H1; subst. cbn [resonate] in H2. inversion H2; subst. reflexivity.
    - destruct (run (w_string X p) s l1) as [s' x] eqn:E1. destruct (resonate ss l1 (zipWith (w_add X) o1 x)) as [t y] eqn:E2. inversion H1; subst.
      cbn [resonate] in H2. destruct (run (w_string X p) s' l2) as [s'' x'] eqn:F1.
      destruct (resonate t l2 (zipWith (w_add X) o2 x')) as [t' y'] eqn:F2. inversion H2; subst.
      pose proof (run_length' _ _ _ _ _ _ _ _ E1) as L1.
      rewrite (run_app _ _ _ _ _ _ _ _ _ _ _ E1 F1), zipWith_app by lia. rewrite (IH l1 l2 (zipWith (w_add X) o1 x) (zipWith (w_add X) o2 x') _ _ _ _ ltac:(rewrite zipWith_length; lia) E2 F2). reflexivity.
  Qed.
  Lemma resonate_length : forall (ss : list (w_RP X * w_RS X)) l o ss1 r, length l = length o -> resonate ss l o = (ss1, r) -> length r = length o.
  Proof.
    induction ss as [|[p s] ss IH]; intros l o ss1 r L H; cbn [resonate] in *; [ inversion H; auto | ].
    destruct (run (w_string X p) s l) as [s' x] eqn:E1. destruct (resonate ss l (zipWith (w_add X) o x)) as [t y] eqn:E2. inversion H; subst.
    pose proof (run_length' _ _ _ _ _ _ _ _ E1) as L1. apply IH in E2; rewrite zipWith_length in * by lia; lia.
  Qed.
End Semantics.
