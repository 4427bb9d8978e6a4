(** Blocks of memory that hold samples keep their contents, and the counters tell the memory that is in use. *)
From Coq Require Import ZArith List Bool Lia Permutation.
From Verif Require Import MemoryModel.
Import ListNotations.
Local Open Scope Z_scope.

(** *** Specification *)
Section Spec.
Variables (A w : Z).
(** For each object the bytes of its elements; None when it is destroyed. *)
Definition state : Type := list (option (list Z)).
Definition at_ (s : state) (i : nat) : option (list Z) := match nth_error s i with Some o => o | None => None end.
Definition put (s : state) (i : nat) (o : option (list Z)) : state := firstn i s ++ o :: skipn (S i) s.
(** the memory of an object of n bytes is a block of n bytes and 2 (A - 1) elements *)
Definition cost (n : Z) : Z := if n =? 0 then 0 else n + 2 * (A - 1) * w.
(** a request for n elements is met when the allocator gives a block and its size is a size_t *)
Definition met (n : Z) (r : option Z) : bool := (n =? 0) || (cost (n * w) <? 2 ^ 64) && (match r with Some _ => true | None => false end).
(** the first n bytes, then zeros *)
Definition fit (n : Z) (c : list Z) : list Z := firstn (Z.to_nat n) c ++ repeat 0 (Z.to_nat n - length c).
Definition after (s : state) (o : op) : state * bool :=
  match o with
  | Make => (s ++ [Some []], true)
  | MakeSize n r => if met n r then (s ++ [Some (fit (n * w) [])], true) else (s ++ [None], false)
  | Resize i n r =>
      match at_ s i with
      | Some c => if met n r then (put s i (Some (fit (n * w) c)), true) else (s, false)
      | None => (s, false)
      end
  | Clear i => (put s i (Some []), true)
  | Destroy i => (put s i None, true)
  | CopyNew j r =>
      match at_ s j with
      | Some c => if met (len c / w) r then (s ++ [Some c], true) else (s ++ [None], false)
      | None => (s, false)
      end
  | MoveNew j => (put s j (Some []) ++ [at_ s j], true)
  | Assign i j r =>
      match at_ s j with
      | Some c => if Nat.eqb i j then (s, true) else if met (len c / w) r then (put s i (Some c), true) else (s, false)
      | None => (s, false)
      end
  | MoveAssign i j => if Nat.eqb i j then (s, true) else (put (put s i (at_ s j)) j (Some []), true)
  | Write i k v =>
      match at_ s i with
      | Some c => (put s i (Some (firstn (Z.to_nat (k * w)) c ++ v ++ skipn (Z.to_nat (k * w) + length v) c)), true)
      | None => (s, false)
      end
  end.
(** what the caller must respect: objects exist, elements exist, and sizes do not wrap *)
Definition alive (s : state) (i : nat) : Prop := at_ s i <> None.
Definition sizeOk (n : Z) : Prop := 0 <= n <= 2 ^ 64 - 1 - 2 * (A - 1).
Definition respects (s : state) (o : op) : Prop :=
  match o with
  | Make => True
  | MakeSize n r => sizeOk n
  | Resize i n r => alive s i /\ sizeOk n
  | Clear i | Destroy i => alive s i
  | CopyNew j r => alive s j
  | MoveNew j => alive s j
  | Assign i j r => alive s i /\ alive s j
  | MoveAssign i j => alive s i /\ alive s j
  | Write i k v => exists c, at_ s i = Some c /\ 0 <= k /\ (k + 1) * w <= len c /\ len v = w
  end.
Fixpoint afterAll (s : state) (ops : list op) : state * list bool :=
  match ops with
  | [] => (s, [])
  | o :: t => let (s', ok) := after s o in let (s'', l) := afterAll s' t in (s'', ok :: l)
  end.
Fixpoint respectsAll (s : state) (ops : list op) : Prop :=
  match ops with [] => True | o :: t => respects s o /\ respectsAll (fst (after s o)) t end.
Definition holding (s : state) : list (list Z) :=
  flat_map (fun o => match o with Some (x :: c) => [x :: c] | _ => [] end) s.
Definition sum (l : list Z) : Z := fold_right Z.add 0 l.
End Spec.

(** What an allocator may answer to a request for n bytes: a block that has no byte in common with the others, in an address space of 2^64
    bytes.  (As the blocks are disjoint and no block starts at 0, their sizes sum to less than 2^64; this is stated rather than derived.) *)
Definition total (h : heap) : Z := sum (map (fun x => len (snd x)) h).
Definition honestBlock (h : heap) (n : Z) (r : option Z) : Prop :=
  match r with
  | None => True
  | Some a => 0 < a /\ a + n <= 2 ^ 64 /\ total h + n < 2 ^ 64 /\
              forall b c, In (b, c) h -> a + n <= b \/ b + len c <= a
  end.
Definition request (A w : Z) (s : st) (o : op) : option (Z * option Z) :=
  match o with
  | MakeSize n r | Resize _ n r => Some (n, r)
  | CopyNew j r | Assign _ j r => match obj s j with Some c => Some (size c, r) | None => None end
  | _ => None
  end.
Definition honest (A w : Z) (s : st) (o : op) : Prop :=
  match request A w s o with
  | Some (n, r) => 0 < n -> honestBlock (mem (env_ s)) ((n + 2 * (A - 1)) * w) r
  | None => True
  end.
Fixpoint honestAll (A w : Z) (s : st) (ops : list op) : Prop :=
  match ops with
  | [] => True
  | o :: t => honest A w s o /\ match step A w s o with Some (s', _) => honestAll A w s' t | None => True end
  end.

(** *** Lists of bytes *)
Lemma len_app : forall X (a b : list X), len (a ++ b) = len a + len b.
Proof. intros. unfold len. rewrite app_length. lia. Qed.
Lemma len_nonneg : forall X (a : list X), 0 <= len a.
Proof. intros. unfold len. lia. Qed.
Lemma len_zeros : forall n, 0 <= n -> len (zeros n) = n.
Proof. intros. unfold len, zeros. rewrite repeat_length. lia. Qed.
Lemma len_nil : forall X (c : list X), len c = 0 -> c = [].
Proof. intros X [|x c] H; [reflexivity|unfold len in H; cbn [length] in H; lia]. Qed.
Lemma len_slice : forall c o n, 0 <= o -> 0 <= n -> o + n <= len c -> len (slice c o n) = n.
Proof. intros c o n H0 H1 H2. unfold len, slice in *. rewrite firstn_length, skipn_length. lia. Qed.
Lemma len_splice : forall c o bs, 0 <= o -> o + len bs <= len c -> len (splice c o bs) = len c.
Proof. intros c o bs H0 H1. unfold len, splice in *. rewrite !app_length, firstn_length, skipn_length. lia. Qed.
Lemma slice_splice : forall c o bs, 0 <= o -> o + len bs <= len c -> slice (splice c o bs) o (len bs) = bs.
Proof.
  intros c o bs H0 H1. unfold slice, splice, len in *.
  rewrite skipn_app. rewrite skipn_all2 by (rewrite firstn_length; lia). rewrite firstn_length.
  replace (Z.to_nat o - Nat.min (Z.to_nat o) (length c))%nat with 0%nat by lia. cbn [skipn app].
  rewrite firstn_app. rewrite Nat2Z.id. rewrite firstn_all. replace (length bs - length bs)%nat with 0%nat by lia.
  cbn [firstn]. apply app_nil_r.
Qed.
Lemma skipn_plus : forall X a b (c : list X), skipn a (skipn b c) = skipn (a + b) c.
Proof.
  intros X a b. induction b as [|b IH]; intros c; [rewrite Nat.add_0_r; reflexivity|].
  rewrite Nat.add_succ_r. destruct c as [|x c]; [destruct a; reflexivity|cbn [skipn]; apply IH].
Qed.
Lemma slice_slice : forall c o n o' n', 0 <= o -> 0 <= o' -> 0 <= n' -> o' + n' <= n ->
  slice (slice c o n) o' n' = slice c (o + o') n'.
Proof.
  intros c o n o' n' H0 H1 H2 H3. unfold slice.
  rewrite skipn_firstn_comm, firstn_firstn, skipn_plus.
  replace (Nat.min (Z.to_nat n') (Z.to_nat n - Z.to_nat o')) with (Z.to_nat n') by lia.
  replace (Z.to_nat o' + Z.to_nat o)%nat with (Z.to_nat (o + o')) by lia. reflexivity.
Qed.
Lemma slice_zeros : forall m o n, 0 <= o -> 0 <= n -> o + n <= m -> slice (zeros m) o n = zeros n.
Proof.
  intros m o n H0 H1 H2. unfold slice, zeros.
  assert (Z.to_nat m = Z.to_nat o + (Z.to_nat n + Z.to_nat (m - o - n)))%nat as -> by lia.
  rewrite repeat_app, skipn_app, skipn_all2 by (rewrite repeat_length; lia). rewrite repeat_length, Nat.sub_diag. cbn [skipn app].
  rewrite repeat_app, firstn_app, firstn_all2 by (rewrite repeat_length; lia). rewrite repeat_length, Nat.sub_diag. apply app_nil_r.
Qed.
(** a slice that contains what is written *)
Lemma slice_splice_in : forall c o n k bs, 0 <= o -> 0 <= k -> k + len bs <= n -> o + n <= len c ->
  slice (splice c (o + k) bs) o n = splice (slice c o n) k bs.
Proof.
  intros c o n k bs H0 H1 H2 H3. unfold slice, splice, len in *.
  replace (Z.to_nat (o + k)) with (Z.to_nat o + Z.to_nat k)%nat by lia.
  set (O := Z.to_nat o). set (K := Z.to_nat k). set (N := Z.to_nat n).
  assert (HK : (K + length bs <= N)%nat) by (subst K N; lia). assert (HN : (O + N <= length c)%nat) by (subst O N; lia).
  clearbody O K N. clear H0 H1 H2 H3 o k n.
  rewrite skipn_app, skipn_firstn_comm, firstn_length.
  replace (O + K - O)%nat with K by lia. replace (O - Nat.min (O + K) (length c))%nat with 0%nat by lia. cbn [skipn].
  rewrite !firstn_app, firstn_firstn, firstn_length, skipn_length.
  replace (Nat.min N K) with K by lia. replace (N - Nat.min K (length c - O))%nat with (N - K)%nat by lia.
  rewrite firstn_firstn. replace (Nat.min K N) with K by lia.
  f_equal. rewrite firstn_all2 by lia. f_equal.
  rewrite skipn_firstn_comm, skipn_plus. f_equal; [lia|]. f_equal. lia.
Qed.

(** *** The heap *)
Definition shape (h : heap) : list (Z * Z) := map (fun x => (fst x, len (snd x))) h.
Definition keys (h : heap) : list Z := map fst h.
Record wf (s : list (Z * Z)) : Prop := {
  wf_nodup : NoDup (map fst s);
  wf_pos : forall a n, In (a, n) s -> 0 < a /\ 0 < n /\ a + n <= 2 ^ 64;
  wf_disjoint : forall a n b m, In (a, n) s -> In (b, m) s -> a <> b -> a + n <= b \/ b + m <= a;
  wf_total : sum (map snd s) < 2 ^ 64
}.
Lemma total_shape : forall h, total h = sum (map snd (shape h)).
Proof. intros h. unfold total, shape. rewrite map_map. reflexivity. Qed.
Lemma keys_shape : forall h, map fst (shape h) = keys h.
Proof. intros h. unfold keys, shape. rewrite map_map. reflexivity. Qed.
Lemma in_shape : forall h a c, In (a, c) h -> In (a, len c) (shape h).
Proof. intros h a c H. apply (in_map (fun x => (fst x, len (snd x)))) in H. exact H. Qed.
Lemma in_keys : forall h a c, In (a, c) h -> In a (keys h).
Proof. intros h a c H. apply (in_map fst) in H. exact H. Qed.
Lemma same_block : forall h a c d, NoDup (keys h) -> In (a, c) h -> In (a, d) h -> c = d.
Proof.
  induction h as [|[b e] t IH]; intros a c d N H1 H2; [destruct H1|].
  unfold keys in N. cbn [map fst] in N. apply NoDup_cons_iff in N. destruct N as [N1 N2].
  destruct H1 as [H1|H1], H2 as [H2|H2].
  - congruence.
  - injection H1 as -> ->. exfalso. apply N1. exact (in_keys _ _ _ H2).
  - injection H2 as -> ->. exfalso. apply N1. exact (in_keys _ _ _ H1).
  - exact (IH a c d N2 H1 H2).
Qed.
Lemma wf_tail : forall x s, wf (x :: s) -> wf s.
Proof.
  intros [b e] s [N P D T]. split.
  - cbn [map] in N. apply NoDup_cons_iff in N. apply N.
  - intros a n H. apply P. right. exact H.
  - intros a n b' m H1 H2. apply D; right; assumption.
  - cbn [map snd sum fold_right] in T. destruct (P b e (or_introl eq_refl)) as [_ [Q _]]. unfold sum. lia.
Qed.
Lemma sum_app : forall a b, sum (a ++ b) = sum a + sum b.
Proof. intros a b. unfold sum. induction a as [|x a IH]; cbn [app fold_right]; [reflexivity|rewrite IH; lia]. Qed.

Lemma load_in : forall h b c p n, wf (shape h) -> In (b, c) h -> b <= p -> p + n <= b + len c -> 0 < n ->
  load h p n = Some (slice c (p - b) n).
Proof.
  induction h as [|[a d] t IH]; intros b c p n Hw Hin H1 H2 H3; [destruct Hin|].
  cbn [load]. destruct (Z.eq_dec a b) as [->|Hne].
  - assert (d = c) as ->.
    { apply (same_block ((b, d) :: t) b d c).
      - rewrite <- keys_shape. apply (wf_nodup _ Hw).
      - left. reflexivity.
      - exact Hin. }
    destruct (Z.leb_spec b p); [|lia]. destruct (Z.leb_spec (p + n) (b + len c)); [|lia]. reflexivity.
  - destruct Hin as [Hin|Hin]; [injection Hin as -> ->; congruence|].
    destruct (wf_disjoint _ Hw a (len d) b (len c)) as [Q|Q]; [left; reflexivity|right; exact (in_shape _ _ _ Hin)|exact Hne| |].
    + destruct (Z.leb_spec a p); cbn [andb]; [destruct (Z.leb_spec (p + n) (a + len d)); [lia|]|];
        apply (IH b c p n (wf_tail _ _ Hw) Hin H1 H2 H3).
    + destruct (Z.leb_spec a p); cbn [andb]; [lia|].
      apply (IH b c p n (wf_tail _ _ Hw) Hin H1 H2 H3).
Qed.
Lemma store_in : forall h b c p bs, wf (shape h) -> In (b, c) h -> b <= p -> p + len bs <= b + len c -> 0 < len bs ->
  exists m1 m2, h = m1 ++ (b, c) :: m2 /\ store h p bs = Some (m1 ++ (b, splice c (p - b) bs) :: m2).
Proof.
  induction h as [|[a d] t IH]; intros b c p bs Hw Hin H1 H2 H3; [destruct Hin|].
  cbn [store]. destruct (Z.eq_dec a b) as [->|Hne].
  - assert (d = c) as ->.
    { apply (same_block ((b, d) :: t) b d c).
      - rewrite <- keys_shape. apply (wf_nodup _ Hw).
      - left. reflexivity.
      - exact Hin. }
    destruct (Z.leb_spec b p); [|lia]. destruct (Z.leb_spec (p + len bs) (b + len c)); [|lia].
    exists [], t. split; reflexivity.
  - destruct Hin as [Hin|Hin]; [injection Hin as -> ->; congruence|].
    assert (G : (a <=? p) && (p + len bs <=? a + len d) = false).
    { destruct (wf_disjoint _ Hw a (len d) b (len c)) as [Q|Q]; [left; reflexivity|right; exact (in_shape _ _ _ Hin)|exact Hne| |].
      - destruct (Z.leb_spec a p); cbn [andb]; [destruct (Z.leb_spec (p + len bs) (a + len d)); [lia|reflexivity]|reflexivity].
      - destruct (Z.leb_spec a p); cbn [andb]; [lia|reflexivity]. }
    rewrite G. destruct (IH b c p bs (wf_tail _ _ Hw) Hin H1 H2 H3) as [m1 [m2 [E1 E2]]].
    exists ((a, d) :: m1), m2. rewrite E2. cbn [option_map app]. split; [rewrite E1; reflexivity|reflexivity].
Qed.
Lemma remove_in : forall h b, In b (keys h) -> exists m1 c m2, h = m1 ++ (b, c) :: m2 /\ remove h b = Some (m1 ++ m2).
Proof.
  induction h as [|[a d] t IH]; intros b Hin; [destruct Hin|].
  cbn [remove]. destruct (Z.eqb_spec a b) as [->|Hne].
  - exists [], d, t. split; reflexivity.
  - destruct Hin as [Hin|Hin]; [cbn [fst] in Hin; congruence|].
    destruct (IH b Hin) as [m1 [c [m2 [E1 E2]]]].
    exists ((a, d) :: m1), c, m2. rewrite E2. cbn [option_map app]. split; [rewrite E1; reflexivity|reflexivity].
Qed.
Lemma wf_perm : forall s s', Permutation s s' -> wf s -> wf s'.
Proof.
  intros s s' P [N Q D T]. split.
  - exact (Permutation_NoDup (Permutation_map fst P) N).
  - intros a n H. apply Q. apply (Permutation_in _ (Permutation_sym P)). exact H.
  - intros a n b m H1 H2. apply D; apply (Permutation_in _ (Permutation_sym P)); assumption.
  - assert (G : forall a b, Permutation a b -> sum a = sum b).
    { intros a b X. induction X; unfold sum in *; cbn [fold_right]; lia. }
    rewrite <- (G _ _ (Permutation_map snd P)). exact T.
Qed.
Lemma wf_block : forall h n a, 0 < n -> wf (shape h) -> honestBlock h n (Some a) -> wf (shape ((a, zeros n) :: h)).
Proof.
  intros h n a Hn [N P D T] [H1 [H2 [H3 H4]]].
  assert (Hs : shape ((a, zeros n) :: h) = (a, n) :: shape h).
  { unfold shape. cbn [map fst snd]. rewrite len_zeros by lia. reflexivity. }
  assert (H5 : forall b m, In (b, m) (shape h) -> a + n <= b \/ b + m <= a).
  { intros b m Hb. unfold shape in Hb. apply in_map_iff in Hb. destruct Hb as [[b' c] [Hb Hc]]. cbn [fst snd] in Hb.
    injection Hb as -> <-. exact (H4 b c Hc). }
  rewrite Hs. split.
  - cbn [map fst]. constructor; [|exact N].
    intros Hin. rewrite in_map_iff in Hin. destruct Hin as [[b m] [E1 E2]]. cbn [fst] in E1. subst b.
    destruct (P _ _ E2) as [_ [Q _]]. destruct (H5 _ _ E2); lia.
  - intros b m [Hb|Hb]; [injection Hb as <- <-; lia|exact (P _ _ Hb)].
  - intros b m b' m' [Hb|Hb] [Hb'|Hb'] Hne.
    + congruence.
    + injection Hb as <- <-. exact (H5 _ _ Hb').
    + injection Hb' as <- <-. destruct (H5 _ _ Hb); lia.
    + exact (D _ _ _ _ Hb Hb' Hne).
  - cbn [map snd sum fold_right]. rewrite total_shape in H3. unfold sum in *. lia.
Qed.

(** *** One buffer *)
Section Buffers.
Variables (A w k : Z).
Hypothesis Hk : 0 <= k <= 5.
Hypothesis HA : A = 2 ^ k.
Hypothesis Hw : 0 < w.

Lemma A_range : 1 <= A <= 32.
Proof.
  rewrite HA. split.
  - assert (2 ^ 0 <= 2 ^ k) by (apply Z.pow_le_mono_r; lia). change (2 ^ 0) with 1 in *. lia.
  - change 32 with (2 ^ 5). apply Z.pow_le_mono_r; lia.
Qed.
Lemma land_up : forall x, Z.land x (- A) = x - x mod A.
Proof.
  intros x. replace (- A) with (Z.lnot (Z.ones k)) by (rewrite Z.ones_equiv, HA; unfold Z.lnot; lia).
  rewrite <- Z.ldiff_land, Z.ldiff_ones_r by lia. rewrite Z.shiftl_mul_pow2, Z.shiftr_div_pow2 by lia. rewrite HA.
  rewrite (Z.div_mod x (2 ^ k)) at 2 by (apply Z.pow_nonzero; lia). lia.
Qed.
Lemma align_up : forall n a temp, 0 < a -> a + A - 1 < 2 ^ 64 -> 0 <= n -> n + (A - 1) <= temp < 2 ^ 64 ->
  a <= align A n a temp <= a + A - 1 /\ align A n a temp mod A = 0.
Proof.
  intros n a temp H1 H2 H3 H4. pose proof A_range as HR. unfold align. fold W in H2, H4.
  rewrite land_up. unfold u64.
  rewrite (Z.mod_small (a + A - 1)) by lia.
  pose proof (Z.mod_pos_bound (a + A - 1) A ltac:(lia)) as M.
  rewrite (Z.mod_small (a + A - 1 - (a + A - 1) mod A)) by lia.
  rewrite (Z.mod_small (a + A - 1 - (a + A - 1) mod A - a)) by lia.
  rewrite Z.mod_small by lia.
  destruct (Z.ltb_spec temp (n + (a + A - 1 - (a + A - 1) mod A - a))); [lia|].
  split; [lia|]. rewrite Zminus_mod, Zmod_mod, Z.sub_diag. apply Zmod_0_l.
Qed.

Definition own (b : buf) : list Z := if 0 <? larger b then [padded b] else [].
Definition full (h : heap) (b : buf) (c : list Z) : Prop :=
  exists blk, In (padded b, blk) h /\ len blk = larger b * w /\ larger b = size b + 2 * (A - 1) /\ 0 < size b /\
    padded b <= normal b <= padded b + A - 1 /\ normal b mod A = 0 /\ nend b = normal b + size b * w /\
    aend b = alignedEnd A w (size b) (nend b) /\ c = slice blk (normal b - padded b) (size b * w).
Definition holds (h : heap) (b : buf) (c : list Z) : Prop := (b = emptyBuf /\ c = []) \/ full h b c.
Definition good (e : env) : Prop := wf (shape (mem e)) /\ num e = len (mem e) /\ bytes e = total (mem e).
Definition frame (h h' : heap) (R : list Z) : Prop := forall q d, In q R -> In (q, d) h -> In (q, d) h'.

Lemma full_room : forall b, larger b = size b + 2 * (A - 1) -> 0 < size b -> padded b <= normal b <= padded b + A - 1 ->
  normal b + size b * w <= padded b + larger b * w /\ 0 <= normal b - padded b /\ 0 < size b * w.
Proof. intros b H1 H2 H3. pose proof A_range. rewrite H1. nia. Qed.
Lemma full_len : forall h b c, full h b c -> len c = size b * w.
Proof.
  intros h b c (blk & H1 & H2 & H3 & H4 & H5 & H6 & H7 & H8 & ->).
  destruct (full_room b H3 H4 H5) as [Q1 [Q2 Q3]]. apply len_slice; lia.
Qed.
Lemma holds_len : forall h b c, holds h b c -> len c = size b * w.
Proof. intros h b c [[-> ->]|H]; [reflexivity|exact (full_len _ _ _ H)]. Qed.
Lemma full_own : forall h b c, full h b c -> own b = [padded b].
Proof.
  intros h b c (blk & H1 & H2 & H3 & H4 & _). pose proof A_range. unfold own.
  destruct (Z.ltb_spec 0 (larger b)); [reflexivity|lia].
Qed.
Lemma holds_frame : forall h h' b c R, holds h b c -> incl (own b) R -> frame h h' R -> holds h' b c.
Proof.
  intros h h' b c R [Q|Q] HI HF; [left; exact Q|right].
  rewrite (full_own _ _ _ Q) in HI. destruct Q as (blk & H1 & Q). exists blk. split; [|exact Q].
  apply HF; [apply HI; left; reflexivity|exact H1].
Qed.
Lemma count_le : forall h, wf (shape h) -> len h <= total h.
Proof.
  intros h Hf. rewrite total_shape. pose proof (wf_pos _ Hf) as P. clear Hf. unfold shape in *.
  induction h as [|[a c] t IH]; [cbn; lia|].
  unfold len in *. cbn [map snd fst sum fold_right length] in *.
  destruct (P _ _ (or_introl eq_refl)) as [_ [Q _]].
  assert (Z.of_nat (length t) <= sum (map snd (map (fun x => (fst x, Z.of_nat (length (snd x)))) t))).
  { apply IH. intros a' n' H. apply P. right. exact H. }
  unfold sum in *. lia.
Qed.
Lemma total_cons : forall x h, total (x :: h) = len (snd x) + total h.
Proof. reflexivity. Qed.
Lemma total_app : forall a b, total (a ++ b) = total a + total b.
Proof. intros a b. unfold total. rewrite map_app. apply sum_app. Qed.

Lemma free_ok : forall h p R, wf (shape h) -> 0 < p -> Permutation (keys h) (p :: R) ->
  exists h' c, free h p = Some h' /\ In (p, c) h /\ wf (shape h') /\ Permutation (keys h') R /\ frame h h' R /\
    total h = len c + total h' /\ len h = 1 + len h'.
Proof.
  intros h p R Hf Hp HP. unfold free. destruct (Z.eqb_spec p 0); [lia|].
  destruct (remove_in h p) as [m1 [c [m2 [E1 E2]]]].
  { apply (Permutation_in _ (Permutation_sym HP)). left. reflexivity. }
  exists (m1 ++ m2), c. rewrite E2. subst h.
  assert (HQ : Permutation (m1 ++ (p, c) :: m2) ((p, c) :: m1 ++ m2)) by (apply Permutation_sym, Permutation_middle).
  split; [reflexivity|]. split; [apply in_or_app; right; left; reflexivity|].
  split; [apply (wf_tail (p, len c)); apply (wf_perm _ _ (Permutation_map (fun x => (fst x, len (snd x))) HQ) Hf)|].
  split.
  { apply (Permutation_cons_inv (a := p)). eapply Permutation_trans; [|exact HP].
    apply Permutation_sym. exact (Permutation_map fst HQ). }
  split.
  { intros q d Hq Hin. apply (Permutation_in _ HQ) in Hin. destruct Hin as [Hin|Hin]; [|exact Hin].
    injection Hin as -> ->. exfalso.
    assert (N : NoDup (q :: R)) by (apply (Permutation_NoDup HP); rewrite <- keys_shape; apply (wf_nodup _ Hf)).
    apply NoDup_cons_iff in N. exact (proj1 N Hq). }
  split; [rewrite !total_app, total_cons; cbn [snd]; lia|].
  unfold len. rewrite !app_length. cbn [length]. lia.
Qed.

Lemma deleted_free : forall b e c R, good e -> holds (mem e) b c -> Permutation (keys (mem e)) (own b ++ R) ->
  exists h, free (mem (deleted w b e)) (padded b) = Some h /\ good (withMem (deleted w b e) h) /\ Permutation (keys h) R /\
    frame (mem e) h R.
Proof.
  intros b e c R [G1 [G2 G3]] [[-> ->]|Q] HP.
  - exists (mem e). unfold deleted, own, emptyBuf in *. cbn [larger padded app] in *. split; [reflexivity|].
    change (0 <? 0) with false in *. cbn [app withMem mem num bytes] in *. unfold good. cbn [withMem mem num bytes].
    split; [split; [exact G1|split; assumption]|]. split; [exact HP|]. intros q d _ H. exact H.
  - pose proof (full_own _ _ _ Q) as HO. rewrite HO in HP. cbn [app] in HP.
    destruct Q as (blk & H1 & H2 & H3 & H4 & H5 & _).
    assert (Hp : 0 < padded b) by (apply (wf_pos _ G1 (padded b) (len blk)), in_shape, H1).
    destruct (free_ok _ _ _ G1 Hp HP) as (h' & c' & E1 & E2 & E3 & E4 & E5 & E6 & E7).
    assert (c' = blk) as ->.
    { apply (same_block (mem e) (padded b)); [rewrite <- keys_shape; apply (wf_nodup _ G1)|exact E2|exact H1]. }
    exists h'. unfold deleted. pose proof A_range. destruct (Z.ltb_spec 0 (larger b)); [|lia].
    unfold bufferDeleted. cbn [mem]. split; [exact E1|]. split; [|split; [exact E4|exact E5]].
    unfold good, withMem. cbn [mem num bytes]. split; [exact E3|].
    pose proof (count_le _ G1). pose proof (wf_total _ G1) as HT. rewrite <- total_shape in HT. fold W in HT.
    pose proof (count_le _ E3). pose proof (len_nonneg _ h').
    unfold u64. rewrite G2, G3. split; rewrite Z.mod_small; lia.
Qed.
Lemma clear_ok : forall b e c R, good e -> holds (mem e) b c -> Permutation (keys (mem e)) (own b ++ R) ->
  exists e', clear w b e = Some (emptyBuf, e') /\ good e' /\ Permutation (keys (mem e')) R /\ frame (mem e) (mem e') R.
Proof.
  intros b e c R HG HH HP. destruct (deleted_free b e c R HG HH HP) as (h & E1 & E2 & E3 & E4).
  exists (withMem (deleted w b e) h). unfold clear, clear_. rewrite E1. split; [reflexivity|]. split; [exact E2|]. split; assumption.
Qed.

Lemma cost_pos : forall n, 0 < n -> cost A w (n * w) = (n + 2 * (A - 1)) * w.
Proof. intros n H. unfold cost. destruct (Z.eqb_spec (n * w) 0); [nia|lia]. Qed.
Lemma memcpy_head : forall h a z dst bs src n, load ((a, z) :: h) src n = Some bs -> a <= dst -> dst + len bs <= a + len z -> n <> 0 ->
  memcpy ((a, z) :: h) dst src n = Some ((a, splice z (dst - a) bs) :: h).
Proof.
  intros h a z dst bs src n HL H1 H2 H3. unfold memcpy. destruct (Z.eqb_spec n 0); [congruence|]. rewrite HL. cbn [store].
  destruct (Z.leb_spec a dst); [|lia]. destruct (Z.leb_spec (dst + len bs) (a + len z)); [reflexivity|lia].
Qed.
Lemma splice_zeros : forall n bs, 0 <= n -> len bs <= n -> splice (zeros n) 0 bs = bs ++ repeat 0 (Z.to_nat n - length bs).
Proof.
  intros n bs H1 H2. unfold splice. change (Z.to_nat 0) with 0%nat. cbn [firstn app Nat.add]. f_equal.
  unfold zeros, len in *. assert (Z.to_nat n = length bs + (Z.to_nat n - length bs))%nat as HE by lia.
  rewrite HE at 1. rewrite repeat_app, skipn_app, skipn_all2 by (rewrite repeat_length; lia).
  rewrite repeat_length, Nat.sub_diag. reflexivity.
Qed.

Lemma min_times : forall n s, 0 < n -> 0 < s -> 0 < Z.min n s * w <= s * w /\ Z.min n s * w <= n * w.
Proof.
  clear Hk HA. intros n s H1 H2. split; [split; [apply Z.mul_pos_pos; lia|]|]; apply Z.mul_le_mono_nonneg_r; lia.
Qed.
Lemma resize_ok : forall b e c n r R, good e -> holds (mem e) b c -> Permutation (keys (mem e)) (own b ++ R) ->
  sizeOk A n -> (0 < n -> honestBlock (mem e) ((n + 2 * (A - 1)) * w) r) ->
  exists b' e', resize A w b e n r = Some (b', e', met A w n r) /\
    (if met A w n r then good e' /\ Permutation (keys (mem e')) (own b' ++ R) /\ frame (mem e) (mem e') R /\
       holds (mem e') b' (fit (n * w) c) /\ size b' = n
     else b' = b /\ e' = e).
Proof.
  intros b e c n r R HG HH HP [Hn0 Hn1] HB. unfold resize, met.
  destruct (Z.eqb_spec n 0) as [->|Hnz].
  { destruct (clear_ok b e c R HG HH HP) as (e' & E1 & E2 & E3 & E4).
    exists emptyBuf, e'. rewrite E1. cbn [orb]. split; [reflexivity|]. split; [exact E2|].
    split; [exact E3|]. split; [exact E4|]. split; [|reflexivity]. left. split; reflexivity. }
  cbn [orb]. assert (Hn : 0 < n) by lia. specialize (HB Hn). rewrite (cost_pos n Hn).
  pose proof A_range as HR.
  unfold tempSize, u64. rewrite Z.mod_small by (unfold W; lia).
  unfold calloc. fold W. remember ((n + 2 * (A - 1)) * w) as B eqn:EB.
  assert (HBp : 0 < B) by nia.
  destruct (Z.leb_spec W B) as [L|L].
  { destruct (Z.ltb_spec B W); [lia|]. cbn [andb]. exists b, e. split; [reflexivity|]. split; reflexivity. }
  destruct (Z.ltb_spec B W); [|lia]. cbn [andb].
  destruct r as [a|]; [|exists b, e; split; [reflexivity|split; reflexivity]].
  destruct HG as [G1 [G2 G3]].
  pose proof (wf_block (mem e) B a HBp G1 HB) as HW. destruct HB as [B1 [B2 [B3 B4]]].
  remember (n + 2 * (A - 1)) as temp eqn:ET.
  assert (HAB : a + A - 1 < 2 ^ 64) by nia.
  destruct (align_up n a temp B1 HAB ltac:(lia) ltac:(lia)) as [U1 U2].
  remember (align A n a temp) as nd eqn:END.
  remember (if 0 <? larger b
     then bufferResized (withMem e ((a, zeros B) :: mem e)) (larger b * w) B
     else newBuffer (withMem e ((a, zeros B) :: mem e)) B) as e2 eqn:EE2.
  assert (HM2 : mem e2 = (a, zeros B) :: mem e) by (rewrite EE2; destruct (0 <? larger b); reflexivity).
  rewrite HM2.
  assert (Hroom : nd + n * w <= a + B) by nia.
  assert (HNa : ~ In a (keys (mem e))).
  { pose proof (wf_nodup _ HW) as N. rewrite keys_shape in N. unfold keys in N. cbn [map fst] in N.
    apply NoDup_cons_iff in N. apply N. }
  (* the copy *)
  assert (HC : exists blk, memcpy ((a, zeros B) :: mem e) nd (normal b) (Z.min n (size b) * w) = Some ((a, blk) :: mem e) /\
            len blk = B /\ slice blk (nd - a) (n * w) = fit (n * w) c).
  { destruct HH as [[-> ->]|Q].
    - exists (zeros B). cbn [size emptyBuf]. rewrite Z.min_r by lia. cbn [Z.mul]. split; [reflexivity|].
      rewrite len_zeros by lia. split; [reflexivity|]. rewrite slice_zeros by nia.
      unfold fit. rewrite firstn_nil. cbn [app length]. rewrite Nat.sub_0_r. reflexivity.
    - pose proof (full_len _ _ _ Q) as HLc. destruct Q as (blk & H1 & H2 & H3 & H4 & H5 & H6 & H7 & H8 & H9).
      destruct (full_room b H3 H4 H5) as [Q1 [Q2 Q3]].
      remember (Z.min n (size b) * w) as m eqn:EM.
      assert (Hm : 0 < m <= size b * w /\ m <= n * w) by (rewrite EM; apply min_times; assumption).
      assert (HL : load ((a, zeros B) :: mem e) (normal b) m = Some (slice blk (normal b - padded b) m)).
      { apply load_in; [exact HW|right; exact H1|lia|lia|lia]. }
      assert (Hs : slice blk (normal b - padded b) m = firstn (Z.to_nat m) c).
      { rewrite H9. unfold slice. rewrite firstn_firstn. f_equal. lia. }
      assert (Hlb : len (slice blk (normal b - padded b) m) = m) by (apply len_slice; lia).
      exists (splice (zeros B) (nd - a) (slice blk (normal b - padded b) m)). split; [|split].
      + apply memcpy_head; [exact HL|lia| |lia]. rewrite Hlb, len_zeros by lia. lia.
      + rewrite len_splice; rewrite ?len_zeros; lia.
      + replace (nd - a) with (nd - a + 0) at 1 by lia.
        rewrite slice_splice_in; rewrite ?len_zeros; try lia.
        rewrite slice_zeros by lia. rewrite splice_zeros by lia. rewrite Hs. unfold fit.
        unfold len in HLc. destruct (Z.le_gt_cases n (size b)) as [C|C].
        * assert (m = n * w) as -> by (rewrite EM, Z.min_l by exact C; reflexivity).
          f_equal. f_equal. rewrite firstn_length. lia.
        * assert (m = size b * w) as -> by (rewrite EM, Z.min_r by lia; reflexivity). rewrite !firstn_all2 by lia. reflexivity. }
  destruct HC as (blk & C1 & C2 & C3). rewrite C1.
  assert (HW2 : wf (shape ((a, blk) :: mem e))).
  { replace (shape ((a, blk) :: mem e)) with (shape ((a, zeros B) :: mem e)); [exact HW|].
    unfold shape. cbn [map fst snd]. rewrite C2, len_zeros by lia. reflexivity. }
  (* the old block *)
  assert (HF : exists h', free ((a, blk) :: mem e) (padded b) = Some h' /\ wf (shape h') /\ Permutation (keys h') (a :: R) /\
     frame (mem e) h' R /\ In (a, blk) h' /\ num e2 = len h' /\ bytes e2 = total h').
  { destruct HH as [[-> ->]|Q].
    - exists ((a, blk) :: mem e). split; [reflexivity|]. split; [exact HW2|]. split; [apply perm_skip; exact HP|].
      split; [intros q d _ Hin; right; exact Hin|]. split; [left; reflexivity|].
      rewrite EE2. cbn [larger emptyBuf]. change (0 <? 0) with false. cbn [newBuffer withMem num bytes mem].
      pose proof (count_le _ HW2) as HC. unfold newBuffer. cbn [num bytes]. rewrite total_cons in *. cbn [snd] in *. rewrite C2 in *. unfold len in HC |- *.
      cbn [length] in *. unfold u64. rewrite G2, G3. fold W in B3. unfold len. pose proof (len_nonneg _ (mem e)) as HL. unfold len in HL.
      split; rewrite Z.mod_small; lia.
    - pose proof (full_own _ _ _ Q) as HO. rewrite HO in HP. cbn [app] in HP.
      destruct Q as (old & H1 & H2 & H3 & H4 & H5 & _).
      assert (Hp : 0 < padded b) by (apply (wf_pos _ G1 (padded b) (len old)), in_shape, H1).
      assert (HP2 : Permutation (keys ((a, blk) :: mem e)) (padded b :: a :: R)).
      { eapply Permutation_trans; [apply (perm_skip a HP)|apply perm_swap]. }
      destruct (free_ok _ _ _ HW2 Hp HP2) as (h' & c' & E1 & E2 & E3 & E4 & E5 & E6 & E7).
      assert (c' = old) as ->.
      { apply (same_block ((a, blk) :: mem e) (padded b)); [rewrite <- keys_shape; apply (wf_nodup _ HW2)|exact E2|right; exact H1]. }
      exists h'. split; [exact E1|]. split; [exact E3|]. split; [exact E4|].
      split; [intros q d Hq Hin; apply E5; [right; exact Hq|right; exact Hin]|].
      split; [apply E5; [left; reflexivity|left; reflexivity]|].
      rewrite EE2. destruct (Z.ltb_spec 0 (larger b)); [|lia]. unfold bufferResized. cbn [withMem num bytes].
      rewrite total_cons in E6. cbn [snd] in E6. rewrite C2 in E6. fold W in B3.
      pose proof (wf_total _ E3) as HT. rewrite <- total_shape in HT. fold W in HT.
      pose proof (count_le _ E3). pose proof (len_nonneg _ h'). pose proof (count_le _ G1). pose proof (len_nonneg _ (mem e)).
      unfold u64. rewrite G2, G3. split; [unfold len in *; cbn [length] in E7; lia|].
      rewrite (Z.mod_small (total (mem e) + B)) by lia. rewrite Z.mod_small; lia. }
  destruct HF as (h' & F1 & F2 & F3 & F4 & F5 & F6 & F7). rewrite F1.
  eexists. eexists. split; [reflexivity|]. cbn [withMem mem size]. split; [|split; [|split; [|split]]].
  - unfold good. cbn [mem num bytes]. split; [exact F2|]. split; assumption.
  - unfold own. cbn [larger padded]. destruct (Z.ltb_spec 0 temp); [exact F3|lia].
  - exact F4.
  - right. exists blk. cbn [padded larger size normal nend aend]. split; [exact F5|]. split; [rewrite C2, EB; reflexivity|].
    split; [exact ET|]. split; [exact Hn|]. split; [exact U1|]. split; [exact U2|]. split; [reflexivity|]. split; [reflexivity|].
    symmetry. exact C3.
  - reflexivity.
Qed.

Lemma good_shape : forall e h, good e -> shape h = shape (mem e) -> good (withMem e h).
Proof.
  intros e h [G1 [G2 G3]] HS. unfold good, withMem. cbn [mem num bytes]. rewrite HS. split; [exact G1|].
  rewrite G2, G3, !total_shape, HS. split; [|reflexivity].
  unfold len. f_equal. apply (f_equal (@length _)) in HS. unfold shape in HS. rewrite !map_length in HS. symmetry. exact HS.
Qed.
Lemma store_full : forall h b c j bs R, wf (shape h) -> full h b c -> 0 <= j -> j + len bs <= len c -> 0 < len bs ->
  Permutation (keys h) (own b ++ R) ->
  exists h', store h (normal b + j) bs = Some h' /\ shape h' = shape h /\ full h' b (splice c j bs) /\ frame h h' R.
Proof.
  intros h b c j bs R Hf Q H0 H1 H2 HP. pose proof (full_len _ _ _ Q) as HL. rewrite (full_own _ _ _ Q) in HP. cbn [app] in HP.
  destruct Q as (blk & K1 & K2 & K3 & K4 & K5 & K6 & K7 & K8 & K9).
  destruct (full_room b K3 K4 K5) as [Q1 [Q2 Q3]].
  destruct (store_in h (padded b) blk (normal b + j) bs Hf K1 ltac:(lia) ltac:(lia) H2) as (m1 & m2 & E1 & E2).
  assert (HS : len (splice blk (normal b + j - padded b) bs) = len blk) by (apply len_splice; lia).
  eexists. split; [exact E2|]. split; [|split].
  - rewrite E1. unfold shape. rewrite !map_app. cbn [map fst snd]. rewrite HS. reflexivity.
  - exists (splice blk (normal b + j - padded b) bs). split; [apply in_or_app; right; left; reflexivity|].
    rewrite HS. do 7 (split; [assumption|]).
    replace (normal b + j - padded b) with (normal b - padded b + j) by lia. rewrite slice_splice_in by lia. rewrite <- K9. reflexivity.
  - intros q d Hq Hin. rewrite E1 in Hin.
    assert (N : NoDup (padded b :: R)) by (apply (Permutation_NoDup HP); rewrite <- keys_shape; apply (wf_nodup _ Hf)).
    apply NoDup_cons_iff in N.
    apply in_app_or in Hin. destruct Hin as [Hin|[Hin|Hin]].
    + apply in_or_app. left. exact Hin.
    + injection Hin as <- <-. exfalso. exact (proj1 N Hq).
    + apply in_or_app. right. right. exact Hin.
Qed.
Lemma fit_len : forall n c, 0 <= n -> len (fit n c) = n.
Proof. clear Hk HA Hw. intros n c H. unfold fit. rewrite len_app. unfold len. rewrite firstn_length, repeat_length. lia. Qed.
Lemma splice_all : forall c bs, len c = len bs -> splice c 0 bs = bs.
Proof.
  intros c bs H. unfold splice, len in *. change (Z.to_nat 0) with 0%nat. cbn [firstn app Nat.add].
  rewrite skipn_all2 by lia. apply app_nil_r.
Qed.
Lemma load_full : forall h b c, wf (shape h) -> full h b c -> load h (normal b) (size b * w) = Some c.
Proof.
  intros h b c Hf (blk & K1 & K2 & K3 & K4 & K5 & K6 & K7 & K8 & K9).
  destruct (full_room b K3 K4 K5) as [Q1 [Q2 Q3]].
  rewrite (load_in h (padded b) blk); [rewrite K9; reflexivity|exact Hf|exact K1|lia|lia|lia].
Qed.
Lemma holds_size : forall h b c, holds h b c -> size b = len c / w /\ (size b = 0 -> b = emptyBuf /\ c = []) /\ (size b <> 0 -> full h b c).
Proof.
  intros h b c H. rewrite (holds_len _ _ _ H). split; [rewrite Z.div_mul by lia; reflexivity|].
  destruct H as [H|H].
  - split; [intros _; exact H|]. destruct H as [-> ->]. cbn [size emptyBuf]. lia.
  - split; [|intros _; exact H]. destruct H as (blk & K1 & K2 & K3 & K4 & _). lia.
Qed.
Lemma size_ok : forall e b c, good e -> holds (mem e) b c -> sizeOk A (size b).
Proof.
  intros e b c [G1 _] [[-> ->]|(blk & K1 & K2 & K3 & K4 & K5 & _)]; pose proof A_range; [split; cbn [size emptyBuf]; lia|].
  destruct (wf_pos _ G1 _ _ (in_shape _ _ _ K1)) as [P1 [P2 P3]]. split; [lia|]. nia.
Qed.
Lemma copyFrom_ok : forall b e c o d r R, good e -> holds (mem e) b c -> holds (mem e) o d ->
  Permutation (keys (mem e)) (own b ++ R) -> incl (own o) R ->
  (0 < size o -> honestBlock (mem e) ((size o + 2 * (A - 1)) * w) r) ->
  exists b' e', copyFrom A w b e o r = Some (b', e', met A w (len d / w) r) /\
    (if met A w (len d / w) r then good e' /\ Permutation (keys (mem e')) (own b' ++ R) /\ frame (mem e) (mem e') R /\
       holds (mem e') b' d
     else b' = b /\ e' = e).
Proof.
  intros b e c o d r R HG HH HO HP HI HB. destruct (holds_size _ _ _ HO) as [S1 [S2 S3]]. rewrite <- S1.
  destruct (resize_ok b e c (size o) r R HG HH HP (size_ok _ _ _ HG HO) HB) as (b' & e' & E1 & E2).
  unfold copyFrom. rewrite E1. destruct (met A w (size o) r); [|exists b', e'; split; [reflexivity|exact E2]].
  destruct E2 as (G & P & F & H' & Hs).
  destruct (Z.eq_dec (size o) 0) as [Z0|Z0].
  - destruct (S2 Z0) as [-> ->]. exists b', e'. cbn [size emptyBuf] in *. unfold memcpy. cbn [Z.mul Z.eqb].
    split; [destruct e'; reflexivity|]. split; [exact G|]. split; [exact P|]. split; [exact F|]. exact H'.
  - specialize (S3 Z0). pose proof (holds_frame _ _ _ _ R (or_intror S3) HI F) as HO'.
    destruct (holds_size _ _ _ HO') as [T1 [T2 T3]]. specialize (T3 Z0).
    destruct (holds_size _ _ _ H') as [V1 [V2 V3]]. rewrite Hs in V3. specialize (V3 Z0).
    pose proof (full_len _ _ _ T3) as HLd.
    assert (Hpos : 0 < size o * w) by (destruct T3 as (? & ? & ? & ? & ? & _); nia).
    destruct (store_full _ b' (fit (size o * w) c) 0 d R (proj1 G) V3) as (h & U1 & U2 & U3 & U4); [lia|rewrite fit_len; lia|lia|exact P|].
    exists b', (withMem e' h). unfold memcpy. destruct (Z.eqb_spec (size o * w) 0); [lia|].
    rewrite (load_full _ _ _ (proj1 G) T3). rewrite Z.add_0_r in U1. rewrite U1. split; [reflexivity|].
    split; [exact (good_shape _ _ G U2)|]. split; [|split].
    + cbn [withMem mem]. rewrite <- keys_shape, U2, keys_shape. exact P.
    + intros q x Hq Hin. apply U4; [exact Hq|]. exact (F q x Hq Hin).
    + right. rewrite splice_all in U3; [exact U3|]. rewrite fit_len; lia.
Qed.

(** *** All objects *)
Definition ownO (o : option buf) : list Z := match o with Some b => own b | None => [] end.
Definition owned (l : list (option buf)) : list Z := flat_map ownO l.
Definition objOk (h : heap) (o : option buf) (c : option (list Z)) : Prop :=
  match o, c with Some b, Some c => holds h b c | None, None => True | _, _ => False end.
Definition get {X} (l : list (option X)) (i : nat) : option X := match nth_error l i with Some o => o | None => None end.
Record Inv (X : list Z) (e : env) (l : list (option buf)) (sp : state) : Prop := {
  inv_good : good e;
  inv_length : length l = length sp;
  inv_objs : forall i, objOk (mem e) (get l i) (get sp i);
  inv_keys : Permutation (keys (mem e)) (X ++ owned l)
}.
Lemma get_upd : forall X (l : list (option X)) i j x, (i < length l)%nat ->
  get (upd l i x) j = if Nat.eqb i j then x else get l j.
Proof.
  induction l as [|h t IH]; intros i j x Hi; [cbn [length] in Hi; lia|].
  destruct i as [|i]; destruct j as [|j]; try reflexivity.
  cbn [upd Nat.eqb]. unfold get in *. cbn [nth_error]. apply IH. cbn [length] in Hi. lia.
Qed.
Lemma length_upd : forall X (l : list X) i x, length (upd l i x) = length l.
Proof. induction l as [|h t IH]; intros [|i] x; cbn [upd length]; try reflexivity. rewrite IH. reflexivity. Qed.
Lemma upd_upd : forall X (l : list X) i x y, upd (upd l i x) i y = upd l i y.
Proof. induction l as [|h t IH]; intros [|i] x y; cbn [upd]; try reflexivity. rewrite IH. reflexivity. Qed.
Lemma upd_comm : forall X (l : list X) i j x y, i <> j -> upd (upd l i x) j y = upd (upd l j y) i x.
Proof.
  induction l as [|h t IH]; intros [|i] [|j] x y H; cbn [upd]; try reflexivity; [congruence|]. rewrite IH by congruence. reflexivity.
Qed.
Lemma get_lt : forall X (l : list (option X)) i b, get l i = Some b -> (i < length l)%nat.
Proof. intros X l i b H. unfold get in H. apply nth_error_Some. destruct (nth_error l i); [discriminate|discriminate H]. Qed.
Lemma put_upd : forall (s : state) i o, (i < length s)%nat -> put s i o = upd s i o.
Proof.
  unfold put. induction s as [|h t IH]; intros i o H; [cbn [length] in H; lia|].
  destruct i as [|i]; [reflexivity|]. cbn [upd firstn app]. rewrite <- IH by (cbn [length] in H; lia). reflexivity.
Qed.
Lemma owned_upd : forall l i x, (i < length l)%nat -> Permutation (owned (upd l i x)) (ownO x ++ owned (upd l i None)).
Proof.
  induction l as [|h t IH]; intros i x H; [cbn [length] in H; lia|].
  destruct i as [|i]; [apply Permutation_refl|]. cbn [upd]. unfold owned in *. cbn [flat_map].
  eapply Permutation_trans; [apply Permutation_app_head; apply IH; cbn [length] in H; lia|].
  rewrite !app_assoc. apply Permutation_app_tail. apply Permutation_app_comm.
Qed.
Lemma upd_same : forall X (l : list (option X)) i b, get l i = Some b -> upd l i (Some b) = l.
Proof.
  induction l as [|h t IH]; intros [|i] b H; try discriminate H.
  - unfold get in H. cbn [nth_error] in H. cbn [upd]. rewrite H. reflexivity.
  - cbn [upd]. rewrite IH; [reflexivity|exact H].
Qed.
Lemma take : forall X e l sp i b, Inv X e l sp -> get l i = Some b ->
  exists c, get sp i = Some c /\ holds (mem e) b c /\ Inv (own b ++ X) e (upd l i None) (upd sp i None).
Proof.
  intros X e l sp i b [G L O K] Hb. pose proof (O i) as Oi. rewrite Hb in Oi. cbn [objOk] in Oi.
  destruct (get sp i) as [c|] eqn:Hc; [|contradiction]. exists c. split; [reflexivity|]. split; [exact Oi|].
  pose proof (get_lt _ _ _ _ Hb) as Hi. split.
  - exact G.
  - rewrite !length_upd. exact L.
  - intros j. rewrite !get_upd by lia. destruct (Nat.eqb i j); [exact Logic.I|apply O].
  - eapply Permutation_trans; [exact K|]. rewrite <- (upd_same _ _ _ _ Hb) at 1.
    eapply Permutation_trans; [apply Permutation_app_head; apply (owned_upd l i (Some b) Hi)|]. cbn [ownO].
    rewrite !app_assoc. apply Permutation_app_tail. apply Permutation_app_comm.
Qed.
Lemma owned_in : forall l i b, get l i = Some b -> incl (own b) (owned l).
Proof.
  intros l i b H q Hq. unfold owned. apply in_flat_map. exists (Some b). split; [|exact Hq].
  unfold get in H. destruct (nth_error l i) as [o|] eqn:E; [|discriminate H]. subst o. exact (nth_error_In _ _ E).
Qed.
Lemma change : forall X X' e e' l sp, Inv X e l sp -> good e' -> frame (mem e) (mem e') (owned l) ->
  Permutation (keys (mem e')) (X' ++ owned l) -> Inv X' e' l sp.
Proof.
  intros X X' e e' l sp [G L O K] G' F K'. split; [exact G'|exact L| |exact K'].
  intros i. specialize (O i). destruct (get l i) as [b|] eqn:E, (get sp i) as [c|]; cbn [objOk] in *; try exact O.
  exact (holds_frame _ _ _ _ _ O (owned_in _ _ _ E) F).
Qed.
Lemma give : forall X e l sp i x y, Inv (ownO x ++ X) e l sp -> objOk (mem e) x y -> (i < length l)%nat -> upd l i None = l ->
  Inv X e (upd l i x) (upd sp i y).
Proof.
  intros X e l sp i x y [G L O K] Hxy Hi Hn. split.
  - exact G.
  - rewrite !length_upd. exact L.
  - intros j. rewrite !get_upd by lia. destruct (Nat.eqb i j); [exact Hxy|apply O].
  - eapply Permutation_trans; [exact K|]. rewrite <- Hn at 1.
    eapply Permutation_trans; [|apply Permutation_app_head; apply Permutation_sym; apply (owned_upd l i x Hi)].
    rewrite !app_assoc. apply Permutation_app_tail. apply Permutation_app_comm.
Qed.
Lemma get_app : forall X (l : list (option X)) x i, get (l ++ [x]) i = if Nat.eqb i (length l) then x else get l i.
Proof.
  intros X l x i. unfold get. destruct (Nat.eqb_spec i (length l)) as [->|H].
  - rewrite nth_error_app2, Nat.sub_diag by lia. reflexivity.
  - destruct (Nat.lt_ge_cases i (length l)) as [C|C].
    + rewrite nth_error_app1 by exact C. reflexivity.
    + rewrite (proj2 (nth_error_None l i) C). rewrite (proj2 (nth_error_None (l ++ [x]) i)); [reflexivity|].
      rewrite app_length. cbn [length]. lia.
Qed.
Lemma appended : forall X e l sp x y, Inv (ownO x ++ X) e l sp -> objOk (mem e) x y -> Inv X e (l ++ [x]) (sp ++ [y]).
Proof.
  intros X e l sp x y [G L O K] Hxy. split.
  - exact G.
  - rewrite !app_length, L. reflexivity.
  - intros j. rewrite !get_app, L. destruct (Nat.eqb j (length sp)); [exact Hxy|apply O].
  - eapply Permutation_trans; [exact K|]. unfold owned. rewrite flat_map_app. cbn [flat_map]. rewrite app_nil_r.
    rewrite <- app_assoc. eapply Permutation_trans; [apply Permutation_app_comm|]. rewrite <- app_assoc. apply Permutation_refl.
Qed.
Lemma perm_own : forall e X l b, Permutation (keys (mem e)) ((own b ++ X) ++ owned l) -> Permutation (keys (mem e)) (own b ++ X ++ owned l).
Proof. intros e X l b H. rewrite app_assoc. exact H. Qed.
Lemma frame_part : forall h h' X R, frame h h' (X ++ R) -> frame h h' R.
Proof. intros h h' X R F q d Hq. apply F. apply in_or_app. right. exact Hq. Qed.
Lemma empty_holds : forall h, holds h emptyBuf [].
Proof. intros h. left. split; reflexivity. Qed.

Lemma step_ok : forall s sp o, Inv [] (env_ s) (objs s) sp -> respects A w sp o -> honest A w s o ->
  exists s' ok, step A w s o = Some (s', ok) /\ after A w sp o = (fst (after A w sp o), ok) /\
    Inv [] (env_ s') (objs s') (fst (after A w sp o)).
Proof.
  intros [l e] sp o HI HR HB. cbn [objs env_] in *.
  assert (HL := inv_length _ _ _ _ HI). assert (HG := inv_good _ _ _ _ HI). assert (HK := inv_keys _ _ _ _ HI). cbn [app] in HK.
  assert (Halive : forall i, alive sp i -> exists b, get l i = Some b).
  { intros i Hi. pose proof (inv_objs _ _ _ _ HI i) as O. unfold alive in Hi. change (at_ sp i) with (get sp i) in Hi.
    destruct (get l i) as [b|]; [exists b; reflexivity|]. destruct (get sp i); [contradiction|congruence]. }
  unfold honest in HB. cbn [env_] in HB.
  destruct o as [|n r|i n r|i|i|j r|j|i j r|i j|i n v]; cbn [respects request step] in *; cbn [objs env_] in *; unfold obj in *; cbn [objs] in *;
    unfold after; unfold at_ in *; fold (@get buf) in *.
  - (* Make *)
    eexists. eexists. split; [reflexivity|]. split; [reflexivity|]. cbn [fst objs env_].
    apply (appended [] e l sp (Some emptyBuf) (Some [])); [exact HI|apply empty_holds].
  - (* MakeSize *)
    destruct (resize_ok emptyBuf e [] n r (owned l) HG (empty_holds _) HK HR HB) as (b & e' & E1 & E2).
    rewrite E1. destruct (met A w n r).
    + destruct E2 as (G & P & F & H & _). eexists. eexists. split; [reflexivity|]. split; [reflexivity|]. cbn [fst objs env_].
      apply appended; [|exact H]. cbn [ownO]. rewrite app_nil_r. exact (change _ _ _ _ _ _ HI G F P).
    + destruct E2 as [-> ->]. eexists. eexists. split; [reflexivity|]. split; [reflexivity|]. cbn [fst objs env_].
      apply appended; [exact HI|exact Logic.I].
  - (* Resize *)
    destruct HR as [HA1 HS]. destruct (Halive i HA1) as [b Hb]. change (match nth_error l i with Some o => o | None => None end) with (get l i).
    change (match nth_error sp i with Some o => o | None => None end) with (get sp i).
    rewrite Hb. destruct (take _ _ _ _ _ _ HI Hb) as (c & Hc & H & T). rewrite Hc.
    pose proof (perm_own _ _ _ _ (inv_keys _ _ _ _ T)) as P. cbn [app] in P.
    destruct (resize_ok b e c n r _ HG H P HS HB) as (b' & e' & E1 & E2). rewrite E1.
    pose proof (get_lt _ _ _ _ Hb) as Hi.
    destruct (met A w n r).
    + destruct E2 as (G & P' & F & H' & _). eexists. eexists. split; [reflexivity|]. split; [reflexivity|]. cbn [fst objs env_].
      rewrite put_upd by lia. rewrite <- (upd_upd _ l i None), <- (upd_upd _ sp i None).
      apply give; [|exact H'|rewrite length_upd; exact Hi|apply upd_upd].
      cbn [ownO]. rewrite app_nil_r. exact (change _ _ _ _ _ _ T G F P').
    + destruct E2 as [-> ->]. eexists. eexists. split; [reflexivity|]. split; [reflexivity|]. cbn [fst objs env_].
      rewrite (upd_same _ _ _ _ Hb). exact HI.
  - (* Clear *)
    destruct (Halive i HR) as [b Hb]. change (match nth_error l i with Some o => o | None => None end) with (get l i). rewrite Hb.
    destruct (take _ _ _ _ _ _ HI Hb) as (c & Hc & H & T).
    pose proof (perm_own _ _ _ _ (inv_keys _ _ _ _ T)) as P. cbn [app] in P.
    destruct (clear_ok b e c _ HG H P) as (e' & E1 & G & P' & F). rewrite E1. pose proof (get_lt _ _ _ _ Hb) as Hi.
    eexists. eexists. split; [reflexivity|]. split; [reflexivity|]. cbn [fst objs env_].
    rewrite put_upd by lia. rewrite <- (upd_upd _ l i None), <- (upd_upd _ sp i None).
    apply give; [|apply empty_holds|rewrite length_upd; exact Hi|apply upd_upd]. exact (change _ [] _ _ _ _ T G F P').
  - (* Destroy *)
    destruct (Halive i HR) as [b Hb]. change (match nth_error l i with Some o => o | None => None end) with (get l i). rewrite Hb.
    destruct (take _ _ _ _ _ _ HI Hb) as (c & Hc & H & T).
    pose proof (perm_own _ _ _ _ (inv_keys _ _ _ _ T)) as P. cbn [app] in P.
    destruct (clear_ok b e c _ HG H P) as (e' & E1 & G & P' & F). rewrite E1. pose proof (get_lt _ _ _ _ Hb) as Hi.
    eexists. eexists. split; [reflexivity|]. split; [reflexivity|]. cbn [fst objs env_].
    rewrite put_upd by lia. exact (change _ [] _ _ _ _ T G F P').
  - (* CopyNew *)
    destruct (Halive j HR) as [b Hb]. change (match nth_error l j with Some o => o | None => None end) with (get l j) in *.
    change (match nth_error sp j with Some o => o | None => None end) with (get sp j).
    rewrite Hb in *. pose proof (inv_objs _ _ _ _ HI j) as O. rewrite Hb in O. destruct (get sp j) as [c|]; [|contradiction]. cbn [objOk] in O.
    destruct (copyFrom_ok emptyBuf e [] b c r (owned l) HG (empty_holds _) O HK (owned_in _ _ _ Hb) HB) as (b' & e' & E1 & E2).
    rewrite E1. destruct (met A w (len c / w) r).
    + destruct E2 as (G & P & F & H). eexists. eexists. split; [reflexivity|]. split; [reflexivity|]. cbn [fst objs env_].
      apply appended; [|exact H]. cbn [ownO]. rewrite app_nil_r. exact (change _ _ _ _ _ _ HI G F P).
    + destruct E2 as [-> ->]. eexists. eexists. split; [reflexivity|]. split; [reflexivity|]. cbn [fst objs env_].
      apply appended; [exact HI|exact Logic.I].
  - (* MoveNew *)
    destruct (Halive j HR) as [b Hb]. change (match nth_error l j with Some o => o | None => None end) with (get l j) in *.
    change (match nth_error sp j with Some o => o | None => None end) with (get sp j). rewrite Hb.
    destruct (take _ _ _ _ _ _ HI Hb) as (c & Hc & H & T). rewrite Hc. pose proof (get_lt _ _ _ _ Hb) as Hi.
    eexists. eexists. split; [reflexivity|]. split; [reflexivity|]. cbn [fst objs env_].
    apply appended; [|exact H]. cbn [ownO]. rewrite put_upd by lia. rewrite <- (upd_upd _ l j None), <- (upd_upd _ sp j None).
    apply give; [|apply empty_holds|rewrite length_upd; exact Hi|apply upd_upd]. exact T.
  - (* Assign *)
    destruct HR as [HA1 HA2]. destruct (Halive i HA1) as [b Hb]. destruct (Halive j HA2) as [o Ho].
    change (match nth_error l i with Some o => o | None => None end) with (get l i) in *.
    change (match nth_error l j with Some o => o | None => None end) with (get l j) in *.
    change (match nth_error sp j with Some o => o | None => None end) with (get sp j). rewrite Hb, Ho in *.
    pose proof (inv_objs _ _ _ _ HI j) as O. rewrite Ho in O. destruct (get sp j) as [d|] eqn:Hd; [|contradiction]. cbn [objOk] in O.
    destruct (Nat.eqb_spec i j) as [Hij|Hij].
    { eexists. eexists. split; [reflexivity|]. split; [reflexivity|]. cbn [fst objs env_]. exact HI. }
    destruct (take _ _ _ _ _ _ HI Hb) as (c & Hc & H & T). pose proof (get_lt _ _ _ _ Hb) as Hi.
    pose proof (perm_own _ _ _ _ (inv_keys _ _ _ _ T)) as P. cbn [app] in P.
    assert (Ho' : get (upd l i None) j = Some o).
    { rewrite get_upd by exact Hi. destruct (Nat.eqb_spec i j); [congruence|exact Ho]. }
    destruct (copyFrom_ok b e c o d r _ HG H O P (owned_in _ _ _ Ho') HB) as (b' & e' & E1 & E2).
    rewrite E1. destruct (met A w (len d / w) r).
    + destruct E2 as (G & P' & F & H'). eexists. eexists. split; [reflexivity|]. split; [reflexivity|]. cbn [fst objs env_].
      rewrite put_upd by lia. rewrite <- (upd_upd _ l i None), <- (upd_upd _ sp i None).
      apply give; [|exact H'|rewrite length_upd; exact Hi|apply upd_upd].
      cbn [ownO]. rewrite app_nil_r. exact (change _ _ _ _ _ _ T G F P').
    + destruct E2 as [-> ->]. eexists. eexists. split; [reflexivity|]. split; [reflexivity|]. cbn [fst objs env_].
      rewrite (upd_same _ _ _ _ Hb). exact HI.
  - (* MoveAssign *)
    destruct HR as [HA1 HA2]. destruct (Halive i HA1) as [b Hb]. destruct (Halive j HA2) as [o Ho].
    change (match nth_error l i with Some o => o | None => None end) with (get l i) in *.
    change (match nth_error l j with Some o => o | None => None end) with (get l j) in *.
    change (match nth_error sp j with Some o => o | None => None end) with (get sp j). rewrite Hb, Ho in *.
    destruct (Nat.eqb_spec i j) as [Hij|Hij].
    { eexists. eexists. split; [reflexivity|]. split; [reflexivity|]. cbn [fst objs env_]. exact HI. }
    pose proof (get_lt _ _ _ _ Hb) as Hi. pose proof (get_lt _ _ _ _ Ho) as Hj.
    destruct (take _ _ _ _ _ _ HI Hb) as (c & Hc & H & T).
    assert (Ho' : get (upd l i None) j = Some o).
    { rewrite get_upd by exact Hi. destruct (Nat.eqb_spec i j); [congruence|exact Ho]. }
    destruct (take _ _ _ _ _ _ T Ho') as (d & Hd & H2 & T2).
    assert (Hd' : get sp j = Some d).
    { rewrite get_upd in Hd by lia. destruct (Nat.eqb_spec i j); [congruence|exact Hd]. }
    rewrite Hd'.
    assert (P : Permutation (keys (mem e)) (own b ++ own o ++ owned (upd (upd l i None) j None))).
    { eapply Permutation_trans; [exact (inv_keys _ _ _ _ T2)|]. rewrite app_nil_r, app_assoc.
      apply Permutation_app_tail. apply Permutation_app_comm. }
    destruct (deleted_free b e c _ HG H P) as (h & E1 & G & P' & F). rewrite E1.
    eexists. eexists. split; [reflexivity|]. split; [reflexivity|]. cbn [fst objs env_].
    rewrite !put_upd; [|lia|rewrite put_upd by lia; rewrite length_upd; lia].
    assert (N : Inv (own o) (withMem (deleted w b e) h) (upd (upd l i None) j None) (upd (upd sp i None) j None)).
    { apply (change _ _ _ _ _ _ T2 G); [exact (frame_part _ _ _ _ F)|exact P']. }
    assert (H2' : holds h o d).
    { apply (holds_frame _ _ _ _ (own o ++ owned (upd (upd l i None) j None)) H2); [|exact F].
      intros q Hq. apply in_or_app. left. exact Hq. }
    assert (N2 : Inv [] (withMem (deleted w b e) h) (upd (upd (upd l i None) j None) i (Some o)) (upd (upd (upd sp i None) j None) i (Some d))).
    { apply give; [|exact H2'|rewrite !length_upd; exact Hi|].
      - cbn [ownO]. rewrite app_nil_r. exact N.
      - rewrite (upd_comm _ l i j) by exact Hij. rewrite upd_upd. reflexivity. }
    rewrite (upd_comm _ l i j), (upd_comm _ sp i j), !upd_upd in N2 by exact Hij.
    rewrite (upd_comm _ l j i), (upd_comm _ sp j i) in N2 by congruence.
    rewrite <- (upd_upd _ (upd l i (Some o)) j None), <- (upd_upd _ (upd sp i (Some d)) j None).
    apply give; [exact N2|apply empty_holds|rewrite !length_upd; exact Hj|apply upd_upd].
  - (* Write *)
    destruct HR as (c & Hc & H0 & H1 & H2). change (match nth_error sp i with Some o => o | None => None end) with (get sp i) in *.
    destruct (Halive i) as [b Hb]. { unfold alive. change (at_ sp i) with (get sp i). rewrite Hc. discriminate. }
    change (match nth_error l i with Some o => o | None => None end) with (get l i). rewrite Hb, Hc.
    destruct (take _ _ _ _ _ _ HI Hb) as (c' & Hc' & H & T). assert (c' = c) as -> by congruence.
    pose proof (perm_own _ _ _ _ (inv_keys _ _ _ _ T)) as P. cbn [app] in P.
    assert (Q : full (mem e) b c).
    { destruct H as [[-> ->]|H]; [|exact H]. change (len (@nil Z)) with 0 in H1. nia. }
    pose proof (get_lt _ _ _ _ Hb) as Hi.
    destruct (store_full (mem e) b c (n * w) v _ (proj1 HG) Q ltac:(nia) ltac:(lia) ltac:(lia) P) as (h & E1 & E2 & E3 & E4).
    rewrite E1. eexists. eexists. split; [reflexivity|]. split; [reflexivity|]. cbn [fst objs env_].
    rewrite put_upd by lia.
    assert (N : Inv [] (withMem e h) (upd (upd l i None) i (Some b)) (upd (upd sp i None) i (Some (splice c (n * w) v)))).
    { apply give; [|right; exact E3|rewrite length_upd; exact Hi|apply upd_upd].
      cbn [ownO]. rewrite app_nil_r. apply (change _ _ _ _ _ _ T (good_shape _ _ HG E2) E4).
      cbn [withMem mem]. rewrite <- keys_shape, E2, keys_shape. exact P. }
    rewrite !upd_upd, (upd_same _ _ _ _ Hb) in N. exact N.
Qed.

Lemma run_ok : forall ops s sp, Inv [] (env_ s) (objs s) sp -> respectsAll A w sp ops -> honestAll A w s ops ->
  exists s', run A w s ops = Some (s', snd (afterAll A w sp ops)) /\ Inv [] (env_ s') (objs s') (fst (afterAll A w sp ops)).
Proof.
  induction ops as [|o t IH]; intros s sp HI HR HB.
  - exists s. split; [reflexivity|exact HI].
  - cbn [respectsAll honestAll] in HR, HB. destruct HR as [R1 R2], HB as [B1 B2].
    destruct (step_ok s sp o HI R1 B1) as (s' & ok & E1 & E2 & E3). rewrite E1 in B2.
    destruct (IH s' _ E3 R2 B2) as (s'' & F1 & F2). exists s''. cbn [run afterAll]. rewrite E1, F1, E2. cbn [fst] in *.
    destruct (afterAll A w (fst (after A w sp o)) t) as [a' b']. cbn [fst snd] in *. split; [reflexivity|exact F2].
Qed.
Lemma init_inv : Inv [] (env_ init) (objs init) [].
Proof.
  split; [|reflexivity| |constructor].
  - split; [|split; reflexivity]. split; [constructor|intros a n []|intros a n b m []|reflexivity].
  - intros [|i]; exact Logic.I.
Qed.
Lemma pointwise : forall h l (sp : state), length l = length sp -> (forall i, objOk h (get l i) (get sp i)) -> Forall2 (objOk h) l sp.
Proof.
  intros h l. induction l as [|x l IH]; intros [|y sp] HL HO; try discriminate HL; constructor.
  - exact (HO 0%nat).
  - apply IH; [cbn [length] in HL; lia|]. intros i. exact (HO (S i)).
Qed.
Definition blockLen (h : heap) (q : Z) : Z := match find (fun x => fst x =? q) h with Some x => len (snd x) | None => 0 end.
Lemma blockLen_in : forall h a c, NoDup (keys h) -> In (a, c) h -> blockLen h a = len c.
Proof.
  intros h a c N Hin. unfold blockLen. destruct (find (fun x => fst x =? a) h) as [[b d]|] eqn:E.
  - apply find_some in E. cbn [fst] in E. destruct E as [E1 E2]. apply Z.eqb_eq in E2. subst b.
    rewrite (same_block h a d c N E1 Hin). reflexivity.
  - pose proof (find_none _ _ E _ Hin) as F. cbn [fst] in F. rewrite Z.eqb_refl in F. discriminate F.
Qed.
Lemma total_keys : forall h, NoDup (keys h) -> total h = sum (map (blockLen h) (keys h)).
Proof.
  intros h N. unfold total, keys. rewrite map_map. f_equal. apply map_ext_in. intros [a c] Hin. cbn [fst snd].
  symmetry. exact (blockLen_in _ _ _ N Hin).
Qed.
Lemma sum_perm : forall a b, Permutation a b -> sum a = sum b.
Proof. intros a b X. induction X; unfold sum in *; cbn [fold_right]; lia. Qed.
Lemma full_holding : forall h b c, full h b c -> holding [Some c] = [c].
Proof.
  intros h b c Q. pose proof (full_len _ _ _ Q) as HL. destruct Q as (blk & K1 & K2 & K3 & K4 & _).
  destruct c as [|x c]; [change (len (@nil Z)) with 0 in HL; nia|reflexivity].
Qed.
Lemma owned_costs : forall h l (sp : state), NoDup (keys h) -> Forall2 (objOk h) l sp ->
  map (blockLen h) (owned l) = map (fun c => cost A w (len c)) (holding sp).
Proof.
  intros h l sp N HF. induction HF as [|x y l sp H _ IH]; [reflexivity|].
  unfold owned. change (holding (y :: sp)) with (holding [y] ++ holding sp) || idtac.
  assert (E : holding (y :: sp) = holding [y] ++ holding sp).
  { unfold holding. cbn [flat_map]. rewrite app_nil_r. reflexivity. }
  rewrite E. cbn [flat_map]. rewrite !map_app. unfold owned in IH. rewrite IH. f_equal.
  destruct x as [b|], y as [c|]; cbn [objOk] in H; try contradiction; [|reflexivity].
  destruct H as [[-> ->]|Q]; [reflexivity|].
  rewrite (full_holding _ _ _ Q). cbn [ownO]. rewrite (full_own _ _ _ Q). cbn [map]. f_equal.
  pose proof (full_len _ _ _ Q) as HL. destruct Q as (blk & K1 & K2 & K3 & K4 & _).
  rewrite (blockLen_in _ _ _ N K1), K2, K3, HL. symmetry. apply cost_pos. exact K4.
Qed.
Lemma inv_counts : forall e l sp, Inv [] e l sp ->
  num e = len (holding sp) /\ bytes e = sum (map (fun c => cost A w (len c)) (holding sp)) /\ len (mem e) = len (holding sp).
Proof.
  intros e l sp HI. destruct (inv_good _ _ _ _ HI) as [G1 [G2 G3]]. pose proof (inv_keys _ _ _ _ HI) as K. cbn [app] in K.
  pose proof (wf_nodup _ G1) as N. rewrite keys_shape in N.
  pose proof (owned_costs (mem e) l sp N (pointwise _ _ _ (inv_length _ _ _ _ HI) (inv_objs _ _ _ _ HI))) as HC.
  assert (HL : len (mem e) = len (holding sp)).
  { apply (f_equal (@length _)) in HC. rewrite !map_length in HC. apply Permutation_length in K. unfold keys in K. rewrite map_length in K.
    unfold len. lia. }
  split; [rewrite G2; exact HL|]. split; [|exact HL].
  rewrite G3, (total_keys _ N), <- HC. apply sum_perm. apply Permutation_map. exact K.
Qed.
Lemma inv_view : forall s sp i, Inv [] (env_ s) (objs s) sp -> view w s i = at_ sp i.
Proof.
  intros s sp i HI. unfold view, obj, at_. pose proof (inv_objs _ _ _ _ HI i) as O. unfold get in O.
  destruct (match nth_error (objs s) i with Some o => o | None => None end) as [b|], (match nth_error sp i with Some o => o | None => None end) as [c|];
    cbn [objOk] in O; try contradiction; [|reflexivity].
  destruct (holds_size _ _ _ O) as [S1 [S2 S3]]. destruct (Z.eqb_spec (size b) 0) as [E|E].
  - destruct (S2 E) as [_ ->]. reflexivity.
  - apply load_full; [apply (inv_good _ _ _ _ HI)|exact (S3 E)].
Qed.
End Buffers.

(** *** Theorems *)
(** Whatever is done with buffers, the program stays defined, each buffer shows the bytes that the specification says (so no buffer changes
    another), the answers tell which allocations failed, and the counters and the heap are exactly those of the buffers that are not empty. *)
Theorem C95_buffers : forall k w ops, 0 <= k <= 5 -> 0 < w -> respectsAll (2 ^ k) w [] ops -> honestAll (2 ^ k) w init ops ->
  let sp := fst (afterAll (2 ^ k) w [] ops) in
  exists s, run (2 ^ k) w init ops = Some (s, snd (afterAll (2 ^ k) w [] ops)) /\
    (forall i, view w s i = at_ sp i) /\
    num (env_ s) = len (holding sp) /\
    bytes (env_ s) = sum (map (fun c => cost (2 ^ k) w (len c)) (holding sp)) /\
    len (mem (env_ s)) = len (holding sp).
Proof.
  intros k w ops Hk Hw HR HB sp.
  destruct (run_ok (2 ^ k) w k Hk eq_refl Hw ops init [] (init_inv (2 ^ k) w) HR HB) as (s & E1 & E2).
  exists s. split; [exact E1|]. split; [intros i; exact (inv_view (2 ^ k) w k Hk eq_refl Hw s _ i E2)|].
  exact (inv_counts (2 ^ k) w k Hk eq_refl Hw _ _ _ E2).
Qed.
(** When all buffers are destroyed nothing is left. *)
Theorem C95_no_leak : forall k w ops, 0 <= k <= 5 -> 0 < w -> respectsAll (2 ^ k) w [] ops -> honestAll (2 ^ k) w init ops ->
  (forall i, at_ (fst (afterAll (2 ^ k) w [] ops)) i = None) ->
  exists s, run (2 ^ k) w init ops = Some (s, snd (afterAll (2 ^ k) w [] ops)) /\ mem (env_ s) = [] /\ num (env_ s) = 0 /\ bytes (env_ s) = 0.
Proof.
  intros k w ops Hk Hw HR HB HD. destruct (C95_buffers k w ops Hk Hw HR HB) as (s & E1 & E2 & E3 & E4 & E5).
  exists s. split; [exact E1|].
  assert (HH : holding (fst (afterAll (2 ^ k) w [] ops)) = []).
  { remember (fst (afterAll (2 ^ k) w [] ops)) as sp eqn:ES. clear ES E2 E3 E4 E5. induction sp as [|x sp IH]; [reflexivity|].
    pose proof (HD 0%nat) as D0. unfold at_ in D0. cbn [nth_error] in D0. subst x. apply IH. intros i. exact (HD (S i)). }
  rewrite HH in *. split; [exact (len_nil _ _ E5)|]. split; [exact E3|exact E4].
Qed.
(** The data is aligned; when the size of an element divides the alignment, so is the end, and it lies inside the block. *)
Theorem C95_aligned : forall k m ops i b, 0 <= k <= 5 -> 0 <= m <= k -> respectsAll (2 ^ k) (2 ^ m) [] ops -> honestAll (2 ^ k) (2 ^ m) init ops ->
  forall s l, run (2 ^ k) (2 ^ m) init ops = Some (s, l) -> obj s i = Some b -> size b <> 0 ->
  normal b mod 2 ^ k = 0 /\ aend b mod 2 ^ k = 0 /\ nend b = normal b + size b * 2 ^ m /\ nend b <= aend b /\
  exists c, In (padded b, c) (mem (env_ s)) /\ padded b <= normal b /\ aend b <= padded b + len c.
Proof.
  intros k m ops i b Hk Hm HR HB s l HS Hb Hs.
  assert (Hw : 0 < 2 ^ m) by (apply Z.pow_pos_nonneg; lia).
  destruct (run_ok (2 ^ k) (2 ^ m) k Hk eq_refl Hw ops init [] (init_inv (2 ^ k) (2 ^ m)) HR HB) as (s' & E1 & E2).
  rewrite HS in E1. injection E1 as <- _.
  pose proof (inv_objs _ _ _ _ _ _ E2 i) as O. unfold obj in Hb. unfold get in O. rewrite Hb in O.
  destruct (match nth_error (fst (afterAll (2 ^ k) (2 ^ m) [] ops)) i with Some o => o | None => None end) as [c|]; [|contradiction].
  cbn [objOk] in O. destruct (holds_size (2 ^ k) (2 ^ m) k Hk eq_refl Hw _ _ _ O) as [_ [_ S3]]. specialize (S3 Hs).
  destruct S3 as (blk & K1 & K2 & K3 & K4 & K5 & K6 & K7 & K8 & K9). clear O E2 HR HB HS.
  assert (HT : 2 ^ k / 2 ^ m = 2 ^ (k - m)) by (rewrite Z.pow_sub_r by lia; reflexivity).
  assert (HTm : 2 ^ (k - m) * 2 ^ m = 2 ^ k) by (rewrite <- Z.pow_add_r by lia; f_equal; lia).
  assert (HTp : 0 < 2 ^ (k - m)) by (apply Z.pow_pos_nonneg; lia).
  assert (HAp : 0 < 2 ^ k) by (apply Z.pow_pos_nonneg; lia).
  assert (Hmis : Z.land (size b) (2 ^ k / 2 ^ m - 1) = size b mod 2 ^ (k - m)).
  { rewrite HT. replace (2 ^ (k - m) - 1) with (Z.ones (k - m)) by (rewrite Z.ones_equiv; lia). apply Z.land_ones. lia. }
  unfold alignedEnd in K8. rewrite Hmis in K8.
  pose proof (Z.mod_pos_bound (size b) (2 ^ (k - m)) HTp) as MB.
  pose proof (Z.div_mod (size b) (2 ^ (k - m)) ltac:(lia)) as DM.
  assert (HM : exists q, (size b - size b mod 2 ^ (k - m)) * 2 ^ m = q * 2 ^ k).
  { exists (size b / 2 ^ (k - m)). rewrite <- HTm. rewrite DM at 1. ring. }
  destruct HM as [q HM]. assert (HTA : 2 ^ (k - m) <= 2 ^ k) by (apply Z.pow_le_mono_r; lia).
  apply Z.div_exact in K6; [|lia]. remember (normal b / 2 ^ k) as p eqn:EP. clear EP.
  split; [rewrite K6, Z.mul_comm; apply Z.mod_mul; lia|].
  rewrite K7 in *. destruct (Z.eqb_spec (size b mod 2 ^ (k - m)) 0) as [Z0|Z0].
  - rewrite Z0, Z.sub_0_r in HM. rewrite K8.
    split; [rewrite HM, K6; replace (2 ^ k * p + q * 2 ^ k) with ((p + q) * 2 ^ k) by ring; apply Z.mod_mul; lia|].
    split; [reflexivity|]. split; [lia|]. exists blk. split; [exact K1|]. split; [lia|]. rewrite K2, K3. nia.
  - rewrite K8. split; [|split; [reflexivity|split; [nia|]]].
    + replace (normal b + size b * 2 ^ m + (2 ^ k - size b mod 2 ^ (k - m)) * 2 ^ m)
        with ((p + q + 2 ^ m) * 2 ^ k); [apply Z.mod_mul; lia|].
      rewrite K6. replace ((2 ^ k - size b mod 2 ^ (k - m)) * 2 ^ m) with (2 ^ k * 2 ^ m - size b * 2 ^ m + (size b - size b mod 2 ^ (k - m)) * 2 ^ m) by ring.
      rewrite HM. ring.
    + exists blk. split; [exact K1|]. split; [lia|]. rewrite K2, K3.
      assert ((2 ^ k - size b mod 2 ^ (k - m)) * 2 ^ m <= (2 ^ k - 1) * 2 ^ m) by (apply Z.mul_le_mono_nonneg_r; lia).
      assert (2 ^ k - 1 <= (2 ^ k - 1) * 2 ^ m) by nia. lia.
Qed.
(** What the synth reports is the memory in use, while this is less than 2^31 bytes. *)
Theorem C95_reported : forall k w ops, 0 <= k <= 5 -> 0 < w -> respectsAll (2 ^ k) w [] ops -> honestAll (2 ^ k) w init ops ->
  let used := holding (fst (afterAll (2 ^ k) w [] ops)) in
  sum (map (fun c => cost (2 ^ k) w (len c)) used) < 2 ^ 31 ->
  exists s, run (2 ^ k) w init ops = Some (s, snd (afterAll (2 ^ k) w [] ops)) /\
    getAllocatedBuffers (env_ s) = len used /\ getAllocatedBytes (env_ s) = sum (map (fun c => cost (2 ^ k) w (len c)) used).
Proof.
  intros k w ops Hk Hw HR HB used HU. destruct (C95_buffers k w ops Hk Hw HR HB) as (s & E1 & E2 & E3 & E4 & E5). fold used in E3, E4, E5.
  exists s. split; [exact E1|]. unfold getAllocatedBuffers, getAllocatedBytes. rewrite E3, E4.
  assert (HL : 0 <= len used <= sum (map (fun c => cost (2 ^ k) w (len c)) used)).
  { split; [apply len_nonneg|]. assert (HN : Forall (fun c => 0 < len c) used).
    { apply Forall_forall. intros c Hc. unfold used, holding in Hc. apply in_flat_map in Hc. destruct Hc as [[[|x d]|] [_ Hc]]; try destruct Hc.
      - subst c. unfold len. cbn [length]. lia.
      - destruct H. }
    clear - HN Hk Hw. assert (0 < 2 ^ k) by (apply Z.pow_pos_nonneg; lia). induction HN as [|c l Hc _ IH]; [cbn; lia|].
    unfold len in *. unfold sum in *. cbn [map fold_right length]. unfold cost at 1. destruct (Z.eqb_spec (Z.of_nat (length c)) 0); [lia|]. nia. }
  unfold toInt. rewrite !Z.mod_small by lia. destruct (Z.ltb_spec (len used) (2 ^ 31)); [|lia].
  destruct (Z.ltb_spec (sum (map (fun c => cost (2 ^ k) w (len c)) used)) (2 ^ 31)); [|lia]. split; reflexivity.
Qed.

(** to compute whether the answers of an allocator are allowed *)
Definition honestBlockB (h : heap) (n : Z) (r : option Z) : bool :=
  match r with
  | None => true
  | Some a => (0 <? a) && (a + n <=? 2 ^ 64) && (total h + n <? 2 ^ 64) &&
              forallb (fun x => (a + n <=? fst x) || (fst x + len (snd x) <=? a)) h
  end.
Fixpoint honestAllB (A w : Z) (s : st) (ops : list op) : bool :=
  match ops with
  | [] => true
  | o :: t =>
      match request A w s o with Some (n, r) => (n <=? 0) || honestBlockB (mem (env_ s)) ((n + 2 * (A - 1)) * w) r | None => true end &&
      match step A w s o with Some (s', _) => honestAllB A w s' t | None => true end
  end.
Lemma honestAllB_ok : forall A w ops s, honestAllB A w s ops = true -> honestAll A w s ops.
Proof.
  induction ops as [|o t IH]; intros s H; [exact Logic.I|]. cbn [honestAllB] in H. apply andb_prop in H. destruct H as [H1 H2]. split.
  - unfold honest. destruct (request A w s o) as [[n r]|]; [|exact Logic.I]. intros Hn. destruct (Z.leb_spec n 0); [lia|]. cbn [orb] in H1.
    destruct r as [a|]; [|exact Logic.I]. cbn [honestBlockB] in H1. rewrite !andb_true_iff in H1. destruct H1 as [[[Q1 Q2] Q3] Q4].
    split; [apply Z.ltb_lt; exact Q1|]. split; [apply Z.leb_le; exact Q2|]. split; [apply Z.ltb_lt; exact Q3|].
    intros b c Hin. rewrite forallb_forall in Q4. specialize (Q4 _ Hin). cbn [fst snd] in Q4. apply orb_prop in Q4.
    destruct Q4 as [Q4|Q4]; [left|right]; apply Z.leb_le; exact Q4.
  - destruct (step A w s o) as [[s' b]|]; [exact (IH s' H2)|exact Logic.I].
Qed.

(** Floats aligned to 16 bytes: three elements, one is written, the buffer is copied, grows, is moved, and all is destroyed. *)
Definition story : list op :=
  [Make; Resize 0 3 (Some 1000); Write 0 1 [1; 2; 3; 4]; CopyNew 0 (Some 5000); Resize 0 5 (Some 2000); Write 1 0 [9; 9; 9; 9];
   MakeSize 7 None; MoveNew 0; Assign 0 1 (Some 3000); MoveAssign 1 3].
Example C95_ex : respectsAll 16 4 [] story /\ honestAll 16 4 init story /\
  fst (afterAll 16 4 [] story) = [Some [9; 9; 9; 9; 1; 2; 3; 4; 0; 0; 0; 0]; Some [0; 0; 0; 0; 1; 2; 3; 4; 0; 0; 0; 0; 0; 0; 0; 0; 0; 0; 0; 0]; None; Some []] /\
  snd (afterAll 16 4 [] story) = [true; true; true; true; true; true; false; true; true; true] /\
  (exists s l, run 16 4 init story = Some (s, l) /\ num (env_ s) = 2 /\ bytes (env_ s) = 272) /\
  respectsAll 16 4 [] (story ++ [Destroy 0; Destroy 1; Destroy 3]) /\
  honestAll 16 4 init (story ++ [Destroy 0; Destroy 1; Destroy 3]).
Proof.
  assert (B1 : honestAll 16 4 init (story ++ [Destroy 0; Destroy 1; Destroy 3])) by (apply honestAllB_ok; vm_compute; reflexivity).
  assert (R1 : respectsAll 16 4 [] (story ++ [Destroy 0; Destroy 1; Destroy 3])).
  { cbn [story app respectsAll]. unfold respects, alive, sizeOk.
    repeat split; try (vm_compute; congruence); eexists; split; [vm_compute; reflexivity|vm_compute; repeat split; congruence|
      vm_compute; reflexivity|vm_compute; repeat split; congruence]. }
  split; [cbn [story app respectsAll] in R1 |- *; tauto|].
  split; [apply honestAllB_ok; vm_compute; reflexivity|].
  split; [vm_compute; reflexivity|]. split; [vm_compute; reflexivity|].
  split; [eexists; eexists; split; [vm_compute; reflexivity|split; reflexivity]|]. split; assumption.
Qed.

(** A request whose size wraps is granted: the buffer says that it has 2^64 - 20 elements, and has no data. *)
Theorem C95_size_refuted : exists s b, run 16 4 init [MakeSize (2 ^ 64 - 20) (Some 4096)] = Some (s, [true]) /\
  obj s 0 = Some b /\ size b = 2 ^ 64 - 20 /\ normal b = 0 /\ honestAll 16 4 init [MakeSize 10 (Some 4096)] /\
  step 16 4 s (Write 0 0 [1; 2; 3; 4]) = None.
Proof.
  eexists. eexists. split; [vm_compute; reflexivity|]. split; [reflexivity|]. split; [reflexivity|]. split; [reflexivity|].
  split; [apply honestAllB_ok; vm_compute; reflexivity|reflexivity].
Qed.
(** The aligned end is not the first aligned address after the data; for elements larger than the alignment it can be before the end. *)
Theorem C95_aligned_end_refuted :
  (exists s b, run 16 4 init [MakeSize 1 (Some 1008)] = Some (s, [true]) /\ obj s 0 = Some b /\ (nend b + 12) mod 16 = 0 /\ aend b = nend b + 60) /\
  (exists s b, run 16 64 init [MakeSize 20 (Some 1008)] = Some (s, [true]) /\ obj s 0 = Some b /\ aend b = nend b - 256).
Proof.
  split; eexists; eexists.
  - split; [vm_compute; reflexivity|]. split; [reflexivity|]. split; reflexivity.
  - split; [vm_compute; reflexivity|]. split; reflexivity.
Qed.
(** The reported number of bytes is an int: a buffer of 2^29 floats makes it negative. *)
Theorem C95_reported_refuted : exists ops s, respectsAll 16 4 [] ops /\ honestAll 16 4 init ops /\
  run 16 4 init ops = Some (s, [true]) /\ bytes (env_ s) = 2 ^ 31 + 120 /\ getAllocatedBytes (env_ s) = - 2 ^ 31 + 120.
Proof.
  exists [MakeSize (2 ^ 29) (Some 4096)].
  assert (R1 : respectsAll 16 4 [] [MakeSize (2 ^ 29) (Some 4096)]) by (split; [vm_compute; split; congruence|exact Logic.I]).
  assert (B1 : honestAll 16 4 init [MakeSize (2 ^ 29) (Some 4096)]).
  { split.
    - unfold honest. cbn [request]. intros _. vm_compute. split; [reflexivity|]. split; [congruence|]. split; [reflexivity|intros b c []].
    - destruct (step 16 4 init (MakeSize (2 ^ 29) (Some 4096))) as [[s' b]|]; exact Logic.I. }
  destruct (C95_buffers 4 4 _ ltac:(lia) ltac:(lia) R1 B1) as (s & E1 & E2 & E3 & E4 & E5). exists s.
  split; [exact R1|]. split; [exact B1|].
  assert (HA : afterAll (2 ^ 4) 4 [] [MakeSize (2 ^ 29) (Some 4096)] = ([Some (fit (2 ^ 29 * 4) [])], [true])) by reflexivity.
  rewrite HA in *. cbn [fst snd] in *. split; [exact E1|].
  assert (HL : len (fit (2 ^ 29 * 4) []) = 2 ^ 31) by (rewrite fit_len by lia; reflexivity).
  remember (fit (2 ^ 29 * 4) []) as c eqn:EC. clear EC HA.
  assert (HB : bytes (env_ s) = 2 ^ 31 + 120).
  { rewrite E4. destruct c as [|x c]; [discriminate HL|]. unfold holding. cbn [flat_map app map sum fold_right]. rewrite HL. reflexivity. }
  split; [exact HB|]. unfold getAllocatedBytes. rewrite HB. reflexivity.
Qed.
