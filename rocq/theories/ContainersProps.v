(** Theorems about containers: C30 (controller maps), C31 (unordered removal),
    C32 (bit sets), C46 (identifier lookup), C47 (ranges). *)
From Coq Require Import ZArith NArith List Bool Lia Permutation Sorted.
From Verif Require Import ContainersModel ContainersProofs.
Import ListNotations.

(** * C31 *)

Theorem C31_swapAndPopAll : forall (A : Type) (cond : A -> bool) (v : list A),
  exists v' log,
    swapAndPopAll cond v = Some (v', length (filter cond v), log)
    /\ Permutation v' (filter (fun x => negb (cond x)) v)
    /\ Permutation log (filter cond v).
Proof. intros. apply swapAndPopAll_correct. Qed.

Example C31_swapAndPopAll_ex :
  swapAndPopAll Nat.even [1; 2; 3; 4; 6; 7] = Some ([1; 7; 3], 3, [2; 4; 6]).
Proof. reflexivity. Qed.

(** At most one element leaves, it is the first that satisfies the condition, the others stay. *)
Theorem C31_swapAndPopFirst : forall (A : Type) (cond : A -> bool) (v : list A),
  (Forall (fun x => cond x = false) v /\ swapAndPopFirst cond v = Some (v, false, []))
  \/ (exists m1 x m2 v', v = m1 ++ x :: m2
        /\ Forall (fun x => cond x = false) m1 /\ cond x = true
        /\ swapAndPopFirst cond v = Some (v', true, [x])
        /\ Permutation v' (m1 ++ m2)).
Proof.
  intros A cond v.
  assert (H : forall l : list A, forallb (fun x => negb (cond x)) l = true
                                 -> Forall (fun x => cond x = false) l).
  { intros l Hl. rewrite forallb_forall in Hl. apply Forall_forall. intros x Hx.
    apply negb_true_iff. auto. }
  destruct (swapAndPopFirst_correct cond v) as [[H1 H2]|(m1 & x & m2 & v' & E & H1 & H2 & H3 & H4)].
  - left. auto.
  - right. exists m1, x, m2, v'. auto.
Qed.

Example C31_swapAndPopFirst_ex :
  swapAndPopFirst Nat.even [1; 2; 3; 4; 7] = Some ([1; 7; 3; 4], true, [2]).
Proof. reflexivity. Qed.

(** * C30 *)

(** Operations on a controller map: [m[k] = v] and a plain access [m[k]]. *)
Inductive cc_op (V : Type) := CcAssign (k : Z) (v : V) | CcTouch (k : Z).
Arguments CcAssign {V}. Arguments CcTouch {V}.

Definition cc_run1 {V} (m : ccmap V) (o : cc_op V) : ccmap V :=
  match o with
  | CcAssign k v => ccmap_assign m k v
  | CcTouch k => fst (ccmap_ref m k)
  end.

(** Specification: the value of a key is the last one assigned; a key that was only accessed
    holds the default; scan the history from the most recent operation. *)
Fixpoint cc_lookup_rev {V} (d : V) (rev_hist : list (cc_op V)) (k : Z) : option V :=
  match rev_hist with
  | [] => None
  | CcAssign k' v :: h => if (k' =? k)%Z then Some v else cc_lookup_rev d h k
  | CcTouch k' :: h =>
    if (k' =? k)%Z then
      match cc_lookup_rev d h k with Some v => Some v | None => Some d end
    else cc_lookup_rev d h k
  end.

Lemma cc_run_spec {V} (d : V) (h : list (cc_op V)) :
  let m := fold_left cc_run1 (rev h) (ccmap_make d) in
  cc_sorted (cm_data m) /\ cm_default m = d
  /\ forall k, assoc (cm_data m) k = cc_lookup_rev d h k.
Proof.
  induction h as [|o h IH]; cbn zeta in *.
  - simpl. repeat split; auto. constructor.
  - simpl rev. rewrite fold_left_app. simpl. destruct IH as (S & D & L).
    set (m := fold_left cc_run1 (rev h) (ccmap_make d)) in *.
    destruct o as [k v|k]; simpl.
    + destruct (ccmap_assign_spec m k v S) as (S' & D' & L').
      repeat split; auto; [congruence|]. intros k'. rewrite L'. destruct (k =? k')%Z; auto.
    + destruct (ccmap_ref_spec m k S) as (c1 & w & c2 & E1 & _ & S' & W & A & F).
      rewrite E1. simpl. repeat split; auto. intros k'. destruct (Z.eqb_spec k k') as [<-|Hn].
      * rewrite assoc_app, (assoc_none_gt c1 k F). simpl. rewrite Z.eqb_refl, W, L, D.
        destruct (cc_lookup_rev d h k); auto.
      * rewrite A by congruence. auto.
Qed.

Lemma assoc_in {V} (c : list (Z * V)) k v : cc_sorted c -> (assoc c k = Some v <-> In (k, v) c).
Proof.
  intros Hs. induction c as [|[k' v'] c IH]; simpl.
  - split; [discriminate|tauto].
  - apply cc_sorted_inv in Hs as [Hs Hf]. destruct (Z.eqb_spec k' k) as [->|Hn].
    + split; [intros [= ->]; auto|]. intros [[= ->]|Hin]; auto.
      rewrite Forall_forall in Hf. specialize (Hf _ Hin). simpl in Hf. lia.
    + rewrite IH by auto. split; auto. intros [[= -> _]|]; auto. congruence.
Qed.

Theorem C30_ccmap_refines_map : forall (V : Type) (d : V) (hist : list (cc_op V)),
  let m := fold_left cc_run1 hist (ccmap_make d) in
  (* lookups agree with the history *)
  (forall k, ccmap_get m k = cc_lookup_rev d (rev hist) k)
  /\ (forall k, ccmap_getWithDefault m k
                = match cc_lookup_rev d (rev hist) k with Some v => v | None => d end)
  /\ (forall k, ccmap_contains m k
                = match cc_lookup_rev d (rev hist) k with Some _ => true | None => false end)
  (* iteration visits the keys in strictly increasing order, exactly those present *)
  /\ StronglySorted Z.lt (map fst (cm_data m))
  /\ (forall k v, In (k, v) (cm_data m) <-> cc_lookup_rev d (rev hist) k = Some v).
Proof.
  intros V d hist m. pose proof (cc_run_spec d (rev hist)) as H.
  rewrite rev_involutive in H. fold m in H. destruct H as (S & D & L).
  assert (G : forall k, ccmap_get m k = cc_lookup_rev d (rev hist) k).
  { intros k. rewrite ccmap_get_assoc by auto. auto. }
  repeat split; auto.
  - intros k. rewrite <- G. unfold ccmap_getWithDefault, ccmap_get.
    destruct (nth_error _ _) as [[k' v]|]; auto. destruct (k' =? k)%Z; auto.
  - intros k. rewrite ccmap_contains_spec by auto. now rewrite G.
  - intros Hin. rewrite <- L. now apply assoc_in.
  - intros Hl. rewrite <- L in Hl. now apply assoc_in.
Qed.

Example C30_ex :
  cm_data (fold_left cc_run1
    [CcAssign 7 70; CcTouch 3; CcAssign 11 110; CcAssign 7 71; CcTouch 7]%Z (ccmap_make 0%Z))
  = [(3, 0); (7, 71); (11, 110)]%Z.
Proof. reflexivity. Qed.

(** * C32 *)

Inductive bit_op := BSet (i : nat) | BReset (i : nat) | BFlip (i : nat) | BPut (i : nat) (v : bool)
  | BClear.

Definition bit_run1 (b : option bitarray) (o : bit_op) : option bitarray :=
  match b with
  | None => None
  | Some b =>
    match o with
    | BSet i => ba_set b i
    | BReset i => ba_reset b i
    | BFlip i => ba_flip b i
    | BPut i v => ba_set2 b i v
    | BClear => Some (ba_clear b)
    end
  end.

(** Specification: a characteristic function. *)
Definition bit_spec1 (s : nat -> bool) (o : bit_op) : nat -> bool :=
  match o with
  | BSet i => fun j => if Nat.eqb i j then true else s j
  | BReset i => fun j => if Nat.eqb i j then false else s j
  | BFlip i => fun j => if Nat.eqb i j then negb (s j) else s j
  | BPut i v => fun j => if Nat.eqb i j then v else s j
  | BClear => fun _ => false
  end.

Definition bit_op_ok (n : nat) (o : bit_op) : Prop :=
  match o with
  | BSet i | BReset i | BFlip i | BPut i _ => i < n
  | BClear => True
  end.

Theorem C32_bitarray_refines_set : forall (n : nat) (ops : list bit_op),
  Forall (bit_op_ok n) ops ->
  let s := fold_left bit_spec1 ops (fun _ => false) in
  exists b, fold_left bit_run1 ops (Some (ba_make n)) = Some b
    /\ (forall i, i < n -> ba_test b i = Some (s i))
    /\ (exists r, ba_all b = Some r /\ (r = true <-> forall i, i < n -> s i = true))
    /\ (exists r, ba_any b = Some r /\ (r = true <-> exists i, i < n /\ s i = true)).
Proof.
  intros n ops Hok s.
  assert (H : forall ops b0 s0, Forall (bit_op_ok n) ops -> ba_wf b0 -> ba_bits b0 = n ->
    (forall i, ba_mem b0 i = s0 i) ->
    exists b, fold_left bit_run1 ops (Some b0) = Some b /\ ba_wf b /\ ba_bits b = n
      /\ forall i, ba_mem b i = fold_left bit_spec1 ops s0 i).
  { clear. induction ops as [|o ops IH]; intros b0 s0 Hok Hw Hn Hm.
    - exists b0. auto.
    - inversion Hok as [|? ? Ho Hok']; subst. simpl.
      assert (Hst : exists b1, bit_run1 (Some b0) o = Some b1 /\ ba_wf b1 /\ ba_bits b1 = ba_bits b0
                     /\ forall i, ba_mem b1 i = bit_spec1 s0 o i).
      { destruct o as [i|i|i|i v|]; simpl in *.
        - destruct (ba_set_spec b0 i Hw Ho) as (b1 & E & W & B & M).
          exists b1. split; [auto|split; [auto|split; [auto|]]]. intros j. rewrite M, <- Hm. auto.
        - destruct (ba_reset_spec b0 i Hw Ho) as (b1 & E & W & B & M).
          exists b1. split; [auto|split; [auto|split; [auto|]]]. intros j. rewrite M, <- Hm. auto.
        - destruct (ba_flip_spec b0 i Hw Ho) as (b1 & E & W & B & M).
          exists b1. split; [auto|split; [auto|split; [auto|]]]. intros j. rewrite M, <- Hm.
          destruct (Nat.eqb_spec i j); subst; auto.
        - unfold ba_set2. destruct v.
          + destruct (ba_set_spec b0 i Hw Ho) as (b1 & E & W & B & M).
            exists b1. split; [auto|split; [auto|split; [auto|]]]. intros j. rewrite M, <- Hm. auto.
          + destruct (ba_reset_spec b0 i Hw Ho) as (b1 & E & W & B & M).
            exists b1. split; [auto|split; [auto|split; [auto|]]]. intros j. rewrite M, <- Hm. auto.
        - destruct (ba_clear_spec b0 Hw) as (W & B & M). exists (ba_clear b0). auto. }
      destruct Hst as (b1 & E & W & B & M). simpl in E. rewrite E. apply IH; auto. }
  destruct (ba_make_spec n) as [W0 M0].
  destruct (H ops (ba_make n) (fun _ => false) Hok W0 eq_refl M0) as (b & E & W & B & M).
  exists b. split; auto. subst s. rewrite <- B. repeat split.
  - intros i Hi. rewrite ba_test_spec by auto. now rewrite M.
  - destruct (ba_all_spec b W) as (r & Er & Hr). exists r. split; auto. rewrite Hr.
    split; intros G i Hi; specialize (G i Hi); now rewrite ?M in *.
  - destruct (ba_any_spec b W) as (r & Er & Hr). exists r. split; auto. rewrite Hr.
    split; intros (i & Hi & G); exists i; now rewrite ?M in *.
Qed.

Example C32_ex :
  Forall (bit_op_ok 11) [BSet 10; BFlip 3; BSet 3; BReset 10; BPut 9 true]
  /\ (match fold_left bit_run1 [BSet 10; BFlip 3; BSet 3; BReset 10; BPut 9 true]
             (Some (ba_make 11)) with
      | Some b => (ba_data b, ba_test b 9, ba_test b 10, ba_any b, ba_all b)
      | None => ([], None, None, None, None)
      end) = ([8; 2]%N, Some true, Some false, Some true, Some false).
Proof. split; [repeat constructor; simpl; lia|reflexivity]. Qed.

(** * C46 *)

(** Identifiers of layers and voices are handed out in increasing order; erasing elements of
    the vector keeps it strictly sorted but leaves gaps. *)
Theorem C46_lookup_by_id : forall (ids : list Z),
  StronglySorted Z.lt ids -> Forall (fun x => (0 <= x)%Z) ids ->
  forall id : Z,
    (forall i, nth_error ids i = Some id -> id_search ids id = Some i)
    /\ (~ In id ids -> id_search ids id = None).
Proof.
  intros ids Hs Hp id. pose proof (id_search_correct ids Hs Hp id) as H. split.
  - intros i Hi. destruct (id_search ids id) as [j|].
    + f_equal. destruct (Nat.lt_trichotomy j i) as [L|[L|L]]; auto; exfalso.
      * assert (i < length ids) by (apply nth_error_Some; congruence).
        pose proof (sorted_nth_lt ids Hs j i L H0).
        rewrite (nth_error_nth _ _ 0%Z H), (nth_error_nth _ _ 0%Z Hi) in H1. lia.
      * assert (j < length ids) by (apply nth_error_Some; congruence).
        pose proof (sorted_nth_lt ids Hs i j L H0).
        rewrite (nth_error_nth _ _ 0%Z H), (nth_error_nth _ _ 0%Z Hi) in H1. lia.
    + exfalso. apply H. eapply nth_error_In, Hi.
  - intros Hn. destruct (id_search ids id) as [j|]; auto. exfalso. apply Hn.
    eapply nth_error_In, H.
Qed.

Example C46_ex :
  map (id_search [0; 2; 3; 7; 9]%Z) [0; 1; 2; 3; 7; 9; 50; -1; -5]%Z
  = [Some 0; None; Some 1; Some 2; Some 3; Some 4; None; None; None].
Proof. reflexivity. Qed.

(** * C47 *)

Inductive range_op := RSetStart (s : Z) | RSetEnd (e : Z) | RExpand (v : Z) | RShrink (s e : Z).
Definition range_run1 (r : range) (o : range_op) : range :=
  match o with
  | RSetStart s => range_setStart r s
  | RSetEnd e => range_setEnd r e
  | RExpand v => range_expandTo r v
  | RShrink s e => range_shrinkIfSmaller r s e
  end.

(** A shrink is harmless when the requested interval meets the current one. *)
Definition range_op_ok (r : range) (o : range_op) : Prop :=
  match o with
  | RShrink s e => (Z.max (r_start r) (Z.min s e) <= Z.min (r_end r) (Z.max s e))%Z
  | _ => True
  end.
Fixpoint range_ops_ok (r : range) (l : list range_op) : Prop :=
  match l with
  | [] => True
  | o :: l => range_op_ok r o /\ range_ops_ok (range_run1 r o) l
  end.

(** The ranges of regions are only changed with setStart, setEnd (opcodes) and expandTo; these
    keep start <= end, a clamped value belongs to the range, and what was just set is what
    one reads.  shrinkIfSmaller keeps it when the two intervals meet. *)
Theorem C47_range_ordered_partial : forall (s e : Z) (ops : list range_op),
  range_ops_ok (range_make s e) ops ->
  let r := fold_left range_run1 ops (range_make s e) in
  (r_start r <= r_end r)%Z
  /\ (forall v, range_containsWithEnd r (range_clamp r v) = true)
  /\ (forall v, range_containsWithEnd r v = true <-> range_clamp r v = v)
  /\ (forall v, r_start (range_setStart r v) = v /\ (v <= r_end (range_setStart r v))%Z)
  /\ (forall v, r_end (range_setEnd r v) = v /\ (r_start (range_setEnd r v) <= v)%Z).
Proof.
  intros s e ops Hok r.
  assert (H : (r_start r <= r_end r)%Z).
  { subst r. assert (H0 : (r_start (range_make s e) <= r_end (range_make s e))%Z)
      by (simpl; lia).
    revert H0 Hok. generalize (range_make s e). induction ops as [|o ops IH]; simpl; auto.
    intros r0 H0 [Ho Hok]. apply IH; auto. clear IH Hok.
    destruct o as [x|x|x|x y]; simpl in *;
      unfold range_setStart, range_setEnd, range_expandTo, range_shrinkIfSmaller.
    - destruct (Z.ltb_spec (r_end r0) x); simpl; lia.
    - destruct (Z.ltb_spec x (r_start r0)); simpl; lia.
    - destruct (Z.ltb_spec (r_end r0) x); simpl; [lia|].
      destruct (Z.ltb_spec x (r_start r0)); simpl; lia.
    - destruct (Z.ltb_spec y x); simpl;
        repeat match goal with |- context [(?a <? ?b)%Z] => destruct (Z.ltb_spec a b) end;
        simpl; lia. }
  clearbody r. unfold range_containsWithEnd, range_clamp, range_setStart, range_setEnd.
  repeat split; auto; intros.
  - apply andb_true_intro; split; apply Z.leb_le; lia.
  - apply andb_prop in H0 as [A B]. apply Z.leb_le in A, B. lia.
  - apply andb_true_intro; split; apply Z.leb_le; lia.
  - destruct (Z.ltb_spec (r_end r) v); simpl; auto.
  - destruct (Z.ltb_spec (r_end r) v); simpl; lia.
  - destruct (Z.ltb_spec v (r_start r)); simpl; auto.
  - destruct (Z.ltb_spec v (r_start r)); simpl; lia.
Qed.

Example C47_ex :
  let ops := [RSetStart 60; RSetEnd 50; RExpand 72; RShrink 70 55]%Z in
  range_ops_ok (range_make 0 127) ops
  /\ fold_left range_run1 ops (range_make 0 127) = Rng 55 70.
Proof. vm_compute. repeat split; congruence. Qed.

(** What each operation does to the set of members. *)
Theorem C47_operations_exact : forall r, (r_start r <= r_end r)%Z ->
  (forall v x, range_containsWithEnd (range_expandTo r v) x = true <->
     (Z.min v (r_start r) <= x <= Z.max v (r_end r))%Z)
  /\ (forall v x, range_containsWithEnd (range_setStart r v) x = true <->
     (v <= x <= Z.max v (r_end r))%Z)
  /\ (forall v x, range_containsWithEnd (range_setEnd r v) x = true <->
     (Z.min v (r_start r) <= x <= v)%Z)
  /\ (forall s e x, range_containsWithEnd (range_shrinkIfSmaller r s e) x = true <->
     (r_start r <= x <= r_end r)%Z /\ (Z.min s e <= x <= Z.max s e)%Z)
  /\ (forall x, range_contains r x = true <-> (r_start r <= x < r_end r)%Z)
  /\ (forall s e x, range_containsWithEnd (range_make s e) x = true <->
     (s <= x <= Z.max s e)%Z).
Proof.
  intros r Hr.
  unfold range_containsWithEnd, range_contains, range_expandTo, range_setStart, range_setEnd,
    range_shrinkIfSmaller, range_make.
  repeat split;
    repeat match goal with
           | |- context [(?a <? ?b)%Z] => destruct (Z.ltb_spec a b)
           | H : context [(?a <? ?b)%Z] |- _ => destruct (Z.ltb_spec a b)
           end; cbn [r_start r_end andb] in *;
    repeat match goal with
           | H : (_ && _) = true |- _ => apply andb_prop in H; destruct H
           | H : (_ <=? _)%Z = true |- _ => apply Z.leb_le in H
           | |- (_ && _) = true => apply andb_true_intro; split
           | |- (_ <=? _)%Z = true => apply Z.leb_le
           end; try discriminate; try rewrite andb_true_r in *; 
    repeat match goal with
           | H : (_ <=? _)%Z = true |- _ => apply Z.leb_le in H
           | |- (_ <=? _)%Z = true => apply Z.leb_le
           end; try rewrite andb_false_r in *; try discriminate; try lia.
Qed.

Example C47_operations_ex :
  range_expandTo (Rng 10 20) 5 = Rng 5 20 /\ range_expandTo (Rng 10 20) 25 = Rng 10 25
  /\ range_setStart (Rng 10 20) 30 = Rng 30 30 /\ range_setEnd (Rng 10 20) 5 = Rng 5 5
  /\ range_shrinkIfSmaller (Rng 10 20) 25 15 = Rng 15 20.
Proof. vm_compute. repeat split. Qed.

(** shrinkIfSmaller on a disjoint interval breaks the ordering that a checked range promises. *)
Theorem C47_range_shrink_refuted : exists (r : range) (s e : Z),
  (r_start r <= r_end r)%Z /\
  (r_end (range_shrinkIfSmaller r s e) < r_start (range_shrinkIfSmaller r s e))%Z.
Proof. exists (Rng 0 10), 20%Z, 30%Z. vm_compute. split; congruence. Qed.

Print Assumptions C31_swapAndPopAll.
Print Assumptions C31_swapAndPopFirst.
Print Assumptions C30_ccmap_refines_map.
Print Assumptions C32_bitarray_refines_set.
Print Assumptions C46_lookup_by_id.
Print Assumptions C47_range_ordered_partial.
Print Assumptions C47_range_shrink_refuted.
Print Assumptions C47_operations_exact.
