(** Transcription of the small container utilities of sfizz.
    Vectors are lists, iterators are indices.  Definitions only. *)
From Coq Require Import ZArith List Bool.
Import ListNotations.

(** * Vector primitives (std::vector) *)

(** Write at an index.  Out of range writes are undefined behaviour in C++; the
    transcriptions below only use it with indices that the loop guards keep in range. *)
Fixpoint vset {A} (v : list A) (i : nat) (x : A) : list A :=
  match v, i with
  | [], _ => []
  | _ :: t, 0 => x :: t
  | h :: t, S i' => h :: vset t i' x
  end.

(** std::iter_swap on two positions; [None] is undefined behaviour. *)
Definition vswap {A} (v : list A) (i j : nat) : option (list A) :=
  match nth_error v i, nth_error v j with
  | Some x, Some y => Some (vset (vset v i y) j x)
  | _, _ => None
  end.

(** * src/sfizz/utility/SwapAndPop.h *)

(** Loop of swapAndPopAll, lines 27-35.  [it] is the index of the iterator, [base] the
    index of [sentinel.base()]; the reverse iterator [sentinel] designates [base-1].
    [log] records the elements on which [action] is run, in order.  Simplification: the
    condition is a pure predicate and the action's effect on the element itself is not
    modelled (the element leaves the vector). *)
Fixpoint swapAndPopAll_loop {A} (fuel : nat) (cond : A -> bool)
    (v : list A) (it base : nat) (log : list A) : option (list A * nat * list A) :=
  match fuel with
  | 0 => None
  | S fuel' =>
    if it <? base then
      match nth_error v it with
      | None => None
      | Some x =>
        if cond x then
          match vswap v it (base - 1) with
          | None => None
          | Some v' => swapAndPopAll_loop fuel' cond v' it (base - 1) (log ++ [x])
          end
        else swapAndPopAll_loop fuel' cond v (it + 1) base log
      end
    else Some (v, base, log)
  end.

(** swapAndPopAll, lines 23-39: result vector, number of removed elements, action log. *)
Definition swapAndPopAll {A} (cond : A -> bool) (v : list A)
  : option (list A * nat * list A) :=
  match swapAndPopAll_loop (S (length v)) cond v 0 (length v) [] with
  | None => None
  | Some (v', base, log) => Some (firstn base v', length v - base, log)
  end.

(** swapAndPopFirst, lines 67-81: loop over [it], swap with the last element, pop. *)
Fixpoint swapAndPopFirst_loop {A} (fuel : nat) (cond : A -> bool)
    (v : list A) (it : nat) : option (list A * bool * list A) :=
  match fuel with
  | 0 => None
  | S fuel' =>
    if it <? length v then
      match nth_error v it with
      | None => None
      | Some x =>
        if cond x then
          match vswap v it (length v - 1) with
          | None => None
          | Some v' => Some (firstn (length v' - 1) v', true, [x])
          end
        else swapAndPopFirst_loop fuel' cond v (it + 1)
      end
    else Some (v, false, [])
  end.

Definition swapAndPopFirst {A} (cond : A -> bool) (v : list A)
  : option (list A * bool * list A) :=
  swapAndPopFirst_loop (S (length v)) cond v 0.

(** * src/sfizz/CCMap.h *)

(** CCMap, lines 24-130: default value and vector of (cc, data) pairs. *)
Record ccmap (V : Type) := CCMap { cm_default : V; cm_data : list (Z * V) }.
Arguments CCMap {V}. Arguments cm_default {V}. Arguments cm_data {V}.

(** Constructor, lines 35-38. *)
Definition ccmap_make {V} (d : V) : ccmap V := CCMap d [].

(** absl::c_lower_bound with CCDataComparator (SfzHelpers.h): index of the first entry
    whose cc is not less than [index].  std::lower_bound is specified on partitioned
    ranges; on these, binary search and linear search return the same position. *)
Fixpoint cc_lower_bound {V} (c : list (Z * V)) (index : Z) : nat :=
  match c with
  | [] => 0
  | (k, _) :: t => if (k <? index)%Z then S (cc_lower_bound t index) else 0
  end.

(** get, lines 67-75 (getWithDefault, lines 51-59, is the same with the default). *)
Definition ccmap_get {V} (m : ccmap V) (index : Z) : option V :=
  match nth_error (cm_data m) (cc_lower_bound (cm_data m) index) with
  | Some (k, d) => if (k =? index)%Z then Some d else None
  | None => None
  end.
Definition ccmap_getWithDefault {V} (m : ccmap V) (index : Z) : V :=
  match nth_error (cm_data m) (cc_lower_bound (cm_data m) index) with
  | Some (k, d) => if (k =? index)%Z then d else cm_default m
  | None => cm_default m
  end.

(** std::vector::insert before a position. *)
Definition vinsert {A} (v : list A) (i : nat) (x : A) : list A :=
  firstn i v ++ x :: skipn i v.

(** operator[], lines 83-92: make sure the entry exists; returns the map and its index. *)
Definition ccmap_ref {V} (m : ccmap V) (index : Z) : ccmap V * nat :=
  let i := cc_lower_bound (cm_data m) index in
  match nth_error (cm_data m) i with
  | Some (k, _) =>
    if (k =? index)%Z then (m, i)
    else (CCMap (cm_default m) (vinsert (cm_data m) i (index, cm_default m)), i)
  | None => (CCMap (cm_default m) (vinsert (cm_data m) i (index, cm_default m)), i)
  end.

(** [m[index] = v], i.e. operator[] followed by an assignment through the reference. *)
Definition ccmap_assign {V} (m : ccmap V) (index : Z) (v : V) : ccmap V :=
  let '(m', i) := ccmap_ref m index in
  CCMap (cm_default m') (vset (cm_data m') i (index, v)).

(** contains, lines 108-111: std::binary_search = lower_bound plus equivalence. *)
Definition ccmap_contains {V} (m : ccmap V) (index : Z) : bool :=
  match nth_error (cm_data m) (cc_lower_bound (cm_data m) index) with
  | Some (k, _) => negb (index <? k)%Z
  | None => false
  end.

(** * src/sfizz/Range.h (Checked = true), lines 22-157, over an ordered type modelled by Z.
    Float ranges compare in the same way (finite floats are ordered like rationals). *)
Record range := Rng { r_start : Z; r_end : Z }.

(** Constructor, lines 29-33. *)
Definition range_make (s e : Z) : range := Rng s (Z.max s e).
(** setStart, lines 49-56. *)
Definition range_setStart (r : range) (s : Z) : range :=
  if (r_end r <? s)%Z then Rng s s else Rng s (r_end r).
(** setEnd, lines 58-65. *)
Definition range_setEnd (r : range) (e : Z) : range :=
  if (e <? r_start r)%Z then Rng e e else Rng (r_start r) e.
(** shrinkIfSmaller, lines 107-119. *)
Definition range_shrinkIfSmaller (r : range) (s e : Z) : range :=
  let '(s, e) := if (e <? s)%Z then (e, s) else (s, e) in
  let s' := if (r_start r <? s)%Z then s else r_start r in
  let e' := if (e <? r_end r)%Z then e else r_end r in
  Rng s' e'.
(** expandTo, lines 121-127. *)
Definition range_expandTo (r : range) (v : Z) : range :=
  if (r_end r <? v)%Z then Rng (r_start r) v
  else if (v <? r_start r)%Z then Rng v (r_end r) else r.
(** containsWithEnd, line 92; contains, line 100; clamp, line 84 (MathHelpers clamp). *)
Definition range_containsWithEnd (r : range) (v : Z) : bool :=
  ((r_start r <=? v) && (v <=? r_end r))%Z.
Definition range_contains (r : range) (v : Z) : bool :=
  ((r_start r <=? v) && (v <? r_end r))%Z.
Definition range_clamp (r : range) (v : Z) : Z :=
  Z.max (r_start r) (Z.min v (r_end r)).

(** * src/sfizz/utility/bit_array/BitArray.h *)

(** BitArray<N>, lines 61-82: a zero-initialised array of (N+7)/8 bytes. *)
Record bitarray := BitArr { ba_bits : nat; ba_data : list N }.
Definition ba_make (n : nat) : bitarray := BitArr n (repeat 0%N (Nat.div (n + 7) 8)).

(** test, line 20: [data_[i / 8] & (1u << (i % 8))]; out of bounds is [None]. *)
Definition ba_test (b : bitarray) (i : nat) : option bool :=
  match nth_error (ba_data b) (i / 8) with
  | None => None
  | Some x => Some (negb (N.eqb (N.land x (N.shiftl 1 (N.of_nat (i mod 8)))) 0))
  end.
(** read-modify-write of the byte holding bit [i], truncated to uint8_t. *)
Definition ba_modify (f : N -> N) (b : bitarray) (i : nat) : option bitarray :=
  match nth_error (ba_data b) (i / 8) with
  | None => None
  | Some x => Some (BitArr (ba_bits b) (vset (ba_data b) (i / 8) (N.modulo (f x) 256)))
  end.
(** set, line 53. *)
Definition ba_set (b : bitarray) (i : nat) : option bitarray :=
  ba_modify (fun x => N.lor x (N.shiftl 1 (N.of_nat (i mod 8)))) b i.
(** reset, line 55: [data_[i/8] &= ~(1u << (i % 8))]; 32-bit complement of the mask. *)
Definition ba_reset (b : bitarray) (i : nat) : option bitarray :=
  ba_modify (fun x => N.land x (N.lxor (N.ones 32) (N.shiftl 1 (N.of_nat (i mod 8))))) b i.
(** flip, line 56. *)
Definition ba_flip (b : bitarray) (i : nat) : option bitarray :=
  ba_modify (fun x => N.lxor x (N.shiftl 1 (N.of_nat (i mod 8)))) b i.
(** set(i, b), line 54. *)
Definition ba_set2 (b : bitarray) (i : nat) (v : bool) : option bitarray :=
  if v then ba_set b i else ba_reset b i.
(** clear, line 52. *)
Definition ba_clear (b : bitarray) : bitarray :=
  BitArr (ba_bits b) (repeat 0%N (length (ba_data b))).

(** all, lines 21-29. *)
Definition ba_all (b : bitarray) : option bool :=
  let n := ba_bits b in
  if forallb (fun x => N.eqb x 255) (firstn (n / 8) (ba_data b)) then
    if n mod 8 =? 0 then Some true
    else match nth_error (ba_data b) (n / 8) with
         | None => None
         | Some x => Some (N.eqb x (N.shiftl 1 (N.of_nat (n mod 8)) - 1))
         end
  else Some false.
(** any, lines 30-38. *)
Definition ba_any (b : bitarray) : option bool :=
  let n := ba_bits b in
  if existsb (fun x => negb (N.eqb x 0)) (firstn (n / 8) (ba_data b)) then Some true
  else if n mod 8 =? 0 then Some false
  else match nth_error (ba_data b) (n / 8) with
       | None => None
       | Some x =>
         Some (negb (N.eqb (N.land x (N.shiftl 1 (N.of_nat (n mod 8)) - 1)) 0))
       end.

(** * Identifier search: Synth::getLayerById (Synth.cpp 1812-1829) and
    VoiceManager::getVoiceById (VoiceManager.cpp 35-50), over the vector of identifiers
    of the elements; NumericId is valid iff its number is not -1 (utility/NumericId.h 27-30);
    casting another negative number to size_t gives a huge index, clamped to size - 1.
    Returns the index found. *)
Fixpoint idsearch_down (ids : list Z) (id : Z) (index : nat) : nat :=
  match index with
  | 0 => 0
  | S i' =>
    if (id <? nth index ids 0)%Z then idsearch_down ids id i' else index
  end.
Definition id_search (ids : list Z) (id : Z) : option nat :=
  let size := length ids in
  if (size =? 0) || (id =? -1)%Z then None
  else
    let index0 := if (id <? 0)%Z then size - 1
                  else Z.to_nat (Z.min id (Z.of_nat size - 1)) in
    let index := idsearch_down ids id index0 in
    if (nth index ids 0 =? id)%Z then Some index else None.

(** insertPairUniquely (SfzHelpers.h 320-336): result vector and returned flag. *)
Fixpoint pair_find {K V} (eqb : K -> K -> bool) (l : list (K * V)) (k : K) : option nat :=
  match l with
  | [] => None
  | (k', _) :: t => if eqb k' k then Some 0 else option_map S (pair_find eqb t k)
  end.
Definition insertPairUniquely {K V} (eqb : K -> K -> bool) (l : list (K * V)) (k : K) (v : V)
    (replace : bool) : list (K * V) * bool :=
  match pair_find eqb l k with
  | Some i => if replace then
                match nth_error l i with
                | Some (k', _) => (vset l i (k', v), true)
                | None => (l, false)
                end
              else (l, false)
  | None => (l ++ [(k, v)], true)
  end.
