(** The operations on blocks of samples, in their plain form and in their form with vectors of four.
    Code: src/sfizz/simd/HelpersSSE.cpp (all of it but the includes), src/sfizz/simd/HelpersScalar.h (the loops there are the last loop of
    the vector version), src/sfizz/simd/Common.h (prevAligned, unaligned).

    A sample is a value of any type [A]; the arithmetic and the comparison are parameters.  The memory is one: its addresses count
    samples (a pointer to a float that is not at a multiple of its size is left out), so that the pointers given may overlap in any way.
    A cell is [None] when it does not belong to the program: reading or writing there fails.  A vector read or write at an address that is
    not a multiple of four samples (16 bytes) fails as well (_mm_load_ps and _mm_store_ps trap).  A theorem that a function returns [Some]
    thus says that it neither leaves its buffers nor traps.
    Loops have fuel; the theorems give them one round more than the size, and running out is [None]. *)
From Coq Require Import List ZArith Bool Lia.
Import ListNotations.
Local Open Scope Z_scope.

(** while (cond) body *)
Fixpoint while_ {S : Type} (fuel : nat) (cond : S -> bool) (body : S -> option S) (s : S) : option S :=
  match fuel with
  | O => None
  | Datatypes.S f => if cond s then match body s with Some s' => while_ f cond body s' | None => None end else Some s
  end.

Definition bind {X Y : Type} (o : option X) (f : X -> option Y) : option Y := match o with Some x => f x | None => None end.
Notation "'let*' x ':=' a 'in' b" := (bind a (fun x => b)) (at level 200, x pattern, right associativity).

(** Common.h 19-29, in samples. *)
Definition prevAligned (p : Z) : Z := p - p mod 4.
Definition unaligned (p : Z) : bool := negb (p mod 4 =? 0).

Section Simd.
Variable A : Type.

Definition mem := Z -> option A.
Definition ld (m : mem) (p : Z) : option A := m p.
Definition st (m : mem) (p : Z) (v : A) : option mem :=
  match m p with Some _ => Some (fun q => if q =? p then Some v else m q) | None => None end.

(** Four samples in a register, the first has the lowest address. *)
Record v4 := V4 { l0 : A; l1 : A; l2 : A; l3 : A }.
Definition map2 (f : A -> A -> A) (x y : v4) : v4 := V4 (f (l0 x) (l0 y)) (f (l1 x) (l1 y)) (f (l2 x) (l2 y)) (f (l3 x) (l3 y)).
Definition set1 (x : A) : v4 := V4 x x x x.

(** _mm_load_ps, _mm_store_ps *)
Definition ldv (m : mem) (p : Z) : option v4 :=
  if unaligned p then None
  else let* a := ld m p in let* b := ld m (p + 1) in let* c := ld m (p + 2) in let* d := ld m (p + 3) in Some (V4 a b c d).
Definition stv (m : mem) (p : Z) (v : v4) : option mem :=
  if unaligned p then None
  else let* m := st m p (l0 v) in let* m := st m (p + 1) (l1 v) in let* m := st m (p + 2) (l2 v) in st m (p + 3) (l3 v).

(** ** Operations sample by sample *)
(** What they have in common: pointers to read from, one pointer to write to, and what to write from the values read and the value that
    was there (an operation that does not look at the latter ignores it).  [vop] is the operation of the vector loop for one lane;
    [checked] says which of the pointers the first loop asks for their alignment, the written one is always asked;
    [lead] is the pointer that is compared with the end. *)
Record kernel := Kernel { k_op : list A -> A -> A; k_vop : list A -> A -> A; k_checked : list bool;
                          k_lead : list Z -> Z -> Z }.

Fixpoint lds (m : mem) (ps : list Z) : option (list A) :=
  match ps with [] => Some [] | p :: ps' => let* v := ld m p in let* vs := lds m ps' in Some (v :: vs) end.
Fixpoint ldvs (m : mem) (ps : list Z) : option (list v4) :=
  match ps with [] => Some [] | p :: ps' => let* v := ldv m p in let* vs := ldvs m ps' in Some (v :: vs) end.

Definition state : Type := mem * list Z * Z.

(** *output++ = ... *input++ ... *)
Definition one (f : list A -> A -> A) (s : state) : option state :=
  let '(m, ins, out) := s in
  let* vs := lds m ins in let* o := ld m out in let* m' := st m out (f vs o) in
  Some (m', map (fun p => p + 1) ins, out + 1).

(** The vector loop: read all, compute, write four. *)
Definition four (f : list A -> A -> A) (s : state) : option state :=
  let '(m, ins, out) := s in
  let* vs := ldvs m ins in let* o := ldv m out in
  let* m' := stv m out (V4 (f (map l0 vs) (l0 o)) (f (map l1 vs) (l1 o)) (f (map l2 vs) (l2 o)) (f (map l3 vs) (l3 o))) in
  Some (m', map (fun p => p + 4) ins, out + 4).

Fixpoint any_unaligned (checked : list bool) (ps : list Z) : bool :=
  match checked, ps with c :: cs, p :: ps' => (c && unaligned p) || any_unaligned cs ps' | _, _ => false end.

Definition lead (k : kernel) (s : state) : Z := let '(_, ins, out) := s in k_lead k ins out.

Definition runScalar (k : kernel) (m : mem) (ins : list Z) (out size : Z) : option mem :=
  let sentinel := k_lead k ins out + size in
  let* s := while_ (Z.to_nat size + 1) (fun s => lead k s <? sentinel) (one (k_op k)) (m, ins, out) in
  Some (fst (fst s)).

Definition runSSE (k : kernel) (m : mem) (ins : list Z) (out size : Z) : option mem :=
  let sentinel := k_lead k ins out + size in
  let lastAligned := prevAligned sentinel in
  let fuel := (Z.to_nat size + 1)%nat in
  let* s := while_ fuel (fun s => let '(_, ins, out) := s in
              (any_unaligned (k_checked k) ins || unaligned out) && (lead k s <? lastAligned)) (one (k_op k)) (m, ins, out) in
  let* s := while_ fuel (fun s => lead k s <? lastAligned) (four (k_vop k)) s in
  let* s := while_ fuel (fun s => lead k s <? sentinel) (one (k_op k)) s in
  Some (fst (fst s)).

Variable zero one_ : A.
Variables add sub mul div : A -> A -> A.
Variable lt : A -> A -> bool.

Definition byOutput (ins : list Z) (out : Z) : Z := out.
Definition byInput (ins : list Z) (out : Z) : Z := match ins with p :: _ => p | [] => out end.
Definition un (f : A -> A -> A) (vs : list A) (o : A) : A := match vs with [x] => f x o | _ => o end.
Definition bin (f : A -> A -> A -> A) (vs : list A) (o : A) : A := match vs with [x; y] => f x y o | _ => o end.
Definition nul (f : A -> A) (vs : list A) (o : A) : A := match vs with [] => f o | _ => o end.

(** gain1SSE, HelpersSSE.cpp 85-103 *)
Definition gain1K (gain : A) := Kernel (un (fun x o => mul gain x)) (un (fun x o => mul gain x)) [true] byOutput.
(** gainSSE, 105-122; the pointers are gain, input *)
Definition gainK := Kernel (bin (fun g x o => mul g x)) (bin (fun g x o => mul g x)) [true; true] byOutput.
(** divideSSE, 124-141; the pointers are input, divisor, of which the second is not asked for its alignment *)
Definition divideK := Kernel (bin (fun x d o => div x d)) (bin (fun x d o => div x d)) [true; false] byOutput.
(** multiplyAddSSE, 143-162; the pointers are gain (not asked), input; the vector loop adds the other way round *)
Definition multiplyAddK := Kernel (bin (fun g x o => add o (mul g x))) (bin (fun g x o => add (mul g x) o)) [false; true] byOutput.
(** multiplyAdd1SSE, 164-184 *)
Definition multiplyAdd1K (gain : A) := Kernel (un (fun x o => add o (mul gain x))) (un (fun x o => add (mul gain x) o)) [true] byOutput.
(** multiplyMulSSE, 186-205 *)
Definition multiplyMulK := Kernel (bin (fun g x o => mul o (mul g x))) (bin (fun g x o => mul (mul g x) o)) [false; true] byOutput.
(** multiplyMul1SSE, 207-227 *)
Definition multiplyMul1K (gain : A) := Kernel (un (fun x o => mul o (mul gain x))) (un (fun x o => mul (mul gain x) o)) [true] byOutput.
(** addSSE, 287-304 *)
Definition addK := Kernel (un (fun x o => add o x)) (un (fun x o => add o x)) [true] byOutput.
(** add1SSE, 306-324 *)
Definition add1K (value : A) := Kernel (nul (fun o => add o value)) (nul (fun o => add o value)) [] byOutput.
(** subtractSSE, 326-343 *)
Definition subtractK := Kernel (un (fun x o => sub o x)) (un (fun x o => sub o x)) [true] byOutput.
(** subtract1SSE, 345-363 *)
Definition subtract1K (value : A) := Kernel (nul (fun o => sub o value)) (nul (fun o => sub o value)) [] byOutput.
(** copySSE, 365-382: the input leads; the std::copy at the end is taken to go forwards *)
Definition copyK := Kernel (un (fun x o => x)) (un (fun x o => x)) [true] byInput.
(** clampAllSSE, 519-548: minps gives the second operand unless the first is lower, maxps unless the first is higher *)
Definition minps (x y : A) : A := if lt x y then x else y.
Definition maxps (x y : A) : A := if lt y x then x else y.
Definition clampScalar (low high x : A) : A :=
  let above := if lt high x then high else x in if lt above low then low else above.
Definition clampAllK (low high : A) := Kernel (nul (clampScalar low high)) (nul (fun x => maxps (minps x high) low)) [] byOutput.

(** ** Interleaving *)
(** readInterleavedSSE, 20-55.  The state is the memory and the three pointers. *)
Definition istate : Type := mem * Z * Z * Z.
Definition read_one (s : istate) : option istate :=
  let '(m, i, l, r) := s in
  let* a := ld m i in let* m := st m l a in let* b := ld m (i + 1) in let* m := st m r b in Some (m, i + 2, l + 1, r + 1).
(** The two shuffles take the even and the odd samples of eight. *)
Definition read_four (s : istate) : option istate :=
  let '(m, i, l, r) := s in
  let* x := ldv m i in let* y := ldv m (i + 4) in
  let* m := stv m l (V4 (l0 x) (l2 x) (l0 y) (l2 y)) in let* m := stv m r (V4 (l1 x) (l3 x) (l1 y) (l3 y)) in
  Some (m, i + 8, l + 4, r + 4).

Definition lead_i (s : istate) : Z := let '(_, i, _, _) := s in i.
Definition unaligned_i (s : istate) : bool := let '(_, i, l, r) := s in unaligned i || (unaligned l || unaligned r).

Definition readInterleavedScalar (m : mem) (i l r size : Z) : option mem :=
  let* s := while_ (Z.to_nat size + 1) (fun s => lead_i s <? i + size - 1) read_one (m, i, l, r) in
  let '(m, _, _, _) := s in Some m.

Definition readInterleavedSSE (m : mem) (i l r size : Z) : option mem :=
  let sentinel := i + size - 1 in
  let lastAligned := prevAligned (i + size - 4) in
  let fuel := (Z.to_nat size + 1)%nat in
  let* s := while_ fuel (fun s => unaligned_i s && (lead_i s <? lastAligned)) read_one (m, i, l, r) in
  let* s := while_ fuel (fun s => lead_i s <? lastAligned) read_four s in
  let* s := while_ fuel (fun s => lead_i s <? sentinel) read_one s in
  let '(m, _, _, _) := s in Some m.

(** writeInterleavedSSE, 57-83: the same with the single pointer written and the other two read. *)
Definition write_one (s : istate) : option istate :=
  let '(m, o, l, r) := s in
  let* a := ld m l in let* m := st m o a in let* b := ld m r in let* m := st m (o + 1) b in Some (m, o + 2, l + 1, r + 1).
Definition write_four (s : istate) : option istate :=
  let '(m, o, l, r) := s in
  let* x := ldv m l in let* y := ldv m r in
  let* m := stv m o (V4 (l0 x) (l0 y) (l1 x) (l1 y)) in let* m := stv m (o + 4) (V4 (l2 x) (l2 y) (l3 x) (l3 y)) in
  Some (m, o + 8, l + 4, r + 4).

Definition writeInterleavedScalar (m : mem) (l r o size : Z) : option mem :=
  let* s := while_ (Z.to_nat size + 1) (fun s => lead_i s <? o + size - 1) write_one (m, o, l, r) in
  let '(m, _, _, _) := s in Some m.

Definition writeInterleavedSSE (m : mem) (l r o size : Z) : option mem :=
  let sentinel := o + size - 1 in
  let lastAligned := prevAligned (o + size - 4) in
  let fuel := (Z.to_nat size + 1)%nat in
  let* s := while_ fuel (fun s => unaligned_i s && (lead_i s <? lastAligned)) write_one (m, o, l, r) in
  let* s := while_ fuel (fun s => lead_i s <? lastAligned) write_four s in
  let* s := while_ fuel (fun s => lead_i s <? sentinel) write_one s in
  let '(m, _, _, _) := s in Some m.

(** ** Ramps *)
(** linearRampSSE, 229-256 ([inc] = add, [dec] = sub) and multiplicativeRampSSE, 258-285 ([inc] = mul, [dec] = div). *)
Definition rstate : Type := mem * Z * A.
Definition ramp_one (inc : A -> A -> A) (step : A) (s : rstate) : option rstate :=
  let '(m, o, x) := s in let* m := st m o x in Some (m, o + 1, inc x step).
Definition rvstate : Type := mem * Z * v4.
Definition ramp_four (inc : A -> A -> A) (step : A) (s : rvstate) : option rvstate :=
  let '(m, o, v) := s in
  let steps := V4 step (inc step step) (inc (inc step step) step) (inc (inc (inc step step) step) step) in
  let v := map2 inc v steps in
  let* m := stv m o v in Some (m, o + 4, set1 (l3 v)).

Definition rampScalar (inc : A -> A -> A) (m : mem) (o : Z) (start step : A) (size : Z) : option (mem * A) :=
  let* s := while_ (Z.to_nat size + 1) (fun s : rstate => snd (fst s) <? o + size) (ramp_one inc step) (m, o, start) in
  let '(m, _, x) := s in Some (m, x).

Definition rampSSE (inc dec : A -> A -> A) (m : mem) (o : Z) (start step : A) (size : Z) : option (mem * A) :=
  let sentinel := o + size in
  let lastAligned := prevAligned sentinel in
  let fuel := (Z.to_nat size + 1)%nat in
  let* s := while_ fuel (fun s : rstate => unaligned (snd (fst s)) && (snd (fst s) <? lastAligned)) (ramp_one inc step) (m, o, start) in
  let '(m, o, x) := s in
  let* s := while_ fuel (fun s : rvstate => snd (fst s) <? lastAligned) (ramp_four inc step) (m, o, set1 (dec x step)) in
  let '(m, o, v) := s in
  let* s := while_ fuel (fun s : rstate => snd (fst s) <? sentinel) (ramp_one inc step) (m, o, inc (l0 v) step) in
  let '(m, _, x) := s in Some (m, x).

(** ** Sums *)
(** The sums of meanSSE, 384-414 ([sq] the identity, before the division) and sumSquaresSSE, 416-451 ([sq x] = x * x). *)
Definition sum_one (sq : A -> A) (m : mem) (s : Z * A) : option (Z * A) :=
  let '(p, x) := s in let* v := ld m p in Some (p + 1, add x (sq v)).
Definition sum_four (sq : A -> A) (m : mem) (s : Z * v4) : option (Z * v4) :=
  let '(p, x) := s in let* v := ldv m p in
  Some (p + 4, map2 add x (V4 (sq (l0 v)) (sq (l1 v)) (sq (l2 v)) (sq (l3 v)))).

Definition sumScalar (sq : A -> A) (m : mem) (p size : Z) : option A :=
  if size =? 0 then Some zero
  else let* s := while_ (Z.to_nat size + 1) (fun s => fst s <? p + size) (sum_one sq m) (p, zero) in Some (snd s).

Definition sumSSE (sq : A -> A) (m : mem) (p size : Z) : option A :=
  if size =? 0 then Some zero
  else
    let sentinel := p + size in
    let lastAligned := prevAligned sentinel in
    let fuel := (Z.to_nat size + 1)%nat in
    let* s := while_ fuel (fun s => unaligned (fst s) && (fst s <? lastAligned)) (sum_one sq m) (p, zero) in
    let '(p, x) := s in
    let* s := while_ fuel (fun s => fst s <? lastAligned) (sum_four sq m) (p, set1 zero) in
    let '(p, v) := s in
    let* s := while_ fuel (fun s => fst s <? sentinel) (sum_one sq m) (p, add (add (add (add x (l0 v)) (l1 v)) (l2 v)) (l3 v)) in
    Some (snd s).

(** cumsumSSE, 453-484.  The shift by four bytes moves the lanes up by one and puts zero in the first, the shuffle with zero moves them
    up by two. *)
Definition cstate : Type := mem * Z * Z.
Definition cumsum_one (s : cstate) : option cstate :=
  let '(m, i, o) := s in
  let* a := ld m (o - 1) in let* x := ld m i in let* m := st m o (add a x) in Some (m, i + 1, o + 1).
Definition cvstate : Type := mem * Z * Z * v4.
Definition cumsum_four (s : cvstate) : option cvstate :=
  let '(m, i, o, out) := s in
  let* x := ldv m i in
  let x := map2 add x (V4 zero (l0 x) (l1 x) (l2 x)) in
  let x := map2 add x (V4 zero zero (l0 x) (l1 x)) in
  let out := map2 add out x in
  let* m := stv m o out in Some (m, i + 4, o + 4, set1 (l3 out)).

Definition cumsumScalar (m : mem) (i o size : Z) : option mem :=
  if size =? 0 then Some m
  else
    let* x := ld m i in let* m := st m o x in
    let* s := while_ (Z.to_nat size + 1) (fun s : cstate => snd s <? o + size) cumsum_one (m, i + 1, o + 1) in
    Some (fst (fst s)).

Definition cumsumSSE (m : mem) (i o size : Z) : option mem :=
  if size =? 0 then Some m
  else
    let sentinel := o + size in
    let lastAligned := prevAligned sentinel in
    let fuel := (Z.to_nat size + 1)%nat in
    let* x := ld m i in let* m := st m o x in
    let* s := while_ fuel (fun s : cstate => (unaligned (snd (fst s)) || unaligned (snd s)) && (snd s <? lastAligned)) cumsum_one
                (m, i + 1, o + 1) in
    let '(m, i, o) := s in
    let* a := ld m (o - 1) in
    let* s := while_ fuel (fun s : cvstate => snd (fst s) <? lastAligned) cumsum_four (m, i, o, set1 a) in
    let '(m, i, o, _) := s in
    let* s := while_ fuel (fun s : cstate => snd s <? sentinel) cumsum_one (m, i, o) in
    Some (fst (fst s)).

(** diffSSE, 486-517 *)
Definition diff_one (s : cstate) : option cstate :=
  let '(m, i, o) := s in
  let* x := ld m i in let* a := ld m (i - 1) in let* m := st m o (sub x a) in Some (m, i + 1, o + 1).
Definition diff_four (s : cvstate) : option cvstate :=
  let '(m, i, o, base) := s in
  let* x := ldv m i in
  let y := map2 sub x base in
  let y := map2 sub y (V4 zero (l0 y) (l1 y) (l2 y)) in
  let* m := stv m o y in Some (m, i + 4, o + 4, set1 (l3 x)).

Definition diffScalar (m : mem) (i o size : Z) : option mem :=
  if size =? 0 then Some m
  else
    let* x := ld m i in let* m := st m o x in
    let* s := while_ (Z.to_nat size + 1) (fun s : cstate => snd s <? o + size) diff_one (m, i + 1, o + 1) in
    Some (fst (fst s)).

Definition diffSSE (m : mem) (i o size : Z) : option mem :=
  if size =? 0 then Some m
  else
    let sentinel := o + size in
    let lastAligned := prevAligned sentinel in
    let fuel := (Z.to_nat size + 1)%nat in
    let* x := ld m i in let* m := st m o x in
    let* s := while_ fuel (fun s : cstate => (unaligned (snd (fst s)) || unaligned (snd s)) && (snd s <? lastAligned)) diff_one
                (m, i + 1, o + 1) in
    let '(m, i, o) := s in
    let* a := ld m (i - 1) in
    let* s := while_ fuel (fun s : cvstate => snd (fst s) <? lastAligned) diff_four (m, i, o, set1 a) in
    let '(m, i, o, _) := s in
    let* s := while_ fuel (fun s : cstate => snd s <? sentinel) diff_one (m, i, o) in
    Some (fst (fst s)).

(** ** Range check *)
(** allWithinSSE, 550-589.  The state is the pointer and whether a sample outside was met (the return). *)
Definition outside (low high x : A) : bool := lt x low || lt high x.
Definition within_one (low high : A) (m : mem) (s : Z * bool) : option (Z * bool) :=
  let* x := ld m (fst s) in if outside low high x then Some (fst s, true) else Some (fst s + 1, false).
Definition within_four (low high : A) (m : mem) (s : Z * bool) : option (Z * bool) :=
  let* v := ldv m (fst s) in
  if outside low high (l0 v) || outside low high (l1 v) || outside low high (l2 v) || outside low high (l3 v)
  then Some (fst s, true) else Some (fst s + 4, false).

Definition allWithinScalar (m : mem) (p : Z) (low high : A) (size : Z) : option bool :=
  if size =? 0 then Some true
  else
    let '(low, high) := if lt high low then (high, low) else (low, high) in
    let* s := while_ (Z.to_nat size + 2) (fun s => negb (snd s) && (fst s <? p + size)) (within_one low high m) (p, false) in
    Some (negb (snd s)).

Definition allWithinSSE (m : mem) (p : Z) (low high : A) (size : Z) : option bool :=
  if size =? 0 then Some true
  else
    let '(low, high) := if lt high low then (high, low) else (low, high) in
    let sentinel := p + size in
    let lastAligned := prevAligned sentinel in
    let fuel := (Z.to_nat size + 2)%nat in
    let* s := while_ fuel (fun s => negb (snd s) && (unaligned (fst s) && (fst s <? lastAligned))) (within_one low high m) (p, false) in
    let* s := while_ fuel (fun s => negb (snd s) && (fst s <? lastAligned)) (within_four low high m) s in
    let* s := while_ fuel (fun s => negb (snd s) && (fst s <? sentinel)) (within_one low high m) s in
    Some (negb (snd s)).

End Simd.
