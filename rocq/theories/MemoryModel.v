(** Blocks of memory that hold samples, and the counters of memory.
    Code: Buffer.h, class Buffer 114-340 and BufferCounter 46-96; Synth.h 606 and 613.

    Memory is a list of blocks that have been allocated and not freed, each a list of bytes at an address; an access must lie inside one block.
    Addresses are numbers, 0 is nullptr.  The answer of calloc is part of an operation: None, or the address of the block (what an allocator may
    answer is [honest] in Memory).  A memcpy of no bytes does nothing, also with a null pointer.  A throwing resize leaves the object as the call
    without exceptions left it; an object whose constructor throws is dead.  Objects are numbered in the order of construction.
    None is undefined behaviour.  size_t has 64 bits.  Debug output and the leak detector are left out. *)
From Coq Require Import ZArith List Bool Lia.
Import ListNotations.
Local Open Scope Z_scope.

Definition W : Z := 2 ^ 64.
Definition u64 (x : Z) : Z := x mod W.
Definition len {X} (l : list X) : Z := Z.of_nat (length l).
Definition zeros (n : Z) : list Z := repeat 0 (Z.to_nat n).
Definition slice (c : list Z) (o n : Z) : list Z := firstn (Z.to_nat n) (skipn (Z.to_nat o) c).
Definition splice (c : list Z) (o : Z) (bs : list Z) : list Z := firstn (Z.to_nat o) c ++ bs ++ skipn (Z.to_nat o + length bs)%nat c.

(** the heap *)
Definition heap : Type := list (Z * list Z).
Fixpoint load (h : heap) (p n : Z) : option (list Z) :=
  match h with
  | [] => None
  | (b, c) :: t => if (b <=? p) && (p + n <=? b + len c) then Some (slice c (p - b) n) else load t p n
  end.
Fixpoint store (h : heap) (p : Z) (bs : list Z) : option heap :=
  match h with
  | [] => None
  | (b, c) :: t => if (b <=? p) && (p + len bs <=? b + len c) then Some ((b, splice c (p - b) bs) :: t)
                   else option_map (cons (b, c)) (store t p bs)
  end.
Fixpoint remove (h : heap) (p : Z) : option heap :=
  match h with
  | [] => None
  | (b, c) :: t => if b =? p then Some t else option_map (cons (b, c)) (remove t p)
  end.
Definition free (h : heap) (p : Z) : option heap := if p =? 0 then Some h else remove h p.
Definition memcpy (h : heap) (dst src n : Z) : option heap :=
  if n =? 0 then Some h else match load h src n with Some bs => store h dst bs | None => None end.

(** members of a Buffer, 333-338: largerSize, alignedSize, normalData, paddedData, normalEnd, _alignedEnd *)
Record buf := Buf { larger : Z; size : Z; normal : Z; padded : Z; nend : Z; aend : Z }.
Definition emptyBuf : buf := Buf 0 0 0 0 0 0.
(** memory and BufferCounter, 94-95 *)
Record env := Env { mem : heap; num : Z; bytes : Z }.

(** BufferCounter 70-89 *)
Definition newBuffer (e : env) (n : Z) : env := Env (mem e) (u64 (num e + 1)) (u64 (bytes e + n)).
Definition bufferResized (e : env) (o n : Z) : env := Env (mem e) (num e) (u64 (u64 (bytes e + n) - o)).
Definition bufferDeleted (e : env) (n : Z) : env := Env (mem e) (u64 (num e - 1)) (u64 (bytes e - n)).
Definition withMem (e : env) (h : heap) : env := Env h (num e) (bytes e).

Section Type_.
Variables (A w : Z).  (* Alignment and sizeof(Type) *)

(** align, 319-327, in the units of the call 180: tempSize and alignedSize count elements, the padding bytes *)
Definition align (size ptr space : Z) : Z :=
  let aligned := u64 (Z.land (u64 (ptr + A - 1)) (- A)) in
  let padding := u64 (aligned - ptr) in
  if space <? u64 (size + padding) then 0 else aligned.
(** TypeAlignmentMask 313-314, 181-186 *)
Definition alignedEnd (n e : Z) : Z :=
  let mis := Z.land n (A / w - 1) in
  if mis =? 0 then e else e + (A - mis) * w.
(** the elements that resize allocates, 165 *)
Definition tempSize (n : Z) : Z := u64 (n + 2 * (A - 1)).
(** calloc(n, sizeof(value_type)): refused when the product overflows *)
Definition calloc (n : Z) (r : option Z) : option Z := if W <=? n * w then None else r.

(** _clear, 301-309, and clear, 210-215, which the destructor also does, 216-220 *)
Definition clear_ (b : buf) (e : env) : option (buf * env) :=
  match free (mem e) (padded b) with Some h => Some (emptyBuf, withMem e h) | None => None end.
Definition deleted (b : buf) (e : env) : env := if 0 <? larger b then bufferDeleted e (larger b * w) else e.
Definition clear (b : buf) (e : env) : option (buf * env) := clear_ b (deleted b e).
(** resize, 154-192; the boolean is the result *)
Definition resize (b : buf) (e : env) (n : Z) (r : option Z) : option (buf * env * bool) :=
  if n =? 0 then match clear b e with Some (b', e') => Some (b', e', true) | None => None end
  else
    let temp := tempSize n in
    match calloc temp r with
    | None => Some (b, e, false)
    | Some a =>
        let e1 := withMem e ((a, zeros (temp * w)) :: mem e) in
        let e2 := if 0 <? larger b then bufferResized e1 (larger b * w) (temp * w) else newBuffer e1 (temp * w) in
        let nd := align n a temp in
        let ne := nd + n * w in
        let b' := Buf temp n nd a ne (alignedEnd n ne) in
        match memcpy (mem e2) nd (normal b) (Z.min n (size b) * w) with
        | None => None
        | Some h => match free h (padded b) with Some h' => Some (b', withMem e2 h', true) | None => None end
        end
    end.
(** the part common to the copying constructor 235-239 and assignment 257-264 *)
Definition copyFrom (b : buf) (e : env) (other : buf) (r : option Z) : option (buf * env * bool) :=
  match resize b e (size other) r with
  | None => None
  | Some (b', e', false) => Some (b', e', false)
  | Some (b', e', true) =>
      match memcpy (mem e') (normal b') (normal other) (size other * w) with
      | Some h => Some (b', withMem e' h, true)
      | None => None
      end
  end.

(** objects and what is done with them *)
Inductive op :=
  | Make                                   (* Buffer(), 132 *)
  | MakeSize (n : Z) (r : option Z)        (* Buffer(n), 141 *)
  | Resize (i : nat) (n : Z) (r : option Z)
  | Clear (i : nat)
  | Destroy (i : nat)
  | CopyNew (j : nat) (r : option Z)       (* Buffer(const Buffer&) *)
  | MoveNew (j : nat)                      (* Buffer(Buffer&&), 246-255 *)
  | Assign (i j : nat) (r : option Z)      (* operator=(const Buffer&), 257 *)
  | MoveAssign (i j : nat)                 (* operator=(Buffer&&), 266-280 *)
  | Write (i : nat) (k : Z) (v : list Z).  (* operator[], 282; v are the bytes of the element *)
Record st := St { objs : list (option buf); env_ : env }.
Definition init : st := St [] (Env [] 0 0).
Fixpoint upd {X} (l : list X) (i : nat) (x : X) : list X :=
  match l, i with
  | [], _ => []
  | _ :: t, O => x :: t
  | h :: t, S k => h :: upd t k x
  end.
Definition obj (s : st) (i : nat) : option buf := match nth_error (objs s) i with Some o => o | None => None end.

Definition step (s : st) (o : op) : option (st * bool) :=
  let e := env_ s in
  match o with
  | Make => Some (St (objs s ++ [Some emptyBuf]) e, true)
  | MakeSize n r =>
      match resize emptyBuf e n r with
      | Some (b, e', ok) => Some (St (objs s ++ [if ok then Some b else None]) e', ok)
      | None => None
      end
  | Resize i n r =>
      match obj s i with
      | Some b => match resize b e n r with Some (b', e', ok) => Some (St (upd (objs s) i (Some b')) e', ok) | None => None end
      | None => None
      end
  | Clear i =>
      match obj s i with
      | Some b => match clear b e with Some (b', e') => Some (St (upd (objs s) i (Some b')) e', true) | None => None end
      | None => None
      end
  | Destroy i =>
      match obj s i with
      | Some b => match clear b e with Some (_, e') => Some (St (upd (objs s) i None) e', true) | None => None end
      | None => None
      end
  | CopyNew j r =>
      match obj s j with
      | Some c => match copyFrom emptyBuf e c r with
                  | Some (b, e', ok) => Some (St (objs s ++ [if ok then Some b else None]) e', ok)
                  | None => None
                  end
      | None => None
      end
  | MoveNew j =>
      match obj s j with
      | Some c => Some (St (upd (objs s) j (Some emptyBuf) ++ [Some c]) e, true)
      | None => None
      end
  | Assign i j r =>
      match obj s i, obj s j with
      | Some b, Some c =>
          if Nat.eqb i j then Some (s, true)
          else match copyFrom b e c r with Some (b', e', ok) => Some (St (upd (objs s) i (Some b')) e', ok) | None => None end
      | _, _ => None
      end
  | MoveAssign i j =>
      match obj s i, obj s j with
      | Some b, Some c =>
          if Nat.eqb i j then Some (s, true)
          else match free (mem (deleted b e)) (padded b) with
               | Some h => Some (St (upd (upd (objs s) i (Some c)) j (Some emptyBuf)) (withMem (deleted b e) h), true)
               | None => None
               end
      | _, _ => None
      end
  | Write i k v =>
      match obj s i with
      | Some b => match store (mem e) (normal b + k * w) v with Some h => Some (St (objs s) (withMem e h), true) | None => None end
      | None => None
      end
  end.
Fixpoint run (s : st) (ops : list op) : option (st * list bool) :=
  match ops with
  | [] => Some (s, [])
  | o :: t => match step s o with
              | Some (s', ok) => match run s' t with Some (s'', l) => Some (s'', ok :: l) | None => None end
              | None => None
              end
  end.
(** what a buffer shows: data() and size(), as bytes *)
Definition view (s : st) (i : nat) : option (list Z) :=
  match obj s i with
  | Some b => if size b =? 0 then Some [] else load (mem (env_ s)) (normal b) (size b * w)
  | None => None
  end.
End Type_.

(** Synth::getAllocatedBuffers and getAllocatedBytes, Synth.h 606 and 613: a size_t returned as an int *)
Definition toInt (x : Z) : Z := let y := x mod 2 ^ 32 in if y <? 2 ^ 31 then y else y - 2 ^ 32.
Definition getAllocatedBuffers (e : env) : Z := toInt (num e).
Definition getAllocatedBytes (e : env) : Z := toInt (bytes e).
