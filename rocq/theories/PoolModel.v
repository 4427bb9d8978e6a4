(** Model of the buffer pool: src/sfizz/BufferPool.h.

    The three pools of the class (mono, index, stereo) run the same code on vectors of their own; the
    model is one of them. Buffers are their sizes; a handle ([SpanHolder]) is the slot its
    [available] pointer points to, or none, and the length of its span. *)
From Coq Require Import ZArith List Lia Bool.
Import ListNotations.

Record pool := Pool { avail : list Z; sizes : list nat }.

(** absl::c_find(available, 1) *)
Fixpoint find_one (l : list Z) : option nat :=
  match l with
  | [] => None
  | a :: l => if (a =? 1)%Z then Some 0 else option_map S (find_one l)
  end.
Fixpoint add_at (i : nat) (d : Z) (l : list Z) : list Z :=
  match l, i with
  | [], _ => []
  | a :: l, O => (a + d)%Z :: l
  | a :: l, S i => a :: add_at i d l
  end.
(** A handle, BufferPool.h 24-58. *)
Record holder := Holder { slot : option nat; span : nat }.
Definition empty_holder : holder := Holder None 0.

(** getBuffer, 82-100; getIndexBuffer, 102-120; getStereoBuffer, 122-140. *)
Definition getBuffer (n : nat) (p : pool) : holder * pool :=
  match find_one (avail p) with
  | None => (empty_holder, p)
  | Some i => if nth i (sizes p) 0 <? n then (empty_holder, p)
              else (Holder (Some i) n, Pool (add_at i (-1) (avail p)) (sizes p))
  end.
(** The destructor, 50-54. *)
Definition release (h : holder) (p : pool) : pool :=
  match slot h with Some i => Pool (add_at i 1 (avail p)) (sizes p) | None => p end.
(** _setBufferSize, 152-169. *)
Definition setBufferSize (n : nat) (p : pool) : pool :=
  Pool (map (fun _ => 1%Z) (avail p)) (map (fun _ => n) (sizes p)).
(** The constructor, 63-71: [count] buffers of [n] frames. *)
Definition newPool (count n : nat) : pool := setBufferSize n (Pool (repeat 0%Z count) (repeat 0 count)).

(** A program that uses the pool: its handles, in the order of their construction; a dead one is empty. *)
Record state := State { pl : pool; hs : list holder }.
Fixpoint upd (i : nat) (h : holder) (l : list holder) : list holder :=
  match l, i with
  | [], _ => []
  | _ :: l, O => h :: l
  | a :: l, S i => a :: upd i h l
  end.
Definition hget (i : nat) (s : state) : holder := nth i (hs s) empty_holder.
Inductive op :=
| Acquire (n : nat)            (* auto h = pool.getBuffer(n) *)
| MoveNew (src : nat)          (* SpanHolder h { std::move(src) }, 29-34 *)
| MoveAssign (dst src : nat)   (* dst = std::move(src), 35-41 *)
| Destroy (h : nat)
| Resize (n : nat).
Definition step (o : op) (s : state) : state :=
  match o with
  | Acquire n => let '(h, p) := getBuffer n (pl s) in State p (hs s ++ [h])
  | MoveNew src => State (pl s) (upd src (Holder None (span (hget src s))) (hs s) ++ [hget src s])
  | MoveAssign dst src =>
      if (dst <? length (hs s)) && (src <? length (hs s))
      then State (pl s) (upd src (Holder None (span (hget src s))) (upd dst (hget src s) (hs s)))
      else s
  | Destroy h => State (release (hget h s) (pl s)) (upd h empty_holder (hs s))
  | Resize n => State (setBufferSize n (pl s)) (hs s)
  end.
Definition exec (ops : list op) (s : state) : state := fold_left (fun s o => step o s) ops s.

(** The size is only set when no handle is live; this is asserted in 75-80. *)
Definition idle (s : state) : Prop := forall h, In h (hs s) -> slot h = None.
(** What a history may do: [strict] also forbids to move into a live handle, and into itself. *)
Fixpoint legal (strict : bool) (ops : list op) (s : state) : Prop :=
  match ops with
  | [] => True
  | o :: ops =>
      match o with
      | Resize _ => idle s
      | MoveAssign dst src => if strict then slot (hget dst s) = None else True
      | _ => True
      end /\ legal strict ops (step o s)
  end.
