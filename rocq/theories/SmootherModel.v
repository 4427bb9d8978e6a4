(** Model of the linear smoother.

    Code: src/sfizz/Smoothers.cpp 69-217 (class LinearSmoother, which is the class Smoother of Smoothers.h).

    Numbers are rational and [rnd] is the rounding after each operation.  The scalar loops (163-188) are modelled, not
    the vector ones (115-162): these compute the multiples of the step first and then limit them, which is the same
    with exact arithmetic.  Input and output of the same size, as CHECK_SPAN_SIZES demands. *)
From Coq Require Import QArith ZArith List Bool.
Import ListNotations.
From Verif Require Import AdsrModel.
Open Scope Q_scope.

(** Smoothers.h, the members of LinearSmoother; smoothFrames_ is an int32_t. *)
Record smoother := Smoother { s_current : Q; s_target : Q; s_step : Q; s_frames : Z }.
(** reset, Smoothers.cpp 79-85. *)
Definition reset (v : Q) (s : smoother) : smoother := Smoother v v 0 (s_frames s).
(** resetToTarget, 87-90. *)
Definition resetToTarget (s : smoother) : smoother := reset (s_target s) s.

Section Smoother.
Variable rnd : Q -> Q.
(** One sample towards the target, lines 173-180 and 198-205. *)
Definition approach (up : bool) (target step current : Q) : Q :=
  if up then Qminf target (rnd (current + step)) else Qmaxf target (rnd (current + step)).
Fixpoint glide (n : nat) (up : bool) (target step current : Q) : list Q * Q :=
  match n with
  | O => ([], current)
  | S n => let c := approach up target step current in let (l, e) := glide n up target step c in (c :: l, e)
  end.
(** The treatment of up to 16 samples with a common target, lines 164-187 and 190-211; the argument is the last input
    sample of the group. *)
Definition group (n : nat) (next : Q) (s : smoother) : list Q * smoother :=
  let changed := negb (Qeq_bool (s_target s) next) in
  let target := if changed then next else s_target s in
  let step := if changed then rnd (rnd (target - s_current s) / inject_Z (Z.max (Z.of_nat n) (s_frames s))) else s_step s in
  if Qltb (s_current s) target then
    let (l, e) := glide n true target step (s_current s) in (l, Smoother e target step (s_frames s))
  else if Qltb target (s_current s) then
    let (l, e) := glide n false target step (s_current s) in (l, Smoother e target step (s_frames s))
  else (repeat target n, Smoother (s_current s) target step (s_frames s)).
(** The loop over groups of 16 and the rest, lines 164-211. *)
Fixpoint groups (fuel : nat) (input : list Q) (s : smoother) : list Q * smoother :=
  match fuel, input with
  | O, _ | _, [] => ([], s)
  | S f, _ =>
      let g := firstn 16 input in
      let (o, s) := group (length g) (last g 0) s in
      let (r, s) := groups f (skipn 16 input) s in (o ++ r, s)
  end.
(** process, lines 92-217. *)
Definition process (input : list Q) (canShortcut : bool) (s : smoother) : list Q * smoother :=
  match input with
  | [] => ([], s)
  | first :: _ =>
      if (s_frames s <? 2)%Z || (canShortcut && Qeq_bool (s_current s) (s_target s) && Qeq_bool (s_current s) first)
      then (input, reset (last input 0) s)
      else groups (length input) input s
  end.
End Smoother.
