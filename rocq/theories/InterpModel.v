(** Interpolation between the frames of a sample, and the table of the windowed sine cardinal.
    Code: src/sfizz/Interpolators.hpp, src/sfizz/MathHelpers.h 185-265 (hermite3, bspline3), src/sfizz/WindowedSinc.h, WindowedSinc.hpp,
    WindowedSinc.cpp.

    Arithmetic of the weights is exact; [rnd] is the rounding of the positions in the sine cardinal table.  The sum of four lanes
    (vaddvq) is the sum in any order.  [v i] is values[i]; the position of the voice is the frame 0 plus [c]. *)
From Coq Require Import ZArith QArith Qabs Qround List.
Import ListNotations.
Local Open Scope Q_scope.

Definition ltb (a b : Q) : bool := negb (Qle_bool b a).

(** Interpolators.hpp 47-55 *)
Definition nearest (v : Z -> Q) (c : Q) : Q := v (if ltb (1 # 2) c then 1%Z else 0%Z).
(** 60-68 *)
Definition linear (v : Z -> Q) (c : Q) : Q := v 0%Z * (1 - c) + v 1%Z * c.

(** MathHelpers.h 184-197 *)
Definition hermite3 (x : Q) : Q :=
  let x := Qabs x in
  let x2 := x * x in let x3 := x2 * x in
  let q := (5 # 2) * x2 in
  let p1 := 1 - q + (3 # 2) * x3 in
  let p2 := 2 - 4 * x + q - (1 # 2) * x3 in
  let y := if ltb x 2 then p2 else 0 in
  if ltb x 1 then p1 else y.
(** One lane of hermite3x4, 206-220: the comparisons are not strict. *)
Definition hermite3x4 (x : Q) : Q :=
  let x := Qabs x in
  let x2 := x * x in let x3 := x2 * x in
  let q := (5 # 2) * x2 in
  let p1 := 1 - q + (3 # 2) * x3 in
  let p2 := 2 - 4 * x + q - (1 # 2) * x3 in
  let y := if Qle_bool x 2 then p2 else 0 in
  if Qle_bool x 1 then p1 else y.
(** 230-242 *)
Definition bspline3 (x : Q) : Q :=
  let x := Qabs x in
  let x2 := x * x in let x3 := x2 * x in
  let p1 := (2 # 3) - x2 + (1 # 2) * x3 in
  let p2 := (4 # 3) - 2 * x + x2 - (1 # 6) * x3 in
  let y := if ltb x 2 then p2 else 0 in
  if ltb x 1 then p1 else y.
(** 251-264 *)
Definition bspline3x4 (x : Q) : Q :=
  let x := Qabs x in
  let x2 := x * x in let x3 := x2 * x in
  let p1 := (2 # 3) - x2 + (1 # 2) * x3 in
  let p2 := (4 # 3) - 2 * x + x2 - (1 # 6) * x3 in
  let y := if Qle_bool x 2 then p2 else 0 in
  if Qle_bool x 1 then p1 else y.

(** Interpolators.hpp 93-106 and 127-140: the loop from -1 to 2. *)
Definition overFour (h : Q -> Q) (v : Z -> Q) (c : Q) : Q :=
  fold_left (fun y i => y + h (inject_Z i - c) * v i) [-1; 0; 1; 2]%Z 0.
(** 74-84 and 112-122: the four products at once. *)
Definition lanes (h : Q -> Q) (v : Z -> Q) (c : Q) : Q :=
  let h i := h (inject_Z i - c) * v i in h (-1)%Z + h 0%Z + h 1%Z + h 2%Z.

(** ** The sine cardinal table *)
Section Sinc.
Variable rnd : Q -> Q.
(** the number of points and the size of the table (65536 for every number of points), Interpolators.hpp 147-166 *)
Variables points tableSize : Z.

(** getUnchecked, WindowedSinc.hpp 29-42: the quotient is one of integers *)
Definition scale : Z := (tableSize - 1) / points.
Definition position (x : Q) : Q := rnd (rnd (x + inject_Z points / 2) * inject_Z scale).
Definition index (x : Q) : Z := Qfloor (position x).
(** SincInterpolator, 223-245: the arguments given to getUnchecked for the frames j0 + i; and in the vector version, 199-221 *)
Definition j0 : Z := 1 - points / 2.
Definition argument (c : Q) (i : nat) : Q := rnd (rnd (inject_Z j0 - c) + inject_Z (Z.of_nat i)).
Definition argumentX4 (c : Q) (i : nat) : Q :=
  Nat.iter (i / 4) (fun x => rnd (x + 4)) (rnd (rnd (inject_Z j0 - c) + inject_Z (Z.of_nat (i mod 4)))).

(** calculateTable, WindowedSinc.cpp 13-32.  [f i] is window[i] times normalizedSinc at the point of i; the memory is that of the table
    and its four extra cells. *)
Definition tablePoint (i : Q) : Q := i * (inject_Z points / inject_Z (tableSize - 1)) + inject_Z points / (-2).
Definition calculateTable {A : Type} (extra : Z) (f : Z -> A) (mem : Z -> A) : Z -> A :=
  let filled := fun k => if ((0 <=? k) && (k <? tableSize))%Z then f k else mem k in
  fun k => if ((extra <=? k) && (k <? extra + extra))%Z then filled (tableSize - 1)%Z else filled k.
End Sinc.
