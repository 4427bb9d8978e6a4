(** Panning and stereo width.
    Code: src/sfizz/Panning.cpp, MathHelpers.h 293-297 (lroundPositive).

    Numbers are real numbers.  [rnd] is the rounding of the position in the table; the table holds the exact cosines, and products of
    samples are exact. *)
From Coq Require Import Reals ZArith List.
Import ListNotations.
Local Open Scope R_scope.

(** Panning.cpp 18-33 *)
Definition panSize : Z := 4095.
Definition panData (i : Z) : R :=
  if (i <? panSize)%Z then cos (IZR i * (PI / 2 / IZR (panSize - 1))) else cos (IZR (panSize - 1) * (PI / 2 / IZR (panSize - 1))).

(** clamp to [0, 1] *)
Definition clamp01 (x : R) : R := Rmax 0 (Rmin x 1).

Section Pan.
Variable rnd : R -> R.

(** panLookup, 35-40: the cast to an integer cuts a number that is not negative *)
Definition panIndex (p : R) : Z := Int_part (rnd (/ 2 + rnd (p * IZR (panSize - 1)))).
Definition panLookup (p : R) : R := panData (panIndex p).

(** tickPan, 42-48 *)
Definition position (x : R) : R := clamp01 (rnd (rnd (x + 1) * / 2)).
Definition leftGain (x : R) : R := panLookup (position x).
Definition rightGain (x : R) : R := panLookup (rnd (1 - position x)).
Definition tickPan (x l r : R) : R * R := (l * leftGain x, r * rightGain x).
(** the loop of pan, 88-91 *)
Fixpoint pan (xs ls rs : list R) : list (R * R) :=
  match xs, ls, rs with x :: xs, l :: ls, r :: rs => tickPan x l r :: pan xs ls rs | _, _, _ => [] end.

(** tickWidth, 95-105 *)
Definition tickWidth (x l r : R) : R * R :=
  let coeff1 := panLookup (position x) in
  let coeff2 := panLookup (rnd (1 - position x)) in
  (l * coeff2 + r * coeff1, l * coeff1 + r * coeff2).
End Pan.

(** the four lanes of pan for NEON, 66-82; the conversion to an unsigned integer cuts and takes negative numbers to 0 *)
Definition neonIndex (x : R) : Z := Z.max 0 (Z.min (Z.max 0 (Int_part ((x + 1) * (/ 2 * IZR panSize) + / 2))) (panSize - 1)).
Definition neonLeft (x : R) : R := panData (neonIndex x).
Definition neonRight (x : R) : R := panData (panSize - neonIndex x - 1).
