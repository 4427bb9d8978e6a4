(** Model of the controller curves.

    Code: src/sfizz/Curve.cpp, Curve.h, simd/HelpersScalar.h (linearRampScalar).

    A float is a rational number and [rnd] is the rounding after each operation; the numbers given to the functions
    are taken as they are (infinities and NaN are not modelled).  Only the linear interpolation is modelled: the only
    callers (Synth.cpp 870; Curve.cpp 277) use it, the spline being reachable from no opcode.  The argument
    [limit] of buildCurveFromHeader is false in the only call and is not modelled.  Every access to the table is
    checked: a result [None] means an access outside. *)
From Coq Require Import QArith Qround ZArith List Bool.
Import ListNotations.
From Verif Require Import AdsrModel CcEnvModel.
Open Scope Q_scope.

(** Curve::NumValues, Curve.h line 24. *)
Definition numValues : nat := 128.
(** A curve: _points, Curve.h line 114. *)
Definition curve := list Q.

Section Curve.
Variable rnd : Q -> Q.
(** linearRampScalar, HelpersScalar.h 87-95.  (The vector versions compute the same values in exact arithmetic.) *)
Fixpoint ramp (n : nat) (start step : Q) : list Q :=
  match n with O => [] | S n => start :: ramp n (rnd (start + step)) step end.
(** Overwrite the entries from index [i]; pointSpan.subspan(left, length), Curve.cpp line 181. *)
Definition overwrite (i : nat) (xs l : list Q) : option (list Q) :=
  if Nat.leb (i + length xs) (length l) then Some (firstn i l ++ xs ++ skipn (i + length xs) l) else None.
(** The inner loop of lerpFill, Curve.cpp line 177. *)
Fixpoint nextFilled (fuel right : nat) (fs : list bool) : nat :=
  match fuel with
  | O => right
  | S f => if Nat.ltb right numValues then if nth right fs false then right else nextFilled f (S right) fs else right
  end.
(** Curve::lerpFill, Curve.cpp 170-185. *)
Fixpoint lerpLoop (fuel left right : nat) (fs : list bool) (pts : list Q) : option (list Q) :=
  match fuel with
  | O => None
  | S f =>
      if Nat.ltb right numValues then
        let right := nextFilled numValues right fs in
        let len := (right - left)%nat in
        match
          (if Nat.ltb 1 len then
             match nth_error pts right, nth_error pts left with
             | Some r, Some l => overwrite left (ramp len l (rnd (rnd (r - l) / inject_Z (Z.of_nat len)))) pts
             | _, _ => None
             end
           else Some pts)
        with
        | Some pts => lerpLoop f right (S right) fs pts
        | None => None
        end
      else Some pts
  end.
Definition lerpFill (fs : list bool) (pts : list Q) : option (list Q) := lerpLoop (S numValues) 0 1 fs pts.

(** The lambda setPoint, Curve.cpp lines 25-28 and 62-65; an index outside the arrays is an error. *)
Definition setPoint (i : nat) (x : Q) (t : list Q * list bool) : option (list Q * list bool) :=
  if Nat.ltb i numValues then Some (firstn i (fst t) ++ x :: skipn (S i) (fst t), firstn i (snd t) ++ true :: skipn (S i) (snd t))
  else None.
Definition bind {A B} (x : option A) (f : A -> option B) : option B := match x with Some a => f a | None => None end.
Definition blank : list Q * list bool := (repeat 0 numValues, repeat false numValues).
Fixpoint setPoints (l : list (nat * Q)) (t : list Q * list bool) : option (list Q * list bool) :=
  match l with [] => Some t | (i, x) :: l => bind (setPoint i x t) (setPoints l) end.
(** Curve::buildCurveFromHeader, Curve.cpp 19-53: the argument is the list of the v&-opcodes, with the number and
    the value read; numbers of 128 and more are skipped (line 39). *)
Definition headerPoints (l : list (nat * Q)) : list (nat * Q) := filter (fun p => Nat.ltb (fst p) numValues) l.
Definition buildCurveFromHeader (l : list (nat * Q)) : option curve :=
  bind (setPoints ((0%nat, 0) :: (127%nat, 1) :: headerPoints l) blank) (fun t => lerpFill (snd t) (fst t)).
(** Curve::buildFromVelcurvePoints, Curve.cpp 55-81; the points are those stored by Region.cpp 474-482, which lets
    pass only the numbers up to 127. *)
Definition velcurvePoints (l : list (nat * Q)) : list (nat * Q) := filter (fun p => negb (Nat.ltb 127 (fst p))) l.
Definition buildFromVelcurvePoints (l : list (nat * Q)) (invert : bool) : option curve :=
  let ends := if invert then [(0%nat, 1); (127%nat, 0)] else [(0%nat, 0); (127%nat, 1)] in
  bind (setPoints (ends ++ l) blank) (fun t => lerpFill (snd t) (fst t)).
(** Curve::buildBipolar, Curve.cpp 130-143. *)
Definition buildBipolar (v1 v2 : Q) : option curve :=
  bind (setPoints [(0%nat, v1); (127%nat, v2)] blank) (fun t => lerpFill (snd t) (fst t)).
(** The cases 0 to 4 of Curve::buildPredefinedCurve, Curve.cpp 83-113 (the curves 5 and 6, square roots, are not
    modelled).  An index above 6 cannot be given: createPredefined (212-223) is the only caller. *)
Definition buildPredefinedCurve (i : nat) : option curve :=
  match i with
  | 1%nat => buildBipolar (-1) 1
  | 2%nat => buildBipolar 1 0
  | 3%nat => buildBipolar 1 (-1)
  | 4%nat => Some (map (fun k => let x := rnd (inject_Z (Z.of_nat k) / 127) in rnd (x * x)) (seq 0 numValues))
  | _ => buildBipolar 0 1
  end.

(** Curve::evalCC7(int), Curve.h 29-32. *)
Definition evalCC7i (c : curve) (v : Z) : option Q := nth_error c (Z.to_nat (Z.max (Z.min v 127) 0)).
(** Curve::evalCC7(float), Curve.h 36-43. *)
Definition evalCC7 (c : curve) (v : Q) : option Q :=
  let v := Qclamp v 0 127 in
  let i1 := Z.to_nat (Qtrunc v) in
  let i2 := Nat.min 127 (i1 + 1) in
  let mu := rnd (v - inject_Z (Z.of_nat i1)) in
  match nth_error c i1, nth_error c i2 with
  | Some p1, Some p2 => Some (rnd (p1 + rnd (mu * rnd (p2 - p1))))
  | _, _ => None
  end.
(** Curve::evalNormalized, Curve.h 48-51. *)
Definition evalNormalized (c : curve) (v : Q) : option Q := evalCC7 c (rnd (v * 127)).
End Curve.

(** *** Curve sets *)
(** CurveSet, Curve.h 156-157: slots and _useExplicitIndexing. *)
Record curveSet := CurveSet { slots : list (option curve); explicit : bool }.
Definition maxCurves : Z := 256.
(** CurveSet::addCurve, Curve.cpp 225-249. *)
Definition addCurve (c : curve) (index : Z) (s : curveSet) : curveSet :=
  if (index <? -1)%Z then s
  else if (maxCurves <=? index)%Z then s
  else if (index =? -1)%Z then
    if explicit s then s else CurveSet (slots s ++ [Some c]) (explicit s)
  else
    let i := Z.to_nat index in
    let l := if Nat.leb (length (slots s)) i then slots s ++ repeat None (S i - length (slots s)) else slots s in
    CurveSet (firstn i l ++ Some c :: skipn (S i) l) true.
(** CurveSet::getCurve, Curve.cpp 280-291; [default] is Curve::getDefault. *)
Definition getCurve (default : curve) (i : nat) (s : curveSet) : curve :=
  match nth_error (slots s) i with Some (Some c) => c | _ => default end.
(** The index read by addCurveFromHeader, Curve.cpp 251-278: that of the last curve_index opcode, or -1.  Its values
    are the unsigned 8-bit ones (Defaults.cpp 74). *)
Definition headerIndex (l : list Z) : Z := match rev l with i :: _ => i | [] => -1 end.
