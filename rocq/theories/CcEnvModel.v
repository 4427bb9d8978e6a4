(** Model of src/sfizz/ModifierHelpers.h: linearEnvelope (lines 78-98), its quantised form (110-158), the
    crossfades (19-66), and of [linearRamp] (simd/HelpersScalar.h 87-95).

    Floats are exact rationals here. A block of output is the list of its writes, each with its offset, in
    the order they are made. [multiplicativeEnvelope] is not modelled; nothing in the library uses it. *)
From Coq Require Import QArith Qround ZArith List.
Import ListNotations.
From Verif Require Import AdsrModel.
Open Scope Q_scope.

(** MidiEvent, SfzHelpers.h 60-63. *)
Record event := Event { delay : nat; value : Q }.
Definition write : Type := nat * list Q.

(** linearRamp: the values written, and the value returned. *)
Fixpoint linearRamp (n : nat) (start step : Q) : list Q * Q :=
  match n with
  | O => ([], start)
  | S n => let '(l, r) := linearRamp n (start + step) step in (start :: l, r)
  end.

Section Linear.
Variable lam : Q -> Q.

(** The loop, 90-95, and the fill of what is left, 96; [maxDelay] is the size of the block minus one.
    [length] is the (nonnegative) distance, events being sorted by delay. *)
Fixpoint linear_loop (maxDelay : nat) (evs : list event) (lastDelay : nat) (lastValue : Q) : list write * (nat * Q) :=
  match evs with
  | [] => ([], (lastDelay, lastValue))
  | e :: evs =>
      if Nat.ltb lastDelay maxDelay then
        let length := (Nat.min (delay e) maxDelay - lastDelay)%nat in
        let step := (lam (value e) - lastValue) / inject_Z (Z.of_nat length) in
        let '(l, v) := linearRamp length lastValue step in
        let '(ws, r) := linear_loop maxDelay evs (lastDelay + length) v in ((lastDelay, l) :: ws, r)
      else ([], (lastDelay, lastValue))
  end.
Definition linearEnvelope (evs : list event) (size : nat) : list write :=
  match size, evs with
  | O, _ => []
  | _, [] => []
  | S maxDelay, e :: evs =>
      let '(ws, (d, v)) := linear_loop maxDelay evs (delay e) (lam (value e)) in
      ws ++ [(d, repeat v (size - d))]
  end.

(** std::trunc *)
Definition Qtrunc (x : Q) : Z := if Qle_bool 0 x then Qfloor x else (- Qfloor (- x))%Z.
Definition Qabsf (x : Q) : Q := if Qle_bool 0 x then x else - x.
(** 127-129 *)
Definition quantize (step v : Q) : Q := inject_Z (Qtrunc (v / step)) * step.
(** The inner loop, 149-153. *)
Fixpoint stairs (n stepLength : nat) (step nextValue : Q) (lastDelay : nat) (lastValue : Q) : list write * (nat * Q) :=
  match n with
  | O => ([], (lastDelay, lastValue))
  | S n =>
      let v := lastValue + (if Qle_bool lastValue nextValue then step else - step) in
      let '(ws, r) := stairs n stepLength step nextValue (lastDelay + stepLength) v in
      ((lastDelay, repeat lastValue stepLength) :: ws, r)
  end.
Fixpoint quantised_loop (step : Q) (maxDelay : nat) (evs : list event) (lastDelay : nat) (lastValue : Q) : list write * (nat * Q) :=
  match evs with
  | [] => ([], (lastDelay, lastValue))
  | e :: evs =>
      if Nat.ltb lastDelay maxDelay then
        let nextValue := quantize step (lam (value e)) in
        let difference := Qabsf (nextValue - lastValue) in
        let length := (Nat.min (delay e) maxDelay - lastDelay)%nat in
        if Qltb difference step then
          let '(ws, r) := quantised_loop step maxDelay evs (lastDelay + length) nextValue in
          ((lastDelay, repeat lastValue length) :: ws, r)
        else
          let numSteps := Z.to_nat (Qfloor (difference / step)) in
          let stepLength := (length / numSteps)%nat in
          let '(ws, (d, v)) := stairs numSteps stepLength step nextValue lastDelay lastValue in
          let '(ws', r) := quantised_loop step maxDelay evs d v in (ws ++ ws', r)
      else ([], (lastDelay, lastValue))
  end.
Definition quantisedEnvelope (step : Q) (evs : list event) (size : nat) : list write :=
  if Qeq_bool step 0 then linearEnvelope evs size else
  match size, evs with
  | O, _ => []
  | _, [] => []
  | S maxDelay, e :: evs =>
      let '(ws, (d, v)) := quantised_loop step maxDelay evs (delay e) (quantize step (lam (value e))) in
      ws ++ [(d, repeat v (size - d))]
  end.
End Linear.

(** What the block holds afterwards when the writes follow one another. *)
Definition samples (ws : list write) : list Q := concat (map snd ws).

(** ** Crossfades, 19-66 *)
Inductive xcurve := XGain | XPower.
Section Xfade.
(** std::sqrt *)
Variable sq : Q -> Q.
(** [gap] is 1/127 for ranges of floats and 0 for keys; [length] is end - start, for keys modulo 256. *)
Definition crossfadeIn (gap start end_ length_ : Q) (v : Q) (c : xcurve) : Q :=
  if Qltb v start then 0 else
  let len := length_ - gap in
  if Qle_bool len 0 then 1
  else if Qltb v end_ then
    let pos := (v - start) / len in
    match c with XPower => sq pos | XGain => pos end
  else 1.
Definition crossfadeOut (gap start length_ : Q) (v : Q) (c : xcurve) : Q :=
  let len := length_ - gap in
  if Qle_bool len 0 then 1
  else if Qltb start v then
    let pos := (v - start) / len in
    if Qltb 1 pos then 0
    else match c with XPower => sq (1 - pos) | XGain => 1 - pos end
  else 1.
Definition gap7 : Q := 1 # 127.
(** Range<float> *)
Definition xinF (s e v : Q) (c : xcurve) : Q := crossfadeIn gap7 s e (e - s) v c.
Definition xoutF (s e v : Q) (c : xcurve) : Q := crossfadeOut gap7 s (e - s) v c.
(** Range<uint8_t>: the length is an 8 bit number, and [static_cast<uint8_t>(1/127)] is 0. *)
Definition xinK (s e v : Z) (c : xcurve) : Q :=
  crossfadeIn 0 (inject_Z s) (inject_Z e) (inject_Z ((e - s) mod 256)) (inject_Z v) c.
Definition xoutK (s e v : Z) (c : xcurve) : Q :=
  crossfadeOut 0 (inject_Z s) (inject_Z ((e - s) mod 256)) (inject_Z v) c.
(** Voice::resetCrossfades, Voice.cpp 834-852, and crossfadeGain, RegionStateful.cpp 98-116: the product
    over the controllers; each crossfade with the value of its controller. *)
Definition crossfadeGain (ins outs : list (Q * Q * Q)) (c : xcurve) : Q :=
  fold_left (fun g '(s, e, v) => g * xoutF s e v c) outs
    (fold_left (fun g '(s, e, v) => g * xinF s e v c) ins 1).
End Xfade.
(** normalizeInput for kNormalizeMidi|kFillGap, Defaults.h 101-105: up to 126 the end of the range is just
    below the next value ([below] is std::nextafter). *)
Definition xfadeEnd (below : Q -> Q) (hi : Z) : Q :=
  if (hi <=? 126)%Z then below (inject_Z (hi + 1) / 127) else inject_Z hi / 127.
