(** The table that is chosen for a frequency and the harmonics that it holds (Wavetables.cpp 186-214, 274-375), over
    the real numbers.  The two arrays that are computed at start are parameters, which are near the values that their
    formulas give (rounding of std::log, std::exp and floats); the inverse Fourier transform is its formula. *)
From Coq Require Import ZArith Reals List.
Import ListNotations.
Local Open Scope R_scope.

(** MipmapRange::F1, FN, N, LogB: Wavetables.h 138-142, Wavetables.cpp 278-279. *)
Definition logB : R := ln 600 / 23.
Definition clampR (x lo hi : R) : R := Rmax lo (Rmin x hi).
(** getExactIndexForFrequency, 312-316. *)
Definition exactIndex (f : R) : R := if Rlt_dec f 20 then 0 else clampR (ln (f / 20) / logB) 0 23.
(** The frequency of a cell of FrequencyToIndex, 285-288. *)
Definition cellFrequency (i : Z) : R := 20 + IZR i / 1023 * 11980.
(** The formula of IndexToStartFrequency, 321-322. *)
Definition exactStart (t : Z) : R := 20 * exp (IZR t * logB).

Section Arrays.
(** FrequencyToIndex and IndexToStartFrequency, 281-295 and 318-327. *)
Variable logs starts : Z -> R.
(** getIndexForFrequency, 297-310. *)
Definition tableIndex (f : R) : R :=
  let pos := clampR ((f - 20) * (1023 / 11980)) 0 1023 in
  let index1 := Int_part pos in
  let index2 := Z.min (index1 + 1) 1023 in
  let frac := pos - IZR index1 in
  (1 - frac) * logs index1 + frac * logs index2.
(** The table of WavetableMulti::getTableForFrequency, Wavetables.h 183-186: the conversion to an integer truncates; the
    first table of a pair is the same, 196-211. *)
Definition row (f : R) : Z := Int_part (tableIndex f).
(** getRangeForIndex, 329-338. *)
Definition maxFrequency (o : Z) : R := starts (Z.max 0 (Z.min o 23) + 1)%Z.
(** The harmonics that generate computes for table o, 197-207 and 354-372, with config::tableSize and
    tableRefSampleRate (Config.h 107-108). *)
Definition cutoff (o : Z) : R := 1 / 2 * (44100 * (11 / 10)) / 1024 / maxFrequency o.
Definition kept (o h : Z) : Prop := (1 <= h < 1024 / 2 + 1)%Z /\ IZR h * (1 / 1024) <= cutoff o.
End Arrays.

(** A profile gives the modulus and the argument of harmonic h (216-262). *)
Definition profile := Z -> R * R.
Definition sine : profile := fun h => if (h =? 1)%Z then (1, 0) else (0, 0).
Definition triangle : profile := fun h =>
  if Z.even h then (0, 0) else (8 / (PI * PI) * (1 / (IZR h * IZR h)), if Z.odd (h / 2) then 0 else PI).
Definition saw : profile := fun h => if (h <? 1)%Z then (0, 0) else (2 / PI / IZR h, if Z.odd h then 0 else PI).
Definition square : profile := fun h => if Z.even h then (0, 0) else (4 / PI / IZR h, PI).
(** generate, 186-214: spec[h] is amplitude/2 * modulus at the angle pi/2 + argument; the inverse real transform of size
    [size] adds every bin and its conjugate, here for harmonics below size/2 only ([last] < size/2), which is what the
    tables from the fourth on have (the bin of size/2 counts once and by its real part, 0 for the four waves). *)
Definition sample (p : profile) (amplitude : R) (size : Z) (last : nat) (n : Z) : R :=
  fold_right Rplus 0 (map (fun k => let h := Z.of_nat k in
      2 * (amplitude * (1 / 2) * fst (p h)) * cos (2 * PI * IZR h * IZR n / IZR size + (PI / 2 + snd (p h)))) (seq 1 last)).
