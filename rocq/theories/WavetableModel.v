(** Model of wavetables and their oscillators.

    Code: src/sfizz/Wavetables.h (WavetableMulti, MipmapRange), Wavetables.cpp 16-184 (WavetableOscillator), 290-331
    (choice of the table), 418-444 (storage and its extra cells); Voice.cpp 1909-1953 (setupOscillatorUnison);
    Interpolators.hpp as in InterpModel.

    [rnd] is the rounding after each operation on positions, phases and frequencies; the weights of the interpolation are
    exact.  The storage is one memory of cells, addresses are integers, and an access outside, or a conversion to an
    integer that does not fit, gives [None].  The logarithms of the table FrequencyToIndex are a parameter, as are the
    harmonics that the tables hold. *)
From Coq Require Import ZArith QArith Qround Qabs List Bool.
Import ListNotations.
From Verif Require Import InterpModel.
Open Scope Q_scope.

Definition mem := Z -> Q.
Definition store (m : mem) (a : Z) (v : Q) : mem := fun b => if (b =? a)%Z then v else m b.

Section Storage.
(** _tableSize *)
Variable ts : Z.
(** _tableExtra, Wavetables.h 228, and MipmapRange::N, 142. *)
Definition extra : Z := 4.
Definition numTables : Z := 24.
(** allocateStorage, Wavetables.cpp 411-415. *)
Definition cells : Z := (ts + 2 * extra) * numTables.
(** getTablePointer, Wavetables.h 210-213. *)
Definition pointer (row : Z) : Z := row * (ts + 2 * extra) + extra.
Definition inside (a : Z) : bool := ((0 <=? a) && (a <? cells))%Z.
Definition copy_cell (src dst : Z) (m : mem) : option mem :=
  if inside src && inside dst then Some (store m dst (m src)) else None.
(** fillExtra, 417-444: to the right, to the left, and all rows. *)
Fixpoint fillRight (n : nat) (beg end_ src dst : Z) (m : mem) : option mem :=
  match n with
  | O => Some m
  | S n => match copy_cell src dst m with
           | Some m => fillRight n beg end_ (if src + 1 =? end_ then beg else src + 1)%Z (dst + 1) m
           | None => None
           end
  end.
Fixpoint fillLeft (n : nat) (beg end_ src dst : Z) (m : mem) : option mem :=
  match n with
  | O => Some m
  | S n => match copy_cell src dst m with
           | Some m => fillLeft n beg end_ (if src =? beg then end_ - 1 else src - 1)%Z (dst - 1) m
           | None => None
           end
  end.
Definition fillRow (row : Z) (m : mem) : option mem :=
  let beg := pointer row in
  let end_ := (beg + ts)%Z in
  match fillRight 4 beg end_ beg end_ m with
  | Some m => fillLeft 4 beg end_ (end_ - 1) (beg - 1) m
  | None => None
  end.
Fixpoint fillRows (rows : list Z) (m : mem) : option mem :=
  match rows with [] => Some m | r :: rows => match fillRow r m with Some m => fillRows rows m | None => None end end.
Definition fillExtra (m : mem) : option mem := fillRows (map Z.of_nat (seq 0 24)) m.
End Storage.

Section Oscillator.
Variable rnd : Q -> Q.
(** std::log(K * f) / LogB for the i-th frequency of the table, 296-300. *)
Variable logIndex : Z -> Q.
Definition clampQ (x lo hi : Q) : Q := if ltb x lo then lo else if ltb hi x then hi else x.
(** FrequencyToIndex, 290-304; 326-331 for the clamp. *)
Definition frequencyToIndex (i : Z) : Q := if (i =? 1023)%Z then 23 else clampQ (logIndex i) 0 23.
(** getIndexForFrequency, 306-319. *)
Definition getIndexForFrequency (f : Q) : Q :=
  let pos := clampQ (rnd (rnd (f - 20) * rnd (1023 / 11980))) 0 1023 in
  let index1 := Qfloor pos in
  let index2 := Z.min (index1 + 1) 1023 in
  let frac := rnd (pos - inject_Z index1) in
  rnd (rnd (rnd (1 - frac) * frequencyToIndex index1) + rnd (frac * frequencyToIndex index2)).

(** static_cast<int>, undefined outside of the 32 bit numbers. *)
Definition truncate (x : Q) : Z := if Qle_bool 0 x then Qfloor x else (- Qfloor (- x))%Z.
Definition toInt (x : Q) : option Z := let z := truncate x in if ((- 2 ^ 31 <=? z) && (z <? 2 ^ 31))%Z then Some z else None.
Definition toUnsigned (x : Q) : option Z := let z := truncate x in if ((0 <=? z) && (z <? 2 ^ 32))%Z then Some z else None.
(** incrementAndWrap, 39-45. *)
Definition incrementAndWrap (phase inc : Q) : option Q :=
  let p := rnd (phase + inc) in
  match toInt p with
  | Some z => let p := rnd (p - inject_Z z) in Some (rnd (p + (if ltb p 0 then 1 else 0)))
  | None => None
  end.

(** The interpolators that oscillators use, and the cells they read around the position. *)
Inductive model := Nearest | Linear | Hermite3.
Definition interp (M : model) (v : Z -> Q) (c : Q) : Q :=
  match M with Nearest => nearest v c | Linear => linear v c | Hermite3 => lanes hermite3x4 v c end.
Definition reads (M : model) (c : Q) : list Z :=
  match M with Nearest => [if ltb (1 # 2) c then 1%Z else 0%Z] | Linear => [0; 1]%Z | Hermite3 => [-1; 0; 1; 2]%Z end.

Variable ts : Z.
Variable m : mem.
(** interpolate<M>(&table[index], frac) *)
Definition lookup (M : model) (row index : Z) (frac : Q) : option Q :=
  let a := (pointer ts row + index)%Z in
  if forallb (fun i => inside ts (a + i)) (reads M frac) then Some (interp M (fun i => m (a + i)%Z) frac) else None.
(** getTableForFrequency, Wavetables.h 179-182: the index is converted to unsigned. *)
Definition single (M : model) (f : Q) (index : Z) (frac : Q) : option Q :=
  match toUnsigned (getIndexForFrequency f) with Some row => lookup M row index frac | None => None end.
(** getInterpolationPair, 191-206, and the sum in processDual, 110-112. *)
Definition dual (M : model) (f : Q) (index : Z) (frac : Q) : option Q :=
  let position := getIndexForFrequency f in
  match toInt position with
  | Some z =>
      let delta := rnd (position - inject_Z z) in
      let r1 := Z.max 0 (Z.min z 23) in
      let r2 := Z.max 0 (Z.min (z + 1) 23) in
      match lookup M r1 index frac, lookup M r2 index frac with
      | Some a, Some b => Some ((1 - delta) * a + delta * b)
      | _, _ => None
      end
  | None => None
  end.
(** process and processModulated, 145-184: which loop, by the quality. *)
Definition value (quality : Z) (f : Q) (index : Z) (frac : Q) : option Q :=
  let q := Z.max 0 (Z.min quality 3) in
  if (q =? 0)%Z then single Nearest f index frac
  else if (q =? 1)%Z then single Linear f index frac
  else if (q =? 2)%Z then single Hermite3 f index frac
  else dual Hermite3 f index frac.
(** One frame of the loops, 57-63, 80-87, 106-113, 133-143. *)
Definition increment (interval f ratio : Q) : Q := rnd (f * rnd (ratio * interval)).
Definition frame (quality : Z) (interval f ratio phase : Q) : option (Q * Q) :=
  let position := rnd (phase * inject_Z ts) in
  match toUnsigned position with
  | Some index =>
      match value quality f index (rnd (position - inject_Z index)), incrementAndWrap phase (increment interval f ratio) with
      | Some y, Some phase => Some (y, phase)
      | _, _ => None
      end
  | None => None
  end.
(** processModulated; a block is the list of the frequencies and ratios. *)
Fixpoint processModulated (quality : Z) (interval : Q) (block : list (Q * Q)) (phase : Q) : option (list Q * Q) :=
  match block with
  | [] => Some ([], phase)
  | (f, ratio) :: block =>
      match frame quality interval f ratio phase with
      | Some (y, phase) =>
          match processModulated quality interval block phase with
          | Some (ys, phase) => Some (y :: ys, phase)
          | None => None
          end
      | None => None
      end
  end.
(** process: the table and the increment are found once, 48-66 and 94-117; each is a function of the frequency. *)
Definition process (quality : Z) (interval f ratio : Q) (n : nat) (phase : Q) : option (list Q * Q) :=
  processModulated quality interval (repeat (f, ratio) n) phase.
End Oscillator.

(** setupOscillatorUnison, Voice.cpp 1929-1953, for 3 oscillators and more: detunes in cents, left and right gains. *)
Definition detune (d : Q) (i : Z) : Q :=
  if (i =? 0)%Z then 0 else if (i =? 1)%Z then - d else if (i =? 2)%Z then d
  else d * (if Z.odd i then - (1 # 4) else 1 # 4) * inject_Z ((i - 1) / 2).
(** The loop over [i] of 1949-1953 after the first two assignments; the arrays are functions, unset is None. *)
Definition gains (m : Z) : (Z -> option Q) * (Z -> option Q) :=
  let set (f : Z -> option Q) a v := fun b => if (b =? a)%Z then Some v else f b in
  fold_left (fun '(l, r) i =>
      let g := 1 - inject_Z i / inject_Z (m - 1) in (set l (m - 1 - i)%Z g, set r i g))
    (map Z.of_nat (seq 0 (Z.to_nat (m - 1))))
    (set (fun _ => None) 0%Z 0, set (fun _ => None) (m - 1)%Z 0).

(** wrapPhase, MathHelpers.h 321-327, exact. *)
Definition wrapPhase (x : Q) : Q := let w := x - inject_Z (truncate x) in w + (if ltb w 0 then 1 else 0).
(** The member oscillatorPhase after the opcode, Region.cpp 149-154, and after the message, SynthMessaging.cpp 461: its
    bounds are permissive on both sides (Defaults.cpp 36). *)
Definition opcodePhase (x : Q) : Q := if Qle_bool 0 x then wrapPhase x else - (1).
Definition messagePhase (x : Q) : Q := x.
(** Region::getPhase, Region.cpp 1791-1801, which setPhase gives to the oscillator; [u] is the random number. *)
Definition getPhase (oscillatorPhase u : Q) : Q := if Qle_bool 0 oscillatorPhase then oscillatorPhase else u.
