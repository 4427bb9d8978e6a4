(** Transcription of what decides which frames of its sample a region uses: the position opcodes
    of src/sfizz/Region.cpp, their completion from the file by finalizeSfzLoad in
    src/sfizz/Synth.cpp, the part to preload computed there, and the start offset of a note in
    src/sfizz/RegionStateful.cpp.

    Simplifications: controller values and their products with modulation amounts are rationals
    (the code uses floats); int64_t sums do not overflow. *)
From Coq Require Import ZArith QArith Qround List Bool String Ascii.
From Verif Require Import ParserModel OpcodeModel LoadModel.
Import ListNotations.
Local Open Scope Z_scope.

(** LoopMode, Defaults.h 43. *)
Inductive loopMode := NoLoop | OneShot | LoopContinuous | LoopSustain.

(** The members of Region used here, Region.h 237-250.  CCMaps are association lists. *)
Record srange := SRange {
  sr_offset : Z;
  sr_offsetRandom : Z;
  sr_offsetCC : list (Z * Z);
  sr_end : Z;
  sr_mode : option loopMode;
  sr_start : Z;
  sr_stop : Z;
  sr_release : bool }.
Definition int32_max : Z := 2 ^ 31 - 1.
Definition freshRange : srange := SRange 0 0 [] int32_max None 0 int32_max false.

(** Default::offset, offsetMod, offsetRandom, sampleEnd, loopStart and loopEnd, Defaults.cpp
    24-31. *)
Definition offsetSpec : ispec :=
  ISpec 0 0 int32_max int64_min int64_max false false false true true.
Definition sampleEndSpec : ispec :=
  ISpec int32_max 0 int32_max int64_min int64_max false true true false false.
Definition loopStartSpec : ispec :=
  ISpec 0 0 int32_max int64_min int64_max false false true false false.
Definition loopEndSpec : ispec :=
  ISpec int32_max 0 int32_max int64_min int64_max false false true false false.

(** Opcode::readOptional for LoopMode, Opcode.cpp 493-504. *)
Definition readLoopMode (v : text) : option loopMode :=
  let h := hash v fnvBasis in
  if h =? hash (str "no_loop") fnvBasis then Some NoLoop
  else if h =? hash (str "one_shot") fnvBasis then Some OneShot
  else if h =? hash (str "loop_continuous") fnvBasis then Some LoopContinuous
  else if h =? hash (str "loop_sustain") fnvBasis then Some LoopSustain
  else None.

(** config::numCCs, Config.h. *)
Definition numCCs : Z := 512.
(** CCMap::operator[] and assignment, CCMap.h 59-66. *)
Definition cc_set (m : list (Z * Z)) (cc v : Z) : list (Z * Z) :=
  (cc, v) :: filter (fun p => negb (fst p =? cc)) m.

(** The position opcodes of Region::parseOpcode, Region.cpp 95-131, and trigger 384-386 reduced
    to isRelease (Region.h 64; the values are read by hash, Opcode.cpp 368-380).  An opcode that is not one of these leaves
    the record unchanged. *)
Definition parseRange (o : opcode) (r : srange) : option srange :=
  let '(SRange of rnd occ en md st sp rel) := r in
  let v := o_value o in
  if is o "offset" then
    n <- readIntOr offsetSpec v ;; Some (SRange n rnd occ en md st sp rel)
  else if is o "offset_random" then
    n <- readIntOr offsetSpec v ;; Some (SRange of n occ en md st sp rel)
  else if is o "offset_oncc&" then
    let cc := last (o_params o) 0 in
    if numCCs <? cc then Some r
    else n <- readIntOr offsetSpec v ;; Some (SRange of rnd (cc_set occ cc n) en md st sp rel)
  else if is o "end" then
    n <- readIntOr sampleEndSpec v ;; Some (SRange of rnd occ n md st sp rel)
  else if is o "count" then Some (SRange of rnd occ en (Some OneShot) st sp rel)
  else if is o "loop_mode" then Some (SRange of rnd occ en (readLoopMode v) st sp rel)
  else if is o "loop_end" then
    n <- readIntOr loopEndSpec v ;; Some (SRange of rnd occ en md st n rel)
  else if is o "loop_start" then
    n <- readIntOr loopStartSpec v ;; Some (SRange of rnd occ en md n sp rel)
  else if is o "trigger" then
    Some (SRange of rnd occ en md st sp
            (let h := hash v fnvBasis in
             (h =? hash (str "release") fnvBasis) || (h =? hash (str "release_key") fnvBasis)))
  else Some r.
Fixpoint parseRanges (l : list opcode) (r : srange) : option srange :=
  match l with
  | [] => Some r
  | raw :: rest =>
      o <- cleanUp 1 raw ScopeRegion ;; r' <- parseRange o r ;; parseRanges rest r'
  end.

(** FileInformation, FilePool.h. *)
Record fileInfo := FileInfo { fi_end : Z; fi_hasLoop : bool; fi_start : Z; fi_stop : Z }.

(** finalizeSfzLoad for a region that plays a sample, Synth.cpp 766-789. *)
Definition finalizeRange (r : srange) (f : fileInfo) : srange :=
  let '(SRange of rnd occ en md st sp rel) := r in
  let en1 := Z.min en (fi_end f) in
  let '(st1, sp1, md1) :=
    if fi_hasLoop f then
      (if st =? 0 then fi_start f else st,
       if sp =? int32_max then fi_stop f else sp,
       match md with None => Some LoopContinuous | Some m => Some m end)
    else (st, sp, md) in
  let md2 := match md1 with
             | None => if rel then Some OneShot else None
             | Some m => Some m
             end in
  let sp2 := if sp1 =? int32_max then en1 else sp1 in
  let md3 := if st1 <=? sp2 then md2 else None in
  SRange of rnd occ en1 md3 st1 sp2 rel.

(** Region::shouldLoop, Region.h 100. *)
Definition shouldLoop (r : srange) : bool :=
  match sr_mode r with Some LoopContinuous | Some LoopSustain => true | _ => false end.

(** maxOffset, Synth.cpp 799-804: an uint64_t sum converted to int64_t and clamped. *)
Definition to_int64 (v : Z) : Z := (v + 2 ^ 63) mod 2 ^ 64 - 2 ^ 63.
Definition maxOffset (r : srange) : Z :=
  let sum := fold_left (fun a p => a + snd p) (sr_offsetCC r) (sr_offset r + sr_offsetRandom r) in
  Z.max 0 (Z.min (to_int64 sum) int32_max).
(** filesToLoad, Synth.cpp 806-807: the largest offset over the regions that use the file. *)
Definition toLoad (regions : list srange) : Z :=
  fold_left (fun a r => Z.max a (maxOffset r)) regions 0.

(** static_cast<int64_t> of a product. *)
Definition truncQ (q : Q) : Z := Z.quot (Qnum q) (Zpos (Qden q)).
(** The controller values, MidiState.cpp 208-212: an array of 512. *)
Definition ccValue (table : Z -> Q) (cc : Z) : option Q :=
  if (0 <=? cc) && (cc <? numCCs) then Some (table cc) else None.
(** sampleOffset, RegionStateful.cpp 25-32; [rnd] is what the distribution draws, from 0 to
    offset_random. *)
Fixpoint addOffsets (table : Z -> Q) (l : list (Z * Z)) (a : Z) : option Z :=
  match l with
  | [] => Some a
  | (cc, n) :: rest =>
      v <- ccValue table cc ;; addOffsets table rest (a + truncQ (inject_Z n * v))
  end.
Definition sampleOffset (r : srange) (table : Z -> Q) (rnd : Z) : option Z :=
  n <- addOffsets table (sr_offsetCC r) (sr_offset r + rnd) ;;
  Some (Z.max 0 (Z.min n int32_max)).
