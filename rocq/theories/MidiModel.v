(** Transcription of src/sfizz/MidiState.cpp and MidiState.h.
    Fixed size std::arrays are total functions on Z; reading or writing outside the array is
    undefined behaviour and makes an operation return [None].  Float values are rationals:
    the code copies and compares them; [n / 127] and key differences are exact.
    unsigned is 32-bit. Random numbers are parameters of the events. *)
From Coq Require Import ZArith QArith List Bool.
Import ListNotations.
Local Open Scope Z_scope.

(** Array update. *)
Definition upd {A} (f : Z -> A) (k : Z) (v : A) : Z -> A := fun x => if x =? k then v else f x.

(** struct MidiEvent, SfzHelpers.h 61-64; EventVector, line 66. *)
Record event := Ev { e_delay : Z; e_value : Q }.

Definition u32 (x : Z) : Z := x mod 2 ^ 32.
(** config::numCCs, Config.h 58. *)
Definition numCCs : Z := 512.
(** ExtendedCCs and AriaExtendedCCs, SfzHelpers.h 213-231. *)
Definition cc_noteOnVelocity := 131.
Definition cc_noteOffVelocity := 132.
Definition cc_keyboardNoteNumber := 133.
Definition cc_keyboardNoteGate := 134.
Definition cc_unipolarRandom := 135.
Definition cc_bipolarRandom := 136.
Definition cc_alternate := 137.
Definition cc_keydelta := 140.
Definition cc_absoluteKeydelta := 141.

(** MidiState members, MidiState.h 233-307. *)
Record midi := Midi {
  activeNotes : Z;
  noteOnTimes : Z -> Z;
  noteOffTimes : Z -> Z;
  noteStates : Z -> bool;
  lastNoteVelocities : Z -> Q;
  velocityOverride : Q;
  lastNotePlayed : Z;
  ccEvents : Z -> list event;
  pitchEvents : list event;
  channelAftertouchEvents : list event;
  polyAftertouchEvents : Z -> list event;
  currentProgram : Z;
  alternate : Q;
  internalClock : Z }.

(** insertEventInVector, MidiState.cpp 152-159.  std::lower_bound is modelled by its
    contract on a sorted vector: the first event whose delay is not less than [d]. *)
Fixpoint insertEvent (l : list event) (d : Z) (v : Q) : list event :=
  match l with
  | [] => [Ev d v]
  | e :: r =>
    if e_delay e <? d then e :: insertEvent r d v
    else if negb (e_delay e =? d) then Ev d v :: e :: r
    else Ev d v :: r
  end.

(** ccEvent, 203-206. *)
Definition ccEvent (s : midi) (d cc : Z) (v : Q) : option midi :=
  if (0 <=? cc) && (cc <? numCCs) then
    Some (Midi (activeNotes s) (noteOnTimes s) (noteOffTimes s) (noteStates s)
            (lastNoteVelocities s) (velocityOverride s) (lastNotePlayed s)
            (upd (ccEvents s) cc (insertEvent (ccEvents s cc) d v))
            (pitchEvents s) (channelAftertouchEvents s) (polyAftertouchEvents s)
            (currentProgram s) (alternate s) (internalClock s))
  else None.

Definition bind {A B} (o : option A) (f : A -> option B) : option B :=
  match o with Some a => f a | None => None end.
Notation "x <- e ;; f" := (bind e (fun x => f)) (at level 61, e at next level, right associativity).

(** normalize7Bits on an int, SfzHelpers.h 132-136. *)
Definition normalize7Bits (n : Z) : Q := inject_Z (Z.min (Z.max n 0) 127) / 127.

(** noteOnEvent, 17-47; [r1], [r2] are the two random draws.  The bookkeeping before the
    controller events, 21-33. *)
Definition noteOn_before (s : midi) (d n : Z) (vel : Q) : midi :=
  Midi (activeNotes s) (upd (noteOnTimes s) n (u32 (internalClock s + u32 d)))
    (noteOffTimes s) (upd (noteStates s) n true) (upd (lastNoteVelocities s) n vel)
    (if 0 <=? lastNotePlayed s then lastNoteVelocities s (lastNotePlayed s)
     else velocityOverride s) n
    (ccEvents s) (pitchEvents s) (channelAftertouchEvents s)
    (polyAftertouchEvents s) (currentProgram s) (alternate s) (internalClock s).
Definition keydelta_of (s : midi) (n : Z) : Z :=
  if 0 <=? lastNotePlayed s then n - lastNotePlayed s else 0.
(** [activeNotes++]. *)
Definition add_active (s : midi) : midi :=
  Midi (activeNotes s + 1) (noteOnTimes s) (noteOffTimes s) (noteStates s)
    (lastNoteVelocities s) (velocityOverride s) (lastNotePlayed s) (ccEvents s)
    (pitchEvents s) (channelAftertouchEvents s) (polyAftertouchEvents s)
    (currentProgram s) (alternate s) (internalClock s).
Definition flip_alternate (s : midi) : midi :=
  Midi (activeNotes s) (noteOnTimes s) (noteOffTimes s) (noteStates s)
    (lastNoteVelocities s) (velocityOverride s) (lastNotePlayed s) (ccEvents s)
    (pitchEvents s) (channelAftertouchEvents s) (polyAftertouchEvents s)
    (currentProgram s) (if Qeq_bool (alternate s) 0 then 1%Q else 0%Q) (internalClock s).
Definition noteOnEvent (s : midi) (d n : Z) (vel r1 r2 : Q) : option midi :=
  if (0 <=? n) && (n <? 128) then
    s1 <- ccEvent (noteOn_before s d n vel) d cc_noteOnVelocity vel ;;
    s2 <- ccEvent s1 d cc_keyboardNoteNumber (normalize7Bits n) ;;
    s3 <- ccEvent s2 d cc_unipolarRandom r1 ;;
    s4 <- ccEvent s3 d cc_bipolarRandom r2 ;;
    s5 <- ccEvent s4 d cc_keyboardNoteGate (if 0 <? activeNotes s4 then 1%Q else 0%Q) ;;
    s6 <- ccEvent s5 d cc_keydelta (inject_Z (keydelta_of s n)) ;;
    s7 <- ccEvent s6 d cc_absoluteKeydelta (inject_Z (Z.abs (keydelta_of s n))) ;;
    s9 <- ccEvent (add_active s7) d cc_alternate (alternate s7) ;;
    Some (flip_alternate s9)
  else Some s.

(** noteOffEvent, 49-66. *)
Definition noteOff_before (s : midi) (d n : Z) : midi :=
  Midi (activeNotes s) (noteOnTimes s)
    (upd (noteOffTimes s) n (u32 (internalClock s + u32 d))) (noteStates s)
    (lastNoteVelocities s) (velocityOverride s) (lastNotePlayed s)
    (ccEvents s) (pitchEvents s) (channelAftertouchEvents s)
    (polyAftertouchEvents s) (currentProgram s) (alternate s) (internalClock s).
Definition noteOff_after (s : midi) (n : Z) : midi :=
  Midi (if 0 <? activeNotes s then activeNotes s - 1 else activeNotes s)
    (noteOnTimes s) (noteOffTimes s) (upd (noteStates s) n false)
    (lastNoteVelocities s) (velocityOverride s) (lastNotePlayed s) (ccEvents s)
    (pitchEvents s) (channelAftertouchEvents s) (polyAftertouchEvents s)
    (currentProgram s) (alternate s) (internalClock s).
Definition noteOffEvent (s : midi) (d n : Z) (vel r1 r2 : Q) : option midi :=
  if (0 <=? n) && (n <? 128) then
    s1 <- ccEvent (noteOff_before s d n) d cc_noteOffVelocity vel ;;
    s2 <- ccEvent s1 d cc_keyboardNoteNumber (normalize7Bits n) ;;
    s3 <- ccEvent s2 d cc_unipolarRandom r1 ;;
    s4 <- ccEvent s3 d cc_bipolarRandom r2 ;;
    Some (noteOff_after s4 n)
  else Some s.

(** allNotesOff, 68-72; [rs] gives the random draws of each note. *)
Fixpoint allNotesOff_from (s : midi) (d n : Z) (rs : list (Q * Q)) : option midi :=
  match rs with
  | [] => Some s
  | (r1, r2) :: rs' =>
    s' <- noteOffEvent s d n 0%Q r1 r2 ;; allNotesOff_from s' d (n + 1) rs'
  end.
(** The loop runs over notes 0 to 127. *)
Definition allNotesOff (s : midi) (d : Z) (rand : nat -> Q * Q) : option midi :=
  allNotesOff_from s d 0 (map rand (seq 0 128)).

(** flushEvents' flushEventVector, 90-95: the last value becomes the only event. *)
Definition flushVector (l : list event) : option (list event) :=
  match l with
  | [] => None (* front() of an empty vector *)
  | e :: r => Some [Ev 0 (e_value (last r e))]
  end.
Definition flushTotal (l : list event) : list event :=
  match flushVector l with Some x => x | None => l end.
Definition all_flushable (f : Z -> list event) (n : Z) : bool :=
  forallb (fun k => match f (Z.of_nat k) with [] => false | _ => true end) (seq 0 (Z.to_nat n)).

(** flushEvents, 88-105. *)
Definition flushEvents (s : midi) : option midi :=
  if all_flushable (ccEvents s) numCCs && all_flushable (polyAftertouchEvents s) 128
     && match pitchEvents s, channelAftertouchEvents s with
        | _ :: _, _ :: _ => true | _, _ => false end
  then
    Some (Midi (activeNotes s) (noteOnTimes s) (noteOffTimes s) (noteStates s)
            (lastNoteVelocities s) (velocityOverride s) (lastNotePlayed s)
            (fun k => flushTotal (ccEvents s k)) (flushTotal (pitchEvents s))
            (flushTotal (channelAftertouchEvents s))
            (fun k => flushTotal (polyAftertouchEvents s k))
            (currentProgram s) (alternate s) (internalClock s))
  else None.

Definition set_clock (s : midi) (c : Z) : midi :=
  Midi (activeNotes s) (noteOnTimes s) (noteOffTimes s) (noteStates s)
    (lastNoteVelocities s) (velocityOverride s) (lastNotePlayed s) (ccEvents s)
    (pitchEvents s) (channelAftertouchEvents s) (polyAftertouchEvents s)
    (currentProgram s) (alternate s) c.

(** advanceTime, 82-86. *)
Definition advanceTime (s : midi) (n : Z) : option midi :=
  flushEvents (set_clock s (u32 (internalClock s + n))).

(** setSampleRate, 74-80 (the rate itself only matters for converting to seconds). *)
Definition setSampleRate (s : midi) : midi :=
  Midi (activeNotes s) (fun _ => 0) (fun _ => 0) (noteStates s)
    (lastNoteVelocities s) (velocityOverride s) (lastNotePlayed s) (ccEvents s)
    (pitchEvents s) (channelAftertouchEvents s) (polyAftertouchEvents s)
    (currentProgram s) (alternate s) 0.

(** pitchBendEvent, 161-165. *)
Definition pitchBendEvent (s : midi) (d : Z) (v : Q) : midi :=
  Midi (activeNotes s) (noteOnTimes s) (noteOffTimes s) (noteStates s)
    (lastNoteVelocities s) (velocityOverride s) (lastNotePlayed s) (ccEvents s)
    (insertEvent (pitchEvents s) d v) (channelAftertouchEvents s) (polyAftertouchEvents s)
    (currentProgram s) (alternate s) (internalClock s).
(** channelAftertouchEvent, 173-177. *)
Definition channelAftertouchEvent (s : midi) (d : Z) (v : Q) : midi :=
  Midi (activeNotes s) (noteOnTimes s) (noteOffTimes s) (noteStates s)
    (lastNoteVelocities s) (velocityOverride s) (lastNotePlayed s) (ccEvents s)
    (pitchEvents s) (insertEvent (channelAftertouchEvents s) d v) (polyAftertouchEvents s)
    (currentProgram s) (alternate s) (internalClock s).
(** polyAftertouchEvent, 179-186. *)
Definition polyAftertouchEvent (s : midi) (d n : Z) (v : Q) : midi :=
  if (n <? 0) || (128 <=? n) then s
  else
    Midi (activeNotes s) (noteOnTimes s) (noteOffTimes s) (noteStates s)
      (lastNoteVelocities s) (velocityOverride s) (lastNotePlayed s) (ccEvents s)
      (pitchEvents s) (channelAftertouchEvents s)
      (upd (polyAftertouchEvents s) n (insertEvent (polyAftertouchEvents s n) d v))
      (currentProgram s) (alternate s) (internalClock s).
(** programChangeEvent, 301-306. *)
Definition programChangeEvent (s : midi) (p : Z) : midi :=
  Midi (activeNotes s) (noteOnTimes s) (noteOffTimes s) (noteStates s)
    (lastNoteVelocities s) (velocityOverride s) (lastNotePlayed s) (ccEvents s)
    (pitchEvents s) (channelAftertouchEvents s) (polyAftertouchEvents s)
    p (alternate s) (internalClock s).

(** resetNoteStates, 225-251. *)
Definition resetNoteStates (s : midi) : midi :=
  let set f k := upd f k [Ev 0 0%Q] in
  Midi 0 (fun _ => 0) (fun _ => 0) (fun _ => false) (fun _ => 0%Q) 0%Q (-1)
    (set (set (set (set (set (set (ccEvents s) cc_noteOnVelocity) cc_keyboardNoteNumber)
       cc_unipolarRandom) cc_bipolarRandom) cc_keyboardNoteGate) cc_alternate)
    (pitchEvents s) (channelAftertouchEvents s) (polyAftertouchEvents s)
    (currentProgram s) 0%Q 0.
(** resetEventStates, 253-268. *)
Definition resetEventStates (s : midi) : midi :=
  Midi (activeNotes s) (noteOnTimes s) (noteOffTimes s) (noteStates s)
    (lastNoteVelocities s) (velocityOverride s) (lastNotePlayed s)
    (fun _ => [Ev 0 0%Q]) [Ev 0 0%Q] [Ev 0 0%Q] (fun _ => [Ev 0 0%Q])
    (currentProgram s) (alternate s) (internalClock s).

(** Constructor, 11-15, on default member values (velocityOverride is set by
    resetNoteStates). *)
Definition midi_init : midi :=
  resetNoteStates (resetEventStates
    (Midi 0 (fun _ => 0) (fun _ => 0) (fun _ => false) (fun _ => 0%Q) 0%Q (-1)
       (fun _ => []) [] [] (fun _ => []) 0 0%Q 0)).

(** * Queries *)
(** getCCValue, 208-212. *)
Definition getCCValue (s : midi) (cc : Z) : option Q :=
  if (0 <=? cc) && (cc <? numCCs) then
    match ccEvents s cc with [] => None | e :: r => Some (e_value (last r e)) end
  else None.
(** lower_bound by contract. *)
Definition lower_bound (l : list event) (d : Z) : option event :=
  find (fun e => negb (e_delay e <? d)) l.
(** getCCValueAt, 214-223. *)
Definition getCCValueAt (s : midi) (cc d : Z) : option Q :=
  if (0 <=? cc) && (cc <? numCCs) then
    match lower_bound (ccEvents s cc) d with
    | Some e => Some (e_value e)
    | None => getCCValue s cc
    end
  else None.
(** getNoteDuration, 125-138, in samples. *)
Definition noteDurationSamples (s : midi) (n d : Z) : Z :=
  if (n <? 0) || (128 <=? n) then 0
  else u32 (internalClock s + u32 d - noteOnTimes s n).

(** * Histories: every public mutator. *)
Inductive mop :=
| MNoteOn (d n : Z) (vel r1 r2 : Q)
| MNoteOff (d n : Z) (vel r1 r2 : Q)
| MAllNotesOff (d : Z) (rand : nat -> Q * Q)
| MCC (d cc : Z) (v : Q)
| MPitch (d : Z) (v : Q)
| MChanAT (d : Z) (v : Q)
| MPolyAT (d n : Z) (v : Q)
| MProgram (p : Z)
| MAdvance (n : Z)
| MFlush
| MSetRate
| MResetNotes
| MResetEvents.

Definition mstep (s : midi) (o : mop) : option midi :=
  match o with
  | MNoteOn d n v r1 r2 => noteOnEvent s d n v r1 r2
  | MNoteOff d n v r1 r2 => noteOffEvent s d n v r1 r2
  | MAllNotesOff d rand => allNotesOff s d rand
  | MCC d cc v => ccEvent s d cc v
  | MPitch d v => Some (pitchBendEvent s d v)
  | MChanAT d v => Some (channelAftertouchEvent s d v)
  | MPolyAT d n v => Some (polyAftertouchEvent s d n v)
  | MProgram p => Some (programChangeEvent s p)
  | MAdvance n => advanceTime s n
  | MFlush => flushEvents s
  | MSetRate => Some (setSampleRate s)
  | MResetNotes => Some (resetNoteStates s)
  | MResetEvents => Some (resetEventStates s)
  end.
Fixpoint mrun (s : midi) (os : list mop) : option midi :=
  match os with
  | [] => Some s
  | o :: os' => s' <- mstep s o ;; mrun s' os'
  end.
