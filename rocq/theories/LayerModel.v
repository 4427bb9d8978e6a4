(** Transcription of src/sfizz/Layer.cpp and of the event dispatch of src/sfizz/Synth.cpp
    (note on/off, controllers, keyswitches, delayed releases).

    Floats are rationals: this code only copies and compares them.
    Not modelled here: voices.  What the dispatch asks the voices is given by oracles that the
    theorems quantify over: whether an attack voice is playing, whether the timer range is
    met, and which notes are choked (a choke calls noteOffDispatch again). *)
From Coq Require Import ZArith QArith List Bool Lia.
From Verif Require Import MidiModel.
Import ListNotations.
Local Open Scope Z_scope.

(** Trigger, Defaults.h. *)
Inductive trigger := TAttack | TRelease | TReleaseKey | TFirst | TLegato.

(** The members of Region used for activation, Region.h 276-313 and 386-387.  CCMaps are
    association lists. *)
Record region := Region {
  keyLo : Z; keyHi : Z;
  velLo : Q; velHi : Q;
  bendLo : Q; bendHi : Q;
  progLo : Z; progHi : Z;
  ccConditions : list (Z * (Q * Q));
  lastKeyswitch : option Z;
  lastKeyswitchRange : option (Z * Z);
  upKeyswitch : option Z;
  downKeyswitch : option Z;
  previousKeyswitch : option Z;
  usesKeySwitches : bool;
  usesPreviousKeySwitches : bool;
  usesSequenceSwitches : bool;
  velocityPrevious : bool;
  checkSustain : bool;
  checkSostenuto : bool;
  sustainCC : Z;
  sostenutoCC : Z;
  sustainThreshold : Q;
  sostenutoThreshold : Q;
  aftLo : Q; aftHi : Q;
  polyLo : Q; polyHi : Q;
  bpmLo : Q; bpmHi : Q;
  randLo : Q; randHi : Q;
  seqLength : Z;
  seqPosition : Z;
  trig : trigger;
  ccTriggers : list (Z * (Q * Q));
  triggerOnCC : bool;
  triggerOnNote : bool;
  rtDead : bool;
  useTimerRange : bool }.

(** UncheckedRange::containsWithEnd, Range.h 92; contains, 100; isValid, 70. *)
Definition inQ (lo hi v : Q) : bool := Qle_bool lo v && Qle_bool v hi.
Definition inZ (lo hi v : Z) : bool := (lo <=? v) && (v <=? hi).
Definition inQ_open (lo hi v : Q) : bool := Qle_bool lo v && negb (Qle_bool hi v).

(** CCMap::get, CCMap.h (the association list has one entry per number). *)
Definition cc_get (m : list (Z * (Q * Q))) (cc : Z) : option (Q * Q) :=
  match find (fun p => fst p =? cc) m with Some p => Some (snd p) | None => None end.

(** Layer members, Layer.h 130-165. *)
Record layer := Layer {
  l_sustain : bool;
  l_sosten : bool;
  l_dsus : list (Z * Q);
  l_dsos : list (Z * Q);
  l_key : bool;
  l_prev : bool;
  l_seq : bool;
  l_pitch : bool;
  l_prog : bool;
  l_bpm : bool;
  l_aft : bool;
  l_cc : Z -> bool;
  l_counter : Z }.

Definition set_sustain l b := Layer b (l_sosten l) (l_dsus l) (l_dsos l) (l_key l) (l_prev l)
  (l_seq l) (l_pitch l) (l_prog l) (l_bpm l) (l_aft l) (l_cc l) (l_counter l).
Definition set_sosten l b := Layer (l_sustain l) b (l_dsus l) (l_dsos l) (l_key l) (l_prev l)
  (l_seq l) (l_pitch l) (l_prog l) (l_bpm l) (l_aft l) (l_cc l) (l_counter l).
Definition set_dsus l d := Layer (l_sustain l) (l_sosten l) d (l_dsos l) (l_key l) (l_prev l)
  (l_seq l) (l_pitch l) (l_prog l) (l_bpm l) (l_aft l) (l_cc l) (l_counter l).
Definition set_dsos l d := Layer (l_sustain l) (l_sosten l) (l_dsus l) d (l_key l) (l_prev l)
  (l_seq l) (l_pitch l) (l_prog l) (l_bpm l) (l_aft l) (l_cc l) (l_counter l).
Definition set_key l b := Layer (l_sustain l) (l_sosten l) (l_dsus l) (l_dsos l) b (l_prev l)
  (l_seq l) (l_pitch l) (l_prog l) (l_bpm l) (l_aft l) (l_cc l) (l_counter l).
Definition set_prev l b := Layer (l_sustain l) (l_sosten l) (l_dsus l) (l_dsos l) (l_key l) b
  (l_seq l) (l_pitch l) (l_prog l) (l_bpm l) (l_aft l) (l_cc l) (l_counter l).
Definition set_seq l b c := Layer (l_sustain l) (l_sosten l) (l_dsus l) (l_dsos l) (l_key l)
  (l_prev l) b (l_pitch l) (l_prog l) (l_bpm l) (l_aft l) (l_cc l) c.
Definition set_pitch l b := Layer (l_sustain l) (l_sosten l) (l_dsus l) (l_dsos l) (l_key l)
  (l_prev l) (l_seq l) b (l_prog l) (l_bpm l) (l_aft l) (l_cc l) (l_counter l).
Definition set_prog l b := Layer (l_sustain l) (l_sosten l) (l_dsus l) (l_dsos l) (l_key l)
  (l_prev l) (l_seq l) (l_pitch l) b (l_bpm l) (l_aft l) (l_cc l) (l_counter l).
Definition set_bpm l b := Layer (l_sustain l) (l_sosten l) (l_dsus l) (l_dsos l) (l_key l)
  (l_prev l) (l_seq l) (l_pitch l) (l_prog l) b (l_aft l) (l_cc l) (l_counter l).
Definition set_aft l b := Layer (l_sustain l) (l_sosten l) (l_dsus l) (l_dsos l) (l_key l)
  (l_prev l) (l_seq l) (l_pitch l) (l_prog l) (l_bpm l) b (l_cc l) (l_counter l).
Definition set_cc_bits l f := Layer (l_sustain l) (l_sosten l) (l_dsus l) (l_dsos l) (l_key l)
  (l_prev l) (l_seq l) (l_pitch l) (l_prog l) (l_bpm l) (l_aft l) f (l_counter l).

(** initializeActivations, Layer.cpp 31-43, on a fresh layer. *)
Definition layer_init (r : region) : layer :=
  Layer false false [] [] (negb (usesKeySwitches r)) (negb (usesPreviousKeySwitches r))
    (negb (usesSequenceSwitches r)) true true true true (fun _ => true) 0.

(** std::bitset<512>::all. *)
Definition bits_all (f : Z -> bool) : bool :=
  forallb (fun k => f (Z.of_nat k)) (seq 0 512).
(** isSwitchedOn, 45-49. *)
Definition isSwitchedOn (l : layer) : bool :=
  l_key l && l_prev l && l_seq l && l_pitch l && l_prog l && l_bpm l && l_aft l
  && bits_all (l_cc l).

(** MidiState getters: getPolyAftertouch 194-201, getNoteVelocity and isNotePressed
    (MidiState.h; the index is in range on every path), getCCValue. *)
Definition last_value (l : list event) : Q :=
  match l with [] => 0%Q | e :: r => e_value (last r e) end.
Definition getPolyAftertouch (m : midi) (n : Z) : Q :=
  if (n <? 0) || (127 <? n) then 0%Q else last_value (polyAftertouchEvents m n).
Definition ccValue (m : midi) (cc : Z) : Q := last_value (ccEvents m cc).

(** A signed 32-bit increment; beyond the maximum it wraps (undefined in C++). *)
Definition incr32 (c : Z) : Z := if c =? 2 ^ 31 - 1 then - 2 ^ 31 else c + 1.
(** 57-61: [(sequenceCounter_++ % length) == position - 1], with C++'s remainder. *)
Definition count_sequence (r : region) (l : layer) : layer :=
  set_seq l (Z.rem (l_counter l) (seqLength r) =? seqPosition r - 1) (incr32 (l_counter l)).

Definition randOk (r : region) (v : Q) : bool :=
  inQ_open (randLo r) (randHi r) v
  || (Qle_bool 1 v && Qle_bool (randLo r) (randHi r) && Qle_bool 1 (randHi r)).

(** registerNoteOn, 51-83. *)
Definition registerNoteOn (r : region) (m : midi) (n : Z) (vel rnd : Q) (l : layer)
  : layer * bool :=
  let keyOk := inZ (keyLo r) (keyHi r) n in
  let l1 := if keyOk then count_sequence r l else l in
  if negb (isSwitchedOn l1) || negb (inQ (polyLo r) (polyHi r) (getPolyAftertouch m n))
  then (l1, false)
  else if negb (triggerOnNote r) then (l1, false)
  else
    let v := if velocityPrevious r then velocityOverride m else vel in
    (l1, keyOk && inQ (velLo r) (velHi r) v && randOk r rnd &&
         match trig r with
         | TAttack => true
         | TFirst => activeNotes m =? 1
         | TLegato => 1 <? activeNotes m
         | _ => false
         end).

(** delayedReleaseVoices, Config.h 166; the vectors are reserved in Synth.cpp 229-235 (the
    capacity after [reserve] is taken to be exactly the reserved size). *)
Definition release_capacity (r : region) : Z :=
  match trig r with
  | TRelease => Z.max 16 ((keyHi r - keyLo r) mod 256)
  | _ => 0
  end.
Definition push_capped (r : region) (d : list (Z * Q)) (x : Z * Q) : list (Z * Q) :=
  if Z.of_nat (length d) =? release_capacity r then d else d ++ [x].
(** delaySustainRelease, 215-221; delaySostenutoRelease, 223-229. *)
Definition delaySustainRelease (r : region) (n : Z) (v : Q) (l : layer) : layer :=
  set_dsus l (push_capped r (l_dsus l) (n, v)).
Definition delaySostenutoRelease (r : region) (n : Z) (v : Q) (l : layer) : layer :=
  set_dsos l (push_capped r (l_dsos l) (n, v)).

(** swapAndPopFirst, utility/SwapAndPop.h: the first match is replaced by the last element. *)
Fixpoint index_of (n : Z) (d : list (Z * Q)) : option nat :=
  match d with
  | [] => None
  | x :: r => if fst x =? n then Some O else option_map S (index_of n r)
  end.
Definition swap_pop_first (n : Z) (d : list (Z * Q)) : list (Z * Q) :=
  match index_of n d with
  | None => d
  | Some k =>
    let lastx := last d (0, 0%Q) in
    removelast (firstn k d ++ lastx :: skipn (S k) d)
  end.
(** isNoteSostenutoed, 256-261. *)
Definition isNoteSostenutoed (n : Z) (l : layer) : bool :=
  existsb (fun x => fst x =? n) (l_dsos l).

(** registerNoteOff, 85-132. *)
Definition registerNoteOff (r : region) (m : midi) (n : Z) (vel rnd : Q) (l : layer)
  : layer * bool :=
  if negb (isSwitchedOn l) || negb (inQ (polyLo r) (polyHi r) (getPolyAftertouch m n))
  then (l, false)
  else if negb (triggerOnNote r) then (l, false)
  else if negb (inQ (velLo r) (velHi r) vel && inZ (keyLo r) (keyHi r) n && randOk r rnd)
  then (l, false)
  else
    match trig r with
    | TReleaseKey => (l, true)
    | TRelease =>
      let sostenutoed := isNoteSostenutoed n l in
      let l1 :=
        if sostenutoed && negb (l_sosten l) then
          let l' := set_dsos l (swap_pop_first n (l_dsos l)) in
          if l_sustain l then delaySustainRelease r n (lastNoteVelocities m n) l' else l'
        else l in
      if negb (l_sosten l1) || negb sostenutoed then
        if l_sustain l1 then (delaySustainRelease r n (lastNoteVelocities m n) l1, false)
        else (l1, true)
      else (l1, false)
    | _ => (l, false)
    end.

(** storeSostenutoNotes, 238-246. *)
Definition note_range (lo hi : Z) : list Z :=
  map (fun k => lo + Z.of_nat k) (seq 0 (Z.to_nat (hi - lo + 1))).
Definition storeSostenutoNotes (r : region) (m : midi) (l : layer) : layer :=
  fold_left (fun l n => if noteStates m n
                        then delaySostenutoRelease r n (lastNoteVelocities m n) l else l)
            (note_range (keyLo r) (keyHi r)) l.

(** updateCCState, 134-158: the pedals... *)
Definition update_sustain (r : region) (cc : Z) (v : Q) (l : layer) : layer :=
  if cc =? sustainCC r then set_sustain l (checkSustain r && Qle_bool (sustainThreshold r) v)
  else l.
Definition update_sostenuto (r : region) (m : midi) (cc : Z) (v : Q) (l : layer) : layer :=
  if cc =? sostenutoCC r then
    let ns := checkSostenuto r && Qle_bool (sostenutoThreshold r) v in
    let l1 := if negb (l_sosten l) && ns then storeSostenutoNotes r m l else l in
    let l2 := if negb ns && l_sosten l1 then set_dsos l1 [] else l1 in
    set_sosten l2 ns
  else l.
(** ...and the condition bits. *)
Definition update_bits (r : region) (cc : Z) (v : Q) (l : layer) : layer :=
  match cc_get (ccConditions r) cc with
  | None => l
  | Some (lo, hi) => set_cc_bits l (upd (l_cc l) cc (inQ lo hi v))
  end.
Definition updateCCState (r : region) (m : midi) (cc : Z) (v : Q) (l : layer) : layer :=
  update_bits r cc v (update_sostenuto r m cc v (update_sustain r cc v l)).

Definition cc_polyphonicAftertouch := 130.
(** registerCC, 160-192.  Its comparison with the previous value uses the MIDI state before
    the event is recorded. *)
Definition registerCC (r : region) (m : midi) (cc : Z) (v rnd : Q) (ext : Z) (l : layer)
  : layer * bool :=
  let l1 := updateCCState r m cc v l in
  if negb (triggerOnCC r) then (l1, false)
  else if negb (randOk r rnd) then (l1, false)
  else
    match cc_get (ccTriggers r) cc with
    | None => (l1, false)
    | Some (lo, hi) =>
      if negb (inQ lo hi v) then (l1, false)
      else if (cc =? cc_polyphonicAftertouch) && (0 <=? ext)
              && negb (inZ (keyLo r) (keyHi r) ext) then (l1, false)
      else
        let l2 := count_sequence r l1 in
        (l2, isSwitchedOn l2 &&
             ((cc =? cc_polyphonicAftertouch) || negb (Qeq_bool v (ccValue m cc))))
    end.

(** registerPitchWheel 194, registerProgramChange 199, registerAftertouch 204, registerTempo
    209 (the division 60 / secondsPerQuarter is done by the caller of the model). *)
Definition registerPitchWheel (r : region) (v : Q) (l : layer) : layer :=
  set_pitch l (inQ (bendLo r) (bendHi r) v).
Definition registerProgramChange (r : region) (p : Z) (l : layer) : layer :=
  set_prog l (inZ (progLo r) (progHi r) p).
Definition registerAftertouch (r : region) (v : Q) (l : layer) : layer :=
  set_aft l (inQ (aftLo r) (aftHi r) v).
Definition registerTempo (r : region) (bpm : Q) (l : layer) : layer :=
  set_bpm l (inQ (bpmLo r) (bpmHi r) bpm).

(** * Dispatch, Synth.cpp *)

(** What the dispatch asks to start: startVoice, 1300-1312 (finding a voice is not here). *)
Inductive ev_type := ENoteOn | ENoteOff | ECC.
Record start := Start { st_layer : nat; st_type : ev_type; st_num : Z; st_val : Q }.

(** Synth::Impl members used: midi state, layers with their regions, currentSwitch_.
    [s_out] accumulates the starts. *)
Record sys := Sys {
  s_midi : midi;
  s_layers : list (region * layer);
  s_switch : option Z;
  s_out : list start }.

Definition with_layers s ls := Sys (s_midi s) ls (s_switch s) (s_out s).
Definition with_midi s m := Sys m (s_layers s) (s_switch s) (s_out s).
Definition emit s x := Sys (s_midi s) (s_layers s) (s_switch s) (s_out s ++ [x]).

(** Apply to the layer at index [k]. *)
Fixpoint map_at {A} (k : nat) (f : A -> A) (l : list A) : list A :=
  match l, k with
  | [], _ => []
  | x :: r, O => f x :: r
  | x :: r, S k' => x :: map_at k' f r
  end.
Definition on_layer (k : nat) (f : region -> layer -> layer) (s : sys) : sys :=
  with_layers s (map_at k (fun p => (fst p, f (fst p) (snd p))) (s_layers s)).
Definition all_layers (f : region -> layer -> layer) (s : sys) : sys :=
  with_layers s (map (fun p => (fst p, f (fst p) (snd p))) (s_layers s)).

(** Membership in lastKeyswitchLists_[n], filled in Synth.cpp 195-202. *)
Definition in_last_list (r : region) (n : Z) : bool :=
  match lastKeyswitch r with Some k => k =? n | None => false end
  || match lastKeyswitchRange r with Some (lo, hi) => inZ lo hi n | None => false end.
(** upKeyswitchLists_, downKeyswitchLists_, 204-208. *)
Definition in_up_list (r : region) (n : Z) : bool :=
  match upKeyswitch r with Some k => k =? n | None => false end.
Definition in_down_list (r : region) (n : Z) : bool :=
  match downKeyswitch r with Some k => k =? n | None => false end.
Definition is_last_switch (s : sys) (n : Z) : bool :=
  existsb (fun p => in_last_list (fst p) n) (s_layers s).

(** Keyswitch updates of noteOffDispatch, 1331-1335. *)
Definition switch_off (n : Z) (r : region) (l : layer) : layer :=
  let l1 := if in_up_list r n then set_key l true else l in
  if in_down_list r n then set_key l1 false else l1.
(** Keyswitch updates of noteOnDispatch, 1355-1370. *)
Definition switch_on (cur : option Z) (is_switch : bool) (n : Z) (r : region) (l : layer)
  : layer :=
  let l0 := match cur with
            | Some c => if is_switch && negb (c =? n) && in_last_list r c
                        then set_key l false else l
            | None => l
            end in
  let l1 := if in_last_list r n then set_key l0 true else l0 in
  let l2 := if in_up_list r n then set_key l1 false else l1 in
  if in_down_list r n then set_key l2 true else l2.

(** One layer of the loop of noteOffDispatch, 1337-1346; [att] answers playingAttackVoice.
    The layers of noteActivationLists_[n] are those whose key range contains [n]
    (Synth.cpp 835-838), in order.  The boolean tells that checkOffGroups runs. *)
Definition off_layer (k : nat) (n : Z) (vel rnd : Q) (att : bool) (s : sys) : sys * bool :=
  match nth_error (s_layers s) k with
  | None => (s, false)
  | Some (r, l) =>
    if negb (inZ (keyLo r) (keyHi r) n) then (s, false)
    else
      let '(l', t) := registerNoteOff r (s_midi s) n vel rnd l in
      let s' := on_layer k (fun _ _ => l') s in
      (s', t && negb (match trig r with TRelease => negb (rtDead r) && negb att
                                      | _ => false end))
  end.

(** A choke: noteOffDispatch called by checkOffGroups (1314-1323) for the note of a choked
    voice, with its own random value and answers about attack voices; [subs] lists, for each
    layer in order, the chokes this dispatch causes in turn. *)
Inductive choke := Choke (n : Z) (vel rnd : Q) (att : nat -> bool) (subs : list (list choke)).

(** noteOffDispatch, 1325-1348.  checkOffGroups happens before startVoice. *)
Fixpoint noteOffDispatch (c : choke) (s : sys) {struct c} : sys :=
  match c with
  | Choke n vel rnd att subs =>
    (fix loop (subs : list (list choke)) (k : nat) (s : sys) {struct subs} : sys :=
       match subs with
       | [] =>
         fold_left (fun s k =>
             let '(s1, t) := off_layer k n vel rnd (att k) s in
             if t then emit s1 (Start k ENoteOff n vel) else s1)
           (seq k (length (s_layers s) - k)) s
       | cs :: subs' =>
         let '(s1, t) := off_layer k n vel rnd (att k) s in
         let s2 :=
           if t then
             emit ((fix go (cs : list choke) (s : sys) {struct cs} : sys :=
                      match cs with
                      | [] => s
                      | c :: cs' => go cs' (noteOffDispatch c s)
                      end) cs s1) (Start k ENoteOff n vel)
           else s1 in
         loop subs' (S k) s2
       end) subs O (all_layers (switch_off n) s)
  end.
Definition run_chokes (cs : list choke) (s : sys) : sys :=
  fold_left (fun s c => noteOffDispatch c s) cs s.

(** noteOnDispatch, 1350-1388; [tim] answers withinValidTimerRange, [chk] gives the chokes of
    each layer. *)
Definition on_layer_loop (n : Z) (vel rnd : Q) (tim : nat -> bool) (chk : nat -> list choke)
  (s : sys) (k : nat) : sys :=
  match nth_error (s_layers s) k with
  | None => s
  | Some (r, l) =>
    if negb (inZ (keyLo r) (keyHi r) n) then s
    else
      let '(l', t) := registerNoteOn r (s_midi s) n vel rnd l in
      let s1 := on_layer k (fun _ _ => l') s in
      if t && negb (useTimerRange r && negb (tim k))
      then emit (run_chokes (chk k) s1) (Start k ENoteOn n vel)
      else s1
  end.
Definition register_prev (n : Z) (r : region) (l : layer) : layer :=
  match previousKeyswitch r with Some k => set_prev l (k =? n) | None => l end.
Definition noteOnDispatch (n : Z) (vel rnd : Q) (tim : nat -> bool) (chk : nat -> list choke)
  (s : sys) : sys :=
  let is_sw := is_last_switch s n in
  let s1 := all_layers (switch_on (s_switch s) is_sw n) s in
  let s2 := if is_sw then Sys (s_midi s1) (s_layers s1) (Some n) (s_out s1) else s1 in
  let s3 := fold_left (on_layer_loop n vel rnd tim chk) (seq 0 (length (s_layers s2))) s2 in
  all_layers (register_prev n) s3.

(** ccActivationLists_, 840-846. *)
Definition in_cc_list (r : region) (cc : Z) : bool :=
  match cc_get (ccTriggers r) cc with Some _ => true | None => false end
  || match cc_get (ccConditions r) cc with Some _ => true | None => false end
  || match trig r with TRelease => (cc =? sustainCC r) || (cc =? sostenutoCC r) | _ => false end.

Definition emit_all (k : nat) (d : list (Z * Q)) (s : sys) : sys :=
  fold_left (fun s x => emit s (Start k ENoteOff (fst x) (snd x))) d s.
(** startDelayedSustainReleases, 1390-1405; [att] answers playingAttackVoice. *)
Definition startDelayedSustain (k : nat) (r : region) (l : layer) (att : bool) (s : sys) : sys :=
  on_layer k (fun _ l => set_dsus l [])
    (if negb (rtDead r) && negb att then s else emit_all k (l_dsus l) s).
(** startDelayedSostenutoReleases, 1407-1421. *)
Definition startDelayedSostenuto (k : nat) (r : region) (l : layer) (att : bool) (s : sys) : sys :=
  on_layer k (fun _ l => set_dsos l [])
    (if negb (rtDead r) && negb att then s else emit_all k (l_dsos l) s).

(** The pedal part of the loop of ccDispatch, 1435-1450. *)
Definition cc_sustain_part (cc : Z) (v : Q) (att : nat -> bool) (s : sys) (k : nat) : sys :=
  match nth_error (s_layers s) k with
  | None => s
  | Some (r, l) =>
    if checkSustain r && (cc =? sustainCC r) && negb (Qle_bool (sustainThreshold r) v)
    then startDelayedSustain k r l (att k) s else s
  end.
Definition cc_sostenuto_part (cc : Z) (v : Q) (att : nat -> bool) (s : sys) (k : nat) : sys :=
  match nth_error (s_layers s) k with
  | None => s
  | Some (r, l) =>
    if checkSostenuto r && (cc =? sostenutoCC r) && negb (Qle_bool (sostenutoThreshold r) v)
    then
      if l_sustain l then
        on_layer k (fun r l =>
          set_dsos (fold_left (fun l x => delaySustainRelease r (fst x) (snd x) l)
                              (l_dsos l) l) []) s
      else startDelayedSostenuto k r l (att k) s
    else s
  end.
(** registerCC and the start, 1452-1458.  checkOffGroups with chokedByCC set does not call
    noteOffDispatch. *)
Definition cc_register_part (cc : Z) (v rnd : Q) (ext : Z) (tim : nat -> bool) (s : sys)
  (k : nat) : sys :=
  match nth_error (s_layers s) k with
  | None => s
  | Some (r, l) =>
    let '(l', t) := registerCC r (s_midi s) cc v rnd ext l in
    let s1 := on_layer k (fun _ _ => l') s in
    if t && negb (useTimerRange r && negb (tim k)) then emit s1 (Start k ECC cc v) else s1
  end.
Definition cc_layer (cc : Z) (v rnd : Q) (ext : Z) (att1 att2 tim : nat -> bool) (s : sys)
  (k : nat) : sys :=
  match nth_error (s_layers s) k with
  | None => s
  | Some (r, _) =>
    if in_cc_list r cc then
      cc_register_part cc v rnd ext tim
        (cc_sostenuto_part cc v att2 (cc_sustain_part cc v att1 s k) k) k
    else s
  end.
(** ccDispatch, 1429-1460. *)
Definition ccDispatch (cc : Z) (v rnd : Q) (ext : Z) (att1 att2 tim : nat -> bool) (s : sys)
  : sys :=
  fold_left (cc_layer cc v rnd ext att1 att2 tim) (seq 0 (length (s_layers s))) s.

(** * The API *)

(** The oracles of one API call. *)
Record oracle := Oracle {
  o_rnd : Q; o_r1 : Q; o_r2 : Q;
  o_rands : nat -> Q * Q;
  o_att : nat -> bool;
  o_att2 : nat -> bool;
  o_tim : nat -> bool;
  o_chk : nat -> list choke;
  o_subs : list (list choke) }.

(** Synth.h: noteOn/hdNoteOn, noteOff/hdNoteOff, cc/hdcc, automateHdcc, pitchWheel,
    channelAftertouch, polyAftertouch, programChange, tempo, and renderBlock's end of block
    (midiState.advanceTime).  [defaults] is defaultCCValues_. *)
Inductive op :=
| ONoteOn (d n : Z) (vel : Q)
| ONoteOff (d n : Z) (vel : Q)
| OCC (d cc : Z) (v : Q)
| OAutomate (d cc : Z) (v : Q)
| OPitch (d : Z) (v : Q)
| OChanAT (d : Z) (v : Q)
| OPolyAT (d n : Z) (v : Q)
| OProgram (p : Z)
| OTempo (bpm : Q)
| OBlock (n : Z).

Definition opt_sys (s : sys) (m : option midi) (f : sys -> sys) : option sys :=
  match m with Some m' => Some (f (with_midi s m')) | None => None end.

(** performHdcc with asMidi false, 1496-1504. *)
Definition perform_cc (d cc : Z) (v : Q) (ext : Z) (o : oracle) (s : sys) : option sys :=
  let s1 := ccDispatch cc v (o_rnd o) ext (o_att o) (o_att2 o) (o_tim o) s in
  opt_sys s1 (ccEvent (s_midi s1) d cc v) (fun s => s).

(** resetAllControllers, 2119-2138. *)
Fixpoint reset_ccs (d : Z) (defaults : Z -> Q) (ccs : list Z) (m : midi) : option midi :=
  match ccs with
  | [] => Some m
  | cc :: r => match ccEvent m d cc (defaults cc) with
               | Some m' => reset_ccs d defaults r m'
               | None => None
               end
  end.
Definition all_ccs : list Z := map Z.of_nat (seq 0 512).
Definition update_all (m : midi) (vals : Z -> Q) (r : region) (l : layer) : layer :=
  fold_left (fun l cc => updateCCState r m cc (vals cc) l) all_ccs l.
Definition resetAllControllers (d : Z) (defaults : Z -> Q) (s : sys) : option sys :=
  match reset_ccs d defaults all_ccs (pitchBendEvent (s_midi s) d 0%Q) with
  | None => None
  | Some m => Some (all_layers (update_all m defaults) (with_midi s m))
  end.

Definition sstep (defaults : Z -> Q) (s : sys) (oo : op * oracle) : option sys :=
  let '(op, o) := oo in
  match op with
  | ONoteOn d n vel =>
    let go := noteOnDispatch n vel (o_rnd o) (o_tim o) (o_chk o) in
    if is_last_switch s n then Some (go s)
    else opt_sys s (noteOnEvent (s_midi s) d n vel (o_r1 o) (o_r2 o)) go
  | ONoteOff d n vel =>
    let go s := noteOffDispatch
      (Choke n (lastNoteVelocities (s_midi s) n) (o_rnd o) (o_att o) (o_subs o)) s in
    if is_last_switch s n then Some (go s)
    else opt_sys s (noteOffEvent (s_midi s) d n vel (o_r1 o) (o_r2 o)) go
  | OCC d cc v =>
    if cc =? 121 then resetAllControllers d defaults s
    else if (cc =? 123) || (cc =? 120)
    then opt_sys s (allNotesOff (s_midi s) d (o_rands o)) (fun s => s)
    else perform_cc d cc v (-1) o s
  | OAutomate d cc v => perform_cc d cc v (-1) o s
  | OPitch d v =>
    perform_cc d 128 v (-1) o
      (all_layers (fun r => registerPitchWheel r v) (with_midi s (pitchBendEvent (s_midi s) d v)))
  | OChanAT d v =>
    perform_cc d 129 v (-1) o
      (all_layers (fun r => registerAftertouch r v)
         (with_midi s (channelAftertouchEvent (s_midi s) d v)))
  | OPolyAT d n v =>
    perform_cc d 130 v n o (with_midi s (polyAftertouchEvent (s_midi s) d n v))
  | OProgram p =>
    Some (all_layers (fun r => registerProgramChange r p)
            (with_midi s (programChangeEvent (s_midi s) p)))
  | OTempo _ => Some s
  | OBlock n => opt_sys s (advanceTime (s_midi s) n) (fun s => s)
  end.

Fixpoint srun (defaults : Z -> Q) (s : sys) (os : list (op * oracle)) : option sys :=
  match os with
  | [] => Some s
  | o :: os' => match sstep defaults s o with Some s' => srun defaults s' os' | None => None end
  end.

(** * Loading: the per-layer part of buildRegion (194-239) and finalizeSfzLoad (815-876).
    [bps] is the beats per second of the clock, which is passed to registerTempo. *)
Definition finish_layer (m : midi) (sw : option Z) (bps : Q) (r : region) : layer :=
  let l0 := layer_init r in
  let l1 := match lastKeyswitch r, sw with
            | Some k, Some c => set_key l0 (c =? k)
            | _, _ => l0
            end in
  let l2 := match lastKeyswitchRange r, sw with
            | Some (lo, hi), Some c => set_key l1 (inZ lo hi c)
            | _, _ => l1
            end in
  let l3 := update_all m (ccValue m) r l2 in
  registerProgramChange r (currentProgram m)
    (registerTempo r (60 / bps)
       (registerAftertouch r (last_value (channelAftertouchEvents m))
          (registerPitchWheel r (last_value (pitchEvents m)) l3))).
Definition load (m : midi) (sw : option Z) (bps : Q) (rs : list region) : sys :=
  Sys m (map (fun r => (r, finish_layer m sw bps r)) rs) sw [].
