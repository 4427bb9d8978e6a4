(** Transcription of the voice management of sfizz: VoiceManager.cpp, VoiceStealing.cpp,
    PolyphonyGroup.cpp, RegionSet.cpp, SisterVoiceRing.h, the state machine of Voice.cpp, and
    the event dispatch of Synth.cpp with its voices.

    The layers and their activation are those of LayerModel.v.  Voices are numbered; pointers
    to voices are these numbers.  What depends on the audio (the end of an envelope, the power
    of a voice, a missing file) is given by an environment that the theorems quantify over.
    Times and ages are unbounded integers.  [None] stands for an endless loop. *)
From Coq Require Import ZArith QArith List Bool Lia.
From Verif Require Import ContainersModel MidiModel LayerModel.
Import ListNotations.
Local Open Scope Z_scope.

(** * Instruments *)

(** The members of Region used by voices, Region.h: group, offBy, polyphony, notePolyphony,
    selfMask (true for mask), disabled() (Region.cpp 1899), pitchKeycenter, whether loopMode is
    one_shot, timerRange, and the chain of parent sets, nearest first. *)
Record vinfo := VInfo {
  vi_group : Z;
  vi_offBy : option Z;
  vi_poly : Z;
  vi_notePoly : option Z;
  vi_mask : bool;
  vi_disabled : bool;
  vi_center : Z;
  vi_oneShot : bool;
  vi_timerLo : Q; vi_timerHi : Q;
  vi_sets : list nat }.

(** Stealing algorithms, VoiceStealing.h 19-23. *)
Inductive stealer := SFirst | SOldest | SEnvelope.

(** An instrument: its regions by number, the limits of the polyphony groups (256 unless set,
    PolyphonyGroup.h 70) and of the region sets, the sample rate, and
    SynthConfig::sustainCancelsRelease. *)
Record instr := Instr {
  i_region : nat -> region;
  i_info : nat -> vinfo;
  i_glimit : Z -> Z;
  i_slimit : nat -> Z;
  i_stealer : stealer;
  i_rate : Q;
  i_cancel : bool }.

(** * Voices *)

(** Voice::State, Voice.h. *)
Inductive vstate := VIdle | VPlaying | VClean.
(** TriggerEvent.h 17-22. *)
Record tevent := TE { te_type : ev_type; te_num : Z; te_val : Q }.
(** SustainState, SostenutoState and noteIsOff_, Voice.cpp 226-231. *)
Inductive sost := SoUp | SoSustaining | SoPreviouslyDown.
Record hold := Hold { h_noteOff : bool; h_sustain : bool; h_sosten : sost }.
(** age_, triggerDelay_, startTimestamp_, Voice.cpp 234-246. *)
Record vtime := VTime { t_age : Z; t_trigger : option Z; t_stamp : Z }.
(** What is kept of the amplitude envelope: released or not, the delay it still has to wait,
    and the average power given by the power follower. *)
Record amp := Amp { a_released : bool; a_delay : Z; a_power : Q }.

Record voice := Voice {
  v_state : vstate;
  v_region : option nat;
  v_ev : tevent;
  v_offed : bool;
  v_hold : hold;
  v_time : vtime;
  v_amp : amp;
  v_next : nat;
  v_prev : nat }.

Definition set_state v x := Voice x (v_region v) (v_ev v) (v_offed v) (v_hold v) (v_time v)
  (v_amp v) (v_next v) (v_prev v).
Definition set_offed v x := Voice (v_state v) (v_region v) (v_ev v) x (v_hold v) (v_time v)
  (v_amp v) (v_next v) (v_prev v).
Definition set_hold v x := Voice (v_state v) (v_region v) (v_ev v) (v_offed v) x (v_time v)
  (v_amp v) (v_next v) (v_prev v).
Definition set_time v x := Voice (v_state v) (v_region v) (v_ev v) (v_offed v) (v_hold v) x
  (v_amp v) (v_next v) (v_prev v).
Definition set_amp v x := Voice (v_state v) (v_region v) (v_ev v) (v_offed v) (v_hold v)
  (v_time v) x (v_next v) (v_prev v).
Definition set_next v x := Voice (v_state v) (v_region v) (v_ev v) (v_offed v) (v_hold v)
  (v_time v) (v_amp v) x (v_prev v).
Definition set_prev_v v x := Voice (v_state v) (v_region v) (v_ev v) (v_offed v) (v_hold v)
  (v_time v) (v_amp v) (v_next v) x.

(** A new voice refers to itself, Voice.h 462-463. *)
Definition fresh_voice (i : nat) : voice :=
  Voice VIdle None (TE ENoteOn 0 0%Q) false (Hold false false SoUp) (VTime 0 None 0)
    (Amp false 0 0%Q) i i.

(** VoiceManager, VoiceManager.h 170-180: the voices, activeVoices_, the voices and the most
    recent start of each polyphony group, the voices of each region set, numRequiredVoices_.
    A group that is not in the map is an empty list. *)
Record vman := VMan {
  m_n : nat;
  m_voice : nat -> voice;
  m_active : list nat;
  m_glist : Z -> list nat;
  m_gstamp : Z -> Z;
  m_slist : nat -> list nat;
  m_required : Z }.

Definition updn {A} (f : nat -> A) (k : nat) (v : A) : nat -> A :=
  fun x => if Nat.eqb x k then v else f x.
Definition put (m : vman) (i : nat) (v : voice) : vman :=
  VMan (m_n m) (updn (m_voice m) i v) (m_active m) (m_glist m) (m_gstamp m) (m_slist m)
    (m_required m).
Definition lists (m : vman) a g t s : vman :=
  VMan (m_n m) (m_voice m) a g t s (m_required m).

(** swapAndPopFirst with pointer equality (utility/SwapAndPop.h 67-81). *)
Definition pop_voice (i : nat) (l : list nat) : list nat :=
  match swapAndPopFirst (Nat.eqb i) l with Some (l', _, _) => l' | None => l end.
(** RegionSet::registerVoice, RegionSet.cpp 28-32; PolyphonyGroup::registerVoice, 14-19. *)
Definition push_voice (i : nat) (l : list nat) : list nat :=
  if existsb (Nat.eqb i) l then l else l ++ [i].
(** registerVoiceInHierarchy and removeVoiceFromHierarchy, RegionSet.cpp 39-56. *)
Definition on_sets (f : list nat -> list nat) (ss : list nat) (sl : nat -> list nat)
  : nat -> list nat :=
  fold_left (fun sl s => updn sl s (f (sl s))) ss sl.

(** VoiceManager::onVoiceStateChanging, VoiceManager.cpp 14-33.  The region is not null when it
    is called (that would be undefined behaviour). *)
Definition listener (I : instr) (i : nat) (x : vstate) (m : vman) : vman :=
  match v_region (m_voice m i) with
  | None => m
  | Some k =>
    let r := i_info I k in
    let g := vi_group r in
    match x with
    | VIdle =>
      lists m (pop_voice i (m_active m)) (upd (m_glist m) g (pop_voice i (m_glist m g)))
        (m_gstamp m) (on_sets (pop_voice i) (vi_sets r) (m_slist m))
    | VPlaying =>
      lists m (m_active m ++ [i]) (upd (m_glist m) g (push_voice i (m_glist m g)))
        (upd (m_gstamp m) g (t_stamp (v_time (m_voice m i))))
        (on_sets (push_voice i) (vi_sets r) (m_slist m))
    | VClean => m
    end
  end.

Definition state_eqb (a b : vstate) : bool :=
  match a, b with VIdle, VIdle | VPlaying, VPlaying | VClean, VClean => true | _, _ => false end.
(** switchState, Voice.cpp 1971-1978. *)
Definition switchState (I : instr) (i : nat) (x : vstate) (m : vman) : vman :=
  if state_eqb x (v_state (m_voice m i)) then m
  else listener I i x (put m i (set_state (m_voice m i) x)).

(** * Rings, Voice.cpp 1762-1782 *)
Definition setNext (i j : nat) (m : vman) : vman := put m i (set_next (m_voice m i) j).
Definition setPrev (i j : nat) (m : vman) : vman := put m i (set_prev_v (m_voice m i) j).
Definition removeVoiceFromRing (i : nat) (m : vman) : vman :=
  let m1 := setNext (v_prev (m_voice m i)) (v_next (m_voice m i)) m in
  let m2 := setPrev (v_next (m_voice m1 i)) (v_prev (m_voice m1 i)) m1 in
  setNext i i (setPrev i i m2).

(** SisterVoiceRing::applyToRing, SisterVoiceRing.h 24-33: visits [v] and its successors until
    [start], which comes last. *)
Fixpoint ring_loop (fuel : nat) (f : nat -> vman -> vman) (start v : nat) (m : vman)
  : option vman :=
  if Nat.eqb v start then Some (f start m)
  else match fuel with
       | O => None
       | S fuel' => ring_loop fuel' f start (v_next (m_voice m v)) (f v m)
       end.
Definition applyToRing (f : nat -> vman -> vman) (i : nat) (m : vman) : option vman :=
  ring_loop (m_n m) f i (v_next (m_voice m i)) m.

(** SisterVoiceRingBuilder::addVoiceToRing, SisterVoiceRing.h 136-149; [head] is head_. *)
Definition addVoiceToRing (i : nat) (head : option nat) (m : vman) : vman * option nat :=
  let next := match head with Some h => h | None => i end in
  let previous := v_prev (m_voice m next) in
  (setNext previous i (setPrev next i (setPrev i previous (setNext i next m))), Some next).

(** * Voice operations *)

(** reset, Voice.cpp 1700-1726. *)
Definition reset_fields (v : voice) : voice :=
  Voice (v_state v) None (v_ev v) false (Hold false (h_sustain (v_hold v)) SoUp)
    (VTime 0 (t_trigger (v_time v)) (t_stamp (v_time v)))
    (Amp (a_released (v_amp v)) (a_delay (v_amp v)) 0%Q) (v_next v) (v_prev v).
Definition v_reset (I : instr) (i : nat) (m : vman) : vman :=
  let m1 := switchState I i VIdle m in
  removeVoiceFromRing i (put m1 i (reset_fields (m_voice m1 i))).

(** Impl::release, Voice.cpp 581-597. *)
Definition v_release (I : instr) (i : nat) (d : Z) (m : vman) : vman :=
  if state_eqb VPlaying (v_state (m_voice m i)) then
    let m1 := if d <? a_delay (v_amp (m_voice m i)) then switchState I i VClean m else m in
    let a := v_amp (m_voice m1 i) in
    put m1 i (set_amp (m_voice m1 i) (Amp true (a_delay a) (a_power a)))
  else m.

(** Impl::off, Voice.cpp 605-621 (the release time of the envelope is not modelled). *)
Definition v_off (I : instr) (d : Z) (i : nat) (m : vman) : vman :=
  v_release I i d (put m i (set_offed (m_voice m i) true)).

(** offAllSisters, SisterVoiceRing.h 67-75. *)
Definition offAllSisters (I : instr) (d : Z) (o : option nat) (m : vman) : option vman :=
  match o with
  | None => Some m
  | Some i => applyToRing (v_off I d) i m
  end.

(** The pedal conditions of registerNoteOff and registerCC, Voice.cpp 641-645 and 682-686. *)
Definition pedals_allow (r : region) (h : hold) : bool :=
  (negb (checkSustain r) || negb (h_sustain h))
  && (negb (checkSostenuto r) || match h_sosten h with SoSustaining => false | _ => true end).

(** registerNoteOff, Voice.cpp 623-650. *)
Definition v_registerNoteOff (I : instr) (d n : Z) (m : vman) (i : nat) : vman :=
  let v := m_voice m i in
  match v_region v with
  | None => m
  | Some k =>
    if state_eqb VPlaying (v_state v) && (te_num (v_ev v) =? n)
       && match te_type (v_ev v) with ENoteOn => true | _ => false end
    then
      let h := Hold true (h_sustain (v_hold v)) (h_sosten (v_hold v)) in
      let m1 := put m i (set_hold v h) in
      if vi_oneShot (i_info I k) then m1
      else if pedals_allow (i_region I k) h then v_release I i d m1 else m1
    else m
  end.

(** The pedal states, Voice.cpp 666-680.  Each state is guarded by the other pedal's switch. *)
Definition v_pedals (r : region) (cc : Z) (x : Q) (h : hold) : hold :=
  let so := if checkSustain r && (cc =? sostenutoCC r) then
              if negb (Qle_bool (sostenutoThreshold r) x) then SoUp
              else match h_sosten h with SoUp => SoSustaining | s => s end
            else h_sosten h in
  let su := if checkSostenuto r && (cc =? sustainCC r)
            then Qle_bool (sustainThreshold r) x else h_sustain h in
  Hold (h_noteOff h) su so.

(** Impl::released, Voice.cpp 1666-1676. *)
Definition v_released (v : voice) : bool :=
  match v_region v, v_state v with Some _, VPlaying => a_released (v_amp v) | _, _ => true end.

(** registerCC, Voice.cpp 652-697. *)
Definition v_registerCC (I : instr) (d cc : Z) (x : Q) (m : vman) (i : nat) : vman :=
  let v := m_voice m i in
  match v_region v with
  | None => m
  | Some k =>
    let r := i_region I k in
    if negb (state_eqb VPlaying (v_state v)) then m
    else if negb (cc =? sustainCC r) && negb (cc =? sostenutoCC r) then m
    else
      let h := v_pedals r cc x (v_hold v) in
      let m1 := put m i (set_hold v h) in
      let m2 := if h_noteOff h && negb (vi_oneShot (i_info I k)) && pedals_allow r h
                then v_release I i d m1 else m1 in
      let v2 := m_voice m2 i in
      if checkSustain r && h_sustain h && i_cancel I && v_released v2
         && match trig r with TRelease | TReleaseKey => false | _ => true end
      then put m2 i (set_amp v2 (Amp false (a_delay (v_amp v2)) (a_power (v_amp v2))))
      else m2
  end.

(** What a start depends on: the delay of the region in samples, whether the file promise is
    given, and the delay of the envelope. *)
Record sinfo := SInfo { si_delay : Z; si_file : bool; si_eg : Z }.

(** startVoice, Voice.cpp 408-543; [k] is the number of the layer. *)
Definition v_start (I : instr) (md : midi) (si : sinfo) (k : nat) (d : Z) (ev : tevent) (i : nat)
  (m : vman) : vman * bool :=
  let r := i_region I k in
  let v := m_voice m i in
  let num := match te_type ev with ECC => vi_center (i_info I k) | _ => te_num ev end in
  let val := if velocityPrevious r then velocityOverride md else te_val ev in
  let v1 := Voice (v_state v) (Some k) (TE (te_type ev) num val) (v_offed v) (v_hold v)
              (v_time v) (v_amp v) (v_next v) (v_prev v) in
  let m1 := put m i v1 in
  if vi_disabled (i_info I k) then (switchState I i VClean m1, false)
  else
    let d := Z.max d 0 in
    let m2 := put m1 i (set_time v1 (VTime (t_age (v_time v1)) (Some d)
                (u32 (internalClock md + (d + si_delay si))))) in
    let m3 := switchState I i VPlaying m2 in
    if negb (si_file si) then (switchState I i VClean m3, false)
    else
      let v3 := m_voice m3 i in
      let h := v_hold v3 in
      let h1 := if checkSustain r
                then Hold (h_noteOff h) (Qle_bool (sustainThreshold r) (ccValue md (sustainCC r)))
                       (h_sosten h) else h in
      let h2 := if checkSostenuto r
                then Hold (h_noteOff h1) (h_sustain h1)
                       (if Qle_bool (sostenutoThreshold r) (ccValue md (sostenutoCC r))
                        then SoPreviouslyDown else SoUp) else h1 in
      (put m3 i (set_amp (set_hold v3 h2) (Amp false (si_eg si) (a_power (v_amp v3)))), true).

(** * Stealing, VoiceStealing.cpp *)

(** offedOrFree, Voice.cpp 1793-1800. *)
Definition offedOrFree (v : voice) : bool :=
  match v_state v with VPlaying => v_offed v | _ => true end.
Definition live (m : vman) (i : nat) : bool := negb (offedOrFree (m_voice m i)).
Definition age (m : vman) (i : nat) : Z := t_age (v_time (m_voice m i)).
Definition of_region (m : vman) (k : nat) (i : nat) : bool :=
  match v_region (m_voice m i) with Some k' => Nat.eqb k' k | None => false end.

(** genericPolyphonyCheck, 18-37. *)
Definition generic_step (cond : nat -> bool) (better : nat -> nat -> bool)
  (acc : option nat * Z) (v : nat) : option nat * Z :=
  if cond v then
    (match fst acc with
     | None => Some v
     | Some c => if better v c then Some v else Some c
     end, snd acc + 1)
  else acc.
Definition genericPolyphonyCheck (cond : nat -> bool) (better : nat -> nat -> bool)
  (candidates : list nat) (polyphony : Z) : option nat :=
  let '(c, num) := fold_left (generic_step cond better) candidates (None, 0) in
  if polyphony <=? num then c else None.

(** TriggerEventType order. *)
Definition type_rank (t : ev_type) : Z := match t with ENoteOn => 0 | ENoteOff => 1 | ECC => 2 end.
Definition Qlt_bool (a b : Q) : bool := negb (Qle_bool b a).
(** voiceOrdering and sisterVoices, Voice.h 468-507. *)
Definition voiceOrdering (m : vman) (a b : nat) : bool :=
  let x := v_ev (m_voice m a) in let y := v_ev (m_voice m b) in
  if negb (age m a =? age m b) then age m b <? age m a
  else if negb (te_num x =? te_num y) then te_num x <? te_num y
  else if negb (Qeq_bool (te_val x) (te_val y)) then Qlt_bool (te_val x) (te_val y)
  else type_rank (te_type y) <? type_rank (te_type x).
Definition sisterVoices (m : vman) (a b : nat) : bool :=
  let x := v_ev (m_voice m a) in let y := v_ev (m_voice m b) in
  (age m a =? age m b) && (te_num x =? te_num y) && Qeq_bool (te_val x) (te_val y)
  && (type_rank (te_type x) =? type_rank (te_type y)).

(** std::sort, as an insertion sort (it does not say how ties are ordered). *)
Fixpoint insert_by (lt : nat -> nat -> bool) (x : nat) (l : list nat) : list nat :=
  match l with
  | [] => [x]
  | y :: r => if lt x y then x :: l else y :: insert_by lt x r
  end.
Definition sort_by (lt : nat -> nat -> bool) (l : list nat) : list nat :=
  fold_left (fun acc x => insert_by lt x acc) l [].

Definition power (m : vman) (i : nat) : Q := a_power (v_amp (m_voice m i)).
Fixpoint drop_while (f : nat -> bool) (l : list nat) : list nat :=
  match l with
  | [] => []
  | x :: r => if f x then drop_while f r else l
  end.
(** The numbers of a ring, in the order of applyToRing. *)
Fixpoint ring_members (fuel : nat) (start v : nat) (m : vman) : option (list nat) :=
  if Nat.eqb v start then Some [start]
  else match fuel with
       | O => None
       | S fuel' => option_map (cons v) (ring_members fuel' start (v_next (m_voice m v)) m)
       end.
Definition ring_of (i : nat) (m : vman) : option (list nat) :=
  ring_members (m_n m) i (v_next (m_voice m i)) m.

(** stealEnvelopeAndAge, 79-124: the loop on the sorted voices.  Powers are rationals. *)
Fixpoint steal_loop (fuel : nat) (m : vman) (front : nat) (threshold : Q) (age_limit : Z)
  (l : list nat) : option nat :=
  match l with
  | [] => Some front
  | ref :: rest =>
    if age m ref <=? age_limit then Some front
    else match ring_of ref m with
         | None => None
         | Some ring =>
           let maxPower := fold_left (fun p i => if Qle_bool p (power m i) then power m i else p)
                             ring 0%Q in
           if Qlt_bool maxPower threshold then Some ref
           else match fuel with
                | O => None
                | S fuel' => steal_loop fuel' m front threshold age_limit
                               (drop_while (sisterVoices m ref) rest)
                end
         end
  end.
Definition stealEnvelopeAndAge (m : vman) (voices : list nat) : option (option nat) :=
  let l := sort_by (voiceOrdering m) voices in
  match l with
  | [] => None (* front() of an empty span *)
  | front :: _ =>
    let sum := fold_left (fun p i => p + power m i)%Q l 0%Q in
    let threshold := (sum / inject_Z (Z.of_nat (length l)) * (1 # 2))%Q in
    option_map Some (steal_loop (length l) m front threshold (Z.quot (age m front) 2) l)
  end.

(** checkRegionPolyphony and checkPolyphony of the three algorithms, 51-77 and 126-155: the
    condition on the voices is a parameter.  The first [None] is undefined behaviour. *)
Definition steal (I : instr) (m : vman) (cond : nat -> bool) (candidates : list nat)
  (polyphony : Z) : option (option nat) :=
  match i_stealer I with
  | SFirst => Some (genericPolyphonyCheck cond (fun _ _ => false) candidates polyphony)
  | SOldest => Some (genericPolyphonyCheck cond (fun v c => age m c <? age m v) candidates polyphony)
  | SEnvelope =>
    let temp := filter cond candidates in
    if polyphony <=? Z.of_nat (length temp) then stealEnvelopeAndAge m temp else Some None
  end.

(** * Polyphony checks, VoiceManager.cpp 191-281 *)
Definition steal_and_off (I : instr) (d : Z) (cond : nat -> bool) (candidates : list nat)
  (polyphony : Z) (m : vman) : option vman :=
  c <- steal I m cond candidates polyphony ;; offAllSisters I d c m.

(** checkNotePolyphony, 197-245. *)
Definition note_match (I : instr) (g : Z) (num : Z) (m : vman) (i : nat) : bool :=
  live m i
  && match v_region (m_voice m i) with
     | Some k => vi_group (i_info I k) =? g
     | None => false
     end
  && (te_num (v_ev (m_voice m i)) =? num).
Fixpoint note_loop (I : instr) (d : Z) (l : list nat) (counter target : Z) (m : vman)
  : option vman :=
  match l with
  | [] => Some m
  | v :: r =>
    if target <? counter then
      m' <- (if live m v then offAllSisters I d (Some v) m else Some m) ;;
      note_loop I d r (counter - 1) target m'
    else Some m
  end.
Definition checkNotePolyphony (I : instr) (k : nat) (d : Z) (ev : tevent) (m : vman)
  : option vman :=
  let r := i_info I k in
  match vi_notePoly r with
  | None => Some m
  | Some p =>
    let found := filter (note_match I (vi_group r) (te_num ev) m) (m_active m) in
    let temp := filter (fun i => negb (vi_mask r)
                                 || Qle_bool (te_val (v_ev (m_voice m i))) (te_val ev)) found in
    let sorted :=
      if vi_mask r
      then sort_by (fun a b => Qlt_bool (te_val (v_ev (m_voice m a))) (te_val (v_ev (m_voice m b)))) temp
      else sort_by (fun a b => age m b <? age m a) temp in
    note_loop I d sorted (Z.of_nat (length found)) (u32 (p - 1)) m
  end.

(** checkRegionPolyphony, 191-195. *)
Definition checkRegionPolyphony (I : instr) (k : nat) (d : Z) (m : vman) : option vman :=
  steal_and_off I d (fun i => live m i && of_region m k i) (m_active m) (vi_poly (i_info I k)) m.
(** checkGroupPolyphony, 257-263. *)
Definition checkGroupPolyphony (I : instr) (k : nat) (d : Z) (m : vman) : option vman :=
  let g := vi_group (i_info I k) in
  steal_and_off I d (live m) (m_glist m g) (i_glimit I g) m.
(** checkSetPolyphony, 265-274. *)
Fixpoint checkSetPolyphony (I : instr) (ss : list nat) (d : Z) (m : vman) : option vman :=
  match ss with
  | [] => Some m
  | s :: ss' =>
    m' <- steal_and_off I d (live m) (m_slist m s) (i_slimit I s) m ;; checkSetPolyphony I ss' d m'
  end.
(** checkEnginePolyphony, 276-281. *)
Definition checkEnginePolyphony (I : instr) (d : Z) (m : vman) : option vman :=
  steal_and_off I d (live m) (m_active m) (m_required m) m.

(** checkPolyphony, 145-152. *)
Definition checkPolyphony (I : instr) (k : nat) (d : Z) (ev : tevent) (m : vman) : option vman :=
  m1 <- checkNotePolyphony I k d ev m ;;
  m2 <- checkRegionPolyphony I k d m1 ;;
  m3 <- checkGroupPolyphony I k d m2 ;;
  m4 <- checkSetPolyphony I (vi_sets (i_info I k)) d m3 ;;
  checkEnginePolyphony I d m4.

(** findFreeVoice, 154-173. *)
Fixpoint find_free (m : vman) (l : list nat) (best : option nat) : option nat :=
  match l with
  | [] => best
  | i :: r =>
    let v := m_voice m i in
    if state_eqb VIdle (v_state v) then Some i
    else if offedOrFree v
         then find_free m r (match best with
                             | None => Some i
                             | Some b => if age m b <? age m i then Some i else best
                             end)
         else find_free m r best
  end.
Definition findFreeVoice (m : vman) : option nat := find_free m (seq 0 (m_n m)) None.

(** playingAttackVoice, 68-84. *)
Definition playingAttackVoice (I : instr) (m : vman) (k : nat) : bool :=
  let r := i_region I k in
  existsb (fun i =>
    let v := m_voice m i in
    negb (state_eqb VIdle (v_state v))
    && match te_type (v_ev v) with ENoteOn => true | _ => false end
    && inZ (keyLo r) (keyHi r) (te_num (v_ev v))
    && inQ (velLo r) (velHi r) (te_val (v_ev v))) (seq 0 (m_n m)).

(** withinValidTimerRange, 247-255; the subtraction is unsigned. *)
Definition withinValidTimerRange (I : instr) (m : vman) (k : nat) (now : Z) : bool :=
  let r := i_info I k in
  inQ_open (vi_timerLo r) (vi_timerHi r)
    (inject_Z (u32 (now - m_gstamp m (vi_group r))) / i_rate I).

(** requireNumVoices, 175-189, with VoiceManager::clear, 116-122; the sets are emptied by
    Synth::Impl::resetVoices, Synth.cpp 1966-1981.  [int(n * 1.5f)] is exact for these n. *)
Definition effective_voices (n : Z) : Z := Z.min 256 (n + Z.max (n * 3 / 2) 4).
Definition new_voices (n : Z) (stamps : Z -> Z) : vman :=
  VMan (Z.to_nat (effective_voices n)) fresh_voice [] (fun _ => []) stamps (fun _ => []) n.

(** * Dispatch with voices, Synth.cpp *)

(** The state: layers, MIDI state and log of starts (LayerModel.v), voices, and the position in
    the environment. *)
Record fsys := FSys { f_sys : sys; f_vm : vman; f_tick : nat }.
(** Random draws and start conditions still to come. *)
Record env := Env { e_rand : nat -> Q; e_start : nat -> sinfo }.

Definition put_sys (s : fsys) (x : sys) : fsys := FSys x (f_vm s) (f_tick s).
Definition put_vm (s : fsys) (m : vman) : fsys := FSys (f_sys s) m (f_tick s).
Definition tick (s : fsys) : fsys := FSys (f_sys s) (f_vm s) (S (f_tick s)).

Fixpoint ofold {A B} (f : A -> B -> option A) (l : list B) (a : A) : option A :=
  match l with
  | [] => Some a
  | b :: r => a' <- f a b ;; ofold f r a'
  end.

(** startVoice, 1300-1312.  The request is logged; the result is the state and the ring. *)
Definition f_startVoice (I : instr) (E : env) (k : nat) (d : Z) (ev : tevent)
  (acc : fsys * option nat) : option (fsys * option nat) :=
  let '(s0, ring) := acc in
  let s := put_sys s0 (emit (f_sys s0) (Start k (te_type ev) (te_num ev) (te_val ev))) in
  m1 <- checkPolyphony I k d ev (f_vm s) ;;
  match findFreeVoice m1 with
  | None => Some (put_vm s m1, ring)
  | Some i =>
    let m2 := v_reset I i m1 in
    let '(m3, ok) := v_start I (s_midi (f_sys s)) (e_start E (f_tick s)) k d ev i m2 in
    let s' := tick (put_vm s m3) in
    if ok then let '(m4, ring') := addVoiceToRing i ring m3 in Some (put_vm s' m4, ring')
    else Some (s', ring)
  end.

(** Voice::checkOffGroup, Voice.cpp 1679-1698, without the call to off. *)
Definition off_group (I : instr) (s : fsys) (other : nat) (n : Z) (i : nat) : bool :=
  let v := m_voice (f_vm s) i in
  match v_region v with
  | None => false
  | Some k =>
    negb (v_offed v)
    && match te_type (v_ev v) with ENoteOff => false | _ => true end
    && match vi_offBy (i_info I k) with
       | Some g => g =? vi_group (i_info I other)
       | None => false
       end
    && (negb (vi_group (i_info I k) =? vi_group (i_info I other))
        || match nth_error (s_layers (f_sys s)) k with
           | Some (_, l) => negb (bits_all (l_cc l))
           | None => false
           end
        || negb (n =? te_num (v_ev v)))
  end.

(** checkOffGroups, 1314-1323; [dispatch] is noteOffDispatch. *)
Definition off_group_step (I : instr) (dispatch : Z -> Q -> fsys -> option fsys) (other : nat)
  (d n : Z) (byCC : bool) (s : fsys) (i : nat) : option fsys :=
  if off_group I s other n i then
    let s1 := put_vm s (v_off I d i (f_vm s)) in
    let e := v_ev (m_voice (f_vm s1) i) in
    if match te_type e with ENoteOn => true | _ => false end && negb byCC
    then dispatch (te_num e) (te_val e) s1
    else Some s1
  else Some s.
Definition checkOffGroups (I : instr) (dispatch : Z -> Q -> fsys -> option fsys) (other : nat)
  (d n : Z) (byCC : bool) (s : fsys) : option fsys :=
  ofold (off_group_step I dispatch other d n byCC) (seq 0 (m_n (f_vm s))) s.

Definition omap_fst (o : option (fsys * option nat)) : option fsys :=
  match o with Some (s, _) => Some s | None => None end.

(** One layer of noteOffDispatch, 1337-1346. *)
Definition f_off_layer (I : instr) (E : env) (dispatch : Z -> Q -> fsys -> option fsys)
  (d n : Z) (vel rnd : Q) (acc : fsys * option nat) (k : nat) : option (fsys * option nat) :=
  let '(s, ring) := acc in
  let '(x, t) := off_layer k n vel rnd (playingAttackVoice I (f_vm s) k) (f_sys s) in
  if t then
    s2 <- checkOffGroups I dispatch k d n false (put_sys s x) ;;
    f_startVoice I E k d (TE ENoteOff n vel) (s2, ring)
  else Some (put_sys s x, ring).
(** noteOffDispatch, 1325-1348. *)
Fixpoint f_noteOffDispatch (fuel : nat) (I : instr) (E : env) (d n : Z) (vel : Q) (s : fsys)
  : option fsys :=
  match fuel with
  | O => None
  | S fuel' =>
    let rnd := e_rand E (f_tick s) in
    let s1 := tick (put_sys s (all_layers (switch_off n) (f_sys s))) in
    omap_fst (ofold (f_off_layer I E (fun n v => f_noteOffDispatch fuel' I E d n v) d n vel rnd)
                (seq 0 (length (s_layers (f_sys s1)))) (s1, None))
  end.
(** The depth of the recursion is given the number of voices as a bound; that this is enough is
    a theorem (VoiceChoke.v). *)
Definition top_dispatch (I : instr) (E : env) (d : Z) (s : fsys) (n : Z) (v : Q)
  : fsys -> option fsys :=
  f_noteOffDispatch (S (m_n (f_vm s))) I E d n v.

(** noteOnDispatch, 1350-1388. *)
Definition f_on_layer (I : instr) (E : env) (d n : Z) (vel rnd : Q)
  (acc : fsys * option nat) (k : nat) : option (fsys * option nat) :=
  let '(s, ring) := acc in
  match nth_error (s_layers (f_sys s)) k with
  | None => Some acc
  | Some (r, l) =>
    if negb (inZ (keyLo r) (keyHi r) n) then Some acc
    else
      let '(l', t) := registerNoteOn r (s_midi (f_sys s)) n vel rnd l in
      let s1 := put_sys s (on_layer k (fun _ _ => l') (f_sys s)) in
      if t && negb (useTimerRange r &&
             negb (withinValidTimerRange I (f_vm s) k (u32 (internalClock (s_midi (f_sys s)) + d))))
      then
        s2 <- checkOffGroups I (top_dispatch I E d s1) k d n false s1 ;;
        f_startVoice I E k d (TE ENoteOn n vel) (s2, ring)
      else Some (s1, ring)
  end.
Definition f_noteOnDispatch (I : instr) (E : env) (d n : Z) (vel : Q) (s : fsys) : option fsys :=
  let rnd := e_rand E (f_tick s) in
  let x := f_sys s in
  let is_sw := is_last_switch x n in
  let x1 := all_layers (switch_on (s_switch x) is_sw n) x in
  let x2 := if is_sw then Sys (s_midi x1) (s_layers x1) (Some n) (s_out x1) else x1 in
  s3 <- omap_fst (ofold (f_on_layer I E d n vel rnd) (seq 0 (length (s_layers x2)))
                    (tick (put_sys s x2), None)) ;;
  Some (put_sys s3 (all_layers (register_prev n) (f_sys s3))).

(** startDelayedSustainReleases and startDelayedSostenutoReleases, 1390-1421: start the list [l]
    and clear it with [clear]. *)
Definition f_delayed (I : instr) (E : env) (k : nat) (d : Z) (r : region) (l : list (Z * Q))
  (clear : region -> layer -> layer) (acc : fsys * option nat) : option (fsys * option nat) :=
  acc' <- (if negb (rtDead r) && negb (playingAttackVoice I (f_vm (fst acc)) k) then Some acc
           else ofold (fun acc x => f_startVoice I E k d (TE ENoteOff (fst x) (snd x)) acc) l acc) ;;
  Some (put_sys (fst acc') (on_layer k clear (f_sys (fst acc'))), snd acc').

(** ccDispatch, 1429-1460. *)
Definition f_cc_sustain (I : instr) (E : env) (d cc : Z) (v : Q) (k : nat)
  (acc : fsys * option nat) : option (fsys * option nat) :=
  match nth_error (s_layers (f_sys (fst acc))) k with
  | None => Some acc
  | Some (r, l) =>
    if checkSustain r && (cc =? sustainCC r) && negb (Qle_bool (sustainThreshold r) v)
    then f_delayed I E k d r (l_dsus l) (fun _ l => set_dsus l []) acc else Some acc
  end.
Definition f_cc_sostenuto (I : instr) (E : env) (d cc : Z) (v : Q) (k : nat)
  (acc : fsys * option nat) : option (fsys * option nat) :=
  match nth_error (s_layers (f_sys (fst acc))) k with
  | None => Some acc
  | Some (r, l) =>
    if checkSostenuto r && (cc =? sostenutoCC r) && negb (Qle_bool (sostenutoThreshold r) v)
    then
      if l_sustain l then
        Some (put_sys (fst acc) (on_layer k (fun r l =>
                set_dsos (fold_left (fun l x => delaySustainRelease r (fst x) (snd x) l)
                                    (l_dsos l) l) []) (f_sys (fst acc))), snd acc)
      else f_delayed I E k d r (l_dsos l) (fun _ l => set_dsos l []) acc
    else Some acc
  end.
Definition f_cc_register (I : instr) (E : env) (d cc : Z) (v rnd : Q) (ext : Z) (k : nat)
  (acc : fsys * option nat) : option (fsys * option nat) :=
  let '(s, ring) := acc in
  match nth_error (s_layers (f_sys s)) k with
  | None => Some acc
  | Some (r, l) =>
    let '(l', t) := registerCC r (s_midi (f_sys s)) cc v rnd ext l in
    let s1 := put_sys s (on_layer k (fun _ _ => l') (f_sys s)) in
    if t && negb (useTimerRange r &&
           negb (withinValidTimerRange I (f_vm s) k (u32 (internalClock (s_midi (f_sys s)) + d))))
    then
      s2 <- checkOffGroups I (top_dispatch I E d s1) k d cc true s1 ;;
      f_startVoice I E k d (TE ECC cc v) (s2, ring)
    else Some (s1, ring)
  end.
Definition f_cc_layer (I : instr) (E : env) (d cc : Z) (v rnd : Q) (ext : Z)
  (acc : fsys * option nat) (k : nat) : option (fsys * option nat) :=
  match nth_error (s_layers (f_sys (fst acc))) k with
  | None => Some acc
  | Some (r, _) =>
    if in_cc_list r cc then
      a1 <- f_cc_sustain I E d cc v k acc ;;
      a2 <- f_cc_sostenuto I E d cc v k a1 ;;
      f_cc_register I E d cc v rnd ext k a2
    else Some acc
  end.
Definition f_ccDispatch (I : instr) (E : env) (d cc : Z) (v : Q) (ext : Z) (s : fsys)
  : option fsys :=
  let rnd := e_rand E (f_tick s) in
  omap_fst (ofold (f_cc_layer I E d cc v rnd ext) (seq 0 (length (s_layers (f_sys s))))
              (tick s, None)).

(** * The API with voices *)

(** "for (auto& voice : voiceManager_) f(voice)". *)
Definition each_voice (f : vman -> nat -> vman) (m : vman) : vman :=
  fold_left f (seq 0 (m_n m)) m.

(** What rendering a voice decides: the sample ended at some frame (Voice.cpp 1229), the
    envelope is over (804-815), its remaining delay, and the power. *)
Record rinfo := RInfo { ri_end : option Z; ri_done : bool; ri_delay : Z; ri_power : Q }.
(** Voice::renderBlock, Voice.cpp 776-831, and the clean-up of Synth.cpp 1164-1191. *)
Definition v_age (frames : Z) (t : vtime) : vtime :=
  let a := t_age t + frames in
  match t_trigger t with
  | Some d => VTime (Z.min (a - d) 0) None (t_stamp t)
  | None => VTime a None (t_stamp t)
  end.
Definition v_render (I : instr) (frames : Z) (ri : rinfo) (i : nat) (m : vman) : vman :=
  match v_region (m_voice m i) with
  | None => m
  | Some k =>
    if vi_disabled (i_info I k) then m
    else
      let m1 := match ri_end ri with Some d => v_off I d i m | None => m end in
      let m2 := if ri_done ri then switchState I i VClean m1 else m1 in
      let v := m_voice m2 i in
      put m2 i (set_amp (set_time v (v_age frames (v_time v)))
                  (Amp (a_released (v_amp v)) (ri_delay ri) (ri_power ri)))
  end.
Definition render_voice (I : instr) (frames : Z) (ri : nat -> rinfo) (m : vman) (i : nat) : vman :=
  if state_eqb VIdle (v_state (m_voice m i)) then m
  else
    let m1 := v_render I frames (ri i) i m in
    if state_eqb VClean (v_state (m_voice m1 i)) then v_reset I i m1 else m1.

(** The calls of LayerModel.v, where a block also renders the voices, and allSoundOff
    (Synth.cpp 2182-2192) and setNumVoices (1952-1981). *)
Inductive fop :=
| FOp (o : op) (rands : nat -> Q * Q) (ri : nat -> rinfo)
| FAllSoundOff
| FSetNumVoices (n : Z).

Definition f_perform (I : instr) (E : env) (d cc : Z) (v : Q) (ext : Z) (s : fsys)
  : option fsys :=
  let s1 := put_vm s (each_voice (v_registerCC I d cc v) (f_vm s)) in
  s2 <- f_ccDispatch I E d cc v ext s1 ;;
  x <- opt_sys (f_sys s2) (ccEvent (s_midi (f_sys s2)) d cc v) (fun x => x) ;;
  Some (put_sys s2 x).

Definition f_reset_all (I : instr) (m : vman) : vman :=
  each_voice (fun m i => v_reset I i m) m.

Definition fstep (I : instr) (E : env) (defaults : Z -> Q) (s : fsys) (o : fop) : option fsys :=
  let x := f_sys s in
  let r1 := e_rand E (f_tick s) in
  let r2 := e_rand E (S (f_tick s)) in
  let s_t := tick (tick s) in
  match o with
  | FAllSoundOff => Some (put_vm s (f_reset_all I (f_vm s)))
  | FSetNumVoices n =>
    if n =? m_required (f_vm s) then Some s
    else Some (put_vm s (new_voices n (m_gstamp (f_vm s))))
  | FOp o rands ri =>
    match o with
    | ONoteOn d n vel =>
      x1 <- (if is_last_switch x n then Some x
             else opt_sys x (noteOnEvent (s_midi x) d n vel r1 r2) (fun x => x)) ;;
      f_noteOnDispatch I E d n vel (put_sys s_t x1)
    | ONoteOff d n vel =>
      x1 <- (if is_last_switch x n then Some x
             else opt_sys x (noteOffEvent (s_midi x) d n vel r1 r2) (fun x => x)) ;;
      let s1 := put_vm (put_sys s_t x1) (each_voice (v_registerNoteOff I d n) (f_vm s)) in
      top_dispatch I E d s1 n (lastNoteVelocities (s_midi x1) n) s1
    | OCC d cc v =>
      if cc =? 121 then
        x1 <- resetAllControllers d defaults x ;;
        Some (put_vm (put_sys s x1)
                (each_voice (fun m i =>
                   fold_left (fun m cc => v_registerCC I d cc (defaults cc) m i) all_ccs m)
                   (f_vm s)))
      else if (cc =? 123) || (cc =? 120) then
        x1 <- opt_sys x (allNotesOff (s_midi x) d rands) (fun x => x) ;;
        Some (put_vm (put_sys s x1) (f_reset_all I (f_vm s)))
      else f_perform I E d cc v (-1) s
    | OAutomate d cc v => f_perform I E d cc v (-1) s
    | OPitch d v =>
      f_perform I E d 128 v (-1) (put_sys s
        (all_layers (fun r => registerPitchWheel r v) (with_midi x (pitchBendEvent (s_midi x) d v))))
    | OChanAT d v =>
      f_perform I E d 129 v (-1) (put_sys s
        (all_layers (fun r => registerAftertouch r v)
           (with_midi x (channelAftertouchEvent (s_midi x) d v))))
    | OPolyAT d n v =>
      f_perform I E d 130 v n (put_sys s (with_midi x (polyAftertouchEvent (s_midi x) d n v)))
    | OProgram p =>
      Some (put_sys s (all_layers (fun r => registerProgramChange r p)
                         (with_midi x (programChangeEvent (s_midi x) p))))
    | OTempo _ => Some s
    | OBlock n =>
      x1 <- opt_sys x (advanceTime (s_midi x) n) (fun x => x) ;;
      Some (put_vm (put_sys s x1) (each_voice (render_voice I n ri) (f_vm s)))
    end
  end.

Fixpoint frun (I : instr) (E : env) (defaults : Z -> Q) (s : fsys) (os : list fop) : option fsys :=
  match os with
  | [] => Some s
  | o :: os' => s' <- fstep I E defaults s o ;; frun I E defaults s' os'
  end.

(** A loaded instrument of [count] regions with [n] voices. *)
Definition f_load (I : instr) (md : midi) (sw : option Z) (bps : Q) (count : nat) (n : Z) : fsys :=
  FSys (load md sw bps (map (i_region I) (seq 0 count))) (new_voices n (fun _ => 0)) O.
