(** Model of the modulation source of controllers.

    Code: src/sfizz/modulations/sources/Controller.cpp (all of it), Smoothers.cpp 74-78 (setSmoothing),
    SfzHelpers.h 268-283 (ccModulationIsPerVoice) and, for [readings], the part of ModMatrix::getModulation that makes
    sources once (modulations/ModMatrix.cpp 416-435) with beginCycle and beginVoice (305-318, 337-357).

    Numbers are exact rationals; the smoother is that of SmootherModel with exact arithmetic.  A key is a number: equal
    keys have one entry in the map of smoothers.  The evaluation of a curve is a parameter.  getVoiceById gives a
    voice or nothing, which is the argument [v]; what the midi state holds is the argument [m], and it may differ from
    call to call in any way.  A block that linearEnvelope leaves as it was (no event) does not occur, as each
    controller has an event (C13). *)
From Coq Require Import QArith Qround ZArith List Bool.
Import ListNotations.
From Verif Require Import AdsrModel CcEnvModel SmootherModel Smoother.
Open Scope Q_scope.

(** ModKey::Parameters, as far as a controller uses them (modulations/ModKey.h). *)
Record params := Params { cc : Z; curve : Z; smooth : Z; step : Q }.
(** TriggerEventType *)
Inductive trigger := NoteOn | NoteOff | OnCC.
(** What generate reads of a voice: the trigger event and the extended controllers (Voice.cpp 401-405). *)
Record voice := Voice { v_type : trigger; v_number : Z; v_value : Q;
  v_gate : Q; v_unipolar : Q; v_bipolar : Q; v_alternate : Q; v_keydelta : Q }.
(** What it reads of the midi state. *)
Record midi := Midi { ccEvents : Z -> list event; polyAftertouch : Z -> Q }.
(** MidiState::getCCValue, MidiState.cpp 208-212. *)
Definition getCCValue (m : midi) (c : Z) : Q := value (last (ccEvents m c) (Event 0 0)).

(** ccModulationIsPerVoice, SfzHelpers.h 268-283; the numbers are those of SfzHelpers.h (ExtendedCCs, AriaExtendedCCs). *)
Definition ccModulationIsPerVoice (c : Z) : bool := existsb (Z.eqb c) [131; 132; 133; 134; 135; 136; 137; 140; 141]%Z.

Section Source.
Variable params_of : Z -> params.
Variable evalCurve : Z -> Q -> Q.

(** Impl, 17-23: the sample rate and the smoothers. *)
Record source := Source { rate : Q; smoothers : Z -> option smoother }.
Definition put (k : Z) (s : option smoother) (f : Z -> option smoother) : Z -> option smoother :=
  fun j => if Z.eqb j k then s else f j.
(** Smoothers.cpp 74-78, the cast to an integer. *)
Definition setSmoothing (sm : Z) (r : Q) (s : smoother) : smoother :=
  SmootherModel.Smoother (s_current s) (s_target s) (s_step s) (Qtrunc ((inject_Z sm / 1000) * r)).
(** getLastTransformedValue, 37-43. *)
Definition getLastTransformedValue (m : midi) (p : params) : Q := evalCurve (curve p) (getCCValue m (cc p)).
(** resetSmoothers, 45-51. *)
Definition resetSmoothers (m : midi) (st : source) : source :=
  Source (rate st) (fun k => option_map (reset (getLastTransformedValue m (params_of k))) (smoothers st k)).
(** setSampleRate, 53-64. *)
Definition setSampleRate (r : Q) (st : source) : source :=
  if Qeq_bool (rate st) r then st
  else Source r (fun k => option_map (setSmoothing (smooth (params_of k)) r) (smoothers st k)).
(** init, 71-86. *)
Definition init (k : Z) (m : midi) (st : source) : source :=
  let p := params_of k in
  if (0 <? smooth p)%Z then
    let s := reset (getLastTransformedValue m p) (setSmoothing (smooth p) (rate st) (SmootherModel.Smoother 0 0 0 0)) in
    Source (rate st) (put k (Some s) (smoothers st))
  else Source (rate st) (put k None (smoothers st)).
(** generate, 88-204. *)
Definition quant (p : params) (x : Q) : Q := if Qltb 0 (step p) then quantize (step p) x else x.
Definition ofVoice (v : option voice) (f : voice -> Q) : Q := match v with Some v => f v | None => 0 end.
(** The block before smoothing, and whether smoothing may be left out; 107-196. *)
Definition block (p : params) (v : option voice) (m : midi) (n : nat) : list Q * bool :=
  let fill x := (repeat (quant p (evalCurve (curve p) x)) n, true) in
  let fill' x := (repeat (quant p x) n, true) in
  let events f := (samples (quantisedEnvelope f (step p) (ccEvents m (cc p)) n), Nat.eqb (length (ccEvents m (cc p))) 1) in
  match cc p with
  | 130%Z => fill (ofVoice v (fun v => match v_type v with NoteOn => polyAftertouch m (v_number v) | _ => 0 end))
  | 131%Z => fill (ofVoice v (fun v => match v_type v with NoteOn => v_value v | _ => 0 end))
  | 132%Z => fill (ofVoice v (fun v => match v_type v with NoteOff => v_value v | _ => 0 end))
  | 133%Z => fill (ofVoice v (fun v => inject_Z (v_number v) / 127))
  | 134%Z => fill (ofVoice v v_gate)
  | 135%Z => fill (ofVoice v v_unipolar)
  | 136%Z => fill (ofVoice v v_bipolar)
  | 137%Z => fill (ofVoice v v_alternate)
  | 140%Z => fill' (ofVoice v v_keydelta)
  | 141%Z => fill' (ofVoice v (fun v => Qabsf (v_keydelta v)))
  | 128%Z | 129%Z => events (fun x => x)
  | _ => events (evalCurve (curve p))
  end.
Definition generate (k : Z) (v : option voice) (m : midi) (n : nat) (st : source) : list Q * source :=
  let '(b, short) := block (params_of k) v m n in
  match smoothers st k with
  | Some s => let '(o, s) := process exact b short s in (o, Source (rate st) (put k (Some s) (smoothers st)))
  | None => (b, st)
  end.

(** The calls of the source; the voice of init is not used (73). *)
Inductive op :=
  | Init (k : Z) (v : option voice) (m : midi)
  | Generate (k : Z) (v : option voice) (m : midi) (n : nat)
  | SetRate (r : Q)
  | ResetAll (m : midi).
Definition exec (o : op) (st : source) : list Q * source :=
  match o with
  | Init k _ m => ([], init k m st)
  | Generate k v m n => generate k v m n st
  | SetRate r => ([], setSampleRate r st)
  | ResetAll m => ([], resetSmoothers m st)
  end.
(** The blocks made, with the keys they are for, and the state. *)
Fixpoint run (ops : list op) (st : source) : list (Z * list Q) * source :=
  match ops with
  | [] => ([], st)
  | o :: ops =>
      let '(b, st) := exec o st in
      let '(bs, st) := run ops st in
      (match o with Generate k _ _ _ => (k, b) :: bs | _ => bs end, st)
  end.
(** A source after its construction, 25-30, at some sample rate. *)
Definition fresh (r : Q) : source := Source r (fun _ => None).

(** What the voices of a cycle read of a source, in the order they are rendered: a source per voice is made for each
    voice, any other is made for the first voice that asks for it. *)
Definition readings (k : Z) (vs : list voice) (m : midi) (n : nat) (st : source) : list (list Q) :=
  if ccModulationIsPerVoice (cc (params_of k)) then
    map snd (fst (run (map (fun v => Generate k (Some v) m n) vs) st))
  else match vs with
  | [] => []
  | v :: _ => let b := fst (generate k (Some v) m n st) in map (fun _ => b) vs
  end.
End Source.
