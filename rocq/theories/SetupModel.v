(** The sample rate, block size and number of the parts of voices and effect buses, over calls of the API.
    Source: src/sfizz/Synth.cpp (constructor 62-72, addEffectBusesIfNecessary 241-254, clear 262-317, handleEffectOpcodes
    475-552, finalizeSfzLoad 719-954, setSamplesPerBlock 1049-1067, setSampleRate 1075-1091, setNumVoices and resetVoices
    1954-1981, applySettingsPerVoice 1988-2001), Voice.cpp 738-775 and 1802-1908, FilterPool.cpp 11-16, EQPool.cpp 10-15,
    VoiceManager.cpp 58-66, 123-146, 178-193, SynthMessaging.cpp 486-554, Effects.cpp 139-143, 185-192.
    A part is the sample rate it has.  Sample rates and block sizes are integers. *)
From Coq Require Import ZArith List Bool.
Import ListNotations.
Local Open Scope Z_scope.

(** config::defaultSampleRate, defaultSamplesPerBlock and numVoices, Config.h 22-37. *)
Definition defaultSampleRate : Z := 48000.
Definition defaultSamplesPerBlock : Z := 1024.

(** The members of Voice::Impl, Voice.cpp 263-282, 313: filters, equalizers, LFOs and flexible envelopes; the three LFOs of SFZ v1;
    whether there are envelopes of pitch and filter (they take the sample rate when a voice starts); followPower_. *)
Record voice := Voice { v_rate : Z; v_block : Z; v_filters : list Z; v_eqs : list Z; v_lfos : list Z; v_egs : list Z;
  v_alfo : option Z; v_plfo : option Z; v_flfo : option Z; v_peg : bool; v_feg : bool; v_follow : bool }.
Definition newVoice : voice := Voice defaultSampleRate defaultSamplesPerBlock [] [] [] [] None None None false false false.

(** Voice::setSampleRate, Voice.cpp 738-767; setSamplesPerBlock 769-774. *)
Definition voiceRate (r : Z) (v : voice) : voice :=
  Voice r (v_block v) (map (fun _ => r) (v_filters v)) (map (fun _ => r) (v_eqs v)) (map (fun _ => r) (v_lfos v)) (map (fun _ => r) (v_egs v))
    (option_map (fun _ => r) (v_alfo v)) (option_map (fun _ => r) (v_plfo v)) (option_map (fun _ => r) (v_flfo v)) (v_peg v) (v_feg v) (v_follow v).
Definition voiceBlock (n : Z) (v : voice) : voice :=
  Voice (v_rate v) n (v_filters v) (v_eqs v) (v_lfos v) (v_egs v) (v_alfo v) (v_plfo v) (v_flfo v) (v_peg v) (v_feg v) (v_follow v).
Definition voiceFollow (b : bool) (v : voice) : voice :=
  Voice (v_rate v) (v_block v) (v_filters v) (v_eqs v) (v_lfos v) (v_egs v) (v_alfo v) (v_plfo v) (v_flfo v) (v_peg v) (v_feg v) b.

(** settingsPerVoice_, SynthPrivate.h 352-362; also what a region needs, with its output (Region.h). *)
Record settings := Settings { n_filters : nat; n_eqs : nat; n_lfos : nat; n_egs : nat; n_peg : bool; n_feg : bool; n_alfo : bool; n_plfo : bool; n_flfo : bool }.
Definition noSettings : settings := Settings 0 0 0 0 false false false false false.

(** FilterHolder::FilterHolder and EQHolder::EQHolder: the default sample rate. *)
Definition newFilters (n : nat) (old : list Z) : list Z := if (n =? length old)%nat then old else repeat defaultSampleRate n.
(** The body of applySettingsPerVoice, Synth.cpp 1991-1999, with the setters of Voice.cpp 1802-1908. *)
Definition applyTo (s : settings) (v : voice) : voice :=
  let lfo (b : bool) := if b then Some (v_rate v) else None in
  Voice (v_rate v) (v_block v) (newFilters (n_filters s) (v_filters v)) (newFilters (n_eqs s) (v_eqs v))
    (repeat (v_rate v) (n_lfos s)) (repeat (v_rate v) (n_egs s)) (lfo (n_alfo s)) (lfo (n_plfo s)) (lfo (n_flfo s)) (n_peg s) (n_feg s) (v_follow v).

(** EffectBus: the size of its buffers and the sample rate and block size of its effects. *)
Record bus := Bus { b_size : Z; b_effects : list (Z * Z) }.
Definition buses := list (list (option bus)).
Definition onBus (f : bus -> bus) (l : list (option bus)) : list (option bus) := map (option_map f) l.
Definition busRate (r : Z) (b : bus) : bus := Bus (b_size b) (map (fun '(_, n) => (r, n)) (b_effects b)).
Definition busBlock (n : Z) (b : bus) : bus := Bus n (map (fun '(r, _) => (r, n)) (b_effects b)).
(** addEffectBusesIfNecessary, 241-254. *)
Definition addBuses (block : Z) (bs : buses) (output : nat) : buses := bs ++ repeat [Some (Bus block [])] (S output - length bs).
Fixpoint upd {A} (l : list A) (i : nat) (x : A) : list A :=
  match l, i with
  | [], _ => []
  | _ :: l, O => x :: l
  | y :: l, S i => y :: upd l i x
  end.
(** getOrCreateBus, 493-505, with what is done to the bus. *)
Definition withBus (block : Z) (bs : buses) (output index : nat) (f : bus -> bus) : buses :=
  match nth_error bs output with
  | None => bs
  | Some l =>
      let l := l ++ repeat None (S index - length l) in
      let b := match nth index l None with Some b => b | None => Bus block [] end in
      upd bs output (upd l index (Some (f b)))
  end.
(** An <effect> header: its output, the buses that its gains create, and the bus that gets the effect (none with a name
    that is not understood). *)
Record effect := Effect { e_output : nat; e_gains : list nat; e_bus : option nat }.
Definition handleEffect (rate block : Z) (bs : buses) (e : effect) : buses :=
  let bs := addBuses block bs (e_output e) in
  let bs := fold_left (fun bs k => withBus block bs (e_output e) k (fun b => b)) (e_gains e) bs in
  match e_bus e with
  | Some k => withBus block bs (e_output e) k (fun b => Bus (b_size b) (b_effects b ++ [(rate, block)]))
  | None => bs
  end.

(** StealingAlgorithm, VoiceStealing.h. *)
Inductive stealing := First | Oldest | EnvelopeAndAge.
Definition follows (a : stealing) : bool := match a with EnvelopeAndAge => true | _ => false end.
Record synth := Synth { s_rate : Z; s_block : Z; s_numVoices : Z; s_voices : list voice; s_settings : settings;
  s_regions : list (settings * nat); s_outputs : nat; s_buses : buses; s_stealing : stealing }.
Definition withVoices (s : synth) (vs : list voice) : synth :=
  Synth (s_rate s) (s_block s) (s_numVoices s) vs (s_settings s) (s_regions s) (s_outputs s) (s_buses s) (s_stealing s).
Definition withSettings (s : synth) (st : settings) (rs : list (settings * nat)) : synth :=
  Synth (s_rate s) (s_block s) (s_numVoices s) (map (applyTo st) (s_voices s)) st rs (s_outputs s) (s_buses s) (s_stealing s).

(** resetVoices, 1966-1981; the number of voices as in requireNumVoices, VoiceManager.cpp 178-193. *)
Definition resetVoices (s : synth) (n : Z) : synth :=
  let v := voiceBlock (s_block s) (voiceRate (s_rate s) newVoice) in
  Synth (s_rate s) (s_block s) n (map (applyTo (s_settings s)) (repeat v (Z.to_nat (Z.min 256 (n + Z.max (n * 3 / 2) 4))))) (s_settings s) (s_regions s)
    (s_outputs s) (s_buses s) (s_stealing s).
(** The constructor, 62-72. *)
Definition initial : synth :=
  resetVoices (Synth defaultSampleRate defaultSamplesPerBlock 0 [] noSettings [] 1 (addBuses defaultSamplesPerBlock [] 0) Oldest) 64.
(** The loops over the first numOutputs_ outputs. *)
Definition onOutputs (s : synth) (f : bus -> bus) : buses := map (onBus f) (firstn (s_outputs s) (s_buses s)) ++ skipn (s_outputs s) (s_buses s).
(** setSampleRate, 1075-1091; setSamplesPerBlock, 1049-1067. *)
Definition setSampleRate (s : synth) (r : Z) : synth :=
  Synth r (s_block s) (s_numVoices s) (map (voiceRate r) (s_voices s)) (s_settings s) (s_regions s) (s_outputs s) (onOutputs s (busRate r)) (s_stealing s).
Definition setSamplesPerBlock (s : synth) (n : Z) : synth :=
  Synth (s_rate s) n (s_numVoices s) (map (voiceBlock n) (s_voices s)) (s_settings s) (s_regions s) (s_outputs s) (onOutputs s (busBlock n)) (s_stealing s).
(** setNumVoices, 1954-1964. *)
Definition setNumVoices (s : synth) (n : Z) : synth := if n =? s_numVoices s then s else resetVoices s n.
(** VoiceManager::setStealingAlgorithm, VoiceManager.cpp 123-146. *)
Definition setStealing (s : synth) (a : stealing) : synth :=
  Synth (s_rate s) (s_block s) (s_numVoices s) (map (voiceFollow (follows a)) (s_voices s)) (s_settings s) (s_regions s) (s_outputs s) (s_buses s) a.
(** The largest of what regions need, 719-727 and 879-887, and numOutputs_, 888. *)
Definition join (a b : settings) : settings :=
  Settings (Nat.max (n_filters a) (n_filters b)) (Nat.max (n_eqs a) (n_eqs b)) (Nat.max (n_lfos a) (n_lfos b)) (Nat.max (n_egs a) (n_egs b))
    (n_peg a || n_peg b) (n_feg a || n_feg b) (n_alfo a || n_alfo b) (n_plfo a || n_plfo b) (n_flfo a || n_flfo b).
(** A load: clear (voices are reset, the stealing is the oldest, one bus on the first output), the <effect> headers, a hint_stealing, and
    with regions finalizeSfzLoad; [rs] are the regions that are kept. *)
Definition load (s : synth) (rs : list (settings * nat)) (es : list effect) (hint : option stealing) : synth :=
  let s := setStealing (Synth (s_rate s) (s_block s) (s_numVoices s) (s_voices s) (s_settings s) [] 1 (addBuses (s_block s) [] 0) Oldest) Oldest in
  let s := Synth (s_rate s) (s_block s) (s_numVoices s) (s_voices s) (s_settings s) [] 1 (fold_left (handleEffect (s_rate s) (s_block s)) es (s_buses s)) (s_stealing s) in
  let s := match hint with Some a => setStealing s a | None => s end in
  match rs with
  | [] => s
  | _ =>
      let s := withSettings s (fold_left (fun a r => join a (fst r)) rs noSettings) rs in
      let outputs := fold_left (fun n r => Nat.max (S (snd r)) n) rs 1%nat in
      Synth (s_rate s) (s_block s) (s_numVoices s) (s_voices s) (s_settings s) (s_regions s) outputs (addBuses (s_block s) (s_buses s) outputs) (s_stealing s)
  end.
(** The messages that add to a region, SynthMessaging.cpp 486-494, 518-526, 545-554: all take the number of flexible envelopes. *)
Inductive part := Filter | EQ | EG.
Definition addTo (s : synth) (i : nat) (p : part) : synth :=
  match nth_error (s_regions s) i with
  | None => s
  | Some (r, o) =>
      let r := match p with
        | Filter => Settings (S (n_filters r)) (n_eqs r) (n_lfos r) (n_egs r) (n_peg r) (n_feg r) (n_alfo r) (n_plfo r) (n_flfo r)
        | EQ => Settings (n_filters r) (S (n_eqs r)) (n_lfos r) (n_egs r) (n_peg r) (n_feg r) (n_alfo r) (n_plfo r) (n_flfo r)
        | EG => Settings (n_filters r) (n_eqs r) (n_lfos r) (S (n_egs r)) (n_peg r) (n_feg r) (n_alfo r) (n_plfo r) (n_flfo r)
        end in
      let st := s_settings s in
      let st := match p with
        | Filter => Settings (Nat.max (n_filters st) (n_egs r)) (n_eqs st) (n_lfos st) (n_egs st) (n_peg st) (n_feg st) (n_alfo st) (n_plfo st) (n_flfo st)
        | EQ => Settings (n_filters st) (Nat.max (n_eqs st) (n_egs r)) (n_lfos st) (n_egs st) (n_peg st) (n_feg st) (n_alfo st) (n_plfo st) (n_flfo st)
        | EG => Settings (n_filters st) (n_eqs st) (n_lfos st) (Nat.max (n_egs st) (n_egs r)) (n_peg st) (n_feg st) (n_alfo st) (n_plfo st) (n_flfo st)
        end in
      withSettings s st (upd (s_regions s) i (r, o))
  end.

(** A call of the API. *)
Inductive call :=
| SetSampleRate (r : Z)
| SetSamplesPerBlock (n : Z)
| SetNumVoices (n : Z)
| Load (rs : list (settings * nat)) (es : list effect) (hint : option stealing)
| AddTo (i : nat) (p : part).
Definition step (s : synth) (c : call) : synth :=
  match c with
  | SetSampleRate r => setSampleRate s r
  | SetSamplesPerBlock n => setSamplesPerBlock s n
  | SetNumVoices n => setNumVoices s n
  | Load rs es hint => load s rs es hint
  | AddTo i p => addTo s i p
  end.
Definition run (cs : list call) : synth := fold_left step cs initial.
