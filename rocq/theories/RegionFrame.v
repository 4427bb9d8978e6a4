(** The members that opcodes give to a region, and what their order changes (C94). *)
From Coq Require Import ZArith List Bool String Ascii Lia.
From Verif Require Import ParserModel ParserAdvance OpcodeModel OpcodeNumbers OpcodeNames OpcodeCategory ModModel RegionModel RegionSafe RegionWell RegionConn.
Import ListNotations.
Local Open Scope string_scope.
Local Open Scope list_scope.
Local Open Scope Z_scope.

(** * Specification *)
(** Which entry of a member the numbers in the name of an opcode choose: the member itself (for WholeCC if the last number is a controller up to the
    given one), the entry of a controller, of an effect bus, of a filter, equalizer, LFO or envelope counted from 1, of one of its controllers, of
    a sub-oscillator of an LFO, of a point of an envelope, of a controller of it *)
Inductive entry := Whole | WholeCC (top : Z) | CC (top : Z) | Send | Nth | NthCC (top : Z) | Sub | Point | PointCC.
Definition index (x : entry) (p : list Z) : option (list Z) :=
  let n := hd 0 p in let s := nth 1 p 0 in let c := last p 0 in
  match x with
  | Whole => Some []
  | WholeCC m => if c <=? m then Some [] else None
  | CC m => if c <=? m then Some [c] else None
  | Send => if (1 <=? c) && (c <=? 256) then Some [c] else None
  | Nth => if 1 <=? n then Some [n - 1] else None
  | NthCC m => if (1 <=? n) && (c <=? m) then Some [n - 1; c] else None
  | Sub => if (1 <=? n) && ((1 <=? s) && (s <=? 8)) then Some [n - 1; s - 1] else None
  | Point => if 1 <=? n then Some [n - 1; s] else None
  | PointCC => if (1 <=? n) && (c <=? 511) then Some [n - 1; s; c] else None
  end.
Record write := W { w_opcode : string; w_member : string; w_entry : entry; w_fun : string }.
(** the name of the member: amp_keytrack gives ampKeytrack *)
Definition upper (a : ascii) : ascii := if (97 <=? nat_of_ascii a)%nat then ascii_of_nat (nat_of_ascii a - 32) else a.
Fixpoint camel (s : string) : string :=
  match s with
  | String "_" (String a s) => String (upper a) (camel s)
  | String a s => String a (camel s)
  | EmptyString => EmptyString
  end.
(** the opcodes that do as their name says *)
Definition plain : list string :=
  ["sample_quality"; "delay"; "delay_random"; "offset"; "offset_random"; "loop_crossfade"; "oscillator_mode"; "oscillator_multi"; "oscillator_detune";
   "oscillator_mod_depth"; "group"; "output"; "polyphony"; "note_polyphony"; "rt_dead"; "trigger"; "volume"; "amplitude"; "pan"; "position"; "width";
   "amp_keytrack"; "amp_veltrack"; "amp_random"; "rt_decay"; "pitch_keytrack"; "pitch_veltrack"; "pitch_random"; "transpose"; "pitch"; "bend_up";
   "bend_down"; "bend_step"].
(** those whose member or specification has another name *)
Definition renamed : list (string * string * string) :=
  [("end", "sampleEnd", "read sampleEnd"); ("oscillator", "oscillatorEnabled", "read oscillator"); ("off_by", "offBy", "readOptional group");
   ("note_selfmask", "selfMask", "read selfMask"); ("sw_up", "upKeyswitch", "readOptional key"); ("sw_vel", "velocityOverride", "read velocityOverride");
   ("sustain_cc", "sustainCC", "read sustainCC"); ("sostenuto_cc", "sostenutoCC", "read sostenutoCC");
   ("sustain_lo", "sustainThreshold", "read sustainThreshold"); ("sostenuto_lo", "sostenutoThreshold", "read sostenutoThreshold");
   ("sustain_sw", "checkSustain", "read checkSustain"); ("sostenuto_sw", "checkSostenuto", "read checkSostenuto");
   ("seq_length", "sequenceLength", "read sequence"); ("amp_keycenter", "ampKeycenter", "read key");
   ("xf_keycurve", "crossfadeKeyCurve", "read crossfadeCurve"); ("xf_velcurve", "crossfadeVelCurve", "read crossfadeCurve");
   ("xf_cccurve", "crossfadeCCCurve", "read crossfadeCurve");
   ("global_amplitude", "globalAmplitude", "read amplitude"); ("master_amplitude", "masterAmplitude", "read amplitude");
   ("group_amplitude", "groupAmplitude", "read amplitude"); ("global_volume", "globalVolume", "read volume");
   ("master_volume", "masterVolume", "read volume"); ("group_volume", "groupVolume", "read volume");
   ("bend_smooth", "bendSmooth", "read smoothCC"); ("sw_default", "defaultSwitch", "read key"); ("oscillator_phase", "oscillatorPhase", "phase");
   ("sw_label", "keyswitchLabel", "text"); ("loop_count", "loopCount", "readOptional loopCount");
   ("oscillator_quality", "oscillatorQuality", "readOptional oscillatorQuality")].
(** several opcodes for one member, or several members *)
Definition shared : list (string * string * string) :=
  [("sample", "sampleId", "sample"); ("direction", "sampleId", "direction");
   ("loop_mode", "loopMode", "readOptional loopMode"); ("count", "sampleCount", "readOptional sampleCount"); ("count", "loopMode", "one_shot");
   ("off_mode", "offMode", "read offMode"); ("off_time", "offMode", "time"); ("off_time", "offTime", "read offTime");
   ("lokey", "keyRange", "setStart loKey"); ("hikey", "triggerOnNote", "given hiKey"); ("hikey", "keyRange", "setEnd hiKey");
   ("key", "triggerOnNote", "given key"); ("key", "keyRange", "both key"); ("key", "pitchKeycenter", "read key");
   ("pitch_keycenter", "pitchKeycenterFromSample", "sample?"); ("pitch_keycenter", "pitchKeycenter", "unless sample, read key");
   ("sw_last", "keyswitches", "sw_last"); ("sw_lolast", "keyswitches", "sw_lolast"); ("sw_hilast", "keyswitches", "sw_hilast");
   ("sw_down", "downKeyswitch", "readOptional key"); ("sw_down", "keyswitches", "sw_down");
   ("sw_previous", "previousKeyswitch", "readOptional key"); ("sw_previous", "usesPreviousKeySwitches", "given key");
   ("seq_position", "sequencePosition", "read sequence"); ("seq_position", "usesSequenceSwitches", "true");
   ("loop_start", "loopRange", "setStart loopStart"); ("loop_end", "loopRange", "setEnd loopEnd")].
(** pairs of bounds: what is before and after lo and hi in the names, the member, the entry, the specifications *)
Definition bounds : list (string * string * string * entry * string * string) :=
  [("", "vel", "velocityRange", Whole, "loVel", "hiVel"); ("", "bend", "bendRange", Whole, "loBend", "hiBend");
   ("", "prog", "programRange", Whole, "loProgram", "hiProgram"); ("", "chanaft", "aftertouchRange", Whole, "loChannelAftertouch", "hiChannelAftertouch");
   ("", "polyaft", "polyAftertouchRange", Whole, "loPolyAftertouch", "hiPolyAftertouch"); ("", "bpm", "bpmRange", Whole, "loBPM", "hiBPM");
   ("", "rand", "randRange", Whole, "loNormalized", "hiNormalized"); ("", "timer", "timerRange", Whole, "loTimer", "hiTimer");
   ("xfin_", "vel", "crossfadeVelInRange", Whole, "xfinLo", "xfinHi"); ("xfout_", "vel", "crossfadeVelOutRange", Whole, "xfoutLo", "xfoutHi");
   ("xfin_", "key", "crossfadeKeyInRange", Whole, "loKey", "loKey"); ("xfout_", "key", "crossfadeKeyOutRange", Whole, "hiKey", "hiKey");
   ("", "cc&", "ccConditions", CC 511, "loCC", "hiCC"); ("", "hdcc&", "ccConditions", CC 511, "loNormalized", "hiNormalized");
   ("start_", "cc&", "ccTriggers", CC 511, "loCC", "hiCC"); ("start_", "hdcc&", "ccTriggers", CC 511, "loNormalized", "hiNormalized");
   ("xfin_", "cc&", "crossfadeCCInRange", CC 511, "xfinLo", "xfinHi"); ("xfout_", "cc&", "crossfadeCCOutRange", CC 511, "xfoutLo", "xfoutHi")].
(** the numbered ones *)
Definition numbered : list (string * string * entry * string) :=
  [("delay_oncc&", "delayCC", CC 512, "delayMod"); ("offset_oncc&", "offsetCC", CC 512, "offsetMod"); ("end_oncc&", "endCC", CC 512, "sampleEndMod");
   ("loop_start_oncc&", "loopStartCC", CC 512, "loopMod"); ("loop_end_oncc&", "loopEndCC", CC 512, "loopMod");
   ("amp_veltrack_oncc&", "ampVeltrackCC.modifier", CC 511, "ampVeltrackMod"); ("amp_veltrack_curvecc&", "ampVeltrackCC.curve", CC 511, "curveCC");
   ("pitch_veltrack_oncc&", "pitchVeltrackCC.modifier", CC 511, "pitchVeltrackMod");
   ("pitch_veltrack_curvecc&", "pitchVeltrackCC.curve", CC 511, "curveCC");
   ("effect&", "gainToEffect", Send, "effect");
   ("cutoff&", "filters.cutoff", Nth, "filterCutoff"); ("resonance&", "filters.resonance", Nth, "filterResonance");
   ("fil&_keytrack", "filters.keytrack", Nth, "filterKeytrack"); ("fil&_keycenter", "filters.keycenter", Nth, "key");
   ("fil&_veltrack", "filters.veltrack", Nth, "filterVeltrack"); ("fil&_veltrack_oncc&", "filters.veltrackCC.modifier", NthCC 511, "filterVeltrackMod");
   ("fil&_veltrack_curvecc&", "filters.veltrackCC.curve", NthCC 511, "curveCC"); ("fil&_random", "filters.random", Nth, "filterRandom");
   ("fil&_gain", "filters.gain", Nth, "filterGain"); ("fil&_type", "filters.type", Nth, "filter");
   ("eq&_bw", "equalizers.bandwidth", Nth, "eqBandwidth"); ("eq&_freq", "equalizers.frequency", Nth, "eqFrequency");
   ("eq&_veltofreq", "equalizers.vel2frequency", Nth, "eqVel2Frequency"); ("eq&_gain", "equalizers.gain", Nth, "eqGain");
   ("eq&_veltogain", "equalizers.vel2gain", Nth, "eqVel2Gain"); ("eq&_type", "equalizers.type", Nth, "eq");
   ("lfo&_freq", "lfos.freq", Nth, "lfoFreq"); ("lfo&_beats", "lfos.beats", Nth, "lfoBeats"); ("lfo&_phase", "lfos.phase0", Nth, "lfoPhase");
   ("lfo&_delay", "lfos.delay", Nth, "lfoDelay"); ("lfo&_delay_oncc&", "lfos.delayCC", NthCC 512, "lfoDelayMod");
   ("lfo&_fade", "lfos.fade", Nth, "lfoFade"); ("lfo&_fade_oncc&", "lfos.fadeCC", NthCC 512, "lfoFadeMod"); ("lfo&_count", "lfos.count", Nth, "lfoCount");
   ("lfo&_wave&", "lfos.wave", Sub, "lfoWave"); ("lfo&_offset&", "lfos.offset", Sub, "lfoOffset"); ("lfo&_ratio&", "lfos.ratio", Sub, "lfoRatio");
   ("lfo&_scale&", "lfos.scale", Sub, "lfoScale");
   ("eg&_dynamic", "flexEGs.dynamic", Nth, "flexEGDynamic"); ("eg&_sustain", "flexEGs.sustain", Nth, "flexEGSustain");
   ("eg&_time&", "flexEGs.time", Point, "flexEGPointTime"); ("eg&_time&_oncc&", "flexEGs.ccTime", PointCC, "flexEGPointTimeMod");
   ("eg&_level&", "flexEGs.level", Point, "flexEGPointLevel"); ("eg&_level&_oncc&", "flexEGs.ccLevel", PointCC, "flexEGPointLevelMod");
   ("eg&_shape&", "flexEGs.shape", Point, "flexEGPointShape")].
(** the times and levels of the three envelopes of the first version *)
Definition stages : list (string * string * string * string) :=
  [("attack", "Attack", "egTime", "egTimeMod"); ("decay", "Decay", "egTime", "egTimeMod"); ("delay", "Delay", "egTime", "egTimeMod");
   ("hold", "Hold", "egTime", "egTimeMod"); ("release", "Release", "egRelease", "egTimeMod"); ("sustain", "Sustain", "egPercent", "egPercentMod");
   ("start", "Start", "egPercent", "egPercentMod")].
Definition specification : list write :=
  map (fun n => W n (camel n) Whole (append "read " (camel n))) plain ++
  map (fun '(n, m, f) => W n m Whole f) (renamed ++ shared) ++
  map (fun n => W n "triggerOnCC" (WholeCC 511) "true") ["start_locc&"; "start_hicc&"; "start_lohdcc&"] ++
  flat_map (fun '(p, x, m, e, lo, hi) =>
    [W (append p (append "lo" x)) m e (append "setStart " lo); W (append p (append "hi" x)) m e (append "setEnd " hi)]) bounds ++
  map (fun '(n, m, e, s) => W n m e (append "read " s)) numbered ++
  flat_map (fun p => flat_map (fun '(x, y, s, d) =>
    [W (append p x) (append p x) Whole (append "read " s);
     W (append p (append x "_oncc&")) (append p (append "cc" (append y ".modifier"))) (CC 511) (append "read " d);
     W (append p (append x "_curvecc&")) (append p (append "cc" (append y ".curve"))) (CC 511) "read curveCC"]) stages ++
    map (fun '(x, s) => W (append p (append "velto" x)) (append p (append "vel2" x)) Whole (append "read " s))
      [("attack", "egTimeMod"); ("decay", "egTimeMod"); ("delay", "egTimeMod"); ("hold", "egTimeMod"); ("release", "egTimeMod"); ("sustain", "egPercentMod")] ++
    [W (append p "dynamic") (append p "dynamic") Whole "read egDynamic"]) ["ampeg_"; "pitcheg_"; "fileg_"] ++
  flat_map (fun p => map (fun '(x, s) => W (append p x) (append p x) Whole (append "read " s))
      [("delay", "lfoDelay"); ("fade", "lfoFade"); ("freq", "lfoFreq"); ("wave", "lfoWave")]) ["amplfo_"; "pitchlfo_"; "fillfo_"].
Definition writesTo (o : opcode) (k : place) (w : write) : bool :=
  isName (getLetterOnlyName o) (str (w_opcode w)) &&
  match index (w_entry w) (o_params o) with Some ns => place_eqb (w_member w, ns) k | None => false end.

(** Opcodes of different names that write the same member *)
Definition groups : list (list string) :=
  [["sample"; "direction"]; ["loop_mode"; "count"]; ["off_mode"; "off_time"]; ["lokey"; "hikey"; "key"]; ["key"; "pitch_keycenter"];
   ["sw_last"; "sw_lolast"; "sw_hilast"; "sw_down"]; ["loop_start"; "loop_end"]; ["locc&"; "hicc&"; "lohdcc&"; "hihdcc&"];
   ["start_locc&"; "start_hicc&"; "start_lohdcc&"; "start_hihdcc&"]] ++
  map (fun '(p, x, _, _, _, _) => [append p (append "lo" x); append p (append "hi" x)]) bounds.

(** * What the cases write *)
Definition wr : Type := (string * entry * string)%type.
Definition actWrites (a : act) : list wr :=
  match a with
  | Set_ ws => map (fun w => (fst w, Whole, snd w)) ws
  | MapCC inc ws m sub f => map (fun w => (fst w, WholeCC (if inc then 512 else 511), snd w)) ws ++ [(append m sub, CC (if inc then 512 else 511), f)]
  | Effect spec => [("gainToEffect", Send, append "read " spec)]
  | Element v m f => [(append (vecName v) m, Nth, f)]
  | ElementCC v m sub f => [(append (append (vecName v) m) sub, NthCC 511, f)]
  | _ => []
  end.
Definition l1Writes (p : string) (a : lfo1act) : list wr := match a with L1Set m spec => [(append p m, Whole, append "read " spec)] | _ => [] end.
Definition e1Writes (p : string) (a : eg1act) : list wr :=
  match a with
  | E1Set m spec => [(append p m, Whole, append "read " spec)]
  | E1Map m sub spec => [(append (append p m) sub, CC 511, append "read " spec)]
  | _ => []
  end.
Definition nWrites (p : string) (a : nact) : list wr :=
  match a with
  | NSet m spec => [(append p m, Nth, append "read " spec)]
  | NMap m spec => [(append (append p m) "", NthCC 512, append "read " spec)]
  | NSub m spec => [(append p m, Sub, append "read " spec)]
  | NPoint m spec => [(append p m, Point, append "read " spec)]
  | NPointCC m spec => [(append (append p m) "", PointCC, append "read " spec)]
  | _ => []
  end.
Definition prefixes : list string := ["ampeg_"; "pitcheg_"; "fileg_"; "amplfo_"; "pitchlfo_"; "fillfo_"].
Definition prefixOf (c : string) : string := match find (fun p => starts_with (str p) (str c)) prefixes with Some p => p | None => "" end.
Definition allWrites : list (string * list wr) :=
  map (fun c => (fst c, actWrites (snd c))) regionTable ++ map (fun c => (fst c, l1Writes (prefixOf (fst c)) (snd c))) lfo1Cases ++
  map (fun c => (fst c, e1Writes (prefixOf (fst c)) (snd c))) eg1Table ++ map (fun c => (fst c, nWrites "lfos." (snd c))) lfo2Table ++
  map (fun c => (fst c, nWrites "flexEGs." (snd c))) eg2Table.
Lemma allWrites_names : map fst allWrites = allCases.
Proof. unfold allWrites, allCases. rewrite !map_app, !map_map. reflexivity. Qed.
Definition lookup (L : text) : list wr := match find (fun c => isName L (str (fst c))) allWrites with Some c => snd c | None => [] end.
Lemma names_nodup : NoDup (map str (map fst allWrites)).
Proof.
  rewrite allWrites_names. apply (NoDup_map_inv (fun t => hash t fnvBasis)). rewrite map_map. apply C92_cases_distinct.
Qed.
Lemma lookup_in c ws : In (c, ws) allWrites -> lookup (str c) = ws.
Proof.
  unfold lookup. pose proof names_nodup as N. revert N. generalize allWrites. intros l. induction l as [|[d us] l IH]; intros N H; [easy|].
  cbn [map fst] in N. apply NoDup_cons_iff in N. destruct N as [N1 N2]. cbn [find fst]. destruct H as [H|H].
  - injection H as -> ->. now rewrite isName_refl.
  - rewrite isName_neq; [now apply IH|]. intros E. apply N1. rewrite <- E. apply (in_map str _ c), in_map_iff. now exists (c, ws).
Qed.
Lemma lookup_none L : (forall c ws, In (c, ws) allWrites -> L <> str c) -> lookup L = [].
Proof.
  unfold lookup. intros H. destruct (find _ _) as [[c ws]|] eqn:F; [|reflexivity]. apply find_some in F. destruct F as [F G]. apply isName_true in G.
  now apply H in F.
Qed.
Lemma lookup_some L c ws : find (fun c => isName L (str (fst c))) allWrites = Some (c, ws) -> L = str c /\ In (c, ws) allWrites.
Proof. intros F. apply find_some in F. destruct F as [F G]. apply isName_true in G. now split. Qed.

(** ** Prefixes *)
Lemma starts_cons a p b t : starts_with (a :: p) (b :: t) = (b =? a) && starts_with p t.
Proof. reflexivity. Qed.
Lemma starts_both p q t : starts_with p t = true -> starts_with q t = true -> starts_with p q = true \/ starts_with q p = true.
Proof.
  revert q t. induction p as [|a p IH]; intros q t H1 H2; [now left|]. destruct q as [|b q]; [now right|]. destruct t as [|x t]; [discriminate|].
  rewrite starts_cons in *. apply andb_true_iff in H1. apply andb_true_iff in H2. destruct H1 as [A1 H1], H2 as [A2 H2]. apply Z.eqb_eq in A1, A2. subst.
  rewrite !starts_cons, Z.eqb_refl. cbn [andb]. exact (IH _ _ H1 H2).
Qed.
Lemma exclusive p q t : starts_with p q || starts_with q p = false -> starts_with p t = true -> starts_with q t = false.
Proof.
  intros H A. apply not_true_iff_false. intros B. apply orb_false_iff in H. destruct (starts_both _ _ _ A B); destruct H; congruence.
Qed.
Lemma prefix_name p L N o : named L N o -> ~ In 38 (str p) -> starts_with (str p) L = true -> starts_with (str p) (o_name o) = true.
Proof.
  intros (n & v & T & R & A & B & ->) D W. assert (E : o_name (mkOpcode n v) = n).
  { unfold mkOpcode. rewrite T, (scan_reads _ _ _ R A B) by apply le_n. reflexivity. }
  rewrite E. clear E. destruct R as [l Hl|l d r L N Hl Hd Hr R]; [exact W|]. revert D W. generalize (str p). clear -Hl. induction l as [|x l IH]; intros q D W.
  - destruct q as [|y q]; [reflexivity|]. cbn [app] in W. rewrite starts_cons in W. apply andb_true_iff in W. destruct W as [W _]. apply Z.eqb_eq in W. subst. exfalso. apply D. now left.
  - destruct q as [|y q]; [reflexivity|]. cbn [app] in *. rewrite starts_cons in W |- *. apply andb_true_iff in W. destruct W as [W1 W2]. rewrite W1. cbn [andb].
    apply IH; [now inversion Hl|intros X; apply D; now right|exact W2].
Qed.

Section Frame.
Variable V : Type.
Variable apply : string -> text -> V -> V.
Variable read : string -> text -> V.
Variable readStep : string -> text -> V.
Variable zero : V.
Variable readAmpeg : text -> bool.
Variable readSteps : text -> nat.
Notation region := (region V).
Notation parseOpcode := (parseOpcode V apply read readStep zero readAmpeg readSteps).
Notation parseOpcodes := (parseOpcodes V apply read readStep zero readAmpeg readSteps).

Definition put1 (o : opcode) (k : place) (x : V) (w : wr) : V :=
  match index (snd (fst w)) (o_params o) with Some ns => if place_eqb (fst (fst w), ns) k then apply (snd w) (o_value o) x else x | None => x end.
Definition put (ws : list wr) (o : opcode) (k : place) (x : V) : V := fold_left (put1 o k) ws x.
(** what an opcode makes of the value x of the entry k of a member *)
Definition gives (k : place) (x : V) (o : opcode) : V :=
  fold_left (fun x w => if writesTo o k w then apply (w_fun w) (o_value o) x else x) specification x.

Lemma place_eqb_true a b : place_eqb a b = true <-> a = b.
Proof.
  unfold place_eqb. rewrite andb_true_iff, String.eqb_eq. destruct a as [a1 a2], b as [b1 b2]. cbn [fst snd].
  destruct (list_eq_dec Z.eq_dec a2 b2); split; intros H; try (destruct H; congruence); split; congruence.
Qed.
Lemma place_eqb_refl a : place_eqb a a = true. Proof. now apply place_eqb_true. Qed.
Lemma setMem_mem kk f o (r : region) k : r_mem V (setMem V apply kk f o r) k = if place_eqb kk k then apply f (o_value o) (r_mem V r k) else r_mem V r k.
Proof. cbn [setMem r_mem]. destruct (place_eqb kk k) eqn:E; [|reflexivity]. apply place_eqb_true in E. now subst. Qed.
Lemma setEntry_mem m sub cc f o (r : region) k : r_mem V (setEntry V apply m sub cc f o r) k =
  if place_eqb (append (fst m) sub, snd m ++ [cc]) k then apply f (o_value o) (r_mem V r k) else r_mem V r k.
Proof. unfold setEntry. cbv zeta. cbn [r_mem]. apply setMem_mem. Qed.
Lemma setAll_mem e ws o (r : region) k : index e (o_params o) = Some [] ->
  r_mem V (setAll V apply ws o r) k = put (map (fun w => (fst w, e, snd w)) ws) o k (r_mem V r k).
Proof.
  intros H. unfold setAll, put. revert r. induction ws as [|w ws IH]; intros r; [reflexivity|]. cbn [fold_left map]. rewrite IH, setMem_mem.
  unfold put1 at 3. cbn [fst snd]. now rewrite H.
Qed.
Lemma put_none e ws o k x : index e (o_params o) = None -> put (map (fun w : string * string => (fst w, e, snd w)) ws) o k x = x.
Proof. intros H. unfold put. induction ws as [|w ws IH]; [reflexivity|]. cbn [map fold_left]. unfold put1 at 2. cbn [fst snd]. now rewrite H. Qed.
Lemma put_app a b o k x : put (a ++ b) o k x = put b o k (put a o k x).
Proof. apply fold_left_app. Qed.
Lemma back_is o c : back o = Some c -> last (o_params o) 0 = c.
Proof. unfold back. destruct (o_params o); [discriminate|]. now intros [= <-]. Qed.
Lemma back_in o c : back o = Some c -> In c (o_params o).
Proof.
  unfold back. destruct (o_params o) as [|y l]; [discriminate|]. intros [= H]. change (last (y :: l) 0 = c) in H. subst c.
  rewrite (app_removelast_last (l := y :: l) 0) at 2 by discriminate. apply in_or_app. right. now left.
Qed.
Lemma front_is o c : front o = Some c -> hd 0 (o_params o) = c.
Proof. unfold front. destruct (o_params o); [discriminate|]. now intros [= <-]. Qed.
Lemma second_is o c : second o = Some c -> nth 1 (o_params o) 0 = c.
Proof. unfold second. destruct (o_params o) as [|x [|y l]]; [discriminate|discriminate|]. now intros [= <-]. Qed.
Lemma generic_mem spec t o (r r' : region) : generic V read readStep zero spec t o r = Some r' -> r_mem V r' = r_mem V r.
Proof.
  unfold generic. destruct (o_cat o); [intros [= <-]; reflexivity|..];
    (destruct (back o) as [cc|]; [|discriminate]; destruct (512 <=? cc); [intros [= <-]; reflexivity|]; destruct (isKey t); intros [= <-]; reflexivity).
Qed.
Lemma extend_mem v n (r r' : region) : extend V v n r = Some r' -> r_mem V r' = r_mem V r /\ n <> 0.
Proof.
  unfold extend, extendSize. destruct v; destruct (Z.eqb_spec n 0); try discriminate; intros [= <-]; now split.
Qed.
Lemma extend_none v n (r : region) : extend V v n r = None -> n = 0.
Proof. unfold extend, extendSize. destruct v; destruct (Z.eqb_spec n 0); try discriminate; now intros _. Qed.
Lemma le_lt c m : (c <=? m) = negb (m + 1 <=? c).
Proof. destruct (Z.leb_spec c m), (Z.leb_spec (m + 1) c); try reflexivity; lia. Qed.
Lemma le_ltb c m : (c <=? m) = negb (m <? c).
Proof. destruct (Z.leb_spec c m), (Z.ltb_spec m c); try reflexivity; lia. Qed.
Definition nonneg (o : opcode) : Prop := Forall (fun x => 0 <= x) (o_params o).
Lemma front_pos o n : nonneg o -> front o = Some n -> n <> 0 -> (1 <=? n) = true.
Proof. intros P F N. unfold front in F. apply nth_error_In in F. unfold nonneg in P. rewrite Forall_forall in P. apply P in F. apply Z.leb_le. lia. Qed.

Ltac one := unfold put; cbn [fold_left]; unfold put1; cbn [fst snd index].
Lemma runAct_mem a o (r : region) x r' k : nonneg o -> runAct V apply read readStep zero a o r = Some (x, r') ->
  r_mem V r' k = put (actWrites a) o k (r_mem V r k).
Proof.
  intros P H. destruct a as [ws|inc ws m sub f|spec|spec|v m f|v m sub f|t spec|v t spec|v s nb t spec]; cbn [runAct] in H; cbn [actWrites].
  - injection H as _ <-. now apply setAll_mem.
  - destruct (back o) as [cc|] eqn:B; [|discriminate]. apply back_is in B. rewrite put_app.
    assert (E : (cc <=? (if inc then 512 else 511)) = negb (if inc then 512 <? cc else 512 <=? cc)) by (destruct inc; [apply le_ltb|apply le_lt]).
    destruct (if inc then 512 <? cc else 512 <=? cc); cbn [negb] in E; injection H as _ <-.
    + rewrite put_none by (cbn [index]; now rewrite B, E). one. now rewrite B, E.
    + rewrite setEntry_mem. cbn [fst snd app]. rewrite (setAll_mem (WholeCC (if inc then 512 else 511))) by (cbn [index]; now rewrite B, E).
      one. now rewrite B, E.
  - destruct (back o) as [n|]; [|discriminate]. destruct (127 <? n); injection H as _ <-; reflexivity.
  - destruct (back o) as [n|] eqn:B; [|discriminate]. assert (Pn : 0 <= n).
    { unfold nonneg in P. rewrite Forall_forall in P. apply P. exact (back_in _ _ B). }
    apply back_is in B. one. rewrite B.
    assert (E : (1 <=? n) && (n <=? 256) = negb ((n =? 0) || (256 <? n))).
    { rewrite negb_orb, le_ltb. rewrite <- (le_ltb n 256). f_equal. destruct (Z.ltb_spec n 1), (Z.eqb_spec n 0); try reflexivity; lia. }
    rewrite E. destruct ((n =? 0) || (256 <? n)); [injection H as _ <-; reflexivity|]. cbv zeta in H. destruct (n <? _); [|discriminate].
    injection H as _ <-. rewrite setMem_mem. reflexivity.
  - destruct (front o) as [n|] eqn:F; [|discriminate]. one. rewrite (front_is _ _ F).
    destruct (extend V v n r) as [r1|] eqn:X; [|injection H as _ <-; now rewrite (extend_none _ _ _ X)].
    apply extend_mem in X. destruct X as [X1 X2]. rewrite (front_pos _ _ P F X2).
    destruct (n - 1 <? _); [|discriminate]. injection H as _ <-. now rewrite setMem_mem, X1.
  - destruct (front o) as [n|] eqn:F; [|discriminate]. destruct (back o) as [cc|] eqn:B; [|discriminate]. apply back_is in B. one. rewrite (front_is _ _ F), B.
    destruct (extend V v n r) as [r1|] eqn:X; [|injection H as _ <-; now rewrite (extend_none _ _ _ X)].
    apply extend_mem in X. destruct X as [X1 X2]. rewrite (front_pos _ _ P F X2), le_lt. change (511 + 1) with 512. cbn [andb].
    destruct (512 <=? cc); cbn [negb]; [injection H as _ <-; now rewrite X1|]. destruct (n - 1 <? _); [|discriminate]. injection H as _ <-.
    rewrite setEntry_mem, X1. reflexivity.
  - destruct (generic _ _ _ _ _ _ _ _) as [r1|] eqn:Q; [|discriminate]. injection H as _ <-. now rewrite (generic_mem _ _ _ _ _ Q).
  - destruct (front o) as [n|] eqn:F; [|discriminate]. destruct (extend V v n r) as [r1|] eqn:X; [|injection H as _ <-; reflexivity].
    apply extend_mem in X. destruct (generic _ _ _ _ _ _ _ _) as [r2|] eqn:Q; [|discriminate]. injection H as _ <-. now rewrite (generic_mem _ _ _ _ _ Q), (proj1 X).
  - destruct (front o) as [n|] eqn:F; [|discriminate]. destruct (extend V v n r) as [r1|] eqn:X; [|injection H as _ <-; reflexivity].
    apply extend_mem in X. injection H as _ <-. cbn [connect withConns r_mem]. now rewrite (proj1 X).
Qed.
Lemma parseLFO1_mem v o (r r' : region) a k : caseOf lfo1Cases o = Some a -> parseLFO1 V apply read readStep zero v o r = Some (Some r') ->
  r_mem V r' k = put (l1Writes (v_prefix v) a) o k (r_mem V r k).
Proof.
  intros E H. unfold parseLFO1 in H. cbv zeta in H. rewrite E in H. clear E. destruct a as [m sp| | |a nb| |a nb]; cbn [l1Writes].
  - injection H as <-. one. apply setMem_mem.
  - injection H as <-. reflexivity.
  - destruct (generic _ _ _ _ _ _ _ _) as [r1|] eqn:Q; [|discriminate]. cbn in H. injection H as <-. now rewrite (generic_mem _ _ _ _ _ Q).
  - injection H as <-. reflexivity.
  - destruct (generic _ _ _ _ _ _ _ _) as [r1|] eqn:Q; [|discriminate]. cbn in H. injection H as <-. now rewrite (generic_mem _ _ _ _ _ Q).
  - injection H as <-. reflexivity.
Qed.
Lemma parseLFO1_no v o (r : region) a : caseOf lfo1Cases o = Some a -> parseLFO1 V apply read readStep zero v o r <> Some None.
Proof.
  intros E H. unfold parseLFO1 in H. cbv zeta in H. rewrite E in H. clear E. destruct a as [m sp| | |a nb| |a nb]; try discriminate H;
    (destruct (generic _ _ _ _ _ _ _ _) as [r1|]; discriminate H).
Qed.
Lemma parseEG1_mem v o (r r' : region) a k : caseOf eg1Table o = Some a -> parseEG1 V apply read readStep zero v o r = Some (Some r') ->
  r_mem V r' k = put (e1Writes (v_prefix v) a) o k (r_mem V r k).
Proof.
  intros E H. unfold parseEG1 in H. cbv zeta in H. rewrite E in H. clear E. destruct a as [m sp|m sub sp|w|w|w]; cbn [e1Writes].
  - injection H as <-. one. apply setMem_mem.
  - destruct (back o) as [cc|] eqn:B; [|discriminate]. one. rewrite (back_is _ _ B), le_lt. change (511 + 1) with 512.
    destruct (512 <=? cc); [discriminate|]. injection H as <-. cbn [negb]. apply setEntry_mem.
  - injection H as <-. reflexivity.
  - injection H as <-. reflexivity.
  - destruct (generic _ _ _ _ _ _ _ _) as [r1|] eqn:Q; [|discriminate]. cbn in H. injection H as <-. now rewrite (generic_mem _ _ _ _ _ Q).
Qed.
Lemma parseEG1_no v o (r : region) a p k x : caseOf eg1Table o = Some a -> parseEG1 V apply read readStep zero v o r = Some None ->
  put (e1Writes p a) o k x = x.
Proof.
  intros E H. unfold parseEG1 in H. cbv zeta in H. rewrite E in H. clear E. destruct a as [m sp|m sub sp|w|w|w]; cbn [e1Writes]; try discriminate H; try reflexivity.
  destruct (back o) as [cc|] eqn:B; [|discriminate]. one. rewrite (back_is _ _ B), le_lt. change (511 + 1) with 512.
  destruct (512 <=? cc); [reflexivity|discriminate].
Qed.
Lemma runNumbered_mem p s n a o (r : region) x r' k : nonneg o -> front o = Some n -> n <> 0 ->
  runNumbered V apply read readStep zero readAmpeg readSteps p s (n - 1) a o r = Some (x, r') ->
  r_mem V r' k = put (nWrites p a) o k (r_mem V r k).
Proof.
  intros P F Nz H. pose proof (front_pos _ _ P F Nz) as F1. pose proof (front_is _ _ F) as F2.
  assert (P2 : forall m, second o = Some m -> 0 <= m).
  { intros m M. unfold second in M. apply nth_error_In in M. unfold nonneg in P. rewrite Forall_forall in P. now apply P. }
  destruct a as [m sp|m sp|t sp| |sp|m sp|m sp|m sp|t sp|t sp|v t sp|v t sp| | |]; cbn [runNumbered] in H; cbn [nWrites].
  - injection H as _ <-. one. rewrite F2, F1. apply setMem_mem.
  - destruct (back o) as [cc|] eqn:B; [|discriminate]. one. rewrite F2, F1, (back_is _ _ B), le_ltb. cbn [andb].
    destruct (512 <? cc); cbn [negb]; injection H as _ <-; [reflexivity|]. apply setEntry_mem.
  - destruct (generic _ _ _ _ _ _ _ _) as [r1|] eqn:Q; [|discriminate]. injection H as _ <-. now rewrite (generic_mem _ _ _ _ _ Q).
  - injection H as _ <-. reflexivity.
  - destruct (second o) as [m|]; [|discriminate]. destruct ((m =? 0) || (128 <? m)); injection H as _ <-; reflexivity.
  - destruct (second o) as [m'|] eqn:Sc; [|discriminate]. one. rewrite F2, F1, (second_is _ _ Sc). specialize (P2 _ eq_refl). cbn [andb].
    assert (E : (1 <=? m') && (m' <=? 8) = negb ((m' =? 0) || (8 <? m'))).
    { rewrite negb_orb, le_ltb. rewrite <- (le_ltb m' 8). f_equal. destruct (Z.ltb_spec m' 1), (Z.eqb_spec m' 0); try reflexivity; lia. }
    rewrite E. destruct ((m' =? 0) || (8 <? m')); cbn [negb]; injection H as _ <-; [reflexivity|]. rewrite setMem_mem. reflexivity.
  - destruct (second o) as [m'|] eqn:Sc; [|discriminate]. one. rewrite F2, F1, (second_is _ _ Sc). injection H as _ <-. rewrite setMem_mem. reflexivity.
  - destruct (second o) as [m'|] eqn:Sc; [|discriminate]. destruct (back o) as [cc|] eqn:B; [|discriminate]. one.
    rewrite F2, F1, (second_is _ _ Sc), (back_is _ _ B), le_lt. change (511 + 1) with 512. cbn [andb]. cbv zeta in H.
    destruct (512 <=? cc); cbn [negb]; injection H as _ <-; [reflexivity|]. rewrite setEntry_mem. reflexivity.
  - injection H as _ <-. reflexivity.
  - destruct (targetCC _ _ _ _ _ _ _ _ _) as [r1|] eqn:Q; [|discriminate]. injection H as _ <-. unfold targetCC in Q. cbv zeta in Q. now rewrite (generic_mem _ _ _ _ _ Q).
  - destruct (second o) as [m|]; [|discriminate]. destruct (extend V v m r) as [r1|] eqn:X; [|injection H as _ <-; reflexivity]. apply extend_mem in X.
    injection H as _ <-. cbn [target connect withConns r_mem]. now rewrite (proj1 X).
  - destruct (second o) as [m|]; [|discriminate]. destruct (extend V v m r) as [r1|] eqn:X; [|injection H as _ <-; reflexivity]. apply extend_mem in X.
    destruct (targetCC _ _ _ _ _ _ _ _ _) as [r2|] eqn:Q; [|discriminate]. injection H as _ <-. unfold targetCC in Q. cbv zeta in Q. rewrite (generic_mem _ _ _ _ _ Q).
    cbn [connect withConns r_mem]. now rewrite (proj1 X).
  - cbv zeta in H. destruct (Bool.eqb _ _); injection H as _ <-; reflexivity.
  - destruct (second o) as [m|]; [|discriminate]. destruct ((m =? 0) || _); injection H as _ <-; reflexivity.
  - destruct (second o) as [m|]; [|discriminate]. destruct ((m =? 0) || _); [injection H as _ <-; reflexivity|].
    destruct (targetCC _ _ _ _ _ _ _ _ _) as [r2|] eqn:Q; [|discriminate]. injection H as _ <-. unfold targetCC in Q. cbv zeta in Q. now rewrite (generic_mem _ _ _ _ _ Q).
Qed.

(** ** A whole opcode *)
Lemma in_allWrites c ws : In (c, ws) allWrites ->
  (exists a, In (c, a) regionTable) \/ (exists a, In (c, a) lfo1Cases /\ ws = l1Writes (prefixOf c) a) \/
  (exists a, In (c, a) eg1Table /\ ws = e1Writes (prefixOf c) a) \/ (exists a, In (c, a) lfo2Table /\ ws = nWrites "lfos." a) \/
  (exists a, In (c, a) eg2Table /\ ws = nWrites "flexEGs." a).
Proof.
  unfold allWrites. rewrite !in_app_iff, !in_map_iff.
  intros [([d a] & [= <- <-] & H)|[([d a] & [= <- <-] & H)|[([d a] & [= <- <-] & H)|[([d a] & [= <- <-] & H)|([d a] & [= <- <-] & H)]]]]; cbn [fst snd]; eauto 8.
Qed.
Lemma case_none {A} (t : list (string * A)) L N o c a : named L N o -> caseOf t o = None -> In (c, a) t -> L <> str c.
Proof.
  intros H E I0 ->. unfold caseOf in E. destruct (find _ t) as [y|] eqn:F; [discriminate|]. apply (find_none _ _ F) in I0. cbn [fst] in I0.
  destruct (named_facts _ _ _ H) as (Q & _). rewrite Q, Z.eqb_refl in I0. discriminate I0.
Qed.
Definition eightPrefixes : list string := prefixes ++ ["lfo&_"; "eg&_"].
Lemma eight_exclusive : forallb (fun p => forallb (fun q => String.eqb p q || negb (starts_with (str p) (str q) || starts_with (str q) (str p))) eightPrefixes) eightPrefixes = true.
Proof. vm_cast_no_check (eq_refl true). Qed.
Lemma others p q L : In p eightPrefixes -> In q eightPrefixes -> p <> q -> starts_with (str p) L = true -> starts_with (str q) L = false.
Proof.
  intros Ip Iq D. apply exclusive. pose proof eight_exclusive as E. rewrite forallb_forall in E. specialize (E _ Ip). rewrite forallb_forall in E. specialize (E _ Iq).
  apply orb_true_iff in E. destruct E as [E|E]; [apply String.eqb_eq in E; congruence|now apply negb_true_iff].
Qed.
Definition startsAs (c : string) (ps : list string) : bool := existsb (fun p => starts_with (str p) (str c)) ps.
Lemma lfo1_starts : forallb (fun c => startsAs (fst c) ["amplfo_"; "pitchlfo_"; "fillfo_"]) lfo1Cases = true. Proof. vm_cast_no_check (eq_refl true). Qed.
Lemma eg1_starts : forallb (fun c => startsAs (fst c) ["ampeg_"; "pitcheg_"; "fileg_"]) eg1Table = true. Proof. vm_cast_no_check (eq_refl true). Qed.
Lemma lfo2_starts : forallb (fun c => startsAs (fst c) ["lfo&_"]) lfo2Table = true. Proof. vm_cast_no_check (eq_refl true). Qed.
Lemma eg2_starts : forallb (fun c => startsAs (fst c) ["eg&_"]) eg2Table = true. Proof. vm_cast_no_check (eq_refl true). Qed.
Lemma table_starts {A} (t : list (string * A)) ps c a : forallb (fun c => startsAs (fst c) ps) t = true -> In (c, a) t ->
  exists p, In p ps /\ starts_with (str p) (str c) = true.
Proof. intros H I0. rewrite forallb_forall in H. specialize (H _ I0). unfold startsAs in H. now apply existsb_exists in H. Qed.
Lemma prefixOf_is p c : In p prefixes -> starts_with (str p) (str c) = true -> prefixOf c = p.
Proof.
  intros Ip W. unfold prefixOf. destruct (find _ prefixes) as [q|] eqn:F.
  - apply find_some in F. destruct F as [F G]. destruct (String.string_dec p q) as [->|D]; [reflexivity|].
    rewrite (others p q) in G; [discriminate|apply in_or_app; now left|apply in_or_app; now left|exact D|exact W].
  - apply (find_none _ _ F) in Ip. congruence.
Qed.
Lemma no_amp_prefix p : In p prefixes -> ~ In 38 (str p).
Proof. intros [<-|[<-|[<-|[<-|[<-|[<-|[]]]]]]]; cbn; intuition discriminate. Qed.
Lemma no_dig_prefix p : In p prefixes -> no_digits (str p).
Proof. intros [<-|[<-|[<-|[<-|[<-|[<-|[]]]]]]]; apply no_digits_b; reflexivity. Qed.

Lemma try_off p L N o f g (r : region) : named L N o -> In p prefixes -> starts_with (str p) L = false -> try V p o f g r = Some (false, r).
Proof.
  intros H Ip W. apply try_starts. apply not_true_iff_false. intros X. rewrite (name_prefix p L N o H (no_dig_prefix _ Ip) X) in W. discriminate W.
Qed.
(** the rows whose name is L, if L has the prefix p and is not in the first table *)
Lemma rows_eg1 L N o p : named L N o -> caseOf regionTable o = None -> In p ["ampeg_"; "pitcheg_"; "fileg_"] -> starts_with (str p) L = true ->
  match caseOf eg1Table o with None => lookup L = [] | Some a => no_collision L -> lookup L = e1Writes p a end.
Proof.
  intros H E0 Ip W. assert (Ip8 : In p eightPrefixes) by (cbn in Ip |- *; tauto). destruct (caseOf eg1Table o) as [a|] eqn:E.
  - intros C. destruct (case_named _ _ _ _ _ incl_eg1 H C E) as (c & Ic & ->). clear E E0.
    rewrite <- (prefixOf_is p c); [|cbn in Ip |- *; tauto|exact W]. apply lookup_in. unfold allWrites. rewrite !in_app_iff, !in_map_iff. right. right. left.
    now exists (c, a).
  - apply lookup_none. intros c ws Ic Lc. apply in_allWrites in Ic. destruct Ic as [(a & Ia)|[(a & Ia & _)|[(a & Ia & _)|[(a & Ia & _)|(a & Ia & _)]]]].
    + exact (case_none _ _ _ _ _ _ H E0 Ia Lc).
    + clear E E0. destruct (table_starts _ _ _ _ lfo1_starts Ia) as (q & Iq & Wq). rewrite <- Lc in Wq. rewrite (others p q L) in Wq; [discriminate Wq|exact Ip8|cbn in Iq |- *; tauto| |exact W].
      intros ->. cbn in Ip, Iq. clear -Ip Iq. destruct Ip as [<-|[<-|[<-|[]]]]; repeat (destruct Iq as [Iq|Iq]; [discriminate Iq|]); exact Iq.
    + exact (case_none _ _ _ _ _ _ H E Ia Lc).
    + clear E E0. destruct (table_starts _ _ _ _ lfo2_starts Ia) as (q & Iq & Wq). rewrite <- Lc in Wq. rewrite (others p q L) in Wq; [discriminate Wq|exact Ip8|cbn in Iq |- *; tauto| |exact W].
      intros ->. cbn in Ip, Iq. clear -Ip Iq. destruct Ip as [<-|[<-|[<-|[]]]]; repeat (destruct Iq as [Iq|Iq]; [discriminate Iq|]); exact Iq.
    + clear E E0. destruct (table_starts _ _ _ _ eg2_starts Ia) as (q & Iq & Wq). rewrite <- Lc in Wq. rewrite (others p q L) in Wq; [discriminate Wq|exact Ip8|cbn in Iq |- *; tauto| |exact W].
      intros ->. cbn in Ip, Iq. clear -Ip Iq. destruct Ip as [<-|[<-|[<-|[]]]]; repeat (destruct Iq as [Iq|Iq]; [discriminate Iq|]); exact Iq.
Qed.
Lemma rows_lfo1 L N o p : named L N o -> caseOf regionTable o = None -> In p ["amplfo_"; "pitchlfo_"; "fillfo_"] -> starts_with (str p) L = true ->
  match caseOf lfo1Cases o with None => lookup L = [] | Some a => no_collision L -> lookup L = l1Writes p a end.
Proof.
  intros H E0 Ip W. assert (Ip8 : In p eightPrefixes) by (cbn in Ip |- *; tauto). destruct (caseOf lfo1Cases o) as [a|] eqn:E.
  - intros C. destruct (case_named _ _ _ _ _ incl_lfo1 H C E) as (c & Ic & ->). clear E E0.
    rewrite <- (prefixOf_is p c); [|cbn in Ip |- *; tauto|exact W]. apply lookup_in. unfold allWrites. rewrite !in_app_iff, !in_map_iff. right. left.
    now exists (c, a).
  - apply lookup_none. intros c ws Ic Lc. apply in_allWrites in Ic. destruct Ic as [(a & Ia)|[(a & Ia & _)|[(a & Ia & _)|[(a & Ia & _)|(a & Ia & _)]]]].
    + exact (case_none _ _ _ _ _ _ H E0 Ia Lc).
    + exact (case_none _ _ _ _ _ _ H E Ia Lc).
    + clear E E0. destruct (table_starts _ _ _ _ eg1_starts Ia) as (q & Iq & Wq). rewrite <- Lc in Wq. rewrite (others p q L) in Wq; [discriminate Wq|exact Ip8|cbn in Iq |- *; tauto| |exact W].
      intros ->. cbn in Ip, Iq. clear -Ip Iq. destruct Ip as [<-|[<-|[<-|[]]]]; repeat (destruct Iq as [Iq|Iq]; [discriminate Iq|]); exact Iq.
    + clear E E0. destruct (table_starts _ _ _ _ lfo2_starts Ia) as (q & Iq & Wq). rewrite <- Lc in Wq. rewrite (others p q L) in Wq; [discriminate Wq|exact Ip8|cbn in Iq |- *; tauto| |exact W].
      intros ->. cbn in Ip, Iq. clear -Ip Iq. destruct Ip as [<-|[<-|[<-|[]]]]; repeat (destruct Iq as [Iq|Iq]; [discriminate Iq|]); exact Iq.
    + clear E E0. destruct (table_starts _ _ _ _ eg2_starts Ia) as (q & Iq & Wq). rewrite <- Lc in Wq. rewrite (others p q L) in Wq; [discriminate Wq|exact Ip8|cbn in Iq |- *; tauto| |exact W].
      intros ->. cbn in Ip, Iq. clear -Ip Iq. destruct Ip as [<-|[<-|[<-|[]]]]; repeat (destruct Iq as [Iq|Iq]; [discriminate Iq|]); exact Iq.
Qed.
Lemma rows_lfo2 L N o : named L N o -> caseOf regionTable o = None -> starts_with (str "lfo&_") L = true ->
  (forall c ws, In (c, ws) allWrites -> L = str c -> exists a, In (c, a) lfo2Table /\ ws = nWrites "lfos." a).
Proof.
  intros H E0 W c ws Ic Lc. apply in_allWrites in Ic. destruct Ic as [(a & Ia)|[(a & Ia & _)|[(a & Ia & _)|[(a & Ia & X)|(a & Ia & _)]]]]; [|exfalso|exfalso|exists a; split; [exact Ia|exact X]|exfalso].
  - exfalso. exact (case_none _ _ _ _ _ _ H E0 Ia Lc).
  - clear E0. destruct (table_starts _ _ _ _ lfo1_starts Ia) as (q & Iq & Wq). rewrite <- Lc in Wq. rewrite (others "lfo&_" q L) in Wq; [discriminate Wq|cbn; tauto|cbn in Iq |- *; tauto| |exact W].
    intros <-. cbn in Iq. clear -Iq. repeat (destruct Iq as [Iq|Iq]; [discriminate Iq|]); exact Iq.
  - clear E0. destruct (table_starts _ _ _ _ eg1_starts Ia) as (q & Iq & Wq). rewrite <- Lc in Wq. rewrite (others "lfo&_" q L) in Wq; [discriminate Wq|cbn; tauto|cbn in Iq |- *; tauto| |exact W].
    intros <-. cbn in Iq. clear -Iq. repeat (destruct Iq as [Iq|Iq]; [discriminate Iq|]); exact Iq.
  - clear E0. destruct (table_starts _ _ _ _ eg2_starts Ia) as (q & Iq & Wq). rewrite <- Lc in Wq. rewrite (others "lfo&_" q L) in Wq; [discriminate Wq|cbn; tauto|cbn in Iq |- *; tauto| |exact W].
    intros <-. cbn in Iq. clear -Iq. repeat (destruct Iq as [Iq|Iq]; [discriminate Iq|]); exact Iq.
Qed.
Lemma rows_eg2 L N o : named L N o -> caseOf regionTable o = None -> starts_with (str "eg&_") L = true ->
  (forall c ws, In (c, ws) allWrites -> L = str c -> exists a, In (c, a) eg2Table /\ ws = nWrites "flexEGs." a).
Proof.
  intros H E0 W c ws Ic Lc. apply in_allWrites in Ic. destruct Ic as [(a & Ia)|[(a & Ia & _)|[(a & Ia & _)|[(a & Ia & _)|(a & Ia & X)]]]]; [|exfalso|exfalso|exfalso|exists a; split; [exact Ia|exact X]].
  - exfalso. exact (case_none _ _ _ _ _ _ H E0 Ia Lc).
  - clear E0. destruct (table_starts _ _ _ _ lfo1_starts Ia) as (q & Iq & Wq). rewrite <- Lc in Wq. rewrite (others "eg&_" q L) in Wq; [discriminate Wq|cbn; tauto|cbn in Iq |- *; tauto| |exact W].
    intros <-. cbn in Iq. clear -Iq. repeat (destruct Iq as [Iq|Iq]; [discriminate Iq|]); exact Iq.
  - clear E0. destruct (table_starts _ _ _ _ eg1_starts Ia) as (q & Iq & Wq). rewrite <- Lc in Wq. rewrite (others "eg&_" q L) in Wq; [discriminate Wq|cbn; tauto|cbn in Iq |- *; tauto| |exact W].
    intros <-. cbn in Iq. clear -Iq. repeat (destruct Iq as [Iq|Iq]; [discriminate Iq|]); exact Iq.
  - clear E0. destruct (table_starts _ _ _ _ lfo2_starts Ia) as (q & Iq & Wq). rewrite <- Lc in Wq. rewrite (others "eg&_" q L) in Wq; [discriminate Wq|cbn; tauto|cbn in Iq |- *; tauto| |exact W].
    intros <-. cbn in Iq. clear -Iq. repeat (destruct Iq as [Iq|Iq]; [discriminate Iq|]); exact Iq.
Qed.
Lemma nWrites_zero p a o k x : hd 0 (o_params o) = 0 -> put (nWrites p a) o k x = x.
Proof. intros Z0. destruct a; cbn [nWrites]; try reflexivity; one; rewrite Z0; reflexivity. Qed.
Lemma numbered_mem (t : list (string * nact)) p L N o : named L N o -> no_collision L -> incl (map fst t) allCases ->
  (forall c a, In (c, a) t -> In (c, nWrites p a) allWrites) ->
  (forall c ws, In (c, ws) allWrites -> L = str c -> exists a, In (c, a) t /\ ws = nWrites p a) ->
  (forall k x, hd 0 (o_params o) = 0 -> put (lookup L) o k x = x) /\
  (caseOf t o = None -> lookup L = []) /\ (forall a, caseOf t o = Some a -> lookup L = nWrites p a).
Proof.
  intros H C It Rows Only. split; [|split].
  - intros k x Z0. unfold lookup. destruct (find _ _) as [[c ws]|] eqn:F; [|reflexivity]. apply lookup_some in F. destruct F as [F1 F2].
    destruct (Only _ _ F2 F1) as (a & _ & ->). now apply nWrites_zero.
  - intros E. apply lookup_none. intros c ws Ic Lc. destruct (Only _ _ Ic Lc) as (a & Ia & _). exact (case_none _ _ _ _ _ _ H E Ia Lc).
  - intros a E. destruct (case_named _ _ _ _ _ It H C E) as (c & Ic & ->). now apply lookup_in, Rows.
Qed.

Lemma parse_mem L N o (r : region) x r' k : named L N o -> no_collision L -> parseOpcode o r = Some (x, r') ->
  r_mem V r' k = put (lookup L) o k (r_mem V r k).
Proof.
  intros Hn Hc H. assert (P : nonneg o).
  { apply Forall_forall. intros y Y. apply (named_params _ _ _ _ Hn Y). }
  unfold RegionModel.parseOpcode in H. destruct (caseOf regionTable o) as [a|] eqn:E.
  { destruct (case_named _ _ _ _ _ incl_region Hn Hc E) as (c & Ic & ->). clear E. rewrite (runAct_mem _ _ _ _ _ k P H). f_equal. symmetry.
    apply lookup_in. unfold allWrites. apply in_or_app. left. apply in_map_iff. now exists (c, a). }
  unfold parseDefault in H. destruct (named_facts _ _ _ Hn) as (_ & _ & Lo & _). rewrite Lo in H.
  assert (EG : forall v g, In (v_prefix v) ["ampeg_"; "pitcheg_"; "fileg_"] -> (forall r1, r_mem V (g r1) = r_mem V r1) ->
    starts_with (str (v_prefix v)) L = true -> try V (v_prefix v) o (parseEG1 V apply read readStep zero v o r) g r = Some (x, r') ->
    r_mem V r' k = put (lookup L) o k (r_mem V r k)).
  { intros v g Iv G W T. pose proof (rows_eg1 L N o _ Hn E Iv W) as Q.
    assert (Iv6 : In (v_prefix v) prefixes) by (clear -Iv; cbn in Iv |- *; tauto). unfold try in T.
    rewrite (prefix_name _ L N o Hn (no_amp_prefix _ Iv6) W) in T.
    destruct (parseEG1 _ _ _ _ _ v o r) as [[r1|]|] eqn:X; [| |discriminate T]; injection T as _ <-.
    - rewrite G. cbn [withV1 r_mem]. destruct (caseOf eg1Table o) as [a|] eqn:E1; [|unfold parseEG1 in X; rewrite E1 in X; discriminate X].
      rewrite (Q Hc). exact (parseEG1_mem _ _ _ _ _ k E1 X).
    - destruct (caseOf eg1Table o) as [a|] eqn:E1; [|now rewrite Q]. rewrite (Q Hc). symmetry. exact (parseEG1_no _ _ _ _ _ _ _ E1 X). }
  assert (LF : forall v g, In (v_prefix v) ["amplfo_"; "pitchlfo_"; "fillfo_"] -> (forall r1, r_mem V (g r1) = r_mem V r1) ->
    starts_with (str (v_prefix v)) L = true -> try V (v_prefix v) o (parseLFO1 V apply read readStep zero v o r) g r = Some (x, r') ->
    r_mem V r' k = put (lookup L) o k (r_mem V r k)).
  { intros v g Iv G W T. pose proof (rows_lfo1 L N o _ Hn E Iv W) as Q.
    assert (Iv6 : In (v_prefix v) prefixes) by (clear -Iv; cbn in Iv |- *; tauto). unfold try in T.
    rewrite (prefix_name _ L N o Hn (no_amp_prefix _ Iv6) W) in T.
    destruct (parseLFO1 _ _ _ _ _ v o r) as [[r1|]|] eqn:X; [| |discriminate T]; injection T as _ <-.
    - rewrite G. cbn [withV1 r_mem]. destruct (caseOf lfo1Cases o) as [a|] eqn:E1; [|unfold parseLFO1 in X; rewrite E1 in X; discriminate X].
      rewrite (Q Hc). exact (parseLFO1_mem _ _ _ _ _ k E1 X).
    - destruct (caseOf lfo1Cases o) as [a|] eqn:E1; [|now rewrite Q]. exfalso. exact (parseLFO1_no _ _ _ _ E1 X). }
  pose proof (fun W => rows_lfo2 L N o Hn E W) as R7. pose proof (fun W => rows_eg2 L N o Hn E W) as R8.
  pose proof (fun c a Ia => case_none _ L N o c a Hn E Ia) as R0. clear E.
  assert (Orr : forall y, orElse V y (fun r => Some (false, r)) = y) by (intros [[[] ?]|]; reflexivity).
  assert (Swap : forall p q, In p eightPrefixes -> In q eightPrefixes -> p <> q -> starts_with (str p) L = true -> starts_with (str q) L = false) by (intros p q A B C D; exact (others p q L A B C D)).
  assert (Off : forall p f g r0, In p prefixes -> starts_with (str p) L = false -> try V p o f g r0 = Some (false, r0)) by (intros p f g r0 A B; exact (try_off p L N o f g r0 Hn A B)).
  assert (End : forall (y : option (bool * region)), match y with Some (false, r1) => Some (false, r1) | _ => y end = y) by (intros [[[] ?]|]; reflexivity).
  destruct (starts_with (str "ampeg_") L) eqn:W1; [|rewrite Off in H by (first [assumption | cbn; tauto]); cbn [orElse] in H].
  { repeat (match type of H with context[starts_with (str ?q) L] => rewrite (Swap "ampeg_" q) in H by (first [exact W1 | discriminate | cbn; tauto]) end).
    apply (EG ampEG (fun r => r)); [cbn; tauto|reflexivity|exact W1|]. cbn [v_prefix ampEG].
    destruct (try V "ampeg_" o _ (fun r => r) r) as [[[] r1]|] eqn:T; cbn [orElse] in H; [exact H| |exact H].
    assert (Rs : r1 = r) by (unfold try in T; destruct (starts_with _ _); [|congruence]; destruct (parseEG1 _ _ _ _ _ _ _ _) as [[?|]|]; congruence). clear T; subst r1.
    repeat (rewrite Off in H; [cbn [orElse] in H|cbn; tauto|apply (Swap "ampeg_"); [cbn; tauto|cbn; tauto|discriminate|exact W1]]). exact H. }
  destruct (starts_with (str "pitcheg_") L) eqn:W2; [|rewrite Off in H by (first [assumption | cbn; tauto]); cbn [orElse] in H].
  { repeat (match type of H with context[starts_with (str ?q) L] => rewrite (Swap "pitcheg_" q) in H by (first [exact W2 | discriminate | cbn; tauto]) end).
    apply (EG pitchEG (connected V zero pitchEG)); [cbn; tauto|reflexivity|exact W2|]. cbn [v_prefix pitchEG].
    destruct (try V "pitcheg_" o _ _ r) as [[[] r1]|] eqn:T; cbn [orElse] in H; [exact H| |exact H].
    assert (Rs : r1 = r) by (unfold try in T; destruct (starts_with _ _); [|congruence]; destruct (parseEG1 _ _ _ _ _ _ _ _) as [[?|]|]; congruence). clear T; subst r1.
    repeat (rewrite Off in H; [cbn [orElse] in H|cbn; tauto|apply (Swap "pitcheg_"); [cbn; tauto|cbn; tauto|discriminate|exact W2]]). exact H. }
  destruct (starts_with (str "fileg_") L) eqn:W3; [|rewrite Off in H by (first [assumption | cbn; tauto]); cbn [orElse] in H].
  { repeat (match type of H with context[starts_with (str ?q) L] => rewrite (Swap "fileg_" q) in H by (first [exact W3 | discriminate | cbn; tauto]) end).
    apply (EG filEG (connected V zero filEG)); [cbn; tauto|reflexivity|exact W3|]. cbn [v_prefix filEG].
    destruct (try V "fileg_" o _ _ r) as [[[] r1]|] eqn:T; cbn [orElse] in H; [exact H| |exact H].
    assert (Rs : r1 = r) by (unfold try in T; destruct (starts_with _ _); [|congruence]; destruct (parseEG1 _ _ _ _ _ _ _ _) as [[?|]|]; congruence). clear T; subst r1.
    repeat (rewrite Off in H; [cbn [orElse] in H|cbn; tauto|apply (Swap "fileg_"); [cbn; tauto|cbn; tauto|discriminate|exact W3]]). exact H. }
  destruct (starts_with (str "amplfo_") L) eqn:W4; [|rewrite Off in H by (first [assumption | cbn; tauto]); cbn [orElse] in H].
  { repeat (match type of H with context[starts_with (str ?q) L] => rewrite (Swap "amplfo_" q) in H by (first [exact W4 | discriminate | cbn; tauto]) end).
    apply (LF ampLFO (connected V zero ampLFO)); [cbn; tauto|reflexivity|exact W4|]. cbn [v_prefix ampLFO].
    destruct (try V "amplfo_" o _ _ r) as [[[] r1]|] eqn:T; cbn [orElse] in H; [exact H| |exact H].
    assert (Rs : r1 = r) by (unfold try in T; destruct (starts_with _ _); [|congruence]; destruct (parseLFO1 _ _ _ _ _ _ _ _) as [[?|]|]; congruence). clear T; subst r1.
    repeat (rewrite Off in H; [cbn [orElse] in H|cbn; tauto|apply (Swap "amplfo_"); [cbn; tauto|cbn; tauto|discriminate|exact W4]]). exact H. }
  destruct (starts_with (str "pitchlfo_") L) eqn:W5; [|rewrite Off in H by (first [assumption | cbn; tauto]); cbn [orElse] in H].
  { repeat (match type of H with context[starts_with (str ?q) L] => rewrite (Swap "pitchlfo_" q) in H by (first [exact W5 | discriminate | cbn; tauto]) end).
    apply (LF pitchLFO (connected V zero pitchLFO)); [cbn; tauto|reflexivity|exact W5|]. cbn [v_prefix pitchLFO].
    destruct (try V "pitchlfo_" o _ _ r) as [[[] r1]|] eqn:T; cbn [orElse] in H; [exact H| |exact H].
    assert (Rs : r1 = r) by (unfold try in T; destruct (starts_with _ _); [|congruence]; destruct (parseLFO1 _ _ _ _ _ _ _ _) as [[?|]|]; congruence). clear T; subst r1.
    repeat (rewrite Off in H; [cbn [orElse] in H|cbn; tauto|apply (Swap "pitchlfo_"); [cbn; tauto|cbn; tauto|discriminate|exact W5]]). exact H. }
  destruct (starts_with (str "fillfo_") L) eqn:W6; [|rewrite Off in H by (first [assumption | cbn; tauto]); cbn [orElse] in H].
  { repeat (match type of H with context[starts_with (str ?q) L] => rewrite (Swap "fillfo_" q) in H by (first [exact W6 | discriminate | cbn; tauto]) end).
    apply (LF filLFO (connected V zero filLFO)); [cbn; tauto|reflexivity|exact W6|]. cbn [v_prefix filLFO].
    destruct (try V "fillfo_" o _ _ r) as [[[] r1]|] eqn:T; cbn [orElse] in H; [exact H| |exact H].
    assert (Rs : r1 = r) by (unfold try in T; destruct (starts_with _ _); [|congruence]; destruct (parseLFO1 _ _ _ _ _ _ _ _) as [[?|]|]; congruence). clear T; subst r1.
    exact H. }
  destruct (starts_with (str "lfo&_") L) eqn:W7.
  { rewrite (Swap "lfo&_" "eg&_") in H by (first [assumption | discriminate | cbn; tauto]).
    change (orElse V (parseLFO2 V apply read readStep zero readAmpeg readSteps o r) (fun r0 => Some (false, r0)) = Some (x, r')) in H. rewrite Orr in H.
    destruct (numbered_mem lfo2Table "lfos." L N o Hn Hc incl_lfo2) as (Q0 & Q1 & Q2); [|exact (R7 eq_refl)|].
    { intros c a Ic. unfold allWrites. rewrite !in_app_iff, !in_map_iff. right. right. right. left. now exists (c, a). }
    clear EG LF. unfold parseLFO2 in H. destruct (front o) as [n|] eqn:F; [|discriminate H].
    destruct (Z.eqb_spec n 0) as [->|Nz]; [injection H as _ <-; symmetry; apply Q0; exact (front_is _ _ F)|]. cbv zeta in H.
    match type of H with (if ?c then _ else _) = _ => destruct c end; [discriminate H|].
    destruct (caseOf lfo2Table o) as [a|] eqn:E2; [|injection H as _ <-; now rewrite Q1]. rewrite (Q2 _ eq_refl). clear E2.
    exact (runNumbered_mem _ _ _ _ _ _ _ _ k P F Nz H). }
  destruct (starts_with (str "eg&_") L) eqn:W8.
  { cbn [orElse] in H. destruct (numbered_mem eg2Table "flexEGs." L N o Hn Hc incl_eg2) as (Q0 & Q1 & Q2); [|exact (R8 eq_refl)|].
    { intros c a Ic. unfold allWrites. rewrite !in_app_iff, !in_map_iff. right. right. right. right. now exists (c, a). }
    clear EG LF. unfold parseEG2 in H. destruct (front o) as [n|] eqn:F; [|discriminate H].
    destruct (Z.eqb_spec n 0) as [->|Nz]; [injection H as _ <-; symmetry; apply Q0; exact (front_is _ _ F)|]. cbv zeta in H.
    match type of H with (if ?c then _ else _) = _ => destruct c end; [discriminate H|].
    destruct (caseOf eg2Table o) as [a|] eqn:E2; [|injection H as _ <-; now rewrite Q1]. rewrite (Q2 _ eq_refl). clear E2.
    exact (runNumbered_mem _ _ _ _ _ _ _ _ k P F Nz H). }
  cbn [orElse] in H. injection H as _ <-. rewrite lookup_none; [reflexivity|]. intros c ws Ic Lc. apply in_allWrites in Ic.
  destruct Ic as [(a & Ia)|[(a & Ia & _)|[(a & Ia & _)|[(a & Ia & _)|(a & Ia & _)]]]];
    [exact (R0 _ _ Ia Lc)| | | |];
    [destruct (table_starts _ _ _ _ lfo1_starts Ia) as (q & Iq & Wq)|destruct (table_starts _ _ _ _ eg1_starts Ia) as (q & Iq & Wq)
    |destruct (table_starts _ _ _ _ lfo2_starts Ia) as (q & Iq & Wq)|destruct (table_starts _ _ _ _ eg2_starts Ia) as (q & Iq & Wq)];
    rewrite <- Lc in Wq; clear -Iq Wq W1 W2 W3 W4 W5 W6 W7 W8; cbn [In] in Iq; intuition congruence.
Qed.

(** * The specification *)
Definition triple (w : write) : wr := (w_member w, w_entry w, w_fun w).
Definition rowsOf (L : text) : list wr := map triple (filter (fun w => isName L (str (w_opcode w))) specification).
Definition entry_eqb (a b : entry) : bool :=
  match a, b with
  | Whole, Whole | Send, Send | Nth, Nth | Sub, Sub | Point, Point | PointCC, PointCC => true
  | WholeCC a, WholeCC b | CC a, CC b | NthCC a, NthCC b => a =? b
  | _, _ => false
  end.
Lemma entry_eqb_true a b : entry_eqb a b = true -> a = b.
Proof. destruct a, b; cbn; intros H; try discriminate; try reflexivity; apply Z.eqb_eq in H; now subst. Qed.
Fixpoint wrs_eqb (a b : list wr) : bool :=
  match a, b with
  | [], [] => true
  | (m, e, f) :: a, (m', e', f') :: b => String.eqb m m' && entry_eqb e e' && String.eqb f f' && wrs_eqb a b
  | _, _ => false
  end.
Lemma wrs_eqb_true a b : wrs_eqb a b = true -> a = b.
Proof.
  revert b. induction a as [|[[m e] f] a IH]; intros [|[[m' e'] f'] b]; cbn [wrs_eqb]; intros H; try discriminate; [reflexivity|].
  apply andb_true_iff in H. destruct H as [H H4]. apply andb_true_iff in H. destruct H as [H H3]. apply andb_true_iff in H. destruct H as [H1 H2].
  apply String.eqb_eq in H1, H3. apply entry_eqb_true in H2. apply IH in H4. now subst.
Qed.
Lemma str_injective a b : str a = str b -> a = b.
Proof.
  revert b. induction a as [|x a IH]; intros [|y b] H; try discriminate H; [reflexivity|]. change (str (String x a)) with (Z.of_nat (nat_of_ascii x) :: str a) in H.
  change (str (String y b)) with (Z.of_nat (nat_of_ascii y) :: str b) in H. injection H as H1 H2. apply Nat2Z.inj in H1. apply (f_equal ascii_of_nat) in H1.
  rewrite !ascii_nat_embedding in H1. subst. f_equal. now apply IH.
Qed.
Lemma isName_str a b : isName (str a) (str b) = String.eqb a b.
Proof.
  destruct (String.eqb_spec a b) as [->|D]; [apply isName_refl|]. apply isName_neq. intros E. now apply D, str_injective.
Qed.
Lemma rows_agree : forallb (fun c => wrs_eqb (snd c) (map triple (filter (fun w => String.eqb (fst c) (w_opcode w)) specification))) allWrites = true.
Proof. vm_cast_no_check (eq_refl true). Qed.
Lemma spec_known : forallb (fun w => existsb (String.eqb (w_opcode w)) allCases) specification = true.
Proof. vm_cast_no_check (eq_refl true). Qed.
Lemma lookup_rows L : lookup L = rowsOf L.
Proof.
  unfold lookup. destruct (find _ _) as [[c ws]|] eqn:F.
  - apply lookup_some in F. destruct F as [-> F]. pose proof rows_agree as R. rewrite forallb_forall in R. apply R in F. cbn [fst snd] in F |- *. apply wrs_eqb_true in F. rewrite F. unfold rowsOf. f_equal. apply filter_ext. intros w. symmetry. apply isName_str.
  - unfold rowsOf. destruct (filter _ specification) as [|w l] eqn:G; [reflexivity|]. exfalso.
    assert (Iw : In w specification /\ isName L (str (w_opcode w)) = true) by (apply (proj1 (filter_In (fun w => isName L (str (w_opcode w))) w specification)); rewrite G; now left). destruct Iw as [I1 I2].
    pose proof spec_known as K. rewrite forallb_forall in K. apply K, existsb_exists in I1. destruct I1 as (c & I1 & E). apply String.eqb_eq in E. subst c.
    rewrite <- allWrites_names in I1. apply in_map_iff in I1. destruct I1 as ([c ws] & E & I1). cbn [fst] in E. subst c.
    apply (find_none _ _ F) in I1. cbn [fst] in I1. congruence.
Qed.
Lemma gives_put k x o : gives k x o = put (rowsOf (getLetterOnlyName o)) o k x.
Proof.
  unfold gives, put, rowsOf. revert x. induction specification as [|w l IH]; intros x; [reflexivity|]. cbn [fold_left filter]. rewrite IH. unfold writesTo.
  destruct (isName (getLetterOnlyName o) (str (w_opcode w))); cbn [andb map fold_left]; [|reflexivity]. f_equal. unfold put1, triple. cbn [fst snd].
  destruct (index _ _) as [ns|]; [|reflexivity]. destruct (place_eqb _ _); reflexivity.
Qed.
Lemma fold_cons {A B} (f : A -> B -> A) (y : B) l (x : A) : fold_left f (y :: l) x = fold_left f l (f x y).
Proof. reflexivity. Qed.
Lemma parse_gives o (r : region) b r1 k : nice o -> parseOpcode o r = Some (b, r1) -> r_mem V r1 k = gives k (r_mem V r k) o.
Proof.
  intros (L & N & H & C) E. rewrite gives_put. destruct (named_facts _ _ _ H) as (_ & _ & El & _). rewrite El, <- (lookup_rows L).
  exact (parse_mem L N o r b r1 k H C E).
Qed.
(** Every entry of every member has the value that the opcodes writing it give to it, one after the other. *)
Theorem C94_members l (r r' : region) k : Forall nice l -> parseOpcodes l r = Some r' -> r_mem V r' k = fold_left (gives k) l (r_mem V r k).
Proof.
  intros H. revert r. induction H as [|o l Hn _ IH]; intros r P.
  - injection P as <-. reflexivity.
  - change (match parseOpcode o r with Some (_, r) => parseOpcodes l r | None => None end = Some r') in P.
    destruct (parseOpcode o r) as [[b r1]|] eqn:E; [|discriminate P]. apply (parse_gives _ _ _ _ k Hn) in E. apply IH in P. rewrite fold_cons, P, E. reflexivity.
Qed.

(** Opcodes that do not write an entry do not matter for it. *)
Definition touches (k : place) (o : opcode) : bool := existsb (writesTo o k) specification.
Lemma gives_id k x o : touches k o = false -> gives k x o = x.
Proof.
  unfold touches, gives. revert x. induction specification as [|w l IH]; intros x H; [reflexivity|]. cbn [existsb] in H. apply orb_false_iff in H. destruct H as [A B].
  cbn [fold_left]. rewrite A. now apply IH.
Qed.
Lemma fold_gives k l x : fold_left (gives k) l x = fold_left (gives k) (filter (touches k) l) x.
Proof.
  revert x. induction l as [|o l IH]; intros x; [reflexivity|]. cbn [filter]. rewrite fold_cons. destruct (touches k o) eqn:T; [rewrite fold_cons; apply IH|].
  rewrite (gives_id _ _ _ T). apply IH.
Qed.
Theorem C94_frame l1 l2 id mem r1 r2 k : Forall nice l1 -> Forall nice l2 -> filter (touches k) l1 = filter (touches k) l2 ->
  parseOpcodes l1 (freshRegion V id mem) = Some r1 -> parseOpcodes l2 (freshRegion V id mem) = Some r2 -> r_mem V r1 k = r_mem V r2 k.
Proof. intros H1 H2 E P1 P2. rewrite (C94_members _ _ _ _ H1 P1), (C94_members _ _ _ _ H2 P2), fold_gives, E, <- fold_gives. reflexivity. Qed.

(** The order of two opcodes only matters if they have the same name or one of the groups has both. *)
Definition together (a b : string) : bool := existsb (fun g => existsb (String.eqb a) g && existsb (String.eqb b) g) groups.
Lemma groups_all : forallb (fun w => forallb (fun w' =>
  negb (String.eqb (w_member w) (w_member w')) || String.eqb (w_opcode w) (w_opcode w') || together (w_opcode w) (w_opcode w')) specification) specification = true.
Proof. vm_cast_no_check (eq_refl true). Qed.
Theorem C94_swap l a b l' id mem r1 r2 k : Forall nice (l ++ a :: b :: l') -> getLetterOnlyName a <> getLetterOnlyName b ->
  (forall g x y, In g groups -> In x g -> In y g -> getLetterOnlyName a = str x -> getLetterOnlyName b <> str y) ->
  parseOpcodes (l ++ a :: b :: l') (freshRegion V id mem) = Some r1 -> parseOpcodes (l ++ b :: a :: l') (freshRegion V id mem) = Some r2 ->
  r_mem V r1 k = r_mem V r2 k.
Proof.
  intros H D G. apply C94_frame; [exact H| |].
  - apply Forall_app in H. destruct H as [H1 H2]. rewrite !Forall_cons_iff in H2. apply Forall_app. split; [exact H1|]. rewrite !Forall_cons_iff. tauto.
  - rewrite !filter_app. f_equal. cbn [filter]. destruct (touches k a) eqn:Ta, (touches k b) eqn:Tb; try reflexivity. exfalso.
    apply existsb_exists in Ta. apply existsb_exists in Tb. destruct Ta as (w & Iw & Tw), Tb as (w' & Iw' & Tw').
    unfold writesTo in Tw, Tw'. apply andb_true_iff in Tw. apply andb_true_iff in Tw'. destruct Tw as [Nw Tw], Tw' as [Nw' Tw']. apply isName_true in Nw, Nw'.
    assert (Ew : w_member w = w_member w').
    { destruct (index (w_entry w) _); [|discriminate]. destruct (index (w_entry w') _); [|discriminate]. apply place_eqb_true in Tw, Tw'. congruence. }
    pose proof groups_all as Q. rewrite forallb_forall in Q. specialize (Q _ Iw). rewrite forallb_forall in Q. specialize (Q _ Iw').
    rewrite Ew, String.eqb_refl in Q. cbn [negb orb] in Q. apply orb_true_iff in Q. destruct Q as [Q|Q].
    + apply String.eqb_eq in Q. congruence.
    + apply existsb_exists in Q. destruct Q as (g & Ig & Q). apply andb_true_iff in Q. destruct Q as [Qa Qb]. apply existsb_exists in Qa. apply existsb_exists in Qb.
      destruct Qa as (x & Ix & Ex), Qb as (y & Iy & Ey). apply String.eqb_eq in Ex, Ey. subst x y. exact (G g _ _ Ig Ix Iy Nw Nw').
Qed.

(** A member that opcodes of one name write has the value of the last of them. *)
Definition lastText (w : write) (ns : list Z) (l : list opcode) : option text :=
  fold_left (fun t o => if writesTo o (w_member w, ns) w then Some (o_value o) else t) l None.
Definition alone (w : write) : Prop := forall w', In w' specification -> w_member w' = w_member w -> w' = w.
Lemma spec_nodup : NoDup (map (fun w => (w_opcode w, w_member w)) specification).
Proof.
  assert (Dec : forall a b : string * string, {a = b} + {a <> b}) by (decide equality; apply String.string_dec).
  assert (Q : forall l : list (string * string), (fix go l := match l with [] => true | x :: l => negb (existsb (fun y => String.eqb (fst x) (fst y) && String.eqb (snd x) (snd y)) l) && go l end) l = true -> NoDup l).
  { induction l as [|x l IH]; intros H; [constructor|]. apply andb_true_iff in H. destruct H as [A B]. constructor; [|now apply IH]. intros X.
    apply negb_true_iff in A. rewrite <- not_true_iff_false in A. apply A. apply existsb_exists. exists x. split; [exact X|]. now rewrite !String.eqb_refl. }
  apply Q. vm_compute. reflexivity.
Qed.
Theorem C94_last w ns l id mem r' : In w specification -> alone w -> (forall t x y, apply (w_fun w) t x = apply (w_fun w) t y) -> Forall nice l ->
  parseOpcodes l (freshRegion V id mem) = Some r' ->
  r_mem V r' (w_member w, ns) =
  match lastText w ns l with Some t => apply (w_fun w) t (mem (w_member w, ns)) | None => mem (w_member w, ns) end.
Proof.
  intros Iw Al Ind H P. unfold alone in Al. rewrite (C94_members _ _ _ _ H P). cbn [freshRegion r_mem]. clear H P.
  assert (G : forall x o, gives (w_member w, ns) x o = if writesTo o (w_member w, ns) w then apply (w_fun w) (o_value o) x else x).
  { intros x o. unfold gives. pose proof (NoDup_map_inv _ _ spec_nodup) as Nd. clear l. revert Al Iw Nd. generalize specification. intros l Al Iw Nd.
    assert (Other : forall l x, (forall w', In w' l -> w_member w' = w_member w -> w' = w) -> ~ In w l ->
      fold_left (fun x w' => if writesTo o (w_member w, ns) w' then apply (w_fun w') (o_value o) x else x) l x = x).
    { clear l x Al Iw Nd. induction l as [|w' l IH]; intros x A N; [reflexivity|]. cbn [fold_left]. destruct (writesTo o (w_member w, ns) w') eqn:E.
      - exfalso. apply N. left. apply A; [now left|]. unfold writesTo in E. apply andb_true_iff in E. destruct E as [_ E].
        destruct (index _ _); [|discriminate]. apply place_eqb_true in E. congruence.
      - apply IH; [intros; apply A; [now right|assumption]|]. intros X. apply N. now right. }
    revert x. induction l as [|w' l IH]; intros x; [destruct Iw|]. apply NoDup_cons_iff in Nd. destruct Nd as [N1 N2]. cbn [fold_left]. destruct Iw as [->|Iw].
    - apply Other; [intros; apply Al; [now right|assumption]|exact N1].
    - destruct (writesTo o (w_member w, ns) w') eqn:E.
      + exfalso. assert (w' = w); [|subst; contradiction]. apply Al; [now left|]. unfold writesTo in E. apply andb_true_iff in E. destruct E as [_ E].
        destruct (index _ _); [|discriminate]. apply place_eqb_true in E. congruence.
      + apply IH; [intros; apply Al; [now right|assumption]|exact Iw|exact N2]. }
  unfold lastText. set (d := mem (w_member w, ns)).
  enough (Q : forall t, fold_left (gives (w_member w, ns)) l (match t with Some t => apply (w_fun w) t d | None => d end) =
    match fold_left (fun t o => if writesTo o (w_member w, ns) w then Some (o_value o) else t) l t with Some t => apply (w_fun w) t d | None => d end) by exact (Q None).
  induction l as [|o l IH]; intros t; [reflexivity|]. rewrite !fold_cons, G, <- IH. destruct (writesTo o (w_member w, ns) w); [|reflexivity].
  f_equal. apply Ind.
Qed.
(** in particular the opcodes named as their members *)
Lemma plain_alone n : In n plain -> alone (W n (camel n) Whole (append "read " (camel n))) /\ In (W n (camel n) Whole (append "read " (camel n))) specification.
Proof.
  intros H. split.
  - assert (Q : forallb (fun n => forallb (fun w => negb (String.eqb (w_member w) (camel n)) ||
      String.eqb (w_opcode w) n && entry_eqb (w_entry w) Whole && String.eqb (w_fun w) (append "read " (camel n))) specification) plain = true) by (vm_compute; reflexivity).
    rewrite forallb_forall in Q. specialize (Q _ H). rewrite forallb_forall in Q. intros w Iw E. specialize (Q _ Iw). cbn [w_member] in E.
    rewrite E, String.eqb_refl in Q. cbn [negb orb] in Q. apply andb_true_iff in Q. destruct Q as [Q Q3]. apply andb_true_iff in Q. destruct Q as [Q1 Q2].
    apply String.eqb_eq in Q1, Q3. apply entry_eqb_true in Q2. destruct w. cbn in *. now subst.
  - unfold specification. apply in_or_app. left. apply in_map_iff. now exists n.
Qed.
Definition isNamed (n : string) (o : opcode) : bool := isName (getLetterOnlyName o) (str n).
Theorem C94_plain n (value : string -> text -> V) l id mem r' : In n plain -> (forall s t x, apply (append "read " s) t x = value s t) -> Forall nice l ->
  parseOpcodes l (freshRegion V id mem) = Some r' ->
  r_mem V r' (camel n, []) = match rev (filter (isNamed n) l) with o :: _ => value (camel n) (o_value o) | [] => mem (camel n, []) end.
Proof.
  intros In0 Hv H P. destruct (plain_alone n In0) as [A Iw].
  assert (Ind : forall t x y, apply (append "read " (camel n)) t x = apply (append "read " (camel n)) t y) by (intros t x y; now rewrite !Hv).
  pose proof (C94_last _ [] l id mem r' Iw A Ind H P) as Q0. cbn [w_member w_fun] in Q0. rewrite Q0. clear -Hv.
  assert (Q : forall t, fold_left (fun t o => if writesTo o (camel n, []) (W n (camel n) Whole (append "read " (camel n))) then Some (o_value o) else t) l t =
    match rev (filter (isNamed n) l) with o :: _ => Some (o_value o) | [] => t end).
  { induction l as [|o l IH]; intros t; [reflexivity|]. cbn [fold_left filter]. rewrite IH. unfold writesTo at 1. cbn [w_opcode w_entry index w_member]. rewrite place_eqb_refl, andb_true_r.
    fold (isNamed n o). destruct (isNamed n o); [|reflexivity]. cbn [rev]. destruct (rev (filter (isNamed n) l)); reflexivity. }
  unfold lastText. cbn [w_member]. rewrite Q. destruct (rev _); [reflexivity|apply Hv].
Qed.

(** The bounds of a range do not influence each other: each is that of the last opcode giving it. *)
Section Bounds.
Variables lower upper : V -> Z.
Variable number : string -> text -> Z.
(** UncheckedRange, Range.h 49-65 *)
Hypothesis setStart_lower : forall s t x, lower (apply (append "setStart " s) t x) = number s t.
Hypothesis setStart_upper : forall s t x, upper (apply (append "setStart " s) t x) = upper x.
Hypothesis setEnd_lower : forall s t x, lower (apply (append "setEnd " s) t x) = lower x.
Hypothesis setEnd_upper : forall s t x, upper (apply (append "setEnd " s) t x) = number s t.
Lemma bounds_gives p x m lo hi k v o : In (p, x, m, Whole, lo, hi) bounds -> k = (m, []) ->
  gives k v o =
  if isNamed (append p (append "lo" x)) o then apply (append "setStart " lo) (o_value o) v
  else if isNamed (append p (append "hi" x)) o then apply (append "setEnd " hi) (o_value o) v else v.
Proof.
  intros Ib ->. set (a := append p (append "lo" x)). set (b := append p (append "hi" x)).
  assert (Q : map triple (filter (fun w => String.eqb (w_member w) m) specification) = [(m, Whole, append "setStart " lo); (m, Whole, append "setEnd " hi)] /\
              map w_opcode (filter (fun w => String.eqb (w_member w) m) specification) = [a; b] /\ a <> b).
  { revert Ib. subst a b. unfold bounds. cbn [In].
    do 12 (intros [Ib|Ib]; [injection Ib as <- <- <- <- <-; split; [vm_compute; reflexivity|split; [vm_compute; reflexivity|discriminate]]|revert Ib]).
    do 6 (intros [Ib|Ib]; [discriminate Ib|revert Ib]). intros []. }
  destruct Q as (Q1 & Q2 & D). unfold gives.
  assert (F : forall l v, fold_left (fun x w => if writesTo o (m, []) w then apply (w_fun w) (o_value o) x else x) l v =
    fold_left (fun x w => if writesTo o (m, []) w then apply (w_fun w) (o_value o) x else x) (filter (fun w => String.eqb (w_member w) m) l) v).
  { induction l as [|w l IH]; intros y; [reflexivity|]. cbn [filter]. destruct (String.eqb_spec (w_member w) m) as [E|E]; rewrite ?fold_cons; [apply IH|].
    assert (X : writesTo o (m, []) w = false).
    { unfold writesTo. apply andb_false_iff. right. destruct (index _ _); [|reflexivity]. apply not_true_iff_false. intros T. apply place_eqb_true in T. congruence. }
    rewrite X. apply IH. }
  rewrite F. destruct (filter _ specification) as [|w1 [|w2 [|w3 l]]]; try discriminate Q1. clear F. unfold triple in Q1. cbn [map] in Q1, Q2.
  destruct w1 as [o1 m1 e1 f1], w2 as [o2 m2 e2 f2]. cbn [w_member w_entry w_fun w_opcode] in Q1, Q2. injection Q1 as -> -> -> -> -> ->. injection Q2 as -> ->.
  cbn [fold_left]. unfold writesTo. cbn [w_member w_entry w_fun w_opcode index]. rewrite place_eqb_refl, !andb_true_r. fold (isNamed a o). fold (isNamed b o).
  destruct (isNamed a o) eqn:Ea, (isNamed b o) eqn:Eb; try reflexivity. exfalso. unfold isNamed in Ea, Eb. apply isName_true in Ea, Eb.
  apply D, str_injective. congruence.
Qed.
Definition lastOf (n spec : string) (l : list opcode) (d : Z) : Z := fold_left (fun d o => if isNamed n o then number spec (o_value o) else d) l d.
Theorem C94_bounds p x m lo hi l id mem r' : In (p, x, m, Whole, lo, hi) bounds -> Forall nice l -> parseOpcodes l (freshRegion V id mem) = Some r' ->
  lower (r_mem V r' (m, [])) = lastOf (append p (append "lo" x)) lo l (lower (mem (m, []))) /\
  upper (r_mem V r' (m, [])) = lastOf (append p (append "hi" x)) hi l (upper (mem (m, []))).
Proof.
  intros Ib H P. rewrite (C94_members _ _ _ _ H P). cbn [freshRegion r_mem]. clear H P. generalize (mem (m, [])). unfold lastOf.
  assert (D : forall o, isNamed (append p (append "lo" x)) o = true -> isNamed (append p (append "hi" x)) o = false).
  { intros o A. unfold isNamed in *. apply isName_true in A. rewrite A. apply isName_neq. intros E. apply str_injective in E. clear -E.
    induction p as [|c p IH]; [discriminate E|]. cbn in E. injection E as E. now apply IH. }
  induction l as [|o l IH]; intros v; [now split|]. rewrite !fold_cons. rewrite (bounds_gives _ _ _ _ _ _ v o Ib eq_refl). destruct (IH (if isNamed (append p (append "lo" x)) o
    then apply (append "setStart " lo) (o_value o) v
    else if isNamed (append p (append "hi" x)) o then apply (append "setEnd " hi) (o_value o) v else v)) as [A B]. rewrite A, B. clear A B IH.
  destruct (isNamed (append p (append "lo" x)) o) eqn:Ea.
  - rewrite (D _ Ea), setStart_lower, setStart_upper. now split.
  - destruct (isNamed (append p (append "hi" x)) o) eqn:Eb; [rewrite setEnd_lower, setEnd_upper|]; now split.
Qed.
End Bounds.
End Frame.

(** * Cases *)
(** members that hold the text of the last opcode *)
Definition textParse (l : list opcode) : option (region text) :=
  parseOpcodes text (fun _ t _ => t) (fun _ _ => []) (fun _ _ => []) [] (fun _ => false) (fun _ => O) l (freshRegion text 7 (fun _ => [])).
Lemma nice_ops l : forallb (fun x => let n := str (fst x) in forallb (fun c => negb ((48 <=? c) && (c <=? 57) || (c =? 38))) n && text_eqb (trim n) n && existsb (String.eqb (fst x)) allCases) l = true -> Forall nice (ops l).
Proof.
  intros H. rewrite forallb_forall in H. apply Forall_forall. intros o Io. unfold ops in Io. apply in_map_iff in Io. destruct Io as ([a b] & <- & Io).
  apply H in Io. cbn [fst snd] in Io |- *. cbv zeta in Io. apply andb_true_iff in Io. destruct Io as [Io I3]. apply andb_true_iff in Io. destruct Io as [I1 I2].
  apply existsb_exists in I3. destruct I3 as (c & I3 & E). apply String.eqb_eq in E. subst c.
  exists (str a), []. split; [|now apply case_no_collision]. exists (str a), (str b). rewrite forallb_forall in I1. split.
  { now apply text_eqb_eq. }
  split; [apply rd_end, Forall_forall; intros y Y; apply I1, negb_true_iff, orb_false_iff in Y; destruct Y as [Y _]; apply andb_false_iff in Y; rewrite !Z.leb_gt in Y; lia|].
  split; [intros Y; apply I1 in Y; discriminate Y|]. split; [constructor|reflexivity].
Qed.
(** the order of key and pitch_keycenter, the last volume, and a member nobody writes *)
Example C94_ex : exists a b, Forall nice (ops [("volume", "1"); ("key", "60"); ("pitch_keycenter", "72"); ("volume", "2")]) /\
  textParse (ops [("volume", "1"); ("key", "60"); ("pitch_keycenter", "72"); ("volume", "2")]) = Some a /\
  textParse (ops [("pitch_keycenter", "72"); ("key", "60"); ("volume", "1"); ("volume", "2")]) = Some b /\
  r_mem text a ("pitchKeycenter", []) = str "72" /\ r_mem text b ("pitchKeycenter", []) = str "60" /\
  r_mem text a ("volume", []) = str "2" /\ r_mem text b ("volume", []) = str "2" /\ r_mem text a ("pan", []) = [].
Proof. do 2 eexists. split; [apply nice_ops; vm_compute; reflexivity|]. split; [vm_compute; reflexivity|]. split; [vm_compute; reflexivity|]. repeat split. Qed.
(** ranges whose bounds are the lengths of the texts *)
Definition lengthApply (f : string) (t : text) (x : Z * Z) : Z * Z :=
  match f with
  | String "s" (String "e" (String "t" (String "S" _))) => (Z.of_nat (List.length t), snd x)
  | String "s" (String "e" (String "t" (String "E" _))) => (fst x, Z.of_nat (List.length t))
  | _ => x
  end.
Definition lengthParse (l : list opcode) : option (region (Z * Z)) :=
  parseOpcodes (Z * Z) lengthApply (fun _ _ => (0, 0)) (fun _ _ => (0, 0)) (0, 0) (fun _ => false) (fun _ => O) l (freshRegion (Z * Z) 7 (fun _ => (0, 127))).
Example C94_bounds_ex l r : Forall nice l -> lengthParse l = Some r ->
  snd (r_mem (Z * Z) r ("velocityRange", [])) = lastOf (fun _ t => Z.of_nat (List.length t)) "hivel" "hiVel" l 127 /\
  lengthParse (ops [("hivel", "xxx"); ("lovel", "xx"); ("hivel", "xxxx")]) <> None /\
  lastOf (fun _ t => Z.of_nat (List.length t)) "hivel" "hiVel" (ops [("hivel", "xxx"); ("lovel", "xx"); ("hivel", "xxxx")]) 127 = 4.
Proof.
  intros H P. split.
  - apply (C94_bounds (Z * Z) lengthApply _ _ _ _ _ fst snd (fun _ t => Z.of_nat (List.length t)) ltac:(reflexivity) ltac:(reflexivity) ltac:(reflexivity) ltac:(reflexivity)
      "" "vel" "velocityRange" "loVel" "hiVel" l 7 (fun _ => (0, 127)) r (or_introl eq_refl) H P).
  - split; [vm_compute; discriminate|reflexivity].
Qed.
(** start_hihdcc enters a condition for its controller, but unlike the three others does not make the region start on controllers. *)
Theorem C94_hihdcc_refuted : exists a b, textParse (ops [("start_hihdcc64", "1")]) = Some a /\ textParse (ops [("start_hicc64", "127")]) = Some b /\
  r_maps text a = [(("ccTriggers", []), 64)] /\ r_maps text b = [(("ccTriggers", []), 64)] /\
  r_mem text b ("triggerOnCC", []) <> [] /\ r_mem text a ("triggerOnCC", []) = [].
Proof. do 2 eexists. split; [vm_compute; reflexivity|]. split; [vm_compute; reflexivity|]. repeat split. discriminate. Qed.
