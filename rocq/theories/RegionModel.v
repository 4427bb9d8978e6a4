(** From opcodes to the members and modulations of a region.
    Code: Region::parseOpcode (Region.cpp 55-943) on a cleaned opcode, parseLFOOpcode 945-1061, parseEGOpcode 1073-1244, parseLFOOpcodeV2
    1246-1489, parseEGOpcodeV2 1491-1713, processGenericCc 1715-1784, getConnection and getOrCreateConnection 1853-1875, extendIfNecessary 23-36.

    The value that a text gives to a member is a parameter: [apply f t x] is the new value of a member that was x, by the function named f (for
    instance "read volume" is opcode.read(Default::volume), "setStart loKey" is setStart(opcode.read(Default::loKey))).  What the functions do is
    modelled in ValueModel, OpcodeModel, LoadModel and SampleRangeModel.  Members that are always changed together are one member: "keyswitches"
    is lastKeyswitch, lastKeyswitchRange and usesKeySwitches; "timerRange" includes useTimerRange.
    The keys freqKey, beatsKey and phaseKey of an LFO, which only depend on its number, are left out.  None is undefined behaviour. *)
From Coq Require Import ZArith List Bool String Lia.
From Verif Require Import ParserModel OpcodeModel ModModel.
Import ListNotations.
Local Open Scope string_scope.
Local Open Scope list_scope.
Local Open Scope Z_scope.

Inductive vec := Filters | EQs.
(** What a case does.
    - Set_: members of the region
    - MapCC: the entry of a map for the controller that is the last number, after the test [number > 512] (inclusive) or [number >= 512]
    - Velcurve, Effect: Region.cpp 474-481, 849-859
    - Element, ElementCC: a member, or an entry of a map, of the filter or equalizer that is the first number
    - Generic, ElementGeneric: processGenericCc, on the region or the filter or equalizer
    - ElementAft: the depth of aftertouch (with the number of the region or without) *)
Inductive act :=
  | Set_ (ws : list (string * string))
  | MapCC (inclusive : bool) (ws : list (string * string)) (m sub f : string)
  | Velcurve (spec : string)
  | Effect (spec : string)
  | Element (v : vec) (m f : string)
  | ElementCC (v : vec) (m sub f : string)
  | Generic (t : modid) (spec : string)
  | ElementGeneric (v : vec) (t : modid) (spec : string)
  | ElementAft (v : vec) (s : modid) (numbered : bool) (t : modid) (spec : string).

(** case_any_ccN, 48-53 *)
Definition ccNames (x : string) : list string := map (append x) ["_oncc&"; "_curvecc&"; "_stepcc&"; "_smoothcc&"].
Definition case {A} (x : string) (a : A) : list (string * A) := [(x, a)].
Definition anyCcN {A} (x : string) (a : A) : list (string * A) := map (fun n => (n, a)) (ccNames x).

(** the cases of the switch, 59-868 *)
Definition regionTable : list (string * act) := (
  case "sample_quality" (Set_ [("sampleQuality", "read sampleQuality")]) ++
  case "delay" (Set_ [("delay", "read delay")]) ++
  case "delay_oncc&" (MapCC true [] "delayCC" "" "read delayMod") ++
  case "delay_random" (Set_ [("delayRandom", "read delayRandom")]) ++
  case "offset" (Set_ [("offset", "read offset")]) ++
  case "offset_random" (Set_ [("offsetRandom", "read offsetRandom")]) ++
  case "offset_oncc&" (MapCC true [] "offsetCC" "" "read offsetMod") ++
  case "end" (Set_ [("sampleEnd", "read sampleEnd")]) ++
  case "end_oncc&" (MapCC true [] "endCC" "" "read sampleEndMod") ++
  case "loop_mode" (Set_ [("loopMode", "readOptional loopMode")]) ++
  case "loop_end" (Set_ [("loopRange", "setEnd loopEnd")]) ++
  case "loop_count" (Set_ [("loopCount", "readOptional loopCount")]) ++
  case "loop_start" (Set_ [("loopRange", "setStart loopStart")]) ++
  case "loop_start_oncc&" (MapCC true [] "loopStartCC" "" "read loopMod") ++
  case "loop_end_oncc&" (MapCC true [] "loopEndCC" "" "read loopMod") ++
  case "loop_crossfade" (Set_ [("loopCrossfade", "read loopCrossfade")]) ++
  case "oscillator" (Set_ [("oscillatorEnabled", "read oscillator")]) ++
  case "oscillator_mode" (Set_ [("oscillatorMode", "read oscillatorMode")]) ++
  case "oscillator_multi" (Set_ [("oscillatorMulti", "read oscillatorMulti")]) ++
  case "oscillator_detune" (Set_ [("oscillatorDetune", "read oscillatorDetune")]) ++
  anyCcN "oscillator_detune" (Generic MOscillatorDetune "oscillatorDetuneMod") ++
  case "oscillator_mod_depth" (Set_ [("oscillatorModDepth", "read oscillatorModDepth")]) ++
  anyCcN "oscillator_mod_depth" (Generic MOscillatorModDepth "oscillatorModDepthMod") ++
  case "oscillator_quality" (Set_ [("oscillatorQuality", "readOptional oscillatorQuality")]) ++
  case "group" (Set_ [("group", "read group")]) ++
  case "output" (Set_ [("output", "read output")]) ++
  case "off_by" (Set_ [("offBy", "readOptional group")]) ++
  case "off_mode" (Set_ [("offMode", "read offMode")]) ++
  case "polyphony" (Set_ [("polyphony", "read polyphony")]) ++
  case "note_polyphony" (Set_ [("notePolyphony", "read notePolyphony")]) ++
  case "note_selfmask" (Set_ [("selfMask", "read selfMask")]) ++
  case "rt_dead" (Set_ [("rtDead", "read rtDead")]) ++
  case "lokey" (Set_ [("keyRange", "setStart loKey")]) ++
  case "lovel" (Set_ [("velocityRange", "setStart loVel")]) ++
  case "hivel" (Set_ [("velocityRange", "setEnd hiVel")]) ++
  case "lobend" (Set_ [("bendRange", "setStart loBend")]) ++
  case "hibend" (Set_ [("bendRange", "setEnd hiBend")]) ++
  case "loprog" (Set_ [("programRange", "setStart loProgram")]) ++
  case "hiprog" (Set_ [("programRange", "setEnd hiProgram")]) ++
  case "locc&" (MapCC false [] "ccConditions" "" "setStart loCC") ++
  case "hicc&" (MapCC false [] "ccConditions" "" "setEnd hiCC") ++
  case "lohdcc&" (MapCC false [] "ccConditions" "" "setStart loNormalized") ++
  case "hihdcc&" (MapCC false [] "ccConditions" "" "setEnd hiNormalized") ++
  case "sw_up" (Set_ [("upKeyswitch", "readOptional key")]) ++
  case "sw_vel" (Set_ [("velocityOverride", "read velocityOverride")]) ++
  case "sustain_cc" (Set_ [("sustainCC", "read sustainCC")]) ++
  case "sostenuto_cc" (Set_ [("sostenutoCC", "read sostenutoCC")]) ++
  case "sustain_lo" (Set_ [("sustainThreshold", "read sustainThreshold")]) ++
  case "sostenuto_lo" (Set_ [("sostenutoThreshold", "read sostenutoThreshold")]) ++
  case "sustain_sw" (Set_ [("checkSustain", "read checkSustain")]) ++
  case "sostenuto_sw" (Set_ [("checkSostenuto", "read checkSostenuto")]) ++
  case "lochanaft" (Set_ [("aftertouchRange", "setStart loChannelAftertouch")]) ++
  case "hichanaft" (Set_ [("aftertouchRange", "setEnd hiChannelAftertouch")]) ++
  case "lopolyaft" (Set_ [("polyAftertouchRange", "setStart loPolyAftertouch")]) ++
  case "hipolyaft" (Set_ [("polyAftertouchRange", "setEnd hiPolyAftertouch")]) ++
  case "lobpm" (Set_ [("bpmRange", "setStart loBPM")]) ++
  case "hibpm" (Set_ [("bpmRange", "setEnd hiBPM")]) ++
  case "lorand" (Set_ [("randRange", "setStart loNormalized")]) ++
  case "hirand" (Set_ [("randRange", "setEnd hiNormalized")]) ++
  case "seq_length" (Set_ [("sequenceLength", "read sequence")]) ++
  case "trigger" (Set_ [("trigger", "read trigger")]) ++
  case "start_locc&" (MapCC false [("triggerOnCC", "true")] "ccTriggers" "" "setStart loCC") ++
  case "start_hicc&" (MapCC false [("triggerOnCC", "true")] "ccTriggers" "" "setEnd hiCC") ++
  case "start_lohdcc&" (MapCC false [("triggerOnCC", "true")] "ccTriggers" "" "setStart loNormalized") ++
  case "start_hihdcc&" (MapCC false [] "ccTriggers" "" "setEnd hiNormalized") ++
  case "volume" (Set_ [("volume", "read volume")]) ++
  anyCcN "volume" (Generic MVolume "volumeMod") ++
  case "amplitude" (Set_ [("amplitude", "read amplitude")]) ++
  anyCcN "amplitude" (Generic MAmplitude "amplitudeMod") ++
  case "pan" (Set_ [("pan", "read pan")]) ++
  anyCcN "pan" (Generic MPan "panMod") ++
  case "position" (Set_ [("position", "read position")]) ++
  anyCcN "position" (Generic MPosition "positionMod") ++
  case "width" (Set_ [("width", "read width")]) ++
  anyCcN "width" (Generic MWidth "widthMod") ++
  case "amp_keycenter" (Set_ [("ampKeycenter", "read key")]) ++
  case "amp_keytrack" (Set_ [("ampKeytrack", "read ampKeytrack")]) ++
  case "amp_veltrack" (Set_ [("ampVeltrack", "read ampVeltrack")]) ++
  case "amp_veltrack_oncc&" (MapCC false [] "ampVeltrackCC" ".modifier" "read ampVeltrackMod") ++
  case "amp_veltrack_curvecc&" (MapCC false [] "ampVeltrackCC" ".curve" "read curveCC") ++
  case "amp_random" (Set_ [("ampRandom", "read ampRandom")]) ++
  case "xfin_lokey" (Set_ [("crossfadeKeyInRange", "setStart loKey")]) ++
  case "xfin_hikey" (Set_ [("crossfadeKeyInRange", "setEnd loKey")]) ++
  case "xfout_lokey" (Set_ [("crossfadeKeyOutRange", "setStart hiKey")]) ++
  case "xfout_hikey" (Set_ [("crossfadeKeyOutRange", "setEnd hiKey")]) ++
  case "xfin_lovel" (Set_ [("crossfadeVelInRange", "setStart xfinLo")]) ++
  case "xfin_hivel" (Set_ [("crossfadeVelInRange", "setEnd xfinHi")]) ++
  case "xfout_lovel" (Set_ [("crossfadeVelOutRange", "setStart xfoutLo")]) ++
  case "xfout_hivel" (Set_ [("crossfadeVelOutRange", "setEnd xfoutHi")]) ++
  case "xf_keycurve" (Set_ [("crossfadeKeyCurve", "read crossfadeCurve")]) ++
  case "xf_velcurve" (Set_ [("crossfadeVelCurve", "read crossfadeCurve")]) ++
  case "xfin_locc&" (MapCC false [] "crossfadeCCInRange" "" "setStart xfinLo") ++
  case "xfin_hicc&" (MapCC false [] "crossfadeCCInRange" "" "setEnd xfinHi") ++
  case "xfout_locc&" (MapCC false [] "crossfadeCCOutRange" "" "setStart xfoutLo") ++
  case "xfout_hicc&" (MapCC false [] "crossfadeCCOutRange" "" "setEnd xfoutHi") ++
  case "xf_cccurve" (Set_ [("crossfadeCCCurve", "read crossfadeCurve")]) ++
  case "rt_decay" (Set_ [("rtDecay", "read rtDecay")]) ++
  case "global_amplitude" (Set_ [("globalAmplitude", "read amplitude")]) ++
  case "master_amplitude" (Set_ [("masterAmplitude", "read amplitude")]) ++
  case "group_amplitude" (Set_ [("groupAmplitude", "read amplitude")]) ++
  case "global_volume" (Set_ [("globalVolume", "read volume")]) ++
  case "master_volume" (Set_ [("masterVolume", "read volume")]) ++
  case "group_volume" (Set_ [("groupVolume", "read volume")]) ++
  case "cutoff&" (Element Filters "cutoff" "read filterCutoff") ++
  case "resonance&" (Element Filters "resonance" "read filterResonance") ++
  anyCcN "cutoff&" (ElementGeneric Filters MFilCutoff "filterCutoffMod") ++
  anyCcN "resonance&" (ElementGeneric Filters MFilResonance "filterResonanceMod") ++
  case "cutoff&_chanaft" (ElementAft Filters MChannelAftertouch false MFilCutoff "filterCutoffMod") ++
  case "cutoff&_polyaft" (ElementAft Filters MPolyAftertouch true MFilCutoff "filterCutoffMod") ++
  case "fil&_keytrack" (Element Filters "keytrack" "read filterKeytrack") ++
  case "fil&_keycenter" (Element Filters "keycenter" "read key") ++
  case "fil&_veltrack" (Element Filters "veltrack" "read filterVeltrack") ++
  case "fil&_veltrack_oncc&" (ElementCC Filters "veltrackCC" ".modifier" "read filterVeltrackMod") ++
  case "fil&_veltrack_curvecc&" (ElementCC Filters "veltrackCC" ".curve" "read curveCC") ++
  case "fil&_random" (Element Filters "random" "read filterRandom") ++
  case "fil&_gain" (Element Filters "gain" "read filterGain") ++
  anyCcN "fil&_gain" (ElementGeneric Filters MFilGain "filterGainMod") ++
  case "fil&_type" (Element Filters "type" "read filter") ++
  case "eq&_bw" (Element EQs "bandwidth" "read eqBandwidth") ++
  anyCcN "eq&_bw" (ElementGeneric EQs MEqBandwidth "eqBandwidthMod") ++
  case "eq&_freq" (Element EQs "frequency" "read eqFrequency") ++
  anyCcN "eq&_freq" (ElementGeneric EQs MEqFrequency "eqFrequencyMod") ++
  case "eq&_veltofreq" (Element EQs "vel2frequency" "read eqVel2Frequency") ++
  case "eq&_gain" (Element EQs "gain" "read eqGain") ++
  anyCcN "eq&_gain" (ElementGeneric EQs MEqGain "eqGainMod") ++
  case "eq&_veltogain" (Element EQs "vel2gain" "read eqVel2Gain") ++
  case "eq&_type" (Element EQs "type" "read eq") ++
  case "pitch_keytrack" (Set_ [("pitchKeytrack", "read pitchKeytrack")]) ++
  case "pitch_veltrack" (Set_ [("pitchVeltrack", "read pitchVeltrack")]) ++
  case "pitch_veltrack_oncc&" (MapCC false [] "pitchVeltrackCC" ".modifier" "read pitchVeltrackMod") ++
  case "pitch_veltrack_curvecc&" (MapCC false [] "pitchVeltrackCC" ".curve" "read curveCC") ++
  case "pitch_random" (Set_ [("pitchRandom", "read pitchRandom")]) ++
  case "transpose" (Set_ [("transpose", "read transpose")]) ++
  case "pitch" (Set_ [("pitch", "read pitch")]) ++
  anyCcN "pitch" (Generic MPitch "pitchMod") ++
  case "bend_up" (Set_ [("bendUp", "read bendUp")]) ++
  case "bend_down" (Set_ [("bendDown", "read bendDown")]) ++
  case "bend_step" (Set_ [("bendStep", "read bendStep")]) ++
  case "bend_smooth" (Set_ [("bendSmooth", "read smoothCC")]) ++
  case "sw_default" (Set_ [("defaultSwitch", "read key")]) ++
  case "sample" (Set_ [("sampleId", "sample")]) ++
  case "direction" (Set_ [("sampleId", "direction")]) ++
  case "count" (Set_ [("sampleCount", "readOptional sampleCount"); ("loopMode", "one_shot")]) ++
  case "oscillator_phase" (Set_ [("oscillatorPhase", "phase")]) ++
  case "off_time" (Set_ [("offMode", "time"); ("offTime", "read offTime")]) ++
  case "hikey" (Set_ [("triggerOnNote", "given hiKey"); ("keyRange", "setEnd hiKey")]) ++
  case "key" (Set_ [("triggerOnNote", "given key"); ("keyRange", "both key"); ("pitchKeycenter", "read key")]) ++
  case "sw_lokey" (Set_ []) ++
  case "sw_hikey" (Set_ []) ++
  case "sw_last" (Set_ [("keyswitches", "sw_last")]) ++
  case "sw_lolast" (Set_ [("keyswitches", "sw_lolast")]) ++
  case "sw_hilast" (Set_ [("keyswitches", "sw_hilast")]) ++
  case "sw_label" (Set_ [("keyswitchLabel", "text")]) ++
  case "sw_down" (Set_ [("downKeyswitch", "readOptional key"); ("keyswitches", "sw_down")]) ++
  case "sw_previous" (Set_ [("previousKeyswitch", "readOptional key"); ("usesPreviousKeySwitches", "given key")]) ++
  case "seq_position" (Set_ [("sequencePosition", "read sequence"); ("usesSequenceSwitches", "true")]) ++
  case "amp_velcurve_&" (Velcurve "ampVelcurve") ++
  case "lotimer" (Set_ [("timerRange", "setStart loTimer")]) ++
  case "hitimer" (Set_ [("timerRange", "setEnd hiTimer")]) ++
  case "pitch_keycenter" (Set_ [("pitchKeycenterFromSample", "sample?"); ("pitchKeycenter", "unless sample, read key")]) ++
  case "effect&" (Effect "effect") ++
  case "hichan" (Set_ []) ++
  case "lochan" (Set_ []) ++
  case "ampeg_depth" (Set_ []) ++
  case "ampeg_veltodepth" (Set_ [])).

(** The three envelopes and LFOs of the first version: prefix of their names, source, target, key of the depth, specifications of the depth of the
    LFO and of the modulation of the depth; the keys of 960-988 and of parseEGOpcode 1189-1222 *)
Record v1 := V1 { v_prefix : string; v_source : modid; v_target : modid; v_depth : modid; v_freq : modid; v_depthSpec : string; v_modSpec : string }.
Definition ampLFO : v1 := V1 "amplfo_" MAmpLFO MVolume MAmpLFODepth MAmpLFOFrequency "ampLFODepth" "volumeMod".
Definition pitchLFO : v1 := V1 "pitchlfo_" MPitchLFO MPitch MPitchLFODepth MPitchLFOFrequency "pitchLFODepth" "pitchMod".
Definition filLFO : v1 := V1 "fillfo_" MFilLFO MFilCutoff MFilLFODepth MFilLFOFrequency "filLFODepth" "filterCutoffMod".
Definition ampEG : v1 := V1 "ampeg_" MUndefined MUndefined MUndefined MUndefined "" "".
Definition pitchEG : v1 := V1 "pitcheg_" MPitchEG MPitch MPitchEGDepth MUndefined "egDepth" "pitchMod".
Definition filEG : v1 := V1 "fileg_" MFilEG MFilCutoff MFilEGDepth MUndefined "egDepth" "filterCutoffMod".

Inductive lfo1act := L1Set (m spec : string) | L1Depth | L1DepthCC | L1DepthAft (s : modid) (numbered : bool) | L1FreqCC | L1FreqAft (s : modid) (numbered : bool).
(** 994-1041, without the prefixes *)
Definition lfo1Table : list (string * lfo1act) := (
  case "delay" (L1Set "delay" "lfoDelay") ++ case "depth" L1Depth ++ anyCcN "depth" L1DepthCC ++
  case "depthchanaft" (L1DepthAft MChannelAftertouch false) ++ case "depthpolyaft" (L1DepthAft MPolyAftertouch true) ++
  case "fade" (L1Set "fade" "lfoFade") ++ case "freq" (L1Set "freq" "lfoFreq") ++ anyCcN "freq" L1FreqCC ++
  case "freqchanaft" (L1FreqAft MChannelAftertouch false) ++ case "freqpolyaft" (L1FreqAft MPolyAftertouch true) ++
  case "wave" (L1Set "wave" "lfoWave")).
(** case_any_lfo, case_any_lfo_any_ccN, 947-955 *)
Definition lfo1Cases : list (string * lfo1act) :=
  flat_map (fun '(x, a) => [(append "amplfo_" x, a); (append "pitchlfo_" x, a); (append "fillfo_" x, a)]) lfo1Table.

Inductive eg1act := E1Set (m spec : string) | E1Map (m sub spec : string) | E1Depth (v : v1) | E1Vel (v : v1) | E1DepthCC (v : v1).
Definition anyEG (x : string) (a : eg1act) : list (string * eg1act) := map (fun p => (append p x, a)) ["ampeg_"; "pitcheg_"; "fileg_"].
(** 1087-1222 *)
Definition eg1Table : list (string * eg1act) := (
  anyEG "attack" (E1Set "attack" "egTime") ++ anyEG "decay" (E1Set "decay" "egTime") ++ anyEG "delay" (E1Set "delay" "egTime") ++
  anyEG "hold" (E1Set "hold" "egTime") ++ anyEG "release" (E1Set "release" "egRelease") ++ anyEG "start" (E1Set "start" "egPercent") ++
  anyEG "sustain" (E1Set "sustain" "egPercent") ++ anyEG "veltoattack" (E1Set "vel2attack" "egTimeMod") ++
  anyEG "veltodecay" (E1Set "vel2decay" "egTimeMod") ++ anyEG "veltodelay" (E1Set "vel2delay" "egTimeMod") ++
  anyEG "veltohold" (E1Set "vel2hold" "egTimeMod") ++ anyEG "veltorelease" (E1Set "vel2release" "egTimeMod") ++
  anyEG "veltosustain" (E1Set "vel2sustain" "egPercentMod") ++
  anyEG "attack_oncc&" (E1Map "ccAttack" ".modifier" "egTimeMod") ++ anyEG "attack_curvecc&" (E1Map "ccAttack" ".curve" "curveCC") ++
  anyEG "decay_oncc&" (E1Map "ccDecay" ".modifier" "egTimeMod") ++ anyEG "decay_curvecc&" (E1Map "ccDecay" ".curve" "curveCC") ++
  anyEG "delay_oncc&" (E1Map "ccDelay" ".modifier" "egTimeMod") ++ anyEG "delay_curvecc&" (E1Map "ccDelay" ".curve" "curveCC") ++
  anyEG "hold_oncc&" (E1Map "ccHold" ".modifier" "egTimeMod") ++ anyEG "hold_curvecc&" (E1Map "ccHold" ".curve" "curveCC") ++
  anyEG "release_oncc&" (E1Map "ccRelease" ".modifier" "egTimeMod") ++ anyEG "release_curvecc&" (E1Map "ccRelease" ".curve" "curveCC") ++
  anyEG "start_oncc&" (E1Map "ccStart" ".modifier" "egPercentMod") ++ anyEG "start_curvecc&" (E1Map "ccStart" ".curve" "curveCC") ++
  anyEG "sustain_oncc&" (E1Map "ccSustain" ".modifier" "egPercentMod") ++ anyEG "sustain_curvecc&" (E1Map "ccSustain" ".curve" "curveCC") ++
  anyEG "dynamic" (E1Set "dynamic" "egDynamic") ++
  case "pitcheg_depth" (E1Depth pitchEG) ++ case "fileg_depth" (E1Depth filEG) ++
  case "pitcheg_veltodepth" (E1Vel pitchEG) ++ case "fileg_veltodepth" (E1Vel filEG) ++
  anyCcN "pitcheg_depth" (E1DepthCC pitchEG) ++ anyCcN "fileg_depth" (E1DepthCC filEG)).

(** Numbered LFOs and envelopes.
    - NSet, NMap, NGeneric: a member, a map (with the test [number > 512]), a modulated parameter of the LFO or envelope
    - NSteps, NStep, NSub: the step sequence and the sub-oscillators; NPoint, NPointCC: the points of an envelope
    - NTarget, NTargetCC: the LFO or envelope as source for a target of the region, NElem, NElemCC of a filter or equalizer
    - NAmpeg, NFreqLFO, NFreqLFOCC: 1681-1706 *)
Inductive nact :=
  | NSet (m spec : string) | NMap (m spec : string) | NGeneric (t : modid) (spec : string)
  | NSteps | NStep (spec : string) | NSub (m spec : string) | NPoint (m spec : string) | NPointCC (m spec : string)
  | NTarget (t : modid) (spec : string) | NTargetCC (t : modid) (spec : string)
  | NElem (v : vec) (t : modid) (spec : string) | NElemCC (v : vec) (t : modid) (spec : string)
  | NAmpeg | NFreqLFO | NFreqLFOCC.
(** the targets, 1387-1482 for LFOs and 1584-1679 for envelopes; [p] is "lfo&_" or "eg&_" *)
Definition both (x : string) (a b : nact) : list (string * nact) := case x a ++ anyCcN x b.
Definition targetTable (p : string) : list (string * nact) := (
  both (append p "amplitude") (NTarget MAmplitude "amplitudeMod") (NTargetCC MAmplitude "amplitudeMod") ++
  both (append p "pan") (NTarget MPan "panMod") (NTargetCC MPan "panMod") ++
  both (append p "width") (NTarget MWidth "widthMod") (NTargetCC MWidth "widthMod") ++
  both (append p "position") (NTarget MPosition "positionMod") (NTargetCC MPosition "positionMod") ++
  both (append p "pitch") (NTarget MPitch "pitchMod") (NTargetCC MPitch "pitchMod") ++
  both (append p "volume") (NTarget MVolume "volumeMod") (NTargetCC MVolume "volumeMod") ++
  both (append p "cutoff&") (NElem Filters MFilCutoff "filterCutoffMod") (NElemCC Filters MFilCutoff "filterCutoffMod") ++
  both (append p "resonance&") (NElem Filters MFilResonance "filterResonanceMod") (NElemCC Filters MFilResonance "filterResonanceMod") ++
  both (append p "fil&gain") (NElem Filters MFilGain "filterGainMod") (NElemCC Filters MFilGain "filterGainMod") ++
  both (append p "eq&gain") (NElem EQs MEqGain "eqGainMod") (NElemCC EQs MEqGain "eqGainMod") ++
  both (append p "eq&freq") (NElem EQs MEqFrequency "eqFrequencyMod") (NElemCC EQs MEqFrequency "eqFrequencyMod") ++
  both (append p "eq&bw") (NElem EQs MEqBandwidth "eqBandwidthMod") (NElemCC EQs MEqBandwidth "eqBandwidthMod")).
(** 1311-1385 *)
Definition lfo2Table : list (string * nact) := (
  case "lfo&_freq" (NSet "freq" "lfoFreq") ++ anyCcN "lfo&_freq" (NGeneric MLFOFrequency "lfoFreqMod") ++
  case "lfo&_beats" (NSet "beats" "lfoBeats") ++ anyCcN "lfo&_beats" (NGeneric MLFOBeats "lfoBeatsMod") ++
  case "lfo&_phase" (NSet "phase0" "lfoPhase") ++ anyCcN "lfo&_phase" (NGeneric MLFOPhase "lfoPhaseMod") ++
  case "lfo&_delay" (NSet "delay" "lfoDelay") ++ case "lfo&_delay_oncc&" (NMap "delayCC" "lfoDelayMod") ++
  case "lfo&_fade" (NSet "fade" "lfoFade") ++ case "lfo&_fade_oncc&" (NMap "fadeCC" "lfoFadeMod") ++
  case "lfo&_count" (NSet "count" "lfoCount") ++ case "lfo&_steps" NSteps ++ case "lfo&_step&" (NStep "lfoStepX") ++
  case "lfo&_wave&" (NSub "wave" "lfoWave") ++ case "lfo&_offset&" (NSub "offset" "lfoOffset") ++
  case "lfo&_ratio&" (NSub "ratio" "lfoRatio") ++ case "lfo&_scale&" (NSub "scale" "lfoScale") ++ targetTable "lfo&_").
(** 1538-1582, 1681-1706 *)
Definition eg2Table : list (string * nact) := (
  case "eg&_dynamic" (NSet "dynamic" "flexEGDynamic") ++ case "eg&_sustain" (NSet "sustain" "flexEGSustain") ++
  case "eg&_time&" (NPoint "time" "flexEGPointTime") ++ case "eg&_time&_oncc&" (NPointCC "ccTime" "flexEGPointTimeMod") ++
  case "eg&_level&" (NPoint "level" "flexEGPointLevel") ++ case "eg&_level&_oncc&" (NPointCC "ccLevel" "flexEGPointLevelMod") ++
  case "eg&_shape&" (NPoint "shape" "flexEGPointShape") ++ targetTable "eg&_" ++
  case "eg&_ampeg" NAmpeg ++ case "eg&_freq_lfo&" NFreqLFO ++ anyCcN "eg&_freq_lfo&" NFreqLFOCC).

(** the switch on the hash of the letters *)
Definition caseOf {A} (table : list (string * A)) (o : opcode) : option A :=
  option_map snd (find (fun c => hash (str (fst c)) fnvBasis =? o_hash o) table).

Section Region.
Variable V : Type.
Variable apply : string -> text -> V -> V.
(** opcode.read(Default::spec) for depths; spec.normalizeInput(opcode.read(Default::stepCC)); 0 *)
Variable read : string -> text -> V.
Variable readStep : string -> text -> V.
Variable zero : V.
(** opcode.read(Default::flexEGAmpeg), opcode.read(Default::lfoSteps) *)
Variable readAmpeg : text -> bool.
Variable readSteps : text -> nat.

(** Connection::source: a controller (per voice or not, by its number: ccModulationIsPerVoice), or another key *)
Inductive source := FromCC (cc : Z) (curve smooth step : V) | FromKey (k : key).
Record connection := Connect { c_source : source; c_target : key; c_depth : V; c_depthMod : key; c_vel : V }.
(** an LFO: its sub-oscillators and step sequence; an envelope: its points, ampeg *)
Record lfo := LFO { l_subs : nat; l_steps : option (list V) }.
Record eg := EG { e_points : nat; e_ampeg : bool }.
Definition place : Type := (string * list Z)%type.
Record region := Region {
  r_id : Z;
  r_mem : place -> V;
  r_maps : list (place * Z);  (* the controllers entered into the maps *)
  r_points : list (Z * V);  (* velocityPoints *)
  r_filters : nat; r_eqs : nat; r_effects : nat;
  r_lfos : list lfo; r_egs : list eg; r_flexAmpEG : option Z;
  r_v1 : list string;  (* the envelopes and LFOs of the first version that are there *)
  r_conns : list connection }.
(** a new region, 38-46 *)
Definition freshRegion (id : Z) (mem : place -> V) : region := Region id mem [] [] 0 0 1 [] [] None ["ampeg_"] [].

Definition place_eqb (a b : place) : bool := String.eqb (fst a) (fst b) && (if list_eq_dec Z.eq_dec (snd a) (snd b) then true else false).
Definition setMem (k : place) (f : string) (o : opcode) (r : region) : region :=
  Region (r_id r) (fun k' => if place_eqb k k' then apply f (o_value o) (r_mem r k) else r_mem r k') (r_maps r) (r_points r) (r_filters r) (r_eqs r) (r_effects r)
    (r_lfos r) (r_egs r) (r_flexAmpEG r) (r_v1 r) (r_conns r).
Definition setAll (ws : list (string * string)) (o : opcode) (r : region) : region :=
  fold_left (fun r w => setMem (fst w, []) (snd w) o r) ws r.
(** CCMap::operator[] and an assignment to a member [sub] of the entry *)
Definition setEntry (m : place) (sub : string) (cc : Z) (f : string) (o : opcode) (r : region) : region :=
  let r := setMem (append (fst m) sub, snd m ++ [cc]) f o r in
  Region (r_id r) (r_mem r) ((m, cc) :: r_maps r) (r_points r) (r_filters r) (r_eqs r) (r_effects r) (r_lfos r) (r_egs r) (r_flexAmpEG r) (r_v1 r) (r_conns r).
Definition withPoints (p : list (Z * V)) (r : region) : region :=
  Region (r_id r) (r_mem r) (r_maps r) p (r_filters r) (r_eqs r) (r_effects r) (r_lfos r) (r_egs r) (r_flexAmpEG r) (r_v1 r) (r_conns r).
Definition withSizes (f e x : nat) (r : region) : region :=
  Region (r_id r) (r_mem r) (r_maps r) (r_points r) f e x (r_lfos r) (r_egs r) (r_flexAmpEG r) (r_v1 r) (r_conns r).
Definition withLFOs (l : list lfo) (r : region) : region :=
  Region (r_id r) (r_mem r) (r_maps r) (r_points r) (r_filters r) (r_eqs r) (r_effects r) l (r_egs r) (r_flexAmpEG r) (r_v1 r) (r_conns r).
Definition withEGs (l : list eg) (a : option Z) (r : region) : region :=
  Region (r_id r) (r_mem r) (r_maps r) (r_points r) (r_filters r) (r_eqs r) (r_effects r) (r_lfos r) l a (r_v1 r) (r_conns r).
Definition withV1 (p : string) (r : region) : region :=
  Region (r_id r) (r_mem r) (r_maps r) (r_points r) (r_filters r) (r_eqs r) (r_effects r) (r_lfos r) (r_egs r) (r_flexAmpEG r)
    (if existsb (String.eqb p) (r_v1 r) then r_v1 r else p :: r_v1 r) (r_conns r).
Definition withConns (c : list connection) (r : region) : region :=
  Region (r_id r) (r_mem r) (r_maps r) (r_points r) (r_filters r) (r_eqs r) (r_effects r) (r_lfos r) (r_egs r) (r_flexAmpEG r) (r_v1 r) c.

(** parameters.front(), parameters.back(), parameters[1] *)
Definition front (o : opcode) : option Z := nth_error (o_params o) 0.
Definition second (o : opcode) : option Z := nth_error (o_params o) 1.
Definition back (o : opcode) : option Z := match o_params o with [] => None | _ => Some (last (o_params o) 0) end.

(** ** Connections *)
(** getOrCreateConnection, and what is done with the connection *)
Fixpoint connectKey (s t : key) (f : connection -> connection) (l : list connection) : list connection :=
  match l with
  | [] => [f (Connect (FromKey s) t zero noKey zero)]
  | c :: l =>
      if match c_source c with FromKey k => key_eqb k s | FromCC _ _ _ _ => false end && key_eqb (c_target c) t then f c :: l
      else c :: connectKey s t f l
  end.
(** processGenericCc 1724-1748: the connection of the controller and the target is searched *)
Fixpoint connectCC (cc : Z) (t : key) (f : connection -> connection) (l : list connection) : list connection :=
  match l with
  | [] => [f (Connect (FromCC cc zero zero zero) t zero noKey zero)]
  | c :: l =>
      if match c_source c with FromCC n _ _ _ => n =? cc | FromKey _ => false end && key_eqb (c_target c) t then f c :: l
      else c :: connectCC cc t f l
  end.
Definition setDepth (d : V) (c : connection) : connection := Connect (c_source c) (c_target c) d (c_depthMod c) (c_vel c).
Definition setDepthMod (k : key) (c : connection) : connection := Connect (c_source c) (c_target c) (c_depth c) k (c_vel c).
Definition setVel (d : V) (c : connection) : connection := Connect (c_source c) (c_target c) (c_depth c) (c_depthMod c) d.
(** 1750-1780 *)
Definition writeCC (spec : string) (o : opcode) (c : connection) : connection :=
  match c_source c with
  | FromKey _ => c
  | FromCC cc cu sm st =>
      match o_cat o with
      | OnCcN => setDepth (read spec (o_value o)) c
      | CurveCcN => Connect (FromCC cc (read "curveCC" (o_value o)) sm st) (c_target c) (c_depth c) (c_depthMod c) (c_vel c)
      | StepCcN => Connect (FromCC cc cu sm (readStep spec (o_value o))) (c_target c) (c_depth c) (c_depthMod c) (c_vel c)
      | SmoothCcN => Connect (FromCC cc cu (read "smoothCC" (o_value o)) st) (c_target c) (c_depth c) (c_depthMod c) (c_vel c)
      | Normal => c
      end
  end.
(** processGenericCc; what it returns is not used *)
Definition generic (spec : string) (t : key) (o : opcode) (r : region) : option region :=
  match o_cat o with
  | Normal => Some r
  | _ =>
      match back o with
      | None => None
      | Some cc =>
          if 512 <=? cc then Some r
          else if isKey t then Some (withConns (connectCC cc t (writeCC spec o) (r_conns r)) r) else Some r
      end
  end.
Definition key0 (id : modid) (r : region) : key := createNXYZ id (r_id r) 0 0 0 0.
Definition keyN (id : modid) (n : Z) (r : region) : key := createNXYZ id (r_id r) n 0 0 0.
Definition connect (s t : key) (f : connection -> connection) (r : region) : region := withConns (connectKey s t f (r_conns r)) r.
Definition aftKey (s : modid) (numbered : bool) (r : region) : key := createNXYZ s (if numbered then r_id r else noRegion) 0 0 0 0.

(** ** Vectors *)
(** extendIfNecessary for the 1-based number n: None is false *)
Definition extendSize (size : nat) (n : Z) : option nat := if n =? 0 then None else Some (Nat.max size (Z.to_nat n)).
Definition extend (v : vec) (n : Z) (r : region) : option region :=
  match v with
  | Filters => match extendSize (r_filters r) n with Some f => Some (withSizes f (r_eqs r) (r_effects r) r) | None => None end
  | EQs => match extendSize (r_eqs r) n with Some e => Some (withSizes (r_filters r) e (r_effects r) r) | None => None end
  end.
Definition vecSize (v : vec) (r : region) : nat := match v with Filters => r_filters r | EQs => r_eqs r end.
Definition vecName (v : vec) : string := match v with Filters => "filters." | EQs => "equalizers." end.
Fixpoint padTo {A} (n : nat) (x : A) (l : list A) : list A :=
  match n with
  | O => l
  | S n => match l with [] => x :: padTo n x [] | y :: l => y :: padTo n x l end
  end.
(** vector::resize *)
Definition resize {A} (n : nat) (x : A) (l : list A) : list A := padTo n x (firstn n l).
Fixpoint updateAt {A} (l : list A) (i : nat) (f : A -> A) : list A :=
  match l, i with [], _ => [] | x :: l, O => f x :: l | x :: l, S i => x :: updateAt l i f end.


(** one case of the first switch *)
Definition runAct (a : act) (o : opcode) (r : region) : option (bool * region) :=
  match a with
  | Set_ ws => Some (true, setAll ws o r)
  | MapCC inclusive ws m sub f =>
      match back o with
      | None => None
      | Some cc =>
          if (if inclusive then 512 <? cc else 512 <=? cc) then Some (false, r)
          else Some (true, setEntry (m, []) sub cc f o (setAll ws o r))
      end
  | Velcurve spec =>
      match back o with
      | None => None
      | Some n => if 127 <? n then Some (false, r) else Some (true, withPoints (r_points r ++ [(n, read spec (o_value o))]) r)
      end
  | Effect spec =>
      match back o with
      | None => None
      | Some n =>
          if (n =? 0) || (256 <? n) then Some (true, r)
          else
            let r := withSizes (r_filters r) (r_eqs r) (Nat.max (r_effects r) (Z.to_nat (n + 1))) r in
            if n <? Z.of_nat (r_effects r) then Some (true, setMem ("gainToEffect", [n]) (append "read " spec) o r) else None
      end
  | Element v m f =>
      match front o with
      | None => None
      | Some n => match extend v n r with
                  | None => Some (false, r)
                  | Some r' => if n - 1 <? Z.of_nat (vecSize v r') then Some (true, setMem (append (vecName v) m, [n - 1]) f o r') else None
                  end
      end
  | ElementCC v m sub f =>
      match front o, back o with
      | Some n, Some cc =>
          match extend v n r with
          | None => Some (false, r)
          | Some r' => if 512 <=? cc then Some (false, r')
                       else if n - 1 <? Z.of_nat (vecSize v r') then Some (true, setEntry (append (vecName v) m, [n - 1]) sub cc f o r') else None
          end
      | _, _ => None
      end
  | Generic t spec => match generic spec (key0 t r) o r with Some r' => Some (true, r') | None => None end
  | ElementGeneric v t spec =>
      match front o with
      | None => None
      | Some n => match extend v n r with
                  | None => Some (false, r)
                  | Some r' => match generic spec (keyN t (n - 1) r) o r' with Some r' => Some (true, r') | None => None end
                  end
      end
  | ElementAft v s numbered t spec =>
      match front o with
      | None => None
      | Some n => match extend v n r with
                  | None => Some (false, r)
                  | Some r' => Some (true, connect (aftKey s numbered r) (keyN t (n - 1) r) (setDepth (read spec (o_value o))) r')
                  end
      end
  end.

(** parseLFOOpcode: None is undefined, Some None is false *)
Definition parseLFO1 (v : v1) (o : opcode) (r : region) : option (option region) :=
  let some r := Some (Some r) in
  let s := key0 (v_source v) r in let t := key0 (v_target v) r in let d := key0 (v_depth v) r in let f := key0 (v_freq v) r in
  match caseOf lfo1Cases o with
  | None => Some None
  | Some (L1Set m spec) => some (setMem (append (v_prefix v) m, []) (append "read " spec) o r)
  | Some L1Depth => some (connect s t (setDepth (read (v_depthSpec v) (o_value o))) r)
  | Some L1DepthCC => option_map Some (generic (v_modSpec v) d o (connect s t (setDepthMod d) r))
  | Some (L1DepthAft a n) => some (connect (aftKey a n r) d (setDepth (read (v_modSpec v) (o_value o))) (connect s t (setDepthMod d) r))
  | Some L1FreqCC => option_map Some (generic "lfoFreqMod" f o r)
  | Some (L1FreqAft a n) => some (connect (aftKey a n r) f (setDepth (read "lfoFreqMod" (o_value o))) r)
  end.
(** parseEGOpcode *)
Definition parseEG1 (v : v1) (o : opcode) (r : region) : option (option region) :=
  let some r := Some (Some r) in
  match caseOf eg1Table o with
  | None => Some None
  | Some (E1Set m spec) => some (setMem (append (v_prefix v) m, []) (append "read " spec) o r)
  | Some (E1Map m sub spec) =>
      match back o with
      | None => None
      | Some cc => if 512 <=? cc then Some None else some (setEntry (append (v_prefix v) m, []) sub cc (append "read " spec) o r)
      end
  | Some (E1Depth w) => some (connect (key0 (v_source w) r) (key0 (v_target w) r) (setDepth (read "egDepth" (o_value o))) r)
  | Some (E1Vel w) => some (connect (key0 (v_source w) r) (key0 (v_target w) r) (setVel (read "egVel2Depth" (o_value o))) r)
  | Some (E1DepthCC w) =>
      let d := key0 (v_depth w) r in
      option_map Some (generic (v_modSpec w) d o (connect (key0 (v_source w) r) (key0 (v_target w) r) (setDepthMod d) r))
  end.

(** the common part of LFO_target, LFO_target_cc (1282-1296) and EG_target, EG_target_cc (1509-1523) *)
Definition target (s t : key) (spec : string) (o : opcode) (r : region) : region := connect s t (setDepth (read spec (o_value o))) r.
Definition targetCC (s t : key) (spec : string) (o : opcode) (r : region) : option region :=
  let d := getSourceDepthKey s t in generic spec d o (connect s t (setDepthMod d) r).

(** a case of parseLFOOpcodeV2 or parseEGOpcodeV2 for the element [i]; [s] is the key of the LFO or envelope, [p] the name of the vector.
    Accesses outside of vectors that can be there are None. *)
Definition runNumbered (p : string) (s : key) (i : Z) (a : nact) (o : opcode) (r : region) : option (bool * region) :=
  let yes r := Some (true, r) in
  let no r := Some (false, r) in
  let lift x := match x with Some r => yes r | None => None end in
  match a with
  | NSet m spec => yes (setMem (append p m, [i]) (append "read " spec) o r)
  | NMap m spec =>
      match back o with
      | None => None
      | Some cc => if 512 <? cc then no r else yes (setEntry (append p m, [i]) "" cc (append "read " spec) o r)
      end
  | NGeneric t spec => lift (generic spec (keyN t i r) o r)
  | NSteps => yes (withLFOs (updateAt (r_lfos r) (Z.to_nat i) (fun l => LFO (l_subs l) (Some (resize (readSteps (o_value o)) zero (match l_steps l with Some x => x | None => [] end))))) r)
  | NStep spec =>
      match second o with
      | None => None
      | Some n =>
          if (n =? 0) || (128 <? n) then no r
          else yes (withLFOs (updateAt (r_lfos r) (Z.to_nat i) (fun l =>
            LFO (l_subs l) (Some (updateAt (padTo (Z.to_nat n) zero (match l_steps l with Some x => x | None => [] end)) (Z.to_nat (n - 1)) (fun _ => read spec (o_value o)))))) r)
      end
  | NSub m spec =>
      match second o with
      | None => None
      | Some n =>
          if (n =? 0) || (8 <? n) then no r
          else yes (setMem (append p m, [i; n - 1]) (append "read " spec) o
                     (withLFOs (updateAt (r_lfos r) (Z.to_nat i) (fun l => LFO (Nat.max (l_subs l) (Z.to_nat n)) (l_steps l))) r))
      end
  | NPoint m spec =>
      match second o with
      | None => None
      | Some n => yes (setMem (append p m, [i; n]) (append "read " spec) o
                   (withEGs (updateAt (r_egs r) (Z.to_nat i) (fun e => EG (Nat.max (e_points e) (Z.to_nat (n + 1))) (e_ampeg e))) (r_flexAmpEG r) r))
      end
  | NPointCC m spec =>
      match second o, back o with
      | Some n, Some cc =>
          let r := withEGs (updateAt (r_egs r) (Z.to_nat i) (fun e => EG (Nat.max (e_points e) (Z.to_nat (n + 1))) (e_ampeg e))) (r_flexAmpEG r) r in
          if 512 <=? cc then no r else yes (setEntry (append p m, [i; n]) "" cc (append "read " spec) o r)
      | _, _ => None
      end
  | NTarget t spec => yes (target s (key0 t r) spec o r)
  | NTargetCC t spec => lift (targetCC s (key0 t r) spec o r)
  | NElem v t spec =>
      match second o with
      | None => None
      | Some n => match extend v n r with None => no r | Some r' => yes (target s (keyN t (n - 1) r) spec o r') end
      end
  | NElemCC v t spec =>
      match second o with
      | None => None
      | Some n => match extend v n r with None => no r | Some r' => lift (targetCC s (keyN t (n - 1) r) spec o r') end
      end
  | NAmpeg =>
      let a := readAmpeg (o_value o) in
      if Bool.eqb (match nth_error (r_egs r) (Z.to_nat i) with Some e => e_ampeg e | None => false end) a then yes r
      else
        let egs := updateAt (r_egs r) (Z.to_nat i) (fun e => EG (e_points e) a) in
        let first := find (fun k => match nth_error egs k with Some e => e_ampeg e | None => false end) (seq 0 (List.length egs)) in
        yes (withEGs egs (option_map (fun k => Z.of_nat k mod 256) first) r)
  | NFreqLFO =>
      match second o with
      | None => None
      | Some n => if (n =? 0) || (Z.of_nat (List.length (r_lfos r)) <? n - 1) then no r else yes (target s (keyN MLFOFrequency (n - 1) r) "lfoFreqMod" o r)
      end
  | NFreqLFOCC =>
      match second o with
      | None => None
      | Some n => if (n =? 0) || (Z.of_nat (List.length (r_lfos r)) <? n - 1) then no r else lift (targetCC s (keyN MLFOFrequency (n - 1) r) "lfoFreqMod" o r)
      end
  end.
(** parseLFOOpcodeV2; a new LFO has one sub-oscillator (LFODescription.cpp 11-14) *)
Definition parseLFO2 (o : opcode) (r : region) : option (bool * region) :=
  match front o with
  | None => None
  | Some n =>
      if n =? 0 then Some (false, r)
      else
        let r := withLFOs (padTo (Z.to_nat n) (LFO 1 None) (r_lfos r)) r in
        if Z.of_nat (List.length (r_lfos r)) <=? n - 1 then None
        else match caseOf lfo2Table o with
        | None => Some (false, r)
        | Some a => runNumbered "lfos." (keyN MLFO (n - 1) r) (n - 1) a o r
        end
  end.
(** parseEGOpcodeV2 *)
Definition parseEG2 (o : opcode) (r : region) : option (bool * region) :=
  match front o with
  | None => None
  | Some n =>
      if n =? 0 then Some (false, r)
      else
        let r := withEGs (padTo (Z.to_nat n) (EG 0 false) (r_egs r)) (r_flexAmpEG r) r in
        if Z.of_nat (List.length (r_egs r)) <=? n - 1 then None
        else match caseOf eg2Table o with
        | None => Some (false, r)
        | Some a => runNumbered "flexEGs." (keyN MEnvelope (n - 1) r) (n - 1) a o r
        end
  end.

(** the default case, 870-938: the parts tried in turn until one says true *)
Definition orElse (x : option (bool * region)) (k : region -> option (bool * region)) : option (bool * region) :=
  match x with Some (false, r) => k r | _ => x end.
Definition try (prefix : string) (o : opcode) (f : option (option region)) (then_ : region -> region) (r : region) : option (bool * region) :=
  if starts_with (str prefix) (o_name o) then
    match f with
    | None => None
    | Some None => Some (false, r)
    | Some (Some r') => Some (true, then_ (withV1 prefix r'))
    end
  else Some (false, r).
Definition connected (v : v1) (r : region) : region := connect (key0 (v_source v) r) (key0 (v_target v) r) (fun c => c) r.
Definition parseDefault (o : opcode) (r : region) : option (bool * region) :=
  orElse (try "ampeg_" o (parseEG1 ampEG o r) (fun r => r) r) (fun r =>
  orElse (try "pitcheg_" o (parseEG1 pitchEG o r) (connected pitchEG) r) (fun r =>
  orElse (try "fileg_" o (parseEG1 filEG o r) (connected filEG) r) (fun r =>
  orElse (try "amplfo_" o (parseLFO1 ampLFO o r) (connected ampLFO) r) (fun r =>
  orElse (try "pitchlfo_" o (parseLFO1 pitchLFO o r) (connected pitchLFO) r) (fun r =>
  orElse (try "fillfo_" o (parseLFO1 filLFO o r) (connected filLFO) r) (fun r =>
  orElse (if starts_with (str "lfo&_") (getLetterOnlyName o) then parseLFO2 o r else Some (false, r)) (fun r =>
  if starts_with (str "eg&_") (getLetterOnlyName o) then parseEG2 o r else Some (false, r)))))))).
(** Region::parseOpcode of a cleaned opcode *)
Definition parseOpcode (o : opcode) (r : region) : option (bool * region) :=
  match caseOf regionTable o with
  | Some a => runAct a o r
  | None => parseDefault o r
  end.
Fixpoint parseOpcodes (l : list opcode) (r : region) : option region :=
  match l with
  | [] => Some r
  | o :: l => match parseOpcode o r with Some (_, r) => parseOpcodes l r | None => None end
  end.

(** getConnectionFromCC, 1877-1897; ccModDepth and ccModParameters, 1904-1922 *)
Definition getConnectionFromCC (cc : Z) (t : key) (l : list connection) : option connection :=
  find (fun c => match c_source c with FromCC n _ _ _ => n =? cc | FromKey _ => false end && key_eqb (c_target c) t) l.
(** getConnection, 1853-1862, for sources that are not controllers *)
Definition getConnection (s t : key) (l : list connection) : option connection :=
  find (fun c => match c_source c with FromKey k => key_eqb k s | FromCC _ _ _ _ => false end && key_eqb (c_target c) t) l.
End Region.
