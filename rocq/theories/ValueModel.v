(** Values of opcodes that are not integers: floating-point numbers, booleans and words.

    Code: Opcode.cpp 215-241 (transformFloat_, readFloat_), 314-513 (booleans and words), Defaults.h 37-113 (flags,
    normalizeInput), Defaults.cpp (the float specifications), utility/StringViewHelpers.h 118-205 (readFloat,
    readLeadingFloat), SfzHelpers.h 132-193.

    A float is the rational it stands for; [round] and [below] are binary32 rounding and the next number towards zero.
    Infinities and not-a-numbers do not exist here: a text whose value is too large for a float is not in the domain of
    the theorems.  The exponent part of a number is read; absl::SimpleAtof is taken to give the rounded value of the
    text if it is a sign, digits with at most one point and at least one digit, and a complete exponent, and to fail on
    the other texts that readLeadingFloat hands to it. *)
From Coq Require Import ZArith QArith Qpower List Bool.
From Coq Require String.
From Verif Require Import ParserModel OpcodeModel Rounding.
Import ListNotations.
Local Open Scope Z_scope.

(** * Specifications, Defaults.h 49-113 *)
Inductive norm := NoNorm | Percent | Midi | Bend | Db.
Record fspec := FSpec {
  f_default : Q;
  f_lo : Q; f_hi : Q;
  f_enforceLo : bool; f_enforceHi : bool; f_permLo : bool; f_permHi : bool;
  f_wrap : bool; f_norm : norm; f_fill : bool }.

Section Float.
Variable round : Q -> Q.
Variable below : Q -> Q.
Variable wrap : Q -> Q.
Variable db2mag : Q -> Q.
Local Open Scope Q_scope.

(** normalizeInput, Defaults.h 87-113. *)
Definition normalizeInput (s : fspec) (x : Q) : Q :=
  match f_norm s with
  | NoNorm => x
  | Percent => round (x / 100)
  | Midi => if f_fill s && Qle_bool x 126 && Qle_bool 0 x then below (round (round (x + 1) / 127)) else round (x / 127)
  | Bend => round (x / 8191)
  | Db => db2mag x
  end.
(** transformFloat_, Opcode.cpp 212-231. *)
Definition transformFloat (s : fspec) (x : Q) : option Q :=
  let v := if f_wrap s then wrap x else x in
  if negb (Qle_bool v (f_hi s)) then
    if f_enforceHi s then Some (f_hi s)
    else if f_permHi s then Some (normalizeInput s v) else None
  else if negb (Qle_bool (f_lo s) v) then
    if f_enforceLo s then Some (f_lo s)
    else if f_permLo s then Some (normalizeInput s v) else None
  else Some (normalizeInput s v).

(** ** The text *)
(** readLeadingFloat, StringViewHelpers.h 172-205: the part that is handed to readFloat, and the rest. *)
Definition take_sign (t : text) : text * text :=
  match t with c :: r => if (c =? 43)%Z || (c =? 45)%Z then ([c], r) else ([], t) | [] => ([], []) end.
Definition number_part (t : text) : text * text :=
  let '(sg, t) := take_sign t in
  let '(ip, t) := span isDigit t in
  let '(fp, t) := match t with
    | c :: r => if (c =? 46)%Z then let '(d, r) := span isDigit r in (c :: d, r) else ([], t)
    | [] => ([], []) end in
  let '(ep, t) := match t with
    | c :: r => if (c =? 101)%Z then
        let '(s, r) := match r with
          | x :: r' => if (x =? 43)%Z || (x =? 45)%Z || isDigit x then ([x], r') else ([], r)
          | [] => ([], []) end in
        let '(d, r) := span isDigit r in (c :: s ++ d, r)
      else ([], t)
    | [] => ([], []) end in
  (sg ++ ip ++ fp ++ ep, t).
(** absl::SimpleAtof on the part: its exact value. *)
Definition split_sign (t : text) : bool * text :=
  match t with c :: r => if (c =? 45)%Z then (true, r) else if (c =? 43)%Z then (false, r) else (false, t) | [] => (false, []) end.
Definition decimal_value (t : text) : option Q :=
  let '(neg, t) := split_sign t in
  let '(ip, t) := span isDigit t in
  let '(fp, t) := match t with
    | c :: r => if (c =? 46)%Z then span isDigit r else ([], t)
    | [] => ([], []) end in
  match ip ++ fp with
  | [] => None
  | _ =>
    let m := inject_Z (digits_value 0 (ip ++ fp)) * Qpower 10 (- Z.of_nat (List.length fp)) in
    let q := if neg then - m else m in
    match t with
    | [] => Some q
    | c :: r =>
      if (c =? 101)%Z then
        let '(eneg, r) := split_sign r in
        match span isDigit r with
        | (d :: ds, []) => let e := digits_value 0 (d :: ds) in Some (q * Qpower 10 (if eneg then (- e)%Z else e))
        | _ => None
        end
      else None
    end
  end.
(** readFloat_, Opcode.cpp 233-241, and Opcode::read with its default, Opcode.h 110-111 and Defaults.h 128. *)
Definition readFloat (s : fspec) (t : text) : option Q :=
  match decimal_value (fst (number_part t)) with
  | Some q => transformFloat s (round q)
  | None => None
  end.
Definition readFloatOr (s : fspec) (t : text) : Q :=
  match readFloat s t with Some q => q | None => normalizeInput s (f_default s) end.
End Float.

(** std::nextafter(x, 0.0f) of a positive normal float. *)
Definition below24 (x : Q) : Q :=
  let e := ulpExp (Qred x) in
  let m := nearest (Qred x / Qpower 2 e)%Q in
  if (m =? 2 ^ 23)%Z then (inject_Z (2 ^ 24 - 1) * Qpower 2 (e - 1))%Q else (inject_Z (m - 1) * Qpower 2 e)%Q.

(** normalize7Bits and normalizeBend, SfzHelpers.h 132-136 and 190-193. *)
Definition normalize7Bits (v : Z) : Q := float24 (inject_Z (Z.min (Z.max v 0) 127) / 127).
Definition normalizeBend (v : Z) : Q := float24 (inject_Z (Z.max (-8191) (Z.min v 8191)) / 8191).

(** * The float specifications of Defaults.cpp 21-205, in the order of the file.  float_max (line 8) is
      2^128 - 2^104. *)
Definition float_max : Q := inject_Z (2 ^ 128 - 2 ^ 104).
Import String.
Local Open Scope string_scope.
Definition float_specs : list (string * fspec) := ([
  ("delay", FSpec 0 0 100 false false true true false NoNorm false);
  ("delayRandom", FSpec 0 0 100 false false true true false NoNorm false);
  ("delayMod", FSpec 0 0 100 false false true true false NoNorm false);
  ("loopCrossfade", FSpec (8589935 # 8589934592) (8589935 # 8589934592) 1 true false false true false NoNorm false);
  ("oscillatorPhase", FSpec 0 (-1000) 1000 false false true true false NoNorm false);
  ("oscillatorDetune", FSpec 0 (-12000) 12000 false false true true false NoNorm false);
  ("oscillatorDetuneMod", FSpec 0 (-12000) 12000 false false true true false NoNorm false);
  ("oscillatorModDepth", FSpec 0 0 10000 false false true true false Percent false);
  ("oscillatorModDepthMod", FSpec 0 0 10000 false false true true false Percent false);
  ("offTime", FSpec (6442451 # 1073741824) 0 100 false false true true false NoNorm false);
  ("loCC", FSpec 0 0 127 false false true true false Midi false);
  ("hiCC", FSpec 127 0 127 false false true true false Midi true);
  ("xfoutLo", FSpec 127 0 127 false false true true false Midi false);
  ("xfoutHi", FSpec 127 0 127 false false true true false Midi true);
  ("xfinLo", FSpec 0 0 127 false false true true false Midi false);
  ("xfinHi", FSpec 0 0 127 false false true true false Midi true);
  ("loVel", FSpec 0 0 127 false false true true false Midi false);
  ("hiVel", FSpec 127 0 127 false false true true false Midi true);
  ("loChannelAftertouch", FSpec 0 0 127 false false true true false Midi false);
  ("hiChannelAftertouch", FSpec 127 0 127 false false true true false Midi true);
  ("loPolyAftertouch", FSpec 0 0 127 false false true true false Midi false);
  ("hiPolyAftertouch", FSpec 127 0 127 false false true true false Midi true);
  ("loBend", FSpec (-8191) (-8192) 8191 false false true true false Bend false);
  ("hiBend", FSpec 8191 (-8192) 8191 false false true true false Bend true);
  ("loNormalized", FSpec 0 0 1 false false true true false NoNorm false);
  ("hiNormalized", FSpec 1 0 1 false false true true false NoNorm false);
  ("loBipolar", FSpec (-1) (-1) 1 false false true true false NoNorm false);
  ("hiBipolar", FSpec 1 (-1) 1 false false true true false NoNorm false);
  ("stepCC", FSpec 0 0 127 false false false true false NoNorm false);
  ("sustainThreshold", FSpec 1 0 127 false false true true false Midi false);
  ("sostenutoThreshold", FSpec 1 0 127 false false true true false Midi false);
  ("loBPM", FSpec 0 0 500 false false true true false NoNorm false);
  ("hiBPM", FSpec 500 0 500 false false true true false NoNorm false);
  ("volume", FSpec 0 (-144) 48 false false true true false NoNorm false);
  ("volumeMod", FSpec 0 (-144) 48 false false true true false NoNorm false);
  ("amplitude", FSpec 100 0 10000 false false true true false Percent false);
  ("amplitudeMod", FSpec 0 0 10000 false false true true false Percent false);
  ("pan", FSpec 0 (-100) 100 false false true true false Percent false);
  ("panMod", FSpec 0 (-200) 200 false false true true false Percent false);
  ("position", FSpec 0 (-100) 100 false false true true false Percent false);
  ("positionMod", FSpec 0 (-200) 200 false false true true false Percent false);
  ("width", FSpec 100 (-100) 100 false false true true false Percent false);
  ("widthMod", FSpec 0 (-200) 200 false false true true false Percent false);
  ("ampKeytrack", FSpec 0 (-96) 12 false false true true false NoNorm false);
  ("ampVeltrack", FSpec 100 (-100) 100 false false true true false Percent false);
  ("ampVeltrackMod", FSpec 0 (-100) 100 false false true true false Percent false);
  ("ampVelcurve", FSpec 0 0 1 false false true true false NoNorm false);
  ("ampRandom", FSpec 0 (-24) 24 false false true true false NoNorm false);
  ("rtDecay", FSpec 0 0 200 true false false true false NoNorm false);
  ("filterCutoff", FSpec 0 0 20000 false false true true false NoNorm false);
  ("filterCutoffMod", FSpec 0 (-12000) 12000 false false true true false NoNorm false);
  ("filterResonance", FSpec 0 0 96 false false true true false NoNorm false);
  ("filterResonanceMod", FSpec 0 0 96 false false true true false NoNorm false);
  ("filterGain", FSpec 0 (-96) 96 false false true true false NoNorm false);
  ("filterGainMod", FSpec 0 (-96) 96 false false true true false NoNorm false);
  ("filterRandom", FSpec 0 (-12000) 12000 false false true true false NoNorm false);
  ("filterKeytrack", FSpec 0 0 1200 false false true true false NoNorm false);
  ("filterVeltrack", FSpec 0 (-12000) 12000 false false true true false NoNorm false);
  ("filterVeltrackMod", FSpec 0 (-12000) 12000 false false true true false NoNorm false);
  ("eqBandwidth", FSpec 1 (8589935 # 8589934592) 4 false false true true false NoNorm false);
  ("eqBandwidthMod", FSpec 0 (-4) 4 false false true true false NoNorm false);
  ("eqFrequency", FSpec 0 0 20000 false false true true false NoNorm false);
  ("eqFrequencyMod", FSpec 0 (-20000) 20000 false false true true false NoNorm false);
  ("eqGain", FSpec 0 (-96) 96 false false true true false NoNorm false);
  ("eqGainMod", FSpec 0 (-96) 96 false false true true false NoNorm false);
  ("eqVel2Frequency", FSpec 0 (-30000) 30000 false false true true false NoNorm false);
  ("eqVel2Gain", FSpec 0 (-96) 96 false false true true false NoNorm false);
  ("pitchKeytrack", FSpec 100 (-1200) 1200 false false true true false NoNorm false);
  ("pitchRandom", FSpec 0 (-12000) 12000 false false true true false NoNorm false);
  ("pitchVeltrack", FSpec 0 (-12000) 12000 false false true true false NoNorm false);
  ("pitchVeltrackMod", FSpec 0 (-12000) 12000 false false true true false NoNorm false);
  ("transpose", FSpec 0 (-127) 127 false false true true false NoNorm false);
  ("pitch", FSpec 0 (-2400) 2400 false false true true false NoNorm false);
  ("pitchMod", FSpec 0 (-12000) 12000 false false true true false NoNorm false);
  ("bendUp", FSpec 200 (-12000) 12000 false false true true false NoNorm false);
  ("bendDown", FSpec (-200) (-12000) 12000 false false true true false NoNorm false);
  ("bendStep", FSpec 1 1 1200 true false true true false NoNorm false);
  ("ampLFODepth", FSpec 0 (-10) 10 false false true true false NoNorm false);
  ("pitchLFODepth", FSpec 0 (-1200) 1200 false false true true false NoNorm false);
  ("filLFODepth", FSpec 0 (-1200) 1200 false false true true false NoNorm false);
  ("lfoFreq", FSpec 0 0 100 false false true true false NoNorm false);
  ("lfoFreqMod", FSpec 0 (-100) 100 false false true true false NoNorm false);
  ("lfoBeats", FSpec 0 0 1000 false false true true false NoNorm false);
  ("lfoBeatsMod", FSpec 0 (-1000) 1000 false false true true false NoNorm false);
  ("lfoPhase", FSpec 0 0 1 false false true true true NoNorm false);
  ("lfoPhaseMod", FSpec 0 0 1 false false true true false NoNorm false);
  ("lfoDelay", FSpec 0 0 30 false false true true false NoNorm false);
  ("lfoDelayMod", FSpec 0 0 30 false false true true false NoNorm false);
  ("lfoFade", FSpec 0 0 30 false false true true false NoNorm false);
  ("lfoFadeMod", FSpec 0 0 30 false false true true false NoNorm false);
  ("lfoStepX", FSpec 0 (-100) 100 false false true true false Percent false);
  ("lfoOffset", FSpec 0 (-1) 1 false false true true false NoNorm false);
  ("lfoRatio", FSpec 1 0 100 false false true true false NoNorm false);
  ("lfoScale", FSpec 1 0 1 false false true true false NoNorm false);
  ("egTime", FSpec 0 0 100 false false true true false NoNorm false);
  ("egRelease", FSpec (8589935 # 8589934592) 0 100 false false true true false NoNorm false);
  ("egTimeMod", FSpec 0 (-100) 100 false false true true false NoNorm false);
  ("egSustain", FSpec 100 0 100 false false true true false Percent false);
  ("egPercent", FSpec 0 0 100 false false true true false Percent false);
  ("egPercentMod", FSpec 0 (-100) 100 false false true true false Percent false);
  ("egDepth", FSpec 0 (-12000) 12000 false false true true false NoNorm false);
  ("egVel2Depth", FSpec 0 (-12000) 12000 false false true true false NoNorm false);
  ("flexEGPointTime", FSpec 0 0 100 false false true true false NoNorm false);
  ("flexEGPointTimeMod", FSpec 0 (-100) 100 false false true true false NoNorm false);
  ("flexEGPointLevel", FSpec 0 (-1) 1 true true false false false NoNorm false);
  ("flexEGPointLevelMod", FSpec 0 (-1) 1 true true false false false NoNorm false);
  ("flexEGPointShape", FSpec 0 (-100) 100 false false true true false NoNorm false);
  ("effect", FSpec 0 0 100 false false false false false Percent false);
  ("effectPercent", FSpec 0 0 100 false false false false false NoNorm false);
  ("apanFrequency", FSpec 0 0 float_max false false false false false NoNorm false);
  ("apanPhase", FSpec (1 # 2) 0 1 false false false false true NoNorm false);
  ("apanLevel", FSpec 0 0 100 false false false false false Percent false);
  ("distoTone", FSpec 100 0 100 false false false false false NoNorm false);
  ("distoDepth", FSpec 0 0 100 false false false false false NoNorm false);
  ("compAttack", FSpec (5368709 # 1073741824) 0 10 false false false false false NoNorm false);
  ("compRelease", FSpec (13421773 # 268435456) 0 10 false false false false false NoNorm false);
  ("compThreshold", FSpec 0 (-100) 0 false false false false false NoNorm false);
  ("compRatio", FSpec 1 1 50 false false false false false NoNorm false);
  ("compGain", FSpec 0 (-100) 100 false false false false false Db false);
  ("fverbSize", FSpec 0 0 100 false false false false false NoNorm false);
  ("fverbPredelay", FSpec 0 0 10 false false false false false NoNorm false);
  ("fverbTone", FSpec 100 0 100 false false false false false NoNorm false);
  ("fverbDamp", FSpec 0 0 100 false false false false false NoNorm false);
  ("gateAttack", FSpec (5368709 # 1073741824) 0 10 false false false false false NoNorm false);
  ("gateRelease", FSpec (13421773 # 268435456) 0 10 false false false false false NoNorm false);
  ("gateHold", FSpec 0 0 10 false false false false false NoNorm false);
  ("gateThreshold", FSpec 0 (-100) 0 false false false false false NoNorm false);
  ("lofiBitred", FSpec 0 0 100 false false false false false NoNorm false);
  ("lofiDecim", FSpec 0 0 100 false false false false false NoNorm false);
  ("rectify", FSpec 0 0 100 false false false false false NoNorm false);
  ("loTimer", FSpec 0 0 float_max false false false false false NoNorm false);
  ("hiTimer", FSpec float_max 0 float_max false false false false false NoNorm false)
])%Q.

Definition spec_named (n : string) : option fspec := option_map snd (find (fun p => String.eqb (fst p) n) float_specs).

(** * Words, Opcode.cpp 376-513.  The switch compares hashes; [None] is the return without a value. *)
Definition readWord {A} (table : list (string * A)) (t : text) : option A :=
  option_map snd (find (fun p => (hash t fnvBasis =? hash (str (fst p)) fnvBasis)%Z) table).
Inductive trigger := Attack | First | Legato | Release | ReleaseKey.
Definition trigger_words : list (string * trigger) :=
  [("attack", Attack); ("first", First); ("legato", Legato); ("release", Release); ("release_key", ReleaseKey)].
Inductive xcurve := XPower | XGain.
Definition xcurve_words : list (string * xcurve) := [("power", XPower); ("gain", XGain)].
Inductive offmode := Fast | OffNormal | OffTime.
Definition offmode_words : list (string * offmode) := [("fast", Fast); ("normal", OffNormal); ("time", OffTime)].
(** FilterType, SfzFilter.h; "brf_1p" is the two pole filter there. *)
Inductive filter := Lpf1p | Hpf1p | Lpf2p | Hpf2p | Bpf2p | Brf2p | Bpf1p | Lpf2pSv | Hpf2pSv | Bpf2pSv | Brf2pSv
  | Lpf4p | Hpf4p | Lpf6p | Hpf6p | Pink | Lsh | Hsh | Peq.
Definition filter_words : list (string * filter) :=
  [("lpf_1p", Lpf1p); ("hpf_1p", Hpf1p); ("lpf_2p", Lpf2p); ("hpf_2p", Hpf2p); ("bpf_2p", Bpf2p); ("brf_2p", Brf2p);
   ("bpf_1p", Bpf1p); ("brf_1p", Brf2p); ("lpf_2p_sv", Lpf2pSv); ("hpf_2p_sv", Hpf2pSv); ("bpf_2p_sv", Bpf2pSv);
   ("brf_2p_sv", Brf2pSv); ("lpf_4p", Lpf4p); ("hpf_4p", Hpf4p); ("lpf_6p", Lpf6p); ("hpf_6p", Hpf6p); ("pink", Pink);
   ("lsh", Lsh); ("hsh", Hsh); ("bpk_2p", Peq); ("pkf_2p", Peq); ("peq", Peq)].
Inductive eqtype := EqPeak | EqLshelf | EqHshelf.
Definition eq_words : list (string * eqtype) := [("peak", EqPeak); ("lshelf", EqLshelf); ("hshelf", EqHshelf)].
Inductive veloverride := VCurrent | VPrevious.
Definition vel_words : list (string * veloverride) := [("current", VCurrent); ("previous", VPrevious)].
Inductive selfmask := Mask | DontMask.
Definition mask_words : list (string * selfmask) := [("on", Mask); ("mask", Mask); ("off", DontMask)].

(** OscillatorEnabled, Opcode.cpp 336-347. *)
Inductive oscenabled := OscAuto | OscOff | OscOn.
Definition readOscillator (t : text) : option oscenabled :=
  if text_eqb t (str "auto") then Some OscAuto
  else match snd (readBoolean t) with Some true => Some OscOn | Some false => Some OscOff | None => None end.
