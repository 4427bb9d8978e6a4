(** Tunings: Scala scales and stretch tuning.
    Code: src/sfizz/Tuning.cpp, Tuning.h; src/external/tunings/src/Tunings.cpp 33-123 (toneFromString, readSCLStream), 149-160
    (evenTemperament12NoteScale), 323-507 (the constructor of Tuning), 509-512, 539-551 (startScaleOnAndTuneNoteTo); src/sfizz/railsback/*.h;
    Synth.cpp 1020-1031 (loadStretchTuningByRatio).

    The keyboard mapping has no keys of its own (count = 0): the only mapping that sfizz makes (mappingFromParameters, Tuning.cpp 140-150) has none.
    Pitches and frequencies are real numbers; [atof] is the value of a text that is read as a number of cents.  Integers read by atoi do not
    overflow.  The ratios of the stretch tables are the decimals in the source. *)
From Coq Require Import ZArith List Bool Reals QArith Qround.
From Coq Require String.
From Verif Require Import ParserModel AdsrModel CcEnvModel.
Import ListNotations.
Local Open Scope Z_scope.

(** * Reading a scale *)
(** std::getline until the end of the stream: a last line without line feed counts if it is not empty *)
Fixpoint getlines (cur : text) (t : text) : list text :=
  match t with
  | [] => match cur with [] => [] | _ => [rev cur] end
  | c :: rest => if c =? 10 then rev cur :: getlines [] rest else getlines (c :: cur) rest
  end.
(** isspace in the C locale *)
Definition isSpace (c : Z) : bool := (c =? 32) || ((9 <=? c) && (c <=? 13)).
Definition isDigit (c : Z) : bool := (48 <=? c) && (c <=? 57).
Fixpoint digitsValue (acc : Z) (t : text) : Z :=
  match t with c :: rest => if isDigit c then digitsValue (10 * acc + (c - 48)) rest else acc | [] => acc end.
(** atoi *)
Fixpoint atoi (t : text) : Z :=
  match t with
  | c :: rest =>
      if isSpace c then atoi rest
      else if c =? 45 then - digitsValue 0 rest
      else if c =? 43 then digitsValue 0 rest
      else digitsValue 0 (c :: rest)
  | [] => 0
  end.
(** std::string::find *)
Fixpoint find (c : Z) (t : text) : option nat :=
  match t with [] => None | x :: rest => if x =? c then Some 0%nat else option_map S (find c rest) end.

(** Tone, Tunings.h 50-62 *)
Inductive tone := ToneCents (line : text) | ToneRatio (n d : Z).
(** toneFromString, 33-71; None: TuningError *)
Definition toneFromString (line : text) : option tone :=
  match find 46 line with
  | Some _ => Some (ToneCents line)
  | None =>
      let '(n, d) := match find 47 line with
                     | None => (atoi line, 1)
                     | Some p => (atoi (firstn p line), atoi (skipn (S p) line))
                     end in
      if (n =? 0) || (d =? 0) then None else Some (ToneRatio n d)
  end.
(** readSCLStream, 73-123.  MAX_CAPACITY is 64.  The tones read so far are in their order. *)
Inductive sclPhase := ReadHeader | ReadCount | ReadNote | Trailing.
Record sclState := Scl { sc_phase : sclPhase; sc_count : Z; sc_tones : list tone }.
Definition capacity : Z := 64.
Definition startsBang (line : text) : bool := match line with c :: _ => c =? 33 | [] => false end.
Definition isNil (line : text) : bool := match line with [] => true | _ => false end.
Definition sclLine (s : sclState) (line : text) : option sclState :=
  if (match sc_phase s with ReadNote => isNil line | _ => false end) || startsBang line then Some s
  else match sc_phase s with
  | ReadHeader => Some (Scl ReadCount (sc_count s) (sc_tones s))
  | ReadCount =>
      let c := atoi line in
      if (c <? 0) || (capacity <? c) then None
      else Some (Scl (if 0 <? c then ReadNote else Trailing) c (sc_tones s))
  | ReadNote =>
      match toneFromString line with
      | Some t =>
          let l := sc_tones s ++ [t] in
          Some (Scl (if Z.of_nat (length l) =? sc_count s then Trailing else ReadNote) (sc_count s) l)
      | None => None
      end
  | Trailing => Some s
  end.
Fixpoint sclLines (s : sclState) (lines : list text) : option sclState :=
  match lines with [] => Some s | l :: rest => match sclLine s l with Some s' => sclLines s' rest | None => None end end.
Definition readSCL (t : text) : option (list tone) :=
  match sclLines (Scl ReadHeader 0 []) (getlines [] t) with
  | Some s =>
      match sc_phase s with
      | ReadNote | Trailing => if Z.of_nat (length (sc_tones s)) =? sc_count s then Some (sc_tones s) else None
      | _ => None
      end
  | None => None
  end.

(** * The table of pitches *)
Local Open Scope R_scope.
Definition log2 (x : R) : R := ln x / ln 2.
Section Tones.
Variable atof : text -> R.
(** floatValue of a tone, 39, 67-69: one more than its octaves *)
Definition floatValue (t : tone) : R :=
  match t with
  | ToneCents line => atof line / 1200 + 1
  | ToneRatio n d => 1200 * log2 (IZR n / IZR d) / 1200 + 1
  end.
End Tones.
(** evenTemperament12NoteScale, 149-160 *)
Definition evenScale : list R := map (fun i => IZR (100 * (Z.of_nat i + 1)) / 1200 + 1) (seq 0 12).

(** s.tones[i].floatValue; None: outside of the tones of the scale *)
Definition toneAt (s : list R) (i : Z) : option R := if (i <? 0)%Z then None else nth_error s (Z.to_nat i).
(** The loops of 350-359: the place of the tuning note is brought between 0 and the number of tones *)
Fixpoint bringUp (fuel : nat) (count : Z) (dt : R) (pos : Z) (shift : R) : Z * R :=
  match fuel with
  | O => (pos, shift)
  | S f => if (pos <? 0)%Z then bringUp f count dt (pos + count) (shift + dt) else (pos, shift)
  end.
Fixpoint bringDown (fuel : nat) (count : Z) (dt : R) (pos : Z) (shift : R) : Z * R :=
  match fuel with
  | O => (pos, shift)
  | S f => if (count <? pos)%Z then bringDown f count dt (pos - count) (shift - dt) else (pos, shift)
  end.
(** 339-365: place of the tuning note in the scale, and tuningCenterPitchOffset *)
Definition tuningCentre (s : list R) (root note : Z) : option (Z * R) :=
  let count := Z.of_nat (length s) in
  let pos := (note - root)%Z in
  if (pos =? 0)%Z then Some (0%Z, 0)
  else
    match toneAt s (count - 1) with
    | None => None
    | Some last =>
        let dt := last - 1 in
        let '(pos, shift) := bringUp (S (Z.to_nat (- pos))) count dt pos 0 in
        let '(pos, shift) := bringDown (S (Z.to_nat pos)) count dt pos shift in
        if (pos =? 0)%Z then Some (pos, - shift)
        else match toneAt s (pos - 1) with Some t => Some (pos, t - 1 - shift) | None => None end
    end.
(** One round of the loop of 367-506: pitches[i] and scalepositiontable[i] of the key i - 256.  Quotient and remainder cut towards 0. *)
Definition keyPitch (s : list R) (root note : Z) (key : Z) : option (R * Z) :=
  let count := Z.of_nat (length s) in
  match tuningCentre s root note with
  | None => None
  | Some (pos, offset) =>
      if (key =? note)%Z then Some (1, Z.rem pos count)
      else
        let distance := (key - root)%Z in
        let rounds := Z.quot (distance - 1) count in
        let this := Z.rem (distance - 1) count in
        let '(this, rounds) := if (this <? 0)%Z then (this + count, rounds - 1)%Z else (this, rounds) in
        match toneAt s this, toneAt s (count - 1) with
        | Some t, Some last => Some (t + IZR rounds * (last - 1) - offset, Z.rem (this + 1) count)
        | _, _ => None
        end
  end.
(** MIDI_0_FREQ, Tunings.h 40 *)
Definition midi0 : R := 817579891564371 / 100000000000000.
(** ptable, 337, 376-377, 485-486; a scale, the root key and the frequency of the tuning note, which is 69 (Tuning.cpp 149) *)
Definition tableSize : Z := 512.
Definition keyOffset : Z := 256.
Definition ptable (s : list R) (root : Z) (frequency : R) (i : Z) : option R :=
  match keyPitch s root 69 (i - keyOffset) with
  | Some (p, _) => Some (Rpower 2 (p + (log2 (frequency / midi0) - 1)))
  | None => None
  end.
(** frequencyForMidiNote, 509-512 *)
Definition clampIndex (key : Z) : Z := Z.min (Z.max 0 (key + 256)) (tableSize - 1).
Definition frequencyForMidiNote (s : list R) (root : Z) (frequency : R) (key : Z) : option R :=
  match ptable s root frequency (clampIndex key) with Some p => Some (p * midi0) | None => None end.

(** * sfz::Tuning *)
(** Tuning::Impl, Tuning.cpp 39-55.  The mapping of [tuning_] and the table keysFractional12TET_ are members of their own. *)
Record tuning := Tuning_ {
  tu_root : Z; tu_frequency : R;
  tu_scale : list R; tu_mapRoot : Z; tu_mapFrequency : R;
  tu_keys : list (option R); tu_file : option text }.
(** updateKeysFractional12TET, 131-138 *)
Definition keysOf (s : list R) (root : Z) (frequency : R) : list (option R) :=
  map (fun i => option_map (fun f => 12 * log2 (f / 440) + 69) (frequencyForMidiNote s root frequency (Z.of_nat i - keyOffset))) (seq 0 (Z.to_nat tableSize)).
Definition updateKeys (t : tuning) : tuning :=
  Tuning_ (tu_root t) (tu_frequency t) (tu_scale t) (tu_mapRoot t) (tu_mapFrequency t) (keysOf (tu_scale t) (tu_mapRoot t) (tu_mapFrequency t)) (tu_file t).
(** construction, 20 and 39-48 *)
Definition freshTuning : tuning := updateKeys (Tuning_ 60 440 evenScale 60 440 [] None).
(** reset, 58-69 *)
Definition resetTuning (t : tuning) : tuning := updateKeys (Tuning_ 60 440 evenScale 60 440 (tu_keys t) None).
(** updateScale, 76-87 *)
Definition updateScale (s : list R) (file : option text) (t : tuning) : tuning :=
  let t := updateKeys (Tuning_ (tu_root t) (tu_frequency t) s (tu_mapRoot t) (tu_mapFrequency t) (tu_keys t) (tu_file t)) in
  Tuning_ (tu_root t) (tu_frequency t) (tu_scale t) (tu_mapRoot t) (tu_mapFrequency t) (tu_keys t) file.
(** updateRootKey, 105-116 *)
Definition updateRootKey (k : Z) (t : tuning) : tuning :=
  let k := Z.max 0 k in
  if (tu_root t =? k)%Z then t
  else updateKeys (Tuning_ k (tu_frequency t) (tu_scale t) k (tu_frequency t) (tu_keys t) (tu_file t)).
(** updateTuningFrequency, 118-129 *)
Definition updateTuningFrequency (f : R) (t : tuning) : tuning :=
  let f := Rmax 0 f in
  if Req_EM_T (tu_frequency t) f then t
  else updateKeys (Tuning_ (tu_root t) f (tu_scale t) (tu_root t) f (tu_keys t) (tu_file t)).
(** loadScalaFile and loadScalaString, 162-217; [name]: the file, if it is one; the answer says whether the scale was read *)
Definition loadScala (atof : text -> R) (name : option text) (contents : text) (t : tuning) : tuning * bool :=
  match readSCL contents with
  | Some (x :: l) => (updateScale (map (floatValue atof) (x :: l)) name t, true)
  | _ => (updateScale evenScale None t, false)
  end.
(** getKeyFractional12TET, 71-74, and getFrequencyOfKey, 244-247 *)
Definition getKeyFractional12TET (t : tuning) (key : Z) : option R :=
  match nth_error (tu_keys t) (Z.to_nat (Z.max 0 (Z.min (tableSize - 1) (key + keyOffset)))) with Some x => x | None => None end.
Definition getFrequencyOfKey (t : tuning) (key : Z) : option R :=
  frequencyForMidiNote (tu_scale t) (tu_mapRoot t) (tu_mapFrequency t) key.

Inductive tuningOp := OpScala (name : option text) (contents : text) | OpRoot (k : Z) | OpFrequency (f : R) | OpEqual | OpReset.
Definition tuningStep (atof : text -> R) (t : tuning) (o : tuningOp) : tuning :=
  match o with
  | OpScala name c => fst (loadScala atof name c t)
  | OpRoot k => updateRootKey k t
  | OpFrequency f => updateTuningFrequency f t
  | OpEqual => updateScale evenScale None t
  | OpReset => resetTuning t
  end.

(** * Stretch tuning *)
Local Close Scope R_scope.
Local Open Scope Q_scope.
(** getRatioForIntegralKey, 260-263; None: outside of the table *)
Definition ratioAt (t : list Q) (i : Z) : option Q := if (i <? 0)%Z then None else nth_error t (Z.to_nat i).
Definition getRatioForIntegralKey (t : list Q) (key : Z) : option Q := ratioAt t (Z.max 0 (Z.min 127 key)).
(** getRatioForFractionalKey, 265-274; the cast cuts towards 0 *)
Definition getRatioForFractionalKey (t : list Q) (key : Q) : option Q :=
  let index1 := Qtrunc key in
  let mu := key - inject_Z index1 in
  let index1 := Z.max 0 (Z.min 127 index1) in
  let index2 := Z.min 127 (index1 + 1) in
  match ratioAt t index1, ratioAt t index2 with
  | Some a, Some b => Some (a * (1 - mu) + b * mu)
  | _, _ => None
  end.
(** railsback/2-1.h, in millionths *)
Definition railsback21 : list Q := map (fun n => n # 1000000) [
  995011; 995085; 995162; 995242; 995324; 995409; 995496; 995587; 995680; 995775; 995874; 995975; 996079; 996185; 996294; 996406;
  996521; 996638; 996758; 996880; 997006; 997134; 997264; 997398; 997534; 997673; 997814; 997959; 998106; 998255; 998408; 998562;
  998706; 998835; 998951; 999066; 999186; 999308; 999421; 999519; 999604; 999683; 999759; 999833; 999899; 999956; 1000005; 1000046;
  1000079; 1000103; 1000120; 1000128; 1000129; 1000129; 1000130; 1000132; 1000135; 1000140; 1000145; 1000151; 1000158; 1000167; 1000177; 1000190;
  1000204; 1000220; 1000239; 1000261; 1000301; 1000360; 1000437; 1000522; 1000614; 1000711; 1000810; 1000909; 1001009; 1001119; 1001241; 1001376;
  1001523; 1001680; 1001847; 1002007; 1002158; 1002305; 1002487; 1002715; 1002982; 1003252; 1003517; 1003779; 1004058; 1004357; 1004673; 1004991;
  1005309; 1005630; 1005990; 1006395; 1006839; 1007285; 1007727; 1008163; 1008595; 1009023; 1009446; 1009864; 1010278; 1010687; 1011092; 1011492;
  1011887; 1012278; 1012664; 1013045; 1013422; 1013794; 1014161; 1014524; 1014882; 1015236; 1015585; 1015929; 1016268; 1016603; 1016933; 1017258]%Z.
(** railsback/4-1.h, in millionths *)
Definition railsback41 : list Q := map (fun n => n # 1000000) [
  939286; 942401; 945435; 948389; 951261; 954050; 956756; 959378; 961915; 964367; 966732; 969011; 971202; 973305; 975320; 977245;
  979080; 980825; 982479; 984041; 985512; 986891; 988177; 989371; 990471; 991477; 992390; 993208; 993932; 994561; 995096; 995559;
  995995; 996407; 996789; 997140; 997460; 997745; 997997; 998229; 998444; 998640; 998811; 998957; 999095; 999228; 999357; 999479;
  999594; 999701; 999803; 999899; 999990; 1000069; 1000135; 1000196; 1000261; 1000330; 1000398; 1000463; 1000525; 1000582; 1000635; 1000690;
  1000748; 1000809; 1000871; 1000932; 1000998; 1001079; 1001173; 1001269; 1001365; 1001463; 1001572; 1001695; 1001831; 1001977; 1002132; 1002296;
  1002474; 1002666; 1002873; 1003102; 1003354; 1003633; 1003948; 1004304; 1004696; 1005088; 1005475; 1005861; 1006287; 1006760; 1007286; 1007886;
  1008566; 1009328; 1010176; 1011111; 1012135; 1013248; 1014449; 1015739; 1017119; 1018588; 1020148; 1021798; 1023539; 1025371; 1027295; 1029312;
  1031422; 1033625; 1035922; 1038314; 1040801; 1043384; 1046063; 1048840; 1051715; 1054689; 1057763; 1060937; 1064213; 1067590; 1071071; 1074656]%Z.
(** railsback/4-2.h, in millionths *)
Definition railsback42 : list Q := map (fun n => n # 1000000) [
  968133; 969216; 970284; 971335; 972369; 973387; 974388; 975372; 976340; 977291; 978225; 979141; 980041; 980924; 981790; 982639;
  983470; 984284; 985081; 985861; 986623; 987368; 988096; 988806; 989498; 990173; 990830; 991470; 992092; 992697; 993283; 993852;
  994403; 994935; 995443; 995928; 996389; 996814; 997202; 997551; 997868; 998152; 998405; 998641; 998864; 999074; 999267; 999438;
  999586; 999713; 999837; 999962; 1000087; 1000196; 1000285; 1000364; 1000450; 1000542; 1000641; 1000746; 1000860; 1000983; 1001116; 1001259;
  1001419; 1001605; 1001819; 1002058; 1002311; 1002576; 1002854; 1003142; 1003441; 1003750; 1004081; 1004433; 1004808; 1005217; 1005662; 1006141;
  1006636; 1007143; 1007662; 1008198; 1008754; 1009329; 1009939; 1010585; 1011265; 1011950; 1012636; 1013327; 1014061; 1014847; 1015679; 1016517;
  1017351; 1018188; 1019062; 1019981; 1020944; 1021952; 1023004; 1024100; 1025242; 1026428; 1027660; 1028937; 1030259; 1031627; 1033041; 1034501;
  1036007; 1037559; 1039158; 1040804; 1042497; 1044237; 1046024; 1047859; 1049742; 1051673; 1053653; 1055681; 1057759; 1059885; 1062061; 1064287]%Z.
(** createRailsbackFromRatio, 283-329: mixing two tables *)
Definition mix (mu : Q) (c2 c1 : list Q) : list Q := map (fun '(b, a) => mu * b + (1 - mu) * a) (combine c2 c1).
(** the search of 303-305 for the last knob position that is not above [stretch] is unfolded *)
Definition createRailsback (stretch : Q) : list Q :=
  if Qle_bool (1 # 4) stretch then
    if Qle_bool (1 # 2) stretch then
      if Qle_bool 1 stretch then railsback42
      else mix ((stretch - (1 # 2)) / (1 - (1 # 2))) railsback42 railsback41
    else mix ((stretch - (1 # 4)) / ((1 # 2) - (1 # 4))) railsback41 railsback21
  else
    let mu := Qmaxf 0 (stretch / (1 # 4)) in
    map (fun c => mu * c + (1 - mu)) railsback21.
(** Synth::loadStretchTuningByRatio, Synth.cpp 1020-1031 *)
Definition loadStretch (ratio : Q) : option (list Q) :=
  let ratio := Qclamp ratio 0 1 in
  if Qltb 0 ratio then Some (createRailsback ratio) else None.
