(** Importing instruments that are not SFZ files.
    Code: import/sfizz_import.cpp 10-32, import/ForeignInstrument.cpp 13-39 (which format a path has), import/foreign_instruments/AudioFile.cpp,
    import/foreign_instruments/DecentSampler.cpp 43-228.

    A preset is what pugixml gives for the elements that are used: the attribute bgImage of <ui>, the attributes of <groups>, of every <group> in it and of
    every <sample> in that.  Numbers with a fraction are parameters: [leadingFloat] is readLeadingFloat with the text after the number, [toSeconds] and
    [times100] the two conversions, [show] what operator<< writes for a double.  [sort] is the result of std::sort, which need not be stable; Import says
    what is assumed of it.  A case of the switch is found by the hash of the name (C92). *)
From Coq Require Import ZArith List Bool String Lia.
From Verif Require Import ParserModel OpcodeModel ModModel RegionModel.
Import ListNotations.
Local Open Scope string_scope.
Local Open Scope list_scope.
Local Open Scope Z_scope.

(** AudioFile.cpp 17-19 and the extension of DecentSampler.cpp 31-35, in lower case (EqualsIgnoreCase) *)
Inductive format := AudioFile | DecentSampler.
Definition audioExtensions : list string := [".wav"; ".flac"; ".ogg"; ".mp3"; ".aif"; ".aiff"; ".aifc"; ".wv"].
Definition equalsIgnoreCase (a b : text) : bool := text_eqb (map toLower a) (map toLower b).
Definition matchesPath (f : format) (extension : text) : bool :=
  match f with
  | AudioFile => existsb (fun e => equalsIgnoreCase extension (str e)) audioExtensions
  | DecentSampler => equalsIgnoreCase extension (str ".dspreset")
  end.
(** getMatchingFormat, ForeignInstrument.cpp 27-39; None means that the file is loaded as SFZ (sfizz_import.cpp 15-20) *)
Definition getMatchingFormat (extension : text) : option format := find (fun f => matchesPath f extension) [AudioFile; DecentSampler].

(** AudioFile.cpp 50-56 *)
Definition audioText (filename : text) : text := str "<region>sample=" ++ filename.

(** operator<< of an int64_t *)
Definition showInt (n : Z) : text := if n <? 0 then 45 :: digits_of 20 (- n) [] else digits_of 20 n [].

(** what a case of the switch does, DecentSampler.cpp 133-226 *)
Inductive conversion := AsVolume | AsReal (name : string) | AsWord (name : string) | AsInt (name : string) | AsController (name : string) | AsSeconds (name : string)
  | AsLoopMode | AsPercent (name : string) | Ignored.
Definition conversions : list (string * conversion) :=
  [("volume", AsVolume); ("ampVeltrack", AsReal "amp_veltrack"); ("path", AsWord "sample"); ("rootNote", AsInt "key"); ("loNote", AsInt "lokey");
   ("hiNote", AsInt "hikey"); ("loVel", AsInt "lovel"); ("hiVel", AsInt "hivel"); ("start", AsInt "offset"); ("end", AsInt "end");
   ("tuning", AsReal "transpose"); ("pan", AsReal "pan"); ("trigger", AsWord "trigger"); ("onLoCC&", AsController "on_locc");
   ("onHiCC&", AsController "on_hicc"); ("loopStart", AsInt "loop_start"); ("loopEnd", AsInt "loop_end"); ("loopCrossfade", AsSeconds "loop_crossfade");
   ("loopCrossfadeMode", Ignored); ("loopEnabled", AsLoopMode); ("attack", AsReal "ampeg_attack"); ("decay", AsReal "ampeg_decay");
   ("sustain", AsPercent "ampeg_sustain"); ("release", AsReal "ampeg_release"); ("seqMode", Ignored); ("seqPosition", AsInt "seq_position")].

Definition attribute : Type := (text * text)%type.
Record preset := Preset { p_image : text; p_global : list attribute; p_groups : list (list attribute * list (list attribute)) }.

Section Convert.
Variable D : Type.
Variable leadingFloat : text -> option (D * text).
Variable toSeconds times100 : D -> D.
Variable show : D -> text.
Variable sort : list opcode -> list opcode.

(** one turn of the loop, 115-227: the name and the value that are written *)
Definition convert (o : opcode) : list (text * text) :=
  let real f n := match leadingFloat (o_value o) with Some (d, _) => [(str n, show (f d))] | None => [] end in
  let int n := match readLeadingInt (o_value o) with Some v => [(n, showInt v)] | None => [] end in
  match caseOf conversions o with
  | None => []
  | Some Ignored => []
  | Some AsVolume =>
      match leadingFloat (o_value o) with
      | Some (d, unit) => [(if text_eqb unit (str "dB") then str "volume" else str "amplitude", show d)]
      | None => []
      end
  | Some (AsReal n) => real (fun d => d) n
  | Some (AsSeconds n) => real toSeconds n
  | Some (AsPercent n) => real times100 n
  | Some (AsWord n) => [(str n, o_value o)]
  | Some (AsInt n) => int (str n)
  | Some (AsController n) => int (str n ++ to_string (nth 0 (o_params o) 0))
  | Some AsLoopMode => [(str "loop_mode", if text_eqb (o_value o) (str "true") then str "loop_continuous" else str "no_loop")]
  end.
(** emitRegionalOpcodes, 88-228 *)
Definition element (l : list attribute) : list (text * text) := flat_map convert (sort (map (fun a => mkOpcode (fst a) (snd a)) l)).
Definition emit (l : list attribute) : text := flat_map (fun x => fst x ++ [61] ++ snd x ++ [10]) (element l).
(** convertToSfz, 43-86, when the file can be read and has the root element *)
Definition convertToSfz (p : preset) : text :=
  (match p_image p with [] => [] | i => str "<control> image=" ++ i ++ [10] end) ++
  str "<global>" ++ [10] ++ emit (p_global p) ++
  flat_map (fun g => str "<group>" ++ [10] ++ emit (fst g) ++ flat_map (fun s => str "<region>" ++ [10] ++ emit s) (snd g)) (p_groups p).
End Convert.
