(** Opcodes: src/sfizz/Opcode.cpp and Opcode.h, utility/StringViewHelpers.h, Range.h,
    OpcodeCleanup.re.  Texts are lists of bytes. *)
From Coq Require Import ZArith List Bool Ascii String Lia.
From Verif Require Import ParserModel.
Import ListNotations.
Local Open Scope string_scope.
Local Open Scope Z_scope.
Local Open Scope list_scope.

(** absl::ascii_isdigit and absl::ascii_tolower. *)
Definition isDigit (c : Z) : bool := (48 <=? c) && (c <=? 57).
Definition toLower (c : Z) : Z := if (65 <=? c) && (c <=? 90) then c + 32 else c.

(** trimInPlace, StringViewHelpers.h 24-34: the same six characters on either side. *)
Definition isTrimmed (c : Z) : bool := (c =? 32) || ((9 <=? c) && (c <=? 13)).
Definition trimLeft (t : text) : text := snd (span isTrimmed t).
Definition trim (t : text) : text := rev (trimLeft (rev (trimLeft t))).

(** * Integers *)

(** The value of a run of digits, most significant first. *)
Fixpoint digits_value (acc : Z) (t : text) : Z :=
  match t with
  | [] => acc
  | c :: r => digits_value (10 * acc + (c - 48)) r
  end.
(** absl::SimpleAtoi for a type with values in [lo,hi]: blanks around the number are skipped,
    one sign is accepted (not '-' for unsigned types, where even "-0" fails), at least one
    digit is needed, nothing may follow and the value must fit. *)
Definition simpleAtoi (lo hi : Z) (t : text) : option Z :=
  let t := trim t in
  let '(neg, t) :=
    match t with
    | c :: r => if c =? 45 then (true, r) else if c =? 43 then (false, r) else (false, t)
    | [] => (false, [])
    end in
  if neg && (lo =? 0) then None else
  match t with
  | [] => None
  | _ =>
      if forallb isDigit t then
        let v := if neg then - digits_value 0 t else digits_value 0 t in
        if (lo <=? v) && (v <=? hi) then Some v else None
      else None
  end.

(** readLeadingInt<int64_t>, StringViewHelpers.h 142-160 ([rest] is not asked for here). *)
Definition int64_min : Z := - 2 ^ 63.
Definition int64_max : Z := 2 ^ 63 - 1.
Definition readLeadingInt (t : text) : option Z :=
  let '(sign, r) :=
    match t with
    | c :: r => if (c =? 43) || (c =? 45) then ([c], r) else ([], t)
    | [] => ([], [])
    end in
  simpleAtoi int64_min int64_max (sign ++ fst (span isDigit r)).

(** OpcodeSpec<T> for the integral types, Defaults.h 66-71 with flags 50-64; [s_min] and [s_max] are the
    limits of T.  Range.h 27-31: a checked range has start <= end. *)
Record ispec := ISpec {
  s_default : Z;
  s_lo : Z;
  s_hi : Z;
  s_min : Z;
  s_max : Z;
  s_note : bool;
  s_enforceLo : bool;
  s_enforceHi : bool;
  s_permLo : bool;
  s_permHi : bool }.

(** transformInt_, Opcode.cpp 147-167. *)
Definition transformInt (s : ispec) (v : Z) : option Z :=
  let clip v := Some (Z.min (Z.max v (s_min s)) (s_max s)) in
  if s_hi s <? v then
    if s_enforceHi s then Some (s_hi s)
    else if negb (s_permHi s) then None else clip v
  else if v <? s_lo s then
    if s_enforceLo s then Some (s_lo s)
    else if negb (s_permLo s) then None else clip v
  else clip v.

(** * Notes *)

Definition starts_with (p t : text) : bool := text_eqb (firstn (List.length p) t) p.
Definition int_min : Z := - 2 ^ 31.
Definition int_max : Z := 2 ^ 31 - 1.
Definition in_int (v : Z) : bool := (int_min <=? v) && (v <=? int_max).

(** What a call to readNoteValue does: give a result, or do something undefined. *)
Inductive outcome := Undefined | Result (v : option Z).

(** offsetsABCDEFG, Opcode.cpp 265-266, and the accidental prefixes 269-278 (UTF-8 bytes). *)
Definition letter_offset (c : Z) : Z :=
  nth (Z.to_nat (c - 97)) [9; 11; 0; 2; 4; 5; 7] 0.
Definition validSharpLetters : text := str "cdfga".
Definition validFlatLetters : text := str "degab".
Definition accidentals : list (text * Z) :=
  [ (str "#", 1); ([226; 153; 175], 1); (str "b", -1); ([226; 153; 173], -1) ].

(** The loop over the prefixes, 279-293: [None] is the early return. *)
Fixpoint accidental (letter : Z) (l : list (text * Z)) (value : text) : option (Z * text) :=
  match l with
  | [] => Some (0, value)
  | (p, d) :: r =>
      if starts_with p value then
        if (d =? 1) && negb (existsb (Z.eqb letter) validSharpLetters) then None
        else if (d =? -1) && negb (existsb (Z.eqb letter) validFlatLetters) then None
        else Some (d, skipn (List.length p) value)
      else accidental letter r value
  end.

(** readNoteValue, Opcode.cpp 258-305.  [value.remove_prefix(1)] of an empty view (261) and an
    overflow of the int arithmetic (299) are undefined. *)
Definition readNoteValue (value : text) : outcome :=
  match value with
  | [] => Undefined
  | c :: value =>
      let letter := toLower c in
      if (letter <? 97) || (103 <? letter) then Result None else
      match accidental letter accidentals value with
      | None => Result None
      | Some (d, value) =>
          match simpleAtoi int_min int_max value with
          | None => Result None
          | Some octave =>
              if negb (in_int (octave + 1)) then Undefined
              else if negb (in_int ((octave + 1) * 12)) then Undefined
              else
                let note := letter_offset letter + d + (octave + 1) * 12 in
                if negb (in_int note) then Undefined
                else if (note <? 0) || (128 <=? note) then Result None else Result (Some note)
          end
      end
  end.

(** readInt_, Opcode.cpp 169-189. *)
Definition readInt (s : ispec) (v : text) : outcome :=
  match readLeadingInt v with
  | Some n => Result (transformInt s n)
  | None =>
      if s_note s then
        match readNoteValue v with
        | Undefined => Undefined
        | Result (Some n) => Result (transformInt s n)
        | Result None => Result None
        end
      else Result None
  end.
(** Opcode::read, Opcode.h 110-111 and 118: the default when there is no value. *)
Definition readIntOr (s : ispec) (v : text) : option Z :=
  match readInt s v with
  | Undefined => None
  | Result (Some n) => Some n
  | Result None => Some (s_default s)
  end.

(** readBoolean, Opcode.cpp 314-334. *)
Definition equalsIgnoreCase (a b : text) : bool := text_eqb (map toLower a) (map toLower b).
Definition fullInt64 : ispec :=
  ISpec 0 int64_min int64_max int64_min int64_max false false false false false.
Definition readBoolean (value : text) : outcome * option bool :=
  if equalsIgnoreCase value (str "off") then (Result None, Some false)
  else if equalsIgnoreCase value (str "on") then (Result None, Some true)
  else
    match readInt fullInt64 value with
    | Undefined => (Undefined, None)
    | Result (Some v) => (Result (Some v), Some (negb (v =? 0)))
    | Result None => (Result None, None)
    end.

(** * Names *)

(** hashByte, hash, hashNoAmpersand, StringViewHelpers.h 48-90, in uint64_t. *)
Definition fnvBasis : Z := 2166136261.
Definition fnvPrime : Z := 16777619.
Definition hashByte (b h : Z) : Z := Z.modulo (Z.lxor h b * fnvPrime) (2 ^ 64).
Fixpoint hash (t : text) (h : Z) : Z :=
  match t with
  | [] => h
  | c :: r => hash r (hashByte c h)
  end.
Fixpoint hashNoAmpersand (t : text) (h : Z) : Z :=
  match t with
  | [] => h
  | c :: r => if c =? 38 then hashNoAmpersand r h else hashNoAmpersand r (hashByte c h)
  end.

(** The loop of the constructor, Opcode.cpp 27-47.  [rest] is the name from nextCharIndex on;
    each round reads letters up to the next digit, then the run of digits.  A run that does
    not fit uint32_t is dropped; the others are pushed into a vector of uint16_t.
    [fuel] bounds the number of rounds by the length of the name. *)
Fixpoint scan_name (fuel : nat) (rest : text) (h : Z) (params : list Z) : Z * list Z :=
  let '(letters, r) := span (fun c => negb (isDigit c)) rest in
  let h := hashNoAmpersand letters h in
  match r with
  | [] => (h, params)
  | _ =>
      let '(num, rest) := span isDigit r in
      let '(h, params) :=
        match simpleAtoi 0 (2 ^ 32 - 1) num with
        | Some v => (hash (str "&") h, params ++ [Z.modulo v 65536])
        | None => (h, params)
        end in
      match fuel with
      | O => (h, params)
      | S fuel => scan_name fuel rest h params
      end
  end.

Inductive category := Normal | OnCcN | CurveCcN | StepCcN | SmoothCcN.

(** extractBackInteger, Opcode.cpp 50-56. *)
Definition extractBackInteger (t : text) : text := rev (fst (span isDigit (rev t))).
Definition dropBackInteger (t : text) : text := rev (snd (span isDigit (rev t))).
Definition ends_with (p t : text) : bool := starts_with (rev p) (rev t).
(** identifyCategory, Opcode.cpp 126-144. *)
Definition identifyCategory (name : text) : category :=
  match rev name with
  | c :: _ =>
      if isDigit c then
        let part := dropBackInteger name in
        if ends_with (str "_oncc") part || ends_with (str "_cc") part then OnCcN
        else if ends_with (str "_curvecc") part then CurveCcN
        else if ends_with (str "_stepcc") part then StepCcN
        else if ends_with (str "_smoothcc") part then SmoothCcN
        else Normal
      else Normal
  | [] => Normal
  end.

(** Opcode, Opcode.h 67-75, and its constructor, Opcode.cpp 22-48.  The category is computed
    from the text before trimming. *)
Record opcode := Opcode {
  o_name : text;
  o_value : text;
  o_hash : Z;
  o_params : list Z;
  o_cat : category }.
Definition mkOpcode (inputOpcode inputValue : text) : opcode :=
  let name := trim inputOpcode in
  let '(h, ps) := scan_name (List.length name) name fnvBasis [] in
  Opcode name (trim inputValue) h ps (identifyCategory inputOpcode).

(** getLetterOnlyName, Opcode.cpp 58-78. *)
Fixpoint letter_only (wasDigit : bool) (t : text) : text :=
  match t with
  | [] => []
  | c :: r =>
      if negb (isDigit c) then c :: letter_only false r
      else if negb wasDigit then 38 :: letter_only true r
      else letter_only true r
  end.
Definition getLetterOnlyName (o : opcode) : text := letter_only false (o_name o).

(** The position of the last '_' is found from the back; [resize] keeps what is before it.
    Where there is none, the code asserts; [resize(npos)] then throws. *)
Definition cut_last_underscore (t : text) : option text :=
  match snd (span (fun c => negb (c =? 95)) (rev t)) with
  | [] => None
  | _ :: r => Some (rev r)
  end.
(** std::to_string of an unsigned number. *)
Fixpoint digits_of (fuel : nat) (n : Z) (acc : text) : text :=
  let acc := (48 + Z.modulo n 10) :: acc in
  match fuel with
  | O => acc
  | S fuel => if n <? 10 then acc else digits_of fuel (Z.div n 10) acc
  end.
Definition to_string (n : Z) : text := digits_of 10 n [].
Definition cat_suffix (c : category) : text :=
  match c with
  | Normal => []
  | OnCcN => str "_oncc"
  | CurveCcN => str "_curvecc"
  | StepCcN => str "_stepcc"
  | SmoothCcN => str "_smoothcc"
  end.
(** getDerivedName, Opcode.cpp 80-124.  [number] is ~0u (here None) or a CC number. *)
Definition getDerivedName (o : opcode) (newCategory : category) (number : option Z) : option text :=
  base <- match o_cat o with
          | Normal => Some (o_name o)
          | _ => cut_last_underscore (o_name o)
          end ;;
  let ccNumberSuffix :=
    match number with Some n => to_string n | None => extractBackInteger (o_name o) end in
  Some match newCategory with
       | Normal => base
       | _ => base ++ cat_suffix newCategory ++ ccNumberSuffix
       end.

(** * Aliases *)

(** The patterns of OpcodeCleanup.re, which all end with END.  Captures are the bracketed
    groups, in order.  [PNum] is (number), [PONum] is (number)?, [PAny] is (any) at the end,
    [POAny] is ("_" any)? at the end and [PAlt] a group of words; [PLit] is not captured.
    [PWordNum] is a group such as (eqV1), a word followed by a number, captured whole.
    Two alternatives of a group are never prefixes of each other and a number is never followed by a digit,
    so that the greedy match is the only one. *)
Inductive pat :=
| PLit (s : text)
| PAlt (l : list text)
| PNum
| PONum
| PWordNum (w : text)
| PAny
| POAny.

Fixpoint alt (l : list text) (t : text) : option (text * text) :=
  match l with
  | [] => None
  | w :: r => if starts_with w t then Some (w, skipn (List.length w) t) else alt r t
  end.
Fixpoint pmatch (p : list pat) (t : text) : option (list text) :=
  match p with
  | [] => match t with [] => Some [] | _ => None end
  | PLit s :: p' => if starts_with s t then pmatch p' (skipn (List.length s) t) else None
  | PAlt l :: p' =>
      '(w, r) <- alt l t ;; g <- pmatch p' r ;; Some (w :: g)
  | PNum :: p' =>
      match span isDigit t with
      | ([], _) => None
      | (n, r) => g <- pmatch p' r ;; Some (n :: g)
      end
  | PONum :: p' =>
      let '(n, r) := span isDigit t in g <- pmatch p' r ;; Some (n :: g)
  | PWordNum w :: p' =>
      if starts_with w t then
        match span isDigit (skipn (List.length w) t) with
        | ([], _) => None
        | (n, r) => g <- pmatch p' r ;; Some ((w ++ n) :: g)
        end
      else None
  | PAny :: p' => match p' with [] => Some [t] | _ => None end
  | POAny :: p' =>
      match p' with
      | [] => match t with
              | [] => Some [[]]
              | c :: _ => if c =? 95 then Some [t] else None
              end
      | _ => None
      end
  end.

(** The new name: literal pieces and group numbers (counted from 0 here). *)
Inductive piece := L (s : text) | G (n : nat).
Definition build (g : list text) (l : list piece) : text :=
  List.concat (map (fun p => match p with L s => s | G n => nth n g [] end) l).

(** A rule; [r_again] says that it goes to again_region and not to end_region. *)
Record rule := Rule { r_pat : list pat; r_out : list piece; r_again : bool }.
Definition lfoV1 : pat := PAlt (map str ["amplfo"; "fillfo"; "pitchlfo"]%string).
Definition egV1 : pat := PAlt (map str ["ampeg"; "fileg"; "pitcheg"]%string).
Definition eqV1 : pat := PWordNum (str "eq").
Definition lfoV2 : pat := PWordNum (str "lfo").
Definition egV2 : pat := PWordNum (str "eg").
Definition words (l : list string) : pat := PAlt (map str l).
Definition lit (s : string) : pat := PLit (str s).
Definition out (s : string) : piece := L (str s).

(** OpcodeCleanup.re 91-208, in the order of the source, which decides between rules that match alike. *)
Definition region_rules : list rule := [
  Rule [lfoV1; lit "_"; words ["depth"; "freq"; "fade"]; lit "cc"; PNum]
    [G 0; out "_"; G 1; out "_oncc"; G 2] false;
  Rule [egV1; lit "_"; words ["delay"; "start"; "attack"; "hold"; "decay"; "sustain"; "release"]; lit "cc"; PNum]
    [G 0; out "_"; G 1; out "_oncc"; G 2] false;
  Rule [egV1; lit "_vel2"; PAny] [G 0; out "_velto"; G 1] false;
  Rule [eqV1; lit "_"; words ["bw"; "freq"; "gain"]; lit "cc"; PNum]
    [G 0; out "_"; G 1; out "_oncc"; G 2] false;
  Rule [eqV1; lit "_vel2"; PAny] [G 0; out "_velto"; G 1] false;
  Rule [lfoV2; lit "_"; words ["wave"; "offset"; "ratio"; "scale"]] [G 0; out "_"; G 1; out "1"] false;
  Rule [lfoV2; lit "_"; words ["cutoff"; "resonance"]; POAny] [G 0; out "_"; G 1; out "1"; G 2] false;
  Rule [egV2; lit "_"; words ["cutoff"; "resonance"]; POAny] [G 0; out "_"; G 1; out "1"; G 2] false;
  Rule [lit "loop"; words ["mode"; "start"; "end"]] [out "loop_"; G 0] false;
  Rule [lit "off"; words ["by"; "mode"]] [out "off_"; G 0] false;
  Rule [lit "bend"; words ["up"; "down"; "step"]] [out "bend_"; G 0] false;
  Rule [lit "filtype"] [out "fil1_type"] false;
  Rule [lit "fil"; PNum; lit "type"] [out "fil"; G 0; out "_type"] false;
  Rule [lit "polyphony_group"] [out "group"] false;
  Rule [lit "gain_random"] [out "amp_random"] false;
  Rule [lit "gain"; POAny] [out "volume"; G 0] false;
  Rule [lit "tune"; POAny] [out "pitch"; G 0] false;
  Rule [lit "on_"; words ["hi"; "lo"]; lit "cc"; PNum] [out "start_"; G 0; out "cc"; G 1] false;
  Rule [lit "on_"; words ["hi"; "lo"]; lit "hdcc"; PNum] [out "start_"; G 0; out "hdcc"; G 1] false;
  Rule [lit "cutoff"; PONum; lit "_random"] [out "fil"; G 0; out "_random"] true;
  Rule [lit "fil_"; PAny] [out "fil1_"; G 0] false;
  Rule [lit "cutoff"; POAny] [out "cutoff1"; G 0] false;
  Rule [lit "resonance"; POAny] [out "resonance1"; G 0] false;
  Rule [words ["hi"; "lo"]; lit "realcc"; PNum] [G 0; out "hdcc"; G 1] false;
  Rule [lit "loop_startcc"; PNum] [out "loop_start_oncc"; G 0] false;
  Rule [lit "loop_lengthcc"; PNum] [out "loop_end_oncc"; G 0] false;
  Rule [lit "loop_length_oncc"; PNum] [out "loop_end_oncc"; G 0] false ].
(** 229-232. *)
Definition control_rules : list rule := [
  Rule [lit "set_realcc"; PNum] [out "set_hdcc"; G 0] false ].

(** The patterns are matched against [opcode.c_str()], so END is the first NUL byte. *)
Definition c_str (t : text) : text := fst (span (fun c => negb (c =? 0)) t).
Fixpoint first_rule (l : list rule) (t : text) : option (text * bool) :=
  match l with
  | [] => None
  | r :: l' =>
      match pmatch (r_pat r) (c_str t) with
      | Some g => Some (build g (r_out r), r_again r)
      | None => first_rule l' t
      end
  end.
(** The block 78-217; [None] when the fuel does not suffice. *)
Fixpoint region_block (fuel : nat) (t : text) : option text :=
  match first_rule region_rules t with
  | None => Some t
  | Some (t', false) => Some t'
  | Some (t', true) =>
      match fuel with
      | O => None
      | S fuel => region_block fuel t'
      end
  end.
(** The block 54-74: (any) "_cc" (number) END. *)
Definition oncc_block (t : text) : text :=
  let c := c_str t in
  match extractBackInteger c with
  | [] => t
  | n => if ends_with (str "_cc") (dropBackInteger c)
         then firstn (List.length (dropBackInteger c) - 3) c ++ str "_oncc" ++ n
         else t
  end.

Inductive scope := ScopeRegion | ScopeControl | ScopeOther.
(** cleanUpOpcodeName, OpcodeCleanup.re 17-251. *)
Definition cleanUpOpcodeName (fuel : nat) (raw : text) (sc : scope) : option text :=
  let t := map toLower raw in
  match sc with
  | ScopeRegion => region_block fuel (oncc_block t)
  | ScopeControl =>
      Some match first_rule control_rules t with Some (t', _) => t' | None => t end
  | ScopeOther => Some t
  end.
(** Opcode::cleanUp, OpcodeCleanup.re 253-256. *)
Definition cleanUp (fuel : nat) (o : opcode) (sc : scope) : option opcode :=
  n <- cleanUpOpcodeName fuel (o_name o) sc ;;
  Some (mkOpcode n (o_value o)).
