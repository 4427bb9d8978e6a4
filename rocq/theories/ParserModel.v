(** SFZ parser: src/sfizz/parser/Parser.cpp, ParserPrivate.cpp and .hpp.
    Characters are numbers in [0,256).  [None] stands for undefined behaviour (a read outside
    [_lineNumColumns]) and, where a function takes fuel, for running out of it. *)
From Coq Require Import ZArith List Bool Ascii String.
Import ListNotations.
Local Open Scope Z_scope.
Local Open Scope list_scope.

Definition text := list Z.
(** Literals of the source. *)
Fixpoint str (s : string) : text :=
  match s with
  | EmptyString => []
  | String c r => Z.of_nat (nat_of_ascii c) :: str r
  end.
Definition nl : Z := 10.
Definition cr : Z := 13.

Definition bind {A B} (o : option A) (f : A -> option B) : option B :=
  match o with Some a => f a | None => None end.
Notation "x <- a ;; b" := (bind a (fun x => b)) (at level 100, a at next level, right associativity).
Notation "' x <- a ;; b" := (bind a (fun x => b))
  (at level 100, x pattern, a at next level, right associativity).

Fixpoint text_eqb (a b : text) : bool :=
  match a, b with
  | [], [] => true
  | x :: a', y :: b' => (x =? y) && text_eqb a' b'
  | _, _ => false
  end.

(** isIdentifierChar 560-565, isSpaceChar 567-570, isIdentifier 572-583. *)
Definition isIdentifierChar (c : Z) : bool :=
  (c =? 95) || ((97 <=? c) && (c <=? 122)) || ((65 <=? c) && (c <=? 90)) || ((48 <=? c) && (c <=? 57)).
Definition isSpaceChar (c : Z) : bool := (c =? 32) || (c =? 9).
Definition isIdentifier (s : text) : bool :=
  match s with [] => false | _ => forallb isIdentifierChar s end.

(** * Reader *)

(** SourceLocation, Parser.h 118-123. *)
Record loc := Loc { lc_file : text; lc_line : Z; lc_col : Z }.
(** Reader: [r_view] tells a StringViewReader from a FileReader; [r_stream] is what
    getNextStreamByte has yet to deliver; [r_accum] is _accum from its back; [r_cols] is
    _lineNumColumns from its back. *)
Record reader := Reader {
  r_view : bool;
  r_stream : text;
  r_accum : text;
  r_loc : loc;
  r_cols : list Z }.
Definition new_reader (view : bool) (path : text) (t : text) : reader :=
  Reader view t [] (Loc path 0 0) [].

(** getNextStreamByte, ParserPrivate.cpp 137-140 and 147-153.  The view reader returns a [char], so byte 255
    is -1, which is the end-of-file mark.  (Other bytes above 127 are negative there, which
    nothing observes: every use compares with an ASCII character or casts to unsigned char.) *)
Definition getNextStreamByte (r : reader) : option Z * text :=
  match r_stream r with
  | [] => (None, [])
  | b :: t => if r_view r && (b =? 255) then (None, t) else (Some b, t)
  end.

(** updateSourceLocationAdding, 103-112. *)
Definition loc_add (b : Z) (l : loc) (cols : list Z) : loc * list Z :=
  if b =? nl then (Loc (lc_file l) (lc_line l + 1) 0, lc_col l :: cols)
  else (Loc (lc_file l) (lc_line l) (lc_col l + 1), cols).
(** updateSourceLocationRemoving, 114-123: size_t subtractions wrap. *)
Definition u64 (x : Z) : Z := x mod 2 ^ 64.
Definition loc_remove (b : Z) (l : loc) (cols : list Z) : option (loc * list Z) :=
  if b =? nl then
    let line := u64 (lc_line l - 1) in
    let n := Z.of_nat (List.length cols) in
    if line <? n
    then Some (Loc (lc_file l) line (nth (Z.to_nat (n - 1 - line)) cols 0), tl cols)
    else None
  else Some (Loc (lc_file l) (lc_line l) (u64 (lc_col l - 1)), cols).

(** getChar, 18-33. *)
Definition getChar (r : reader) : option Z * reader :=
  let '(b, st, ac) :=
    match r_accum r with
    | [] => let '(b, st) := getNextStreamByte r in (b, st, [])
    | b :: a => (Some b, r_stream r, a)
    end in
  match b with
  | None => (None, Reader (r_view r) st ac (r_loc r) (r_cols r))
  | Some c => let '(l, cols) := loc_add c (r_loc r) (r_cols r) in
              (Some c, Reader (r_view r) st ac l cols)
  end.
(** putBackChars, 69-75. *)
Fixpoint locs_remove (cs : text) (l : loc) (cols : list Z) : option (loc * list Z) :=
  match cs with
  | [] => Some (l, cols)
  | c :: cs' => '(l', cols') <- locs_remove cs' l cols ;; loc_remove c l' cols'
  end.
Definition putBackChars (cs : text) (r : reader) : option reader :=
  '(l, cols) <- locs_remove cs (r_loc r) (r_cols r) ;;
  Some (Reader (r_view r) (r_stream r) (cs ++ r_accum r) l cols).
(** putBackChar, 60-67. *)
Definition putBackChar (c : option Z) (r : reader) : option reader :=
  match c with None => Some r | Some c => putBackChars [c] r end.
(** peekChar, 35-47. *)
Definition peekChar (r : reader) : option (option Z * reader) :=
  match r_accum r with
  | [] => let '(b, r1) := getChar r in r2 <- putBackChar b r1 ;; Some (b, r2)
  | b :: _ => Some (Some b, r)
  end.
Definition rem (r : reader) : nat := (List.length (r_accum r) + List.length (r_stream r))%nat.
Definition is_char (b : option Z) (c : Z) : bool :=
  match b with Some x => x =? c | None => false end.
(** extractExactChar, 49-58. *)
Definition extractExactChar (c : Z) (r : reader) : option (bool * reader) :=
  '(b, r1) <- peekChar r ;;
  if is_char b c then Some (true, snd (getChar r1)) else Some (false, r1).
(** extractWhile, ParserPrivate.hpp 11-30. *)
Fixpoint extract_loop (fuel : nat) (pred : Z -> bool) (r : reader) : option (text * reader) :=
  match fuel with
  | O => None
  | S fuel' =>
    let '(b, r1) := getChar r in
    match b with
    | None => Some ([], r1)
    | Some c =>
      if pred c then '(t, r2) <- extract_loop fuel' pred r1 ;; Some (c :: t, r2)
      else r2 <- putBackChar (Some c) r1 ;; Some ([], r2)
    end
  end.
Definition extractWhile (pred : Z -> bool) (r : reader) : option (text * reader) :=
  extract_loop (S (rem r)) pred r.
(** skipChars, ParserPrivate.cpp 77-87; at the end of file the character looked up is 255,
    which is in none of the sets used. *)
Definition one_of (cs : text) (c : Z) : bool := existsb (Z.eqb c) cs.
Fixpoint skip_loop (fuel : nat) (cs : text) (r : reader) : option (nat * reader) :=
  match fuel with
  | O => None
  | S fuel' =>
    '(b, r1) <- peekChar r ;;
    match b with
    | Some c => if one_of cs c
                then '(n, r2) <- skip_loop fuel' cs (snd (getChar r1)) ;; Some (S n, r2)
                else Some (O, r1)
    | None => Some (O, r1)
    end
  end.
Definition skipChars (cs : text) (r : reader) : option (nat * reader) := skip_loop (S (rem r)) cs r.
(** extractToEol, Parser.cpp 490-502. *)
Fixpoint eol_loop (fuel : nat) (r : reader) : option (text * reader) :=
  match fuel with
  | O => None
  | S fuel' =>
    let '(b, r1) := getChar r in
    match b with
    | None => Some ([], r1)
    | Some c =>
      '(more, r2) <-
        (if (c =? cr) || (c =? nl) then Some (false, r1)
         else if c =? 47 then
           '(b2, r2) <- peekChar r1 ;; Some (negb (is_char b2 47 || is_char b2 42), r2)
         else Some (true, r1)) ;;
      if (more : bool) then '(t, r3) <- eol_loop fuel' r2 ;; Some (c :: t, r3)
      else r3 <- putBackChar (Some c) r2 ;; Some ([], r3)
    end
  end.
Definition extractToEol (r : reader) : option (text * reader) := eol_loop (S (rem r)) r.

(** * Variables *)
Definition defs := list (text * text).
Fixpoint find_def (d : defs) (name : text) : option text :=
  match d with
  | [] => None
  | (n, v) :: r => if text_eqb n name then Some v else find_def r name
  end.
(** addDefinition, 108-111 (a later definition hides an earlier one). *)
Definition addDefinition (name v : text) (d : defs) : defs := (name, v) :: d.

(** 529-533: the characters after [$] up to the first defined name. *)
Fixpoint scan_name (d : defs) (name rest : text) : text * option text * text :=
  match rest with
  | c :: r =>
    if isIdentifierChar c then
      match find_def d (name ++ [c]) with
      | Some v => (name ++ [c], Some v, r)
      | None => scan_name d (name ++ [c]) r
      end
    else (name, None, rest)
  | [] => (name, None, [])
  end.
(** One round, 515-547: the text, the number of expansions, the number of warnings. *)
Fixpoint expand_round (fuel : nat) (d : defs) (src : text) : text * nat * nat :=
  match fuel with
  | O => ([], O, O)
  | S fuel' =>
    match src with
    | [] => ([], O, O)
    | c :: r =>
      if c =? 36 then
        let '(_, v, r') := scan_name d [] r in
        let '(t, n, w) := expand_round fuel' d r' in
        match v with
        | Some v => (v ++ t, S n, w)
        | None => (t, S n, S w)
        end
      else let '(t, n, w) := expand_round fuel' d r in (c :: t, n, w)
    end
  end.
(** expandDollarVars, 504-558; [fuel] bounds the number of rounds.  Gives the number of
    warnings. *)
Fixpoint expandDollarVars (fuel : nat) (d : defs) (src : text) : option (text * nat) :=
  match fuel with
  | O => None
  | S fuel' =>
    let '(t, n, w) := expand_round (S (List.length src)) d src in
    match n with
    | O => Some (t, w)
    | _ => '(t', w') <- expandDollarVars fuel' d t ;; Some (t', (w + w')%nat)
    end
  end.

(** * Parser *)
Definition range : Type := loc * loc.
Inductive perror :=
| EDepth | ECannotOpen | EHash | EDefine | EInclude | EDirective (name : text) | EOpen | EClose
| EHeaderName (name : text) | EOpcodeName | EEquals | EOpcodeIdent (name : text) | EComment.
(** What the listener is told. *)
Inductive pevent :=
| PHeader (r : range) (name : text)
| POpcode (rn rv : range) (name value : text)
| PError (r : range) (e : perror)
| PWarning (r : range)
| PBlock (header : text) (ops : list (text * text)).

Record parser := Parser {
  p_files : list reader;         (* _included, the last first *)
  p_paths : list text;           (* _pathsIncluded *)
  p_dir : text;                  (* _originalDirectory *)
  p_defs : defs;
  p_header : option text;
  p_ops : list (text * text);
  p_out : list pevent }.
(** The file system and settings: reading a file, the full path of a path in a directory
    (70-71), the directory of a path, _maxIncludeDepth, _recursiveIncludeGuardEnabled, and a bound
    on the rounds of variable expansion. *)
Record world := World {
  w_read : text -> option text;
  w_full : text -> text -> text;
  w_parent : text -> text;
  w_depth : nat;
  w_guard : bool;
  w_rounds : nat }.

Definition emit (e : pevent) (p : parser) : parser :=
  Parser (p_files p) (p_paths p) (p_dir p) (p_defs p) (p_header p) (p_ops p) (p_out p ++ [e]).
Definition set_files (p : parser) (f : list reader) : parser :=
  Parser f (p_paths p) (p_dir p) (p_defs p) (p_header p) (p_ops p) (p_out p).
(** The reader on top is the one being read. *)
Definition set_top (p : parser) (r : reader) : parser := set_files p (r :: tl (p_files p)).
Definition set_defs (p : parser) (d : defs) : parser :=
  Parser (p_files p) (p_paths p) (p_dir p) d (p_header p) (p_ops p) (p_out p).
Definition set_block (p : parser) (h : option text) (o : list (text * text)) : parser :=
  Parser (p_files p) (p_paths p) (p_dir p) (p_defs p) h o (p_out p).
Definition warnings (n : nat) (r : range) (p : parser) : parser :=
  Nat.iter n (emit (PWarning r)) p.

(** includeNewFile, 68-106; [given] is a reader made by the caller. *)
Definition includeNewFile (W : world) (path : text) (given : option reader) (stmt : option range)
  (p : parser) : parser :=
  let full := w_full W (p_dir p) path in
  let first := match p_paths p with [] => true | _ => false end in
  let p1 := Parser (p_files p) (p_paths p) (if first then w_parent W full else p_dir p)
              (p_defs p) (p_header p) (p_ops p) (p_out p) in
  if negb first && existsb (text_eqb full) (p_paths p) && w_guard W then p
  else
    let rg := match stmt with Some r => r | None => (Loc full 0 0, Loc full 0 0) end in
    if Nat.eqb (List.length (p_files p)) (w_depth W) then emit (PError rg EDepth) p1
    else
      match (match given with
             | Some r => Some r
             | None => option_map (new_reader false full) (w_read W full)
             end) with
      | None => emit (PError rg ECannotOpen) p1
      | Some r => Parser (r :: p_files p) (full :: p_paths p) (p_dir p1) (p_defs p)
                    (p_header p) (p_ops p) (p_out p)
      end.

(** recover, 393-399. *)
Definition recover (r : reader) : option reader :=
  '(_, r1) <- extractWhile (fun c => negb (c =? nl)) r ;; Some r1.
Definition fail (p : parser) (r : reader) (rg : range) (e : perror) : option parser :=
  r1 <- recover r ;; Some (set_top (emit (PError rg e) p) r1).

(** flushCurrentHeader, 401-410. *)
Definition flushCurrentHeader (p : parser) : parser :=
  match p_header p with
  | Some h => set_block (emit (PBlock h (p_ops p)) p) None []
  | None => set_block p None []
  end.

(** getCommentType, 412-432: 0 none, 1 line, 2 block. *)
Definition getCommentType (r : reader) : option (Z * reader) :=
  '(b, r1) <- peekChar r ;;
  if negb (is_char b 47) then Some (0, r1)
  else
    let r2 := snd (getChar r1) in
    '(b2, r3) <- peekChar r2 ;;
    let ty := if is_char b2 47 then 1 else if is_char b2 42 then 2 else 0 in
    r4 <- putBackChar (Some 47) r3 ;; Some (ty, r4).
(** 451-457. *)
Fixpoint line_comment (fuel : nat) (r : reader) : option reader :=
  match fuel with
  | O => None
  | S fuel' =>
    let '(b, r1) := getChar r in
    match b with
    | None => Some r1
    | Some c => if (c =? cr) || (c =? nl) then Some r1 else line_comment fuel' r1
    end
  end.
(** 458-470: [c2] is the last character read; tells whether the comment was terminated. *)
Fixpoint block_comment (fuel : nat) (c2 : option Z) (r : reader) : option (bool * reader) :=
  match fuel with
  | O => None
  | S fuel' =>
    match c2 with
    | None => Some (false, r)
    | Some c1 =>
      let '(b, r1) := getChar r in
      if (c1 =? 42) && is_char b 47 then Some (true, r1) else block_comment fuel' b r1
    end
  end.
(** skipComment, 434-482; the boolean tells that the count is not zero. *)
Definition skipComment (p : parser) (r : reader) : option (bool * parser * reader) :=
  '(ty, r0) <- getCommentType r ;;
  if ty =? 0 then Some (false, p, r0)
  else
    let start := r_loc r0 in
    let r2 := snd (getChar (snd (getChar r0))) in
    if ty =? 1 then r3 <- line_comment (S (rem r2)) r2 ;; Some (true, p, r3)
    else
      let '(b, r3) := getChar r2 in
      '(terminated, r4) <- block_comment (S (S (rem r3))) b r3 ;;
      if (terminated : bool) then Some (true, p, r4)
      else Some (true, emit (PError (start, r_loc r4) EComment) p, r4).
(** 118. *)
Fixpoint skip_blank (fuel : nat) (p : parser) (r : reader) : option (parser * reader) :=
  match fuel with
  | O => None
  | S fuel' =>
    '(n, r1) <- skipChars [32; 9; cr; nl] r ;;
    match n with
    | S _ => skip_blank fuel' p r1
    | O => '(more, p2, r2) <- skipComment p r1 ;;
           if (more : bool) then skip_blank fuel' p2 r2 else Some (p2, r2)
    end
  end.

(** 168-175: the value of a definition ends at the first blank. *)
Fixpoint cut_blank (v : text) : text * text :=
  match v with
  | [] => ([], [])
  | c :: r => if isSpaceChar c then ([], v) else let '(a, b) := cut_blank r in (c :: a, b)
  end.
Definition to_slash (c : Z) : Z := if c =? 92 then 47 else c.

(** processDirective, 137-216, the reader being at [#]. *)
Definition processDirective (W : world) (p : parser) (r : reader) : option parser :=
  let start := r_loc r in
  let '(b, r0) := getChar r in
  if negb (is_char b 35) then fail p r0 (start, r_loc r0) EHash
  else
    '(dir, r1) <- extractWhile isIdentifierChar r0 ;;
    if text_eqb dir (str "define") then
      '(_, r2) <- skipChars [32; 9] r1 ;;
      '(dollar, r3) <- extractExactChar 36 r2 ;;
      '(id, r4) <- (if (dollar : bool) then extractWhile isIdentifierChar r3 else Some ([], r3)) ;;
      match id with
      | [] => fail p r4 (start, r_loc r4) EDefine
      | _ =>
        '(_, r5) <- skipChars [32; 9] r4 ;;
        '(v, r6) <- extractToEol r5 ;;
        let '(v1, excess) := cut_blank v in
        r7 <- putBackChars excess r6 ;;
        Some (set_top (set_defs p (addDefinition id v1 (p_defs p))) r7)
      end
    else if text_eqb dir (str "include") then
      '(_, r2) <- skipChars [32; 9] r1 ;;
      '(quote, r3) <- extractExactChar 34 r2 ;;
      let vstart := r_loc r3 in
      '(path, r4) <- (if (quote : bool)
                      then extractWhile (fun c => negb (c =? 34) && negb (c =? cr) && negb (c =? nl)) r3
                      else Some ([], r3)) ;;
      let vend := r_loc r4 in
      '(valid, r5) <- (if (quote : bool) then extractExactChar 34 r4 else Some (false, r4)) ;;
      let stop := r_loc r5 in
      if negb valid then fail p r5 (start, stop) EInclude
      else
        '(path1, w) <- expandDollarVars (w_rounds W) (p_defs p) path ;;
        let p1 := warnings w (vstart, vend) p in
        Some (includeNewFile W (map to_slash path1) None (Some (start, stop)) (set_top p1 r5))
    else fail p r1 (start, r_loc r1) (EDirective dir).

(** processHeader, 218-255. *)
Definition processHeader (p : parser) (r : reader) : option parser :=
  let start := r_loc r in
  let '(b, r0) := getChar r in
  if negb (is_char b 60) then fail p r0 (start, r_loc r0) EOpen
  else
    '(name, r1) <- extractWhile (fun c => negb (c =? cr) && negb (c =? nl) && negb (c =? 62)) r0 ;;
    '(b1, r2) <- peekChar r1 ;;
    if negb (is_char b1 62) then fail p r2 (start, r_loc r2) EClose
    else
      let r3 := snd (getChar r2) in
      if negb (isIdentifier name) then fail p r3 (start, r_loc r3) (EHeaderName name)
      else
        let p1 := flushCurrentHeader p in
        Some (set_top (emit (PHeader (start, r_loc r3) name) (set_block p1 (Some name) [])) r3).

(** 314-359: how much of the line belongs to the value.  [v] is what follows endPosition. *)
Fixpoint span (f : Z -> bool) (l : text) : text * text :=
  match l with
  | [] => ([], [])
  | c :: r => if f c then let '(a, b) := span f r in (c :: a, b) else ([], l)
  end.
Fixpoint value_split (fuel : nat) (v : text) : text * text :=
  match fuel with
  | O => ([], v)
  | S fuel' =>
    match v with
    | [] => ([], [])
    | c :: t =>
      let continue (taken rest : text) :=
        let '(a, b) := value_split fuel' rest in (taken ++ a, b) in
      if c =? 60 then ([], v)
      else if isSpaceChar c then
        let '(sp, t2) := span isSpaceChar t in
        match t2 with
        | [] => ([], v)
        | c2 :: t3 =>
          if c2 =? 60 then ([], v)
          else if c2 =? 35 then
            let dir := fst (span isIdentifierChar t3) in
            if text_eqb dir (str "define") || text_eqb dir (str "include") then ([], v)
            else continue (c :: sp) t2
          else if isIdentifierChar c2 then
            let '(w, t4) := span (fun c => isIdentifierChar c || (c =? 36)) t3 in
            match t4 with
            | c4 :: _ => if c4 =? 61 then ([], v) else continue (c :: sp ++ c2 :: w) t4
            | [] => continue (c :: sp ++ c2 :: w) t4
            end
          else continue (c :: sp) t2
        end
      else continue [c] t
    end
  end.

(** processOpcode, 257-377. *)
Definition processOpcode (W : world) (p : parser) (r : reader) : option parser :=
  let ostart := r_loc r in
  '(raw, r1) <- extractWhile (fun c => isIdentifierChar c || (c =? 36)) r ;;
  let oend := r_loc r1 in
  match raw with
  | [] => fail p r1 (ostart, oend) EOpcodeName
  | _ =>
    '(b, r2) <- peekChar r1 ;;
    if negb (is_char b 61) then fail p r2 (ostart, oend) EEquals
    else
      '(name, w) <- expandDollarVars (w_rounds W) (p_defs p) raw ;;
      let p1 := warnings w (ostart, oend) p in
      if negb (isIdentifier name) then fail p1 r2 (ostart, oend) (EOpcodeIdent name)
      else
        let r3 := snd (getChar r2) in
        let vstart := r_loc r3 in
        if text_eqb name (str "base64data") then
          '(v, r4) <- extractWhile (fun c => negb ((c =? 60) || (c =? 35))) r3 ;;
          Some (set_top (emit (POpcode (ostart, oend) (vstart, r_loc r4) name v)
                           (set_block p1 (p_header p1) (p_ops p1 ++ [(name, v)]))) r4)
        else
          '(line, r4) <- extractToEol r3 ;;
          let '(v, excess) := value_split (S (List.length line)) line in
          r5 <- putBackChars excess r4 ;;
          let vend := r_loc r5 in
          let p2 := match p_header p1 with
                    | None => emit (PWarning (ostart, vend)) p1
                    | Some _ => p1
                    end in
          '(v1, w1) <- expandDollarVars (w_rounds W) (p_defs p) v ;;
          let p3 := warnings w1 (vstart, vend) p2 in
          Some (set_top (emit (POpcode (ostart, oend) (vstart, vend) name v1)
                           (set_block p3 (p_header p3) (p_ops p3 ++ [(name, v1)]))) r5)
  end.

(** One turn of processTopLevel, 115-134. *)
Definition step (W : world) (p : parser) : option parser :=
  match p_files p with
  | [] => Some p
  | r :: below =>
    '(p1, r1) <- skip_blank (S (S (rem r))) p r ;;
    '(b, r2) <- peekChar r1 ;;
    match b with
    | None => Some (set_files p1 below)
    | Some c =>
      if c =? 35 then processDirective W (set_top p1 r2) r2
      else if c =? 60 then processHeader (set_top p1 r2) r2
      else processOpcode W (set_top p1 r2) r2
    end
  end.
Fixpoint processTopLevel (fuel : nat) (W : world) (p : parser) : option parser :=
  match p_files p with
  | [] => Some p
  | _ => match fuel with
         | O => None
         | S fuel' => p1 <- step W p ;; processTopLevel fuel' W p1
         end
  end.

(** parseVirtualFile, 53-66, on a parser whose _included is empty; [ext] are the external
    definitions, [dir] the directory left by earlier uses. *)
Definition start (W : world) (dir : text) (ext : defs) (path : text) (given : option reader) : parser :=
  includeNewFile W path given None (Parser [] [] dir ext None [] []).
Definition parseVirtualFile (fuel : nat) (W : world) (dir : text) (ext : defs) (path : text)
  (given : option reader) : option parser :=
  p <- processTopLevel fuel W (start W dir ext path given) ;; Some (flushCurrentHeader p).
(** parseString, 48-51, and parseFile, 43-46. *)
Definition parseString fuel W dir ext path (t : text) :=
  parseVirtualFile fuel W dir ext path (Some (new_reader true path t)).
Definition parseFile fuel W dir ext path := parseVirtualFile fuel W dir ext path None.
