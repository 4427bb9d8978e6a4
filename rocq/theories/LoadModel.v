(** Transcription of the instrument loading of src/sfizz/Synth.cpp: the callback that receives
    the blocks of an SFZ file, the construction of the regions, the region sets, the key
    offsets, the keyswitch and note activation lists, and the removal of the regions whose
    sample is missing; with the key opcodes of src/sfizz/Region.cpp.

    [None] stands for undefined behaviour: an [int] overflow, an index outside an array, a use
    of a freed layer, or an empty text given to readNoteValue (see C10).
    The opcodes of a region that are not key opcodes are an arbitrary function on an arbitrary
    type, given as section variables that every theorem quantifies over.
    Not modelled: effects, curves, embedded samples, labels, polyphony limits, the file pool
    (which samples exist is an arbitrary function). *)
From Coq Require Import ZArith List Bool String Ascii.
From Verif Require Import ParserModel OpcodeModel.
Import ListNotations.
Local Open Scope Z_scope.

(** Opcode names and headers are recognized by their hash, Region.cpp 55, Synth.cpp 102. *)
Definition is (o : opcode) (s : string) : bool := o_hash o =? hash (str s) fnvBasis.

(** The headers onParseFullBlock distinguishes, Synth.cpp 102-136. *)
Inductive header := HGlobal | HControl | HMaster | HGroup | HRegion | HOther.
Definition header_of (t : text) : header :=
  let h := hash t fnvBasis in
  if h =? hash (str "global") fnvBasis then HGlobal
  else if h =? hash (str "control") fnvBasis then HControl
  else if h =? hash (str "master") fnvBasis then HMaster
  else if h =? hash (str "group") fnvBasis then HGroup
  else if h =? hash (str "region") fnvBasis then HRegion
  else HOther.

(** The key part of Region: Region.h 276, 283-296, 328-329, 353-354 and triggerOnNote 313. *)
Record keys := Keys {
  k_lo : Z; k_hi : Z;
  k_onNote : bool;
  k_center : Z;
  k_centerFromSample : bool;
  k_last : option Z;
  k_lastRange : option (Z * Z);
  k_up : option Z;
  k_down : option Z;
  k_prev : option Z;
  k_usesSw : bool;
  k_usesPrev : bool;
  k_default : option Z;
  k_xin : Z * Z;
  k_xout : Z * Z }.
Definition freshKeys : keys :=
  Keys 0 127 true 60 false None None None None None false false None (0, 0) (127, 127).

(** Default::key, loKey, hiKey, noteOffset, octaveOffset: Defaults.cpp 48-50, 170-171. *)
Definition keySpec (default : Z) : ispec :=
  ISpec default 0 127 0 255 true false false false false.
Definition noteOffsetSpec : ispec :=
  ISpec 0 (-127) 127 int_min int_max false false false true true.
Definition octaveOffsetSpec : ispec :=
  ISpec 0 (-10) 10 int_min int_max false false false true true.

(** Opcode::readOptional, Opcode.h 108. *)
Definition readOpt (s : ispec) (v : text) : option (option Z) :=
  match readInt s v with Undefined => None | Result r => Some r end.
Definition or_default (r : option Z) (d : Z) : Z := match r with Some n => n | None => d end.
Definition has (r : option Z) : bool := match r with Some _ => true | None => false end.

(** The key opcodes of Region::parseOpcode, Region.cpp 212-232, 282-326, 483-494, 798-805,
    860-862.  The second [option] is empty for the other opcodes. *)
Definition parseKey (o : opcode) (k : keys) : option (option keys) :=
  let v := o_value o in
  let '(Keys lo hi on c fs la rg up dn pv us upv df xi xo) := k in
  if is o "lokey" then
    n <- readIntOr (keySpec 0) v ;;
    Some (Some (Keys n hi on c fs la rg up dn pv us upv df xi xo))
  else if is o "hikey" then
    r <- readOpt (keySpec 127) v ;;
    Some (Some (Keys lo (or_default r 127) (has r) c fs la rg up dn pv us upv df xi xo))
  else if is o "key" then
    r <- readOpt (keySpec 60) v ;;
    let n := or_default r 60 in
    Some (Some (Keys n n (has r) n fs la rg up dn pv us upv df xi xo))
  else if is o "sw_last" then
    match rg with
    | None =>
        r <- readOpt (keySpec 60) v ;;
        Some (Some (Keys lo hi on c fs r rg up dn pv (has r) upv df xi xo))
    | Some _ => Some (Some k)
    end
  else if is o "sw_lolast" then
    n <- readIntOr (keySpec 60) v ;;
    let rg' := match rg with None => (n, n) | Some (_, e) => (n, e) end in
    Some (Some (Keys lo hi on c fs None (Some rg') up dn pv true upv df xi xo))
  else if is o "sw_hilast" then
    n <- readIntOr (keySpec 60) v ;;
    let rg' := match rg with None => (n, n) | Some (s, _) => (s, n) end in
    Some (Some (Keys lo hi on c fs None (Some rg') up dn pv true upv df xi xo))
  else if is o "sw_down" then
    r <- readOpt (keySpec 60) v ;;
    Some (Some (Keys lo hi on c fs la rg up r pv (has r) upv df xi xo))
  else if is o "sw_up" then
    r <- readOpt (keySpec 60) v ;;
    Some (Some (Keys lo hi on c fs la rg r dn pv us upv df xi xo))
  else if is o "sw_previous" then
    r <- readOpt (keySpec 60) v ;;
    Some (Some (Keys lo hi on c fs la rg up dn r us (has r) df xi xo))
  else if is o "xfin_lokey" then
    n <- readIntOr (keySpec 0) v ;;
    Some (Some (Keys lo hi on c fs la rg up dn pv us upv df (n, snd xi) xo))
  else if is o "xfin_hikey" then
    n <- readIntOr (keySpec 0) v ;;
    Some (Some (Keys lo hi on c fs la rg up dn pv us upv df (fst xi, n) xo))
  else if is o "xfout_lokey" then
    n <- readIntOr (keySpec 127) v ;;
    Some (Some (Keys lo hi on c fs la rg up dn pv us upv df xi (n, snd xo)))
  else if is o "xfout_hikey" then
    n <- readIntOr (keySpec 127) v ;;
    Some (Some (Keys lo hi on c fs la rg up dn pv us upv df xi (fst xo, n)))
  else if is o "pitch_keycenter" then
    if text_eqb v (str "sample") then
      Some (Some (Keys lo hi on c true la rg up dn pv us upv df xi xo))
    else
      n <- readIntOr (keySpec 60) v ;;
      Some (Some (Keys lo hi on n false la rg up dn pv us upv df xi xo))
  else if is o "sw_default" then
    n <- readIntOr (keySpec 60) v ;;
    Some (Some (Keys lo hi on c fs la rg up dn pv us upv (Some n) xi xo))
  else Some None.

(** An [int] that must not overflow. *)
Definition int_ok (v : Z) : option Z := if in_int v then Some v else None.

(** offsetAndClampKey, SfzHelpers.h 202-211. *)
Definition offsetAndClampKey (key offset : Z) : option Z :=
  n <- int_ok (key + offset) ;;
  if 255 <? n then Some 127
  else if n <? 0 then Some 0
  else Some (Z.max 0 (Z.min n 127)).
Definition offsetOpt (r : option Z) (offset : Z) : option (option Z) :=
  match r with
  | None => Some None
  | Some key => n <- offsetAndClampKey key offset ;; Some (Some n)
  end.
Definition offsetRange (r whole : Z * Z) (offset : Z) : option (Z * Z) :=
  if (fst r =? fst whole) && (snd r =? snd whole) then Some r
  else
    lo <- offsetAndClampKey (fst r) offset ;;
    hi <- offsetAndClampKey (snd r) offset ;;
    Some (lo, hi).

(** Region::offsetAllKeys, Region.cpp 1803-1838. *)
Definition offsetAllKeys (k : keys) (offset : Z) : option keys :=
  let '(Keys lo hi on c fs la rg up dn pv us upv df xi xo) := k in
  r <- offsetRange (lo, hi) (0, 127) offset ;;
  c' <- offsetAndClampKey c offset ;;
  up' <- offsetOpt up offset ;;
  la' <- offsetOpt la offset ;;
  dn' <- offsetOpt dn offset ;;
  pv' <- offsetOpt pv offset ;;
  xi' <- offsetRange xi (0, 0) offset ;;
  xo' <- offsetRange xo (127, 127) offset ;;
  Some (Keys (fst r) (snd r) on c' fs la' rg up' dn' pv' us upv df xi' xo').

(** Synth::Impl::setCurrentSwitch, Synth.cpp 692-695: the sum is converted to uint8_t. *)
Definition switch_of (noteValue octave note : Z) : option Z :=
  a <- int_ok (12 * octave) ;;
  b <- int_ok (noteValue + a) ;;
  c <- int_ok (b + note) ;;
  Some (c mod 256).

(** A region set: its parent and its level (RegionSet.h; OpcodeScope, Opcode.h 44-59). *)
Definition rset : Type := (option nat * Z)%type.
Definition level (h : header) : Z :=
  match h with HGlobal => 1 | HMaster => 3 | HGroup => 4 | _ => 0 end.

(** The loop of newRegionSet, Synth.cpp 94-96. *)
Fixpoint find_parent (fuel : nat) (sets : list rset) (parent : option nat) (lv : Z)
  : option (option nat) :=
  match fuel with
  | O => None
  | S fuel' =>
      match parent with
      | None => Some None
      | Some i =>
          match nth_error sets i with
          | None => None
          | Some (up, l) => if lv <=? l then find_parent fuel' sets up lv else Some (Some i)
          end
      end
  end.

Section Loading.
  Variable X : Type.
  (** The part of a new Region that is not modelled: number and default path, Region.cpp 37. *)
  Variable newRest : nat -> text -> X.
  (** The other opcodes of Region::parseOpcode. *)
  Variable parseRest : opcode -> X -> bool * X.

  (** A layer with its region: the keys, the rest, and its region set. *)
  Record lregion := LRegion { g_keys : keys; g_rest : X; g_set : option nat }.

  (** Region::parseOpcode, Region.cpp 51. *)
  Definition parseOpcode (raw : opcode) (r : keys * X) : option (bool * (keys * X)) :=
    o <- cleanUp 1 raw ScopeRegion ;;
    res <- parseKey o (fst r) ;;
    match res with
    | Some k => Some (true, (k, snd r))
    | None => let '(b, x) := parseRest o (snd r) in Some (b, (fst r, x))
    end.

  (** The members of Synth::Impl that loading uses, SynthPrivate.h.  The three arrays of
      keyswitch lists are the pushes in order: array index and layer number. *)
  Record state := State {
    st_globals : list opcode;
    st_masters : list opcode;
    st_groups : list opcode;
    st_unknown : list text;
    st_sets : list rset;
    st_current : option nat;
    st_path : text;
    st_note : Z;
    st_octave : Z;
    st_switch : option Z;
    st_layers : list lregion;
    st_last : list (Z * nat);
    st_up : list (Z * nat);
    st_down : list (Z * nat);
    st_prev : list nat }.
  (** After Synth::Impl::clear, Synth.cpp 262-312. *)
  Definition cleared : state := State [] [] [] [] [] None [] 0 0 None [] [] [] [] [].

  (** newRegionSet, Synth.cpp 93-100. *)
  Definition newRegionSet (s : state) (lv : Z) : option (list rset) :=
    p <- find_parent (S (List.length (st_sets s))) (st_sets s) (st_current s) lv ;;
    Some (st_sets s ++ [(p, lv)]).

  (** sw_default in handleGlobalOpcodes, handleMasterOpcodes and handleGroupOpcodes, Synth.cpp
      318-395. *)
  Fixpoint handleSwitch (octave note : Z) (members : list opcode) (sw : option Z)
    : option (option Z) :=
    match members with
    | [] => Some sw
    | raw :: rest =>
        o <- cleanUp 1 raw ScopeOther ;;
        if is o "sw_default" then
          n <- readIntOr (keySpec 60) (o_value o) ;;
          c <- switch_of n octave note ;;
          handleSwitch octave note rest (Some c)
        else handleSwitch octave note rest sw
    end.

  (** note_offset, octave_offset and default_path in handleControlOpcodes, Synth.cpp 397-474. *)
  Fixpoint handleControl (members : list opcode) (path : text) (note octave : Z)
    : option (text * Z * Z) :=
    match members with
    | [] => Some (path, note, octave)
    | raw :: rest =>
        o <- cleanUp 1 raw ScopeControl ;;
        if is o "default_path" then
          handleControl rest (map (fun c => if c =? 92 then 47 else c) (trim (o_value o)))
            note octave
        else if is o "note_offset" then
          n <- readIntOr noteOffsetSpec (o_value o) ;; handleControl rest path n octave
        else if is o "octave_offset" then
          n <- readIntOr octaveOffsetSpec (o_value o) ;; handleControl rest path note n
        else handleControl rest path note octave
    end.

  (** parseOpcodes in buildRegion, Synth.cpp 161-171. *)
  Fixpoint parseOpcodes (l : list opcode) (unknown : list text) (r : keys * X)
    : option (list text * (keys * X)) :=
    match l with
    | [] => Some (unknown, r)
    | o :: rest =>
        if existsb (text_eqb (o_name o)) unknown then parseOpcodes rest unknown r
        else
          '(ok, r') <- parseOpcode o r ;;
          parseOpcodes rest (if ok then unknown else unknown ++ [o_name o]) r'
    end.

  (** A push to one of the 128 lists. *)
  Definition push (lists : list (Z * nat)) (key : option Z) (id : nat)
    : option (list (Z * nat)) :=
    match key with
    | None => Some lists
    | Some n => if (0 <=? n) && (n <? 128) then Some (lists ++ [(n, id)]) else None
    end.
  (** The loop over a keyswitch range, Synth.cpp 198-202, with a uint8_t counter. *)
  Definition pushRange (lists : list (Z * nat)) (range : option (Z * Z)) (id : nat)
    : option (list (Z * nat)) :=
    match range with
    | None => Some lists
    | Some (lo, hi) =>
        if hi <? lo then Some lists
        else if (0 <=? lo) && (hi <? 128) then
          Some (lists ++ map (fun i => (lo + Z.of_nat i, id)) (seq 0 (Z.to_nat (hi - lo + 1))))
        else None
    end.

  (** buildRegion, Synth.cpp 152-242. *)
  Definition buildRegion (s : state) (members : list opcode) : option state :=
    let id := List.length (st_layers s) in
    let r0 := (freshKeys, newRest id (st_path s)) in
    '(u1, r1) <- parseOpcodes (st_globals s) (st_unknown s) r0 ;;
    '(u2, r2) <- parseOpcodes (st_masters s) u1 r1 ;;
    '(u3, r3) <- parseOpcodes (st_groups s) u2 r2 ;;
    '(u4, r4) <- parseOpcodes members u3 r3 ;;
    k <- (if (st_octave s =? 0) && (st_note s =? 0) then Some (fst r4)
          else
            a <- int_ok (st_octave s * 12) ;;
            d <- int_ok (a + st_note s) ;;
            offsetAllKeys (fst r4) d) ;;
    last1 <- push (st_last s) (k_last k) id ;;
    last2 <- pushRange last1 (k_lastRange k) id ;;
    up <- push (st_up s) (k_up k) id ;;
    down <- push (st_down s) (k_down k) id ;;
    sw <- match k_default k with
          | None => Some (st_switch s)
          | Some n => c <- switch_of n (st_octave s) (st_note s) ;; Some (Some c)
          end ;;
    Some (State (st_globals s) (st_masters s) (st_groups s) u4 (st_sets s) (st_current s)
            (st_path s) (st_note s) (st_octave s) sw
            (st_layers s ++ [LRegion k (snd r4) (st_current s)])
            last2 up down
            (st_prev s ++ (if has (k_prev k) then [id] else []))).

  (** onParseFullBlock, Synth.cpp 91-137. *)
  Definition block : Type := (header * list opcode)%type.
  Definition onBlock (s : state) (b : block) : option state :=
    let members := snd b in
    match fst b with
    | HGlobal =>
        sets <- newRegionSet s 1 ;;
        sw <- handleSwitch (st_octave s) (st_note s) members (st_switch s) ;;
        Some (State members [] [] (st_unknown s) sets (Some (List.length (st_sets s)))
                (st_path s) (st_note s) (st_octave s) sw
                (st_layers s) (st_last s) (st_up s) (st_down s) (st_prev s))
    | HControl =>
        '(path, note, octave) <- handleControl members [] (st_note s) (st_octave s) ;;
        Some (State (st_globals s) (st_masters s) (st_groups s) (st_unknown s)
                (st_sets s) (st_current s) path note octave (st_switch s)
                (st_layers s) (st_last s) (st_up s) (st_down s) (st_prev s))
    | HMaster =>
        sets <- newRegionSet s 3 ;;
        sw <- handleSwitch (st_octave s) (st_note s) members (st_switch s) ;;
        Some (State (st_globals s) members [] (st_unknown s) sets
                (Some (List.length (st_sets s)))
                (st_path s) (st_note s) (st_octave s) sw
                (st_layers s) (st_last s) (st_up s) (st_down s) (st_prev s))
    | HGroup =>
        sets <- newRegionSet s 4 ;;
        sw <- handleSwitch (st_octave s) (st_note s) (st_masters s ++ members) (st_switch s) ;;
        Some (State (st_globals s) (st_masters s) members (st_unknown s) sets
                (Some (List.length (st_sets s)))
                (st_path s) (st_note s) (st_octave s) sw
                (st_layers s) (st_last s) (st_up s) (st_down s) (st_prev s))
    | HRegion => buildRegion s members
    | HOther => Some s
    end.
  Fixpoint onBlocks (s : state) (l : list block) : option state :=
    match l with [] => Some s | b :: rest => s' <- onBlock s b ;; onBlocks s' rest end.

  (** keySwitched_ after initializeActivations, Layer.cpp 35, and finalizeSfzLoad, Synth.cpp
      815-829. *)
  Definition switchedAtLoad (sw : option Z) (k : keys) : bool :=
    let b := negb (k_usesSw k) in
    match sw with
    | None => b
    | Some c =>
        let b1 := match k_last k with None => b | Some n => c =? n end in
        match k_lastRange k with None => b1 | Some (lo, hi) => (lo <=? c) && (c <=? hi) end
    end.

  (** What finalizeSfzLoad leaves, Synth.cpp 697-845: the layers that are kept, with their
      numbers, and their keyswitch state.  [avail] tells whether a region's sample is usable. *)
  Variable avail : X -> bool.
  Definition kept (s : state) : list (nat * lregion) :=
    filter (fun p => avail (g_rest (snd p)))
      (combine (seq 0 (List.length (st_layers s))) (st_layers s)).
  (** noteActivationLists_[note], Synth.cpp 831-834. *)
  Definition activationList (s : state) (note : Z) : list nat :=
    map fst (filter (fun p => (k_lo (g_keys (snd p)) <=? note) &&
                              (note <=? k_hi (g_keys (snd p)))) (kept s)).

  (** One of the keyswitch lists. *)
  Definition listAt (lists : list (Z * nat)) (key : Z) : list nat :=
    map snd (filter (fun p => fst p =? key) lists).

  (** The keyswitch state of the kept layers when the instrument is loaded. *)
  Definition switches (s : state) : list (nat * bool) :=
    map (fun p => (fst p, switchedAtLoad (st_switch s) (g_keys (snd p)))) (kept s).

  (** keySwitched_ of a layer is written; undefined when the layer has been freed. *)
  Fixpoint setSwitch (id : nat) (v : bool) (m : list (nat * bool))
    : option (list (nat * bool)) :=
    match m with
    | [] => None
    | (i, b) :: rest =>
        if Nat.eqb i id then Some ((i, v) :: rest)
        else rest' <- setSwitch id v rest ;; Some ((i, b) :: rest')
    end.
  Fixpoint setSwitches (ids : list nat) (v : bool) (m : list (nat * bool))
    : option (list (nat * bool)) :=
    match ids with
    | [] => Some m
    | id :: rest => m' <- setSwitch id v m ;; setSwitches rest v m'
    end.
  Definition arrayAt (lists : list (Z * nat)) (key : Z) : option (list nat) :=
    if (0 <=? key) && (key <? 128) then Some (listAt lists key) else None.

  (** The keyswitch part of noteOnDispatch, Synth.cpp 1355-1371. *)
  Definition noteOnSwitches (s : state) (note : Z) (sm : option Z * list (nat * bool))
    : option (option Z * list (nat * bool)) :=
    own <- arrayAt (st_last s) note ;;
    '(sw, m1) <- match own with
                 | [] => Some sm
                 | _ :: _ =>
                     m <- match fst sm with
                          | Some c =>
                              if c =? note then Some (snd sm)
                              else old <- arrayAt (st_last s) c ;; setSwitches old false (snd sm)
                          | None => Some (snd sm)
                          end ;;
                     Some (Some note, m)
                 end ;;
    m2 <- setSwitches own true m1 ;;
    ups <- arrayAt (st_up s) note ;;
    m3 <- setSwitches ups false m2 ;;
    downs <- arrayAt (st_down s) note ;;
    m4 <- setSwitches downs true m3 ;;
    Some (sw, m4).

  (** The keyswitch part of noteOffDispatch, Synth.cpp 1331-1335. *)
  Definition noteOffSwitches (s : state) (note : Z) (sm : option Z * list (nat * bool))
    : option (option Z * list (nat * bool)) :=
    ups <- arrayAt (st_up s) note ;;
    m1 <- setSwitches ups true (snd sm) ;;
    downs <- arrayAt (st_down s) note ;;
    m2 <- setSwitches downs false m1 ;;
    Some (fst sm, m2).

  (** A sequence of note events on a loaded instrument: true is a note on. *)
  Fixpoint events (s : state) (l : list (bool * Z)) (sm : option Z * list (nat * bool))
    : option (option Z * list (nat * bool)) :=
    match l with
    | [] => Some sm
    | (on, note) :: rest =>
        sm' <- (if on then noteOnSwitches s note sm else noteOffSwitches s note sm) ;;
        events s rest sm'
    end.
End Loading.
