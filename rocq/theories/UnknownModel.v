(** Opcodes that are not understood: how they are collected and reported.
    Code: buildRegion (Synth.cpp 156-180), clear (Synth.cpp 311), getUnknownOpcodes (Synth.cpp 1849-1853), sfizz_get_unknown_opcodes
    (sfizz_wrapper.cpp 288-307).

    The opcodes of a region are those of the headers above it and its own, one after the other (C64 proves what they are).  Reading an opcode into a
    region is RegionModel, the clean-up of its name OpcodeModel.  What buildRegion does afterwards (envelope of the amplitude, keyswitches, sets) does not
    depend on the unknown opcodes, and is left out. *)
From Coq Require Import ZArith List Bool String Lia.
From Verif Require Import ParserModel OpcodeModel ModModel RegionModel.
Import ListNotations.
Local Open Scope string_scope.
Local Open Scope list_scope.
Local Open Scope Z_scope.

Section Unknown.
Variable V : Type.
Variable apply : string -> text -> V -> V.
Variable read readStep : string -> text -> V.
Variable zero : V.
Variable readAmpeg : text -> bool.
Variable readSteps : text -> nat.

(** Region::parseOpcode of an opcode as it is in the file: Region.cpp 55-57, and the switch *)
Definition parseRaw (o : opcode) (r : region V) : option (bool * region V) :=
  match cleanUp 1 o ScopeRegion with
  | None => None
  | Some c => parseOpcode V apply read readStep zero readAmpeg readSteps c r
  end.

(** the function parseOpcodes of buildRegion for the opcodes of a region, Synth.cpp 165-180: unknownOpcodes_ and the region *)
Fixpoint sift (l : list opcode) (unknown : list text) (r : region V) : option (list text * region V) :=
  match l with
  | [] => Some (unknown, r)
  | o :: l =>
      if existsb (text_eqb (o_name o)) unknown then sift l unknown r
      else match parseRaw o r with
           | None => None
           | Some (true, r) => sift l unknown r
           | Some (false, r) => sift l (unknown ++ [o_name o]) r
           end
  end.

(** the regions of a file in turn; [id] is layers_.size() (157) *)
Fixpoint loadRegions (mem : place -> V) (id : Z) (file : list (list opcode)) (unknown : list text) : option (list text * list (region V)) :=
  match file with
  | [] => Some (unknown, [])
  | l :: file =>
      match sift l unknown (freshRegion V id mem) with
      | None => None
      | Some (unknown, r) =>
          match loadRegions mem (id + 1) file unknown with
          | None => None
          | Some (unknown, rs) => Some (unknown, r :: rs)
          end
      end
  end.
End Unknown.

(** sfizz_get_unknown_opcodes: None is the null pointer; otherwise the size that malloc is asked for, and the bytes that are written from the start *)
Definition totalLength (l : list text) : nat := fold_left (fun n o => (n + (List.length o + 1))%nat) l O.
Definition writeList (l : list text) : text := flat_map (fun o => o ++ [if text_eqb o (last l []) then 0 else 44]) l.
Definition getUnknown (l : list text) : option (nat * text) :=
  if Nat.eqb (totalLength l) 0 then None else Some (totalLength l, writeList l).
