(** Transcription of src/sfizz/utility/Base64.h: decodeBase64, lines 18-84.
    Characters and decoded chars are bytes in [0,256); int32_t [temp] stays below 2^24,
    so no wrap-around is modelled.  [reserve] (line 35) is not modelled. *)
From Coq Require Import ZArith List Bool.
Import ListNotations.
Local Open Scope Z_scope.

(** Line 42. *)
Definition is_ws (c : Z) : bool := (c =? 32) || (c =? 10) || (c =? 9) || (c =? 13).

(** Lines 45-56: the value or-ed into [temp]; [None] is [return {}].  Bytes of 128 and more
    are negative as [char] and match no range. *)
Definition char_value (c : Z) : option Z :=
  if (65 <=? c) && (c <=? 90) then Some (c - 65)
  else if (97 <=? c) && (c <=? 122) then Some (c - 71)
  else if (48 <=? c) && (c <=? 57) then Some (c + 4)
  else if c =? 43 then Some 62
  else if c =? 47 then Some 63
  else None.

Definition byte_at (t sh : Z) : Z := Z.land (Z.shiftr t sh) 255.

(** Loop of lines 40-67 followed by the switch of lines 69-83. *)
Fixpoint decode_loop (input : list Z) (temp : Z) (position : nat) (decoded : list Z) : list Z :=
  match input with
  | [] =>
    match position with
    | 3%nat => decoded ++ [byte_at temp 16; byte_at temp 8]
    | 2%nat => decoded ++ [byte_at temp 10]
    | 1%nat => []
    | _ => decoded
    end
  | c :: rest =>
    if is_ws c then decode_loop rest temp position decoded
    else
      match char_value c with
      | None => []
      | Some v =>
        let temp := Z.lor temp v in
        if Nat.eqb (S position) 4 then
          decode_loop rest 0 0%nat (decoded ++ [byte_at temp 16; byte_at temp 8; byte_at temp 0])
        else decode_loop rest (Z.shiftl temp 6) (S position) decoded
      end
  end.

(** Lines 18-39 and 83. *)
Definition decodeBase64 (input : list Z) : list Z :=
  match input with
  | [] => []
  | _ =>
    let length := List.length input in
    let p1 := if (Nat.leb 1 length) && (nth (length - 1) input 0 =? 61) then 1%nat else 0%nat in
    let p2 := if (Nat.leb 2 length) && (nth (length - 2) input 0 =? 61) then 1%nat else 0%nat in
    decode_loop (firstn (length - (p1 + p2)) input) 0 0%nat []
  end.
