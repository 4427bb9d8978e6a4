(** What an OSC 1.0 message is, independently of the code. *)
From Coq Require Import ZArith List Bool.
From Verif Require Import OscModel.
Import ListNotations.
Local Open Scope Z_scope.

Definition isbyte (b : Z) : Prop := 0 <= b < 256.
Definition bytes (l : list Z) : Prop := Forall isbyte l.
(** C strings: no NUL inside. *)
Definition cstring (l : list Z) : Prop := Forall (fun b => 0 < b < 256) l.

Definition len (l : list Z) : Z := Z.of_nat (length l).

(** Zero padding to a multiple of four bytes. *)
Definition pad4 (l : list Z) : list Z := l ++ repeat 0 (Z.to_nat ((- len l) mod 4)).

(** [n]-byte big-endian two's complement. *)
Definition be (n : nat) (v : Z) : list Z :=
  map (fun k => (v / 256 ^ Z.of_nat (n - 1 - k)) mod 256) (seq 0 n).

Inductive tagkind := KInt | KMidi | KInt64 | KFloat | KDouble | KString | KBlob | KEmpty.
Definition kind (tag : Z) : option tagkind :=
  if existsb (Z.eqb tag) [105; 99; 114] then Some KInt         (* i c r *)
  else if tag =? 109 then Some KMidi                           (* m *)
  else if tag =? 104 then Some KInt64                          (* h *)
  else if tag =? 102 then Some KFloat                          (* f *)
  else if tag =? 100 then Some KDouble                         (* d *)
  else if existsb (Z.eqb tag) [115; 83] then Some KString      (* s S *)
  else if tag =? 98 then Some KBlob                            (* b *)
  else if existsb (Z.eqb tag) [84; 70; 78; 73] then Some KEmpty (* T F N I *)
  else None.

(** An argument value fit for a tag. *)
Definition arg_fits (tag : Z) (a : osc_arg) : Prop :=
  match kind tag, a with
  | Some KInt, AInt v => - 2 ^ 31 <= v < 2 ^ 31
  | Some KMidi, AMidi m => length m = 4%nat /\ bytes m
  | Some KInt64, AInt64 v => - 2 ^ 63 <= v < 2 ^ 63
  | Some KFloat, AFloat b => 0 <= b < 2 ^ 32
  | Some KDouble, ADouble b => 0 <= b < 2 ^ 64
  | Some KString, AString s => cstring s
  | Some KBlob, ABlob d => bytes d
  | Some KEmpty, AEmpty => True
  | _, _ => False
  end.

(** Wire form of an argument. *)
Definition wire_arg (a : osc_arg) : list Z :=
  match a with
  | AInt v => be 4 v
  | AInt64 v => be 8 v
  | AFloat b => be 4 b
  | ADouble b => be 8 (double_through_float b)
  | AString s => pad4 (s ++ [0])
  | ABlob d => be 4 (len d) ++ pad4 d
  | AMidi m => m
  | AEmpty => []
  end.
Definition wire (path sig : list Z) (args : list osc_arg) : list Z :=
  pad4 (path ++ [0]) ++ pad4 ([44] ++ sig ++ [0]) ++ concat (map wire_arg args).

(** A message that a caller may legally pass. *)
Definition message_ok (path sig : list Z) (args : list osc_arg) : Prop :=
  cstring path /\ cstring sig /\ Forall2 arg_fits sig args.

(** The value stored for an argument agrees with the value sent. *)
Definition arg_received (src : list Z) (a : osc_arg) (x : rarg) : Prop :=
  match a, x with
  | AInt v, XInt v' => v' = v
  | AInt64 v, XInt64 v' => v' = v
  | AFloat b, XFloat b' => b' = b
  | ADouble b, XDouble b' => b' = double_through_float b
  | AString s, XString off n => span_bytes src (off, n) = s /\ n = len s /\
                                nth (Z.to_nat (off + n)) src 1 = 0
  | ABlob d, XBlob off n => span_bytes src (off, n) = d /\ n = len d
  | AMidi m, XMidi m' => m' = m
  | AEmpty, XEmpty => True
  | _, _ => False
  end.

(** Room the caller must provide for the arguments: alignment to 8, 8 bytes per tag,
    16 per blob. *)
Definition is_blob (a : osc_arg) : bool := match a with ABlob _ => true | _ => false end.
Definition args_room (aaddr : Z) (sig : list Z) (args : list osc_arg) : Z :=
  (- aaddr) mod 8 + 8 * len sig + 16 * Z.of_nat (length (filter is_blob args)).
