(** Transcription of src/sfizz/Messaging.cpp: OSC message writer and reader.
    Bytes are integers in [0,256).  uint32_t arithmetic is explicit ([u32]). *)
From Coq Require Import ZArith List Bool.
From Coq.Floats Require Import SpecFloat.
Import ListNotations.
Local Open Scope Z_scope.

Definition u32 (x : Z) : Z := x mod 2 ^ 32.

(** paddingSize, lines 20-24 (mask arithmetic; [align] is a power of two). *)
Definition paddingSize (count align : Z) : Z :=
  let mask := align - 1 in
  Z.land (align - Z.land count mask) mask.

(** sfizz_arg_t, src/sfizz_message.h 43-51: the union, as the member that is active.
    Floating point members are given by their bit patterns.  A blob (sfizz_blob_t,
    src/sfizz_message.h 34-37) is its [size] bytes of data.  Strings are the bytes
    before the terminating NUL. *)
Inductive osc_arg :=
| AInt (i : Z)            (* int32_t i *)
| AInt64 (h : Z)          (* int64_t h *)
| AFloat (bits : Z)       (* float f *)
| ADouble (bits : Z)      (* double d *)
| AString (s : list Z)    (* const char* s *)
| ABlob (data : list Z)   (* const sfizz_blob_t* b *)
| AMidi (m : list Z)      (* uint8_t m[4] *)
| AEmpty.                 (* nothing is read or written for T, F, N, I *)

(** ASCII codes of the tags. *)
Definition cc_i := 105. Definition cc_c := 99. Definition cc_r := 114. Definition cc_m := 109.
Definition cc_h := 104. Definition cc_f := 102. Definition cc_d := 100.
Definition cc_s := 115. Definition cc_S := 83. Definition cc_b := 98.
Definition cc_T := 84. Definition cc_F := 70. Definition cc_N := 78. Definition cc_I := 73.
Definition cc_comma := 44.

(** * double -> float -> double, as done by calling appendDouble(float) on a double
    (line 37, line 127, line 192).  Round to nearest even, via the standard library's
    executable IEEE-754 specification.  Simplification: every NaN becomes the default NaN. *)
Definition sf_of_bits64 (b : Z) : spec_float :=
  let s := Z.testbit b 63 in
  let e := Z.land (Z.shiftr b 52) 2047 in
  let m := Z.land b (2 ^ 52 - 1) in
  if e =? 0 then
    match m with Zpos p => S754_finite s p (-1074) | _ => S754_zero s end
  else if e =? 2047 then
    (if m =? 0 then S754_infinity s else S754_nan)
  else match m + 2 ^ 52 with Zpos p => S754_finite s p (e - 1075) | _ => S754_nan end.

(** Narrowing to binary32 (24-bit precision, emax 128). *)
Definition sf_narrow (f : spec_float) : spec_float :=
  match f with
  | S754_finite s m e => binary_normalize 24 128 (if s then Zneg m else Zpos m) e s
  | x => x
  end.

(** Bit pattern, as a double, of a float that fits in a double: the mantissa is brought
    to 53 bits (all binary32 values are normal in binary64). *)
Definition bits64_of_sf (f : spec_float) : Z :=
  let sgn (s : bool) := if s then 2 ^ 63 else 0 in
  match f with
  | S754_zero s => sgn s
  | S754_infinity s => sgn s + 2047 * 2 ^ 52
  | S754_nan => 2047 * 2 ^ 52 + 2 ^ 51
  | S754_finite s m e =>
    let k := 53 - Zpos (digits2_pos m) in
    sgn s + (e - k + 1075) * 2 ^ 52 + (Zpos m * 2 ^ k - 2 ^ 52)
  end.

(** The uint64_t member of the union at line 194. *)
Definition double_through_float (b : Z) : Z :=
  bits64_of_sf (sf_narrow (sf_of_bits64 b)) mod 2 ^ 64.

(** * Writer *)

(** OSCWriter members (lines 40-41): bytes already stored at the destination and the
    remaining capacity. *)
Record writer := Wr { w_out : list Z; w_cap : Z }.

(** appendBytes, lines 155-162: memcpy of min(capacity, count) bytes; [None] if the copy
    would read past the end of the source. *)
Definition appendBytes (w : writer) (src : list Z) (count : Z) : option (writer * Z) :=
  let written := Z.min (w_cap w) count in
  if Z.of_nat (length src) <? written then None
  else Some (Wr (w_out w ++ firstn (Z.to_nat written) src) (w_cap w - written), count).

(** appendZeros, lines 164-171. *)
Definition appendZeros (w : writer) (count : Z) : writer * Z :=
  let written := Z.min (w_cap w) count in
  (Wr (w_out w ++ repeat 0 (Z.to_nat written)) (w_cap w - written), count).

(** appendInteger, lines 173-183: [n] bytes, most significant first. *)
Fixpoint be_bytes (n : nat) (v : Z) : list Z :=
  match n with
  | O => []
  | S n' => Z.land (Z.shiftr v (8 * Z.of_nat n')) 255 :: be_bytes n' v
  end.
Definition appendInteger (w : writer) (nbytes : nat) (v : Z) : option (writer * Z) :=
  appendBytes w (be_bytes nbytes (v mod 2 ^ (8 * Z.of_nat nbytes))) (Z.of_nat nbytes).

(** A C string argument or path of length [len] with its NUL and the padding
    (lines 97-99 and 129-136; [count] is converted to uint32_t by the call). *)
Definition appendCString (w : writer) (s : list Z) : option (writer * Z) :=
  let len := Z.of_nat (length s) in
  match appendBytes w (s ++ [0]) (u32 (len + 1)) with
  | None => None
  | Some (w1, n1) =>
    let '(w2, n2) := appendZeros w1 (paddingSize (len + 1) 4) in
    Some (w2, u32 (n1 + n2))
  end.

(** One iteration of the switch, lines 109-149: [Some None] is [return 0] (unknown tag);
    [None] is undefined behaviour (inactive union member, over-read). *)
Definition writeArg (w : writer) (tag : Z) (a : osc_arg) : option (option (writer * Z)) :=
  if (tag =? cc_i) || (tag =? cc_c) || (tag =? cc_r) then
    match a with AInt v => option_map Some (appendInteger w 4 v) | _ => None end
  else if tag =? cc_m then
    match a with AMidi m => option_map Some (appendBytes w m 4) | _ => None end
  else if tag =? cc_h then
    match a with AInt64 v => option_map Some (appendInteger w 8 v) | _ => None end
  else if tag =? cc_f then
    match a with AFloat b => option_map Some (appendInteger w 4 b) | _ => None end
  else if tag =? cc_d then
    match a with
    | ADouble b => option_map Some (appendInteger w 8 (double_through_float b))
    | _ => None
    end
  else if (tag =? cc_s) || (tag =? cc_S) then
    match a with AString s => option_map Some (appendCString w s) | _ => None end
  else if tag =? cc_b then
    match a with
    | ABlob d =>
      let size := Z.of_nat (length d) in
      match appendInteger w 4 size with
      | None => None
      | Some (w1, n1) =>
        match appendBytes w1 d size with
        | None => None
        | Some (w2, n2) =>
          let '(w3, n3) := appendZeros w2 (paddingSize size 4) in
          Some (Some (w3, u32 (n1 + n2 + n3)))
        end
      end
    | _ => None
    end
  else if (tag =? cc_T) || (tag =? cc_F) || (tag =? cc_N) || (tag =? cc_I) then
    Some (Some (w, 0))
  else Some None.

(** Loop of lines 108-150.  Result: writer and returned length. *)
Fixpoint writeArgs (w : writer) (msglen : Z) (sig : list Z) (args : list osc_arg)
  : option (writer * Z) :=
  match sig with
  | [] => Some (w, msglen)
  | tag :: sig' =>
    match args with
    | [] => None (* args[i] past the end of the array *)
    | a :: args' =>
      match writeArg w tag a with
      | None => None
      | Some None => Some (w, 0)
      | Some (Some (w', n)) => writeArgs w' (u32 (msglen + n)) sig' args'
      end
    end
  end.

(** writeMessage, lines 92-153, called by sfizz_prepare_message, lines 65-72.
    Result: bytes stored in the buffer and the returned size. *)
Definition prepare_message (capacity : Z) (path sig : list Z) (args : list osc_arg)
  : option (list Z * Z) :=
  let w0 := Wr [] capacity in
  match appendCString w0 path with
  | None => None
  | Some (w1, n1) =>
    let siglen := Z.of_nat (length sig) in
    match appendBytes w1 [cc_comma] 1 with
    | None => None
    | Some (w2, n2) =>
      match appendBytes w2 (sig ++ [0]) (u32 (siglen + 1)) with
      | None => None
      | Some (w3, n3) =>
        let '(w4, n4) := appendZeros w3 (paddingSize (u32 (siglen + 2)) 4) in
        match writeArgs w4 (u32 (n1 + n2 + n3 + n4)) sig args with
        | None => None
        | Some (w, n) => Some (w_out w, n)
        end
      end
    end
  end.

(** * Reader *)

(** OSCReader members (lines 58-61).  The source is a fixed byte list [src]; srcBuffer_ is
    the offset [o_pos]; allocBuffer_ is an address. *)
Record reader := Rd { o_pos : Z; o_cap : Z; o_aaddr : Z; o_acap : Z }.

(** Results: value and new state, [return 0], [return -1], undefined behaviour. *)
Inductive rres (A : Type) :=
| ROk (a : A)
| RInvalid
| RNoSpace
| RUndef.
Arguments ROk {A}. Arguments RInvalid {A}. Arguments RNoSpace {A}. Arguments RUndef {A}.

(** strnlen(src + pos, cap): [None] when it would read outside the source. *)
Fixpoint strnlen_list (l : list Z) (cap : nat) {struct cap} : option nat :=
  match cap with
  | O => Some O
  | S cap' =>
    match l with
    | [] => None
    | b :: l' => if b =? 0 then Some O else option_map S (strnlen_list l' cap')
    end
  end.
Definition zskip (n : Z) (l : list Z) : list Z := skipn (Z.to_nat n) l.

(** extractString, lines 321-335: result is the span (offset, length). *)
Definition extractString (src : list Z) (r : reader) : rres (Z * Z * reader) :=
  match strnlen_list (zskip (o_pos r) src) (Z.to_nat (o_cap r)) with
  | None => RUndef
  | Some n =>
    let len := Z.of_nat n in
    if len =? o_cap r then RInvalid
    else
      let padlen := u32 (u32 (len + 1) + paddingSize (u32 (len + 1)) 4) in
      if o_cap r <? padlen then RInvalid
      else ROk (o_pos r, len,
                Rd (o_pos r + padlen) (o_cap r - padlen) (o_aaddr r) (o_acap r))
  end.

(** extractInteger, lines 337-350, on an unsigned type of [n] bytes. *)
Definition be_value (l : list Z) : Z := fold_left (fun v b => Z.lor (Z.shiftl v 8) b) l 0.
Definition extractUnsigned (src : list Z) (n : nat) (r : reader) : rres (Z * reader) :=
  if o_cap r <? Z.of_nat n then RInvalid
  else
    let l := firstn n (zskip (o_pos r) src) in
    if Nat.ltb (length l) n then RUndef
    else ROk (be_value l,
              Rd (o_pos r + Z.of_nat n) (o_cap r - Z.of_nat n) (o_aaddr r) (o_acap r)).
(** static_cast to the signed type of [n] bytes. *)
Definition to_signed (n : nat) (v : Z) : Z :=
  if v <? 2 ^ (8 * Z.of_nat n - 1) then v else v - 2 ^ (8 * Z.of_nat n).

(** allocate, lines 309-319: element size [esz], alignment 8, result address and the
    size really reserved ([count * sizeof(T)] is truncated to uint32_t). A null result is
    what the caller tests, so an allocation at address 0 counts as a failure. *)
Definition allocate (r : reader) (count esz : Z) : option (Z * Z * reader) :=
  let pad := paddingSize (o_aaddr r) 8 in
  let size := u32 (count * esz) in
  if o_acap r <? pad + size then None
  else if o_aaddr r + pad =? 0 then None
  else Some (o_aaddr r + pad, size,
             Rd (o_pos r) (o_cap r) (o_aaddr r + pad + size) (o_acap r - (pad + size))).

(** What ends up in args[i]: strings and blobs are spans of the source. *)
Inductive rarg :=
| XInt (i : Z) | XInt64 (h : Z) | XFloat (bits : Z) | XDouble (bits : Z)
| XString (off len : Z) | XBlob (off len : Z) | XMidi (m : list Z) | XEmpty.

Definition rbind {A B} (m : rres A) (f : A -> rres B) : rres B :=
  match m with ROk a => f a | RInvalid => RInvalid | RNoSpace => RNoSpace | RUndef => RUndef end.

(** Store into args[i]: undefined behaviour when outside the reserved array. *)
Definition storeArg (asize : Z) (i : Z) (x : rarg) (r : reader) : rres (rarg * reader) :=
  if (i + 1) * 8 <=? asize then ROk (x, r) else RUndef.

(** One iteration of the switch, lines 242-303. *)
Definition readArg (src : list Z) (asize i : Z) (tag : Z) (r : reader) : rres (rarg * reader) :=
  if (tag =? cc_i) || (tag =? cc_c) || (tag =? cc_r) then
    rbind (extractUnsigned src 4 r) (fun '(v, r) => storeArg asize i (XInt (to_signed 4 v)) r)
  else if tag =? cc_m then
    (if o_cap r <? 4 then RInvalid
     else
       let l := firstn 4 (zskip (o_pos r) src) in
       if Nat.ltb (length l) 4 then RUndef
       else storeArg asize i (XMidi l)
              (Rd (o_pos r + 4) (o_cap r - 4) (o_aaddr r) (o_acap r)))
  else if tag =? cc_h then
    rbind (extractUnsigned src 8 r) (fun '(v, r) => storeArg asize i (XInt64 (to_signed 8 v)) r)
  else if tag =? cc_f then
    rbind (extractUnsigned src 4 r) (fun '(v, r) => storeArg asize i (XFloat v) r)
  else if tag =? cc_d then
    rbind (extractUnsigned src 8 r) (fun '(v, r) => storeArg asize i (XDouble v) r)
  else if (tag =? cc_s) || (tag =? cc_S) then
    rbind (extractString src r) (fun '(off, len, r) => storeArg asize i (XString off len) r)
  else if tag =? cc_b then
    match allocate r 1 16 with
    | None => RNoSpace
    | Some (_, _, r) =>
      rbind (storeArg asize i XEmpty r) (fun '(_, r) => (* args[i].b = blob comes first *)
      rbind (extractUnsigned src 4 r) (fun '(len, r) =>
        let padlen := u32 (len + paddingSize len 4) in
        if o_cap r <? padlen then RInvalid
        else ROk (XBlob (o_pos r) len,
                  Rd (o_pos r + padlen) (o_cap r - padlen) (o_aaddr r) (o_acap r))))
    end
  else if (tag =? cc_T) || (tag =? cc_F) || (tag =? cc_N) || (tag =? cc_I) then
    ROk (XEmpty, r)
  else RInvalid.

(** Loop of lines 241-304; [sig] holds the remaining tag bytes. *)
Fixpoint readArgs (src : list Z) (asize i : Z) (sig : list Z) (r : reader)
  : rres (list rarg * reader) :=
  match sig with
  | [] => ROk ([], r)
  | tag :: sig' =>
    rbind (readArg src asize i tag r) (fun '(x, r) =>
      rbind (readArgs src asize (i + 1) sig' r) (fun '(xs, r) => ROk (x :: xs, r)))
  end.

Record extracted := Ext {
  x_consumed : Z;          (* returned value; conversion to int32_t is the identity below 2^31 *)
  x_path : Z * Z;          (* spans of the source *)
  x_sig : Z * Z;
  x_args : list rarg }.

(** The bytes of a span. *)
Definition span_bytes (src : list Z) (sp : Z * Z) : list Z :=
  firstn (Z.to_nat (snd sp)) (zskip (fst sp) src).

(** extractMessage, lines 212-307, called by sfizz_extract_message, lines 74-83.
    [aaddr], [acap] describe the argument buffer. *)
Definition extract_message (src : list Z) (aaddr acap : Z) : rres extracted :=
  let r0 := Rd 0 (Z.of_nat (length src)) aaddr acap in
  rbind (extractString src r0) (fun '(poff, plen, r1) =>
  rbind (extractString src r1) (fun '(soff, slen, r2) =>
    if negb (nth (Z.to_nat soff) src 0 =? cc_comma) then RInvalid
    else
      let soff' := soff + 1 in
      let slen' := slen - 1 in
      match allocate r2 slen' 8 with
      | None => RNoSpace
      | Some (_, asize, r3) =>
        rbind (readArgs src asize 0 (span_bytes src (soff', slen')) r3) (fun '(xs, r4) =>
          ROk (Ext (o_pos r4) (poff, plen) (soff', slen') xs))
      end)).
