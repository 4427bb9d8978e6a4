(** Theorems about OSC messages (C01, C02, C03). *)
From Coq Require Import ZArith List Bool Lia.
From Coq.Floats Require Import SpecFloat.
From Verif Require Import OscModel OscSpec OscProofs.
Import ListNotations.
Local Open Scope Z_scope.

(** * C01: what is extracted is what was prepared.
    Everything is preserved except the low bits of 'd' arguments: [arg_received] gives
    the double rounded to single precision, see [C01_double_refuted]. *)
Theorem C01_round_trip_partial path sig args rest c aaddr acap :
  message_ok path sig args ->
  0 <= c -> 0 < aaddr -> acap < 2 ^ 32 -> args_room aaddr sig args <= acap ->
  len (wire path sig args ++ rest) < 2 ^ 31 ->
  exists out n,
    prepare_message c path sig args = Some (out, n) /\
    (n <= c ->
     exists e,
       extract_message (out ++ rest) aaddr acap = ROk e /\
       x_consumed e = n /\
       span_bytes (out ++ rest) (x_path e) = path /\
       span_bytes (out ++ rest) (x_sig e) = sig /\
       Forall2 (arg_received (out ++ rest)) args (x_args e)).
Proof.
  intros Hm Hc Ha Hcap Hroom Hl.
  assert (Hl' : len (wire path sig args) < 2 ^ 32).
  { rewrite len_app in Hl. pose proof (len_nonneg rest). lia. }
  do 2 eexists. split; [apply prepare_wire; auto|].
  intros Hn. rewrite firstn_all2 by (unfold len in Hn; lia).
  destruct (extract_wire path sig args rest aaddr acap) as (e & E & A & _ & _ & B & C & D);
    auto; [lia|].
  exists e. auto.
Qed.

(** With no 'd' argument, or with doubles that are exactly single-precision, the exact
    values come back. *)
Definition exact_arg (a : osc_arg) : Prop :=
  match a with ADouble b => double_through_float b = b | _ => True end.

Definition arg_equal (src : list Z) (a : osc_arg) (x : rarg) : Prop :=
  match a, x with
  | AInt v, XInt v' => v' = v
  | AInt64 v, XInt64 v' => v' = v
  | AFloat b, XFloat b' => b' = b
  | ADouble b, XDouble b' => b' = b
  | AString s, XString off n => span_bytes src (off, n) = s
  | ABlob d, XBlob off n => span_bytes src (off, n) = d
  | AMidi m, XMidi m' => m' = m
  | AEmpty, XEmpty => True
  | _, _ => False
  end.

Lemma arg_received_equal src a x : exact_arg a -> arg_received src a x -> arg_equal src a x.
Proof. destruct a, x; cbn; try tauto. congruence. Qed.

Theorem C01_exact_round_trip path sig args c aaddr acap :
  message_ok path sig args -> Forall exact_arg args ->
  0 < aaddr -> acap < 2 ^ 32 -> args_room aaddr sig args <= acap ->
  len (wire path sig args) < 2 ^ 31 -> len (wire path sig args) <= c ->
  exists out n e,
    prepare_message c path sig args = Some (out, n) /\
    extract_message out aaddr acap = ROk e /\ x_consumed e = n /\
    span_bytes out (x_path e) = path /\ span_bytes out (x_sig e) = sig /\
    Forall2 (arg_equal out) args (x_args e).
Proof.
  intros Hm Hex Ha Hcap Hroom Hl Hc.
  pose proof (len_nonneg (wire path sig args)).
  destruct (C01_round_trip_partial path sig args [] c aaddr acap) as (out & n & E & R);
    auto; [lia|now rewrite app_nil_r|].
  rewrite prepare_wire in E by (auto; lia). injection E as <- <-.
  destruct (R Hc) as (e & E1 & E2 & E3 & E4 & E5). rewrite app_nil_r in *.
  do 3 eexists. split; [apply prepare_wire; auto; lia|]. split; [exact E1|].
  repeat split; auto.
  clear - E5 Hex. revert E5. generalize (x_args e) as xs.
  set (src := firstn _ _). clearbody src. intros xs H.
  induction H; [constructor|]. inversion Hex; subst. constructor; auto.
  now apply arg_received_equal.
Qed.

(** A message of each kind: "/a" ",ihsbTdfm". *)
Definition ex_path := [47; 97].
Definition ex_sig := [105; 104; 115; 98; 84; 100; 102; 109].
Definition ex_args :=
  [AInt (-2); AInt64 (- 2 ^ 62); AString [104; 105]; ABlob [1; 2; 3; 4; 5]; AEmpty;
   ADouble (1023 * 2 ^ 52 + 2 ^ 51); AFloat (127 * 2 ^ 23); AMidi [144; 60; 100; 0]].
Example C01_ex_ok : message_ok ex_path ex_sig ex_args /\ Forall exact_arg ex_args.
Proof.
  split.
  - split; [repeat constructor; lia|]. split; [repeat constructor; lia|].
    repeat constructor; cbv; intuition congruence.
  - repeat constructor.
Qed.
Example C01_ex_run :
  exists e, extract_message (wire ex_path ex_sig ex_args) 13 85 = ROk e /\
    x_consumed e = 60 /\
    x_args e = [XInt (-2); XInt64 (- 2 ^ 62); XString 28 2; XBlob 36 5; XEmpty;
                XDouble (1023 * 2 ^ 52 + 2 ^ 51); XFloat (127 * 2 ^ 23); XMidi [144; 60; 100; 0]].
Proof. eexists. split; [vm_compute; reflexivity|]. split; reflexivity. Qed.

(** The double 0.1 (0x3FB999999999999A) comes back as 0.1f widened
    (0x3FB99999A0000000). *)
Theorem C01_double_refuted :
  exists path sig b out n e b',
    message_ok path sig [ADouble b] /\
    prepare_message 64 path sig [ADouble b] = Some (out, n) /\ n <= 64 /\
    extract_message out 8 64 = ROk e /\ x_args e = [XDouble b'] /\ b' <> b.
Proof.
  exists [47], [100], 4591870180066957722.
  do 4 eexists. split; [|split; [vm_compute; reflexivity|]].
  - split; [repeat constructor; lia|]. split; repeat constructor; cbv; intuition congruence.
  - split; [lia|]. split; [vm_compute; reflexivity|]. split; [cbn; reflexivity|].
    lia.
Qed.

(** * C02: the returned size is the size of the whole message whatever the capacity, it is a
    multiple of four, and the buffer receives exactly the prefix that fits. *)
Theorem C02_size_and_prefix c path sig args :
  0 <= c -> message_ok path sig args -> len (wire path sig args) < 2 ^ 32 ->
  exists out n,
    prepare_message c path sig args = Some (out, n) /\
    n = len (wire path sig args) /\ n mod 4 = 0 /\
    out = firstn (Z.to_nat c) (wire path sig args) /\
    len out = Z.min c n.
Proof.
  intros Hc Hm Hl. do 2 eexists. split; [apply prepare_wire; auto|].
  split; [reflexivity|]. split; [now apply wire_mod4|]. split; [reflexivity|].
  unfold len. rewrite firstn_length. lia.
Qed.

(** So a first call with capacity 0 tells the size a second call needs. *)
Corollary C02_query_then_write path sig args :
  message_ok path sig args -> len (wire path sig args) < 2 ^ 32 ->
  exists n, prepare_message 0 path sig args = Some ([], n) /\
            prepare_message n path sig args = Some (wire path sig args, n).
Proof.
  intros Hm Hl. exists (len (wire path sig args)).
  rewrite !prepare_wire by (auto; try lia; apply len_nonneg). split; [reflexivity|].
  unfold len at 1. rewrite Nat2Z.id, firstn_all. reflexivity.
Qed.

(** A tag that OSC does not define makes the call return 0. *)
Theorem C02_unknown_tag c path s1 tag s2 a1 a2 :
  0 <= c -> cstring path -> cstring (s1 ++ tag :: s2) ->
  Forall2 arg_fits s1 a1 -> kind tag = None -> a2 <> [] ->
  len (wire path (s1 ++ tag :: s2) a1) < 2 ^ 32 ->
  exists out, prepare_message c path (s1 ++ tag :: s2) (a1 ++ a2) = Some (out, 0).
Proof.
  intros Hc Hp Hs HF Hk Ha2 Hl. unfold prepare_message. rewrite <- wst_nil by auto.
  unfold wire in Hl. rewrite !len_app in Hl.
  pose proof (len_nonneg (pad4 (path ++ [0]))).
  set (sig := s1 ++ tag :: s2) in *.
  pose proof (len_nonneg (pad4 ([44] ++ sig ++ [0]))).
  pose proof (len_nonneg (concat (map wire_arg a1))).
  rewrite appendCString_wst by (auto; lia).
  replace (appendBytes _ [cc_comma] 1)
    with (Some (wst c (([] ++ pad4 (path ++ [0])) ++ [44]), 1)).
  2:{ symmetry. change 1 with (len [cc_comma]). rewrite appendBytes_all by auto. reflexivity. }
  assert (L : Z.of_nat (length sig) + 1 = len (sig ++ [0])) by (rewrite len_app; reflexivity).
  assert (L2 : Z.of_nat (length sig) + 2 = 1 + len (sig ++ [0])) by lia.
  rewrite L, L2. rewrite !len_pad4 in *. rewrite (len_app [44]) in *.
  change (len [44]) with 1 in *. pose proof (len_nonneg (sig ++ [0])).
  pose proof (Z.mod_pos_bound (- (1 + len (sig ++ [0]))) 4).
  rewrite u32_small by lia. rewrite appendBytes_all by auto.
  rewrite (u32_small (1 + _)) by lia. rewrite paddingSize4 by lia.
  rewrite appendZeros_wst by lia. rewrite u32_small by lia.
  match goal with |- context [writeArgs (wst c ?d) ?n _ _] =>
    generalize d as D; assert (Hn : 0 <= n < 2 ^ 32 - len (concat (map wire_arg a1))) by lia;
    generalize dependent n end.
  intros n Hn D. unfold sig. clear - HF Hk Ha2 Hn Hc.
  assert (exists w, writeArgs (wst c D) n (s1 ++ tag :: s2) (a1 ++ a2) = Some (w, 0)) as [w ->];
    [|eauto].
  revert D n Hn. induction HF as [|t a s1 a1 Ht HF IH]; intros D n Hn.
  - destruct a2 as [|x a2]; [congruence|]. cbn [app writeArgs].
    assert (E : writeArg (wst c D) tag x = Some None).
    { apply (kind_cases tag); intros; try congruence. unfold writeArg.
      repeat match goal with E : _ = false |- _ => rewrite E; clear E end. reflexivity. }
    rewrite E. eauto.
  - cbn [app writeArgs map concat] in *. rewrite len_app in Hn.
    pose proof (len_nonneg (wire_arg a)).
    pose proof (len_nonneg (concat (map wire_arg a1))).
    rewrite writeArg_wst by (auto; lia). rewrite u32_small by lia.
    apply IH. lia.
Qed.

Example C02_ex : prepare_message 5 [47; 97] [115] [AString [104; 105]] = Some ([47; 97; 0; 0; 44], 12).
Proof. reflexivity. Qed.
Example C02_unknown_ex : exists out, prepare_message 64 [47] [105; 120] [AInt 1; AInt 2] = Some (out, 0).
Proof. eexists. vm_compute. reflexivity. Qed.

(** * C03: reading arbitrary bytes stays in bounds.
    Partial: messages of at most 2^29 bytes, and blobs whose announced length is not one of
    2^32-3, 2^32-2, 2^32-1; the two refutations below show that neither can be dropped. *)
Theorem C03_extract_safe_partial src aaddr acap :
  bytes src -> len src <= 2 ^ 29 ->
  extract_message src aaddr acap <> RUndef /\
  forall e, extract_message src aaddr acap = ROk e ->
    string_in src (x_path e) /\ string_in src (x_sig e) /\
    0 <= x_consumed e <= len src /\
    Z.of_nat (length (x_args e)) = snd (x_sig e) /\
    Forall (rarg_in src) (x_args e).
Proof.
  intros Hb Hl. pose proof (extract_safe src aaddr acap Hb Hl) as H.
  destruct (extract_message src aaddr acap); split; try congruence; try contradiction.
Qed.

(** Memory handed out for arguments stays inside the caller's buffer and is 8-aligned. *)
Theorem C03_allocation_within r count esz a size r' :
  0 <= o_aaddr r -> 0 <= count -> 0 <= esz -> count * esz < 2 ^ 32 ->
  allocate r count esz = Some (a, size, r') ->
  size = count * esz /\ a mod 8 = 0 /\ a <> 0 /\
  o_aaddr r <= a /\ a + size = o_aaddr r' /\ 0 <= o_acap r' /\
  o_aaddr r' + o_acap r' = o_aaddr r + o_acap r.
Proof.
  intros Ha Hc He Hs. unfold allocate. rewrite paddingSize8 by auto.
  assert (0 <= count * esz) by lia. rewrite u32_small by lia.
  pose proof (Z.mod_pos_bound (- o_aaddr r) 8).
  destruct (Z.ltb_spec (o_acap r) (- o_aaddr r mod 8 + count * esz)); [discriminate|].
  destruct (Z.eqb_spec (o_aaddr r + - o_aaddr r mod 8) 0); [discriminate|].
  intros E. injection E as <- <- <-. cbn [o_aaddr o_acap].
  split; [auto|]. split.
  { rewrite Z.add_mod_idemp_r by lia. replace (o_aaddr r + - o_aaddr r) with 0 by lia.
    reflexivity. }
  repeat split; auto; lia.
Qed.

Example C03_ex_garbage :
  extract_message [47; 0; 0; 0; 44; 98; 0; 0; 0; 0; 0; 9; 1] 8 64 = RInvalid /\
  extract_message [47; 0; 0; 0; 44; 105; 105; 0; 0; 0; 0; 9] 8 64 = RInvalid /\
  extract_message [47; 0; 0; 0; 44; 105; 105; 0; 0; 0; 0; 9] 8 15 = RNoSpace /\
  extract_message [47; 1] 8 64 = RInvalid.
Proof. repeat split; reflexivity. Qed.

(** A blob length of 2^32-3 is accepted from a 12-byte message. *)
Theorem C03_blob_length_refuted :
  exists src e off n,
    bytes src /\ len src = 12 /\ extract_message src 8 64 = ROk e /\
    x_args e = [XBlob off n] /\ len src < off + n.
Proof.
  exists [47; 98; 0; 0; 44; 98; 0; 0; 255; 255; 255; 253].
  do 3 eexists. split; [repeat constructor; lia|]. split; [reflexivity|].
  split; [vm_compute; reflexivity|]. split; [reflexivity|]. reflexivity.
Qed.

(** A signature of 2^29 tags reserves 0 bytes for the arguments, which are then stored
    outside of the (empty) argument buffer. *)
Lemma many_arguments ts :
  cstring ts -> len ts = 2 ^ 29 - 1 ->
  let src := pad4 ([47] ++ [0]) ++ pad4 ((44 :: 105 :: ts) ++ [0]) ++ [0; 0; 0; 0] in
  bytes src /\ len src < 2 ^ 32 /\ extract_message src 8 0 = RUndef.
Proof.
  intros Hts Hlt.
  remember (44 :: 105 :: ts) as sg eqn:Esg.
  assert (Hsg : cstring sg) by (subst sg; constructor; [lia|constructor; [lia|exact Hts]]).
  assert (Hlsg : len sg = 2 ^ 29 + 1).
  { subst sg. unfold len in *. cbn [length]. lia. }
  cbv zeta.
  assert (Hl : len (pad4 ([47] ++ [0]) ++ pad4 (sg ++ [0]) ++ [0; 0; 0; 0]) < 2 ^ 32).
  { rewrite !len_app, !len_pad4, !len_app. rewrite Hlsg.
    change (len [0]) with 1. change (len [0; 0; 0; 0]) with 4. change (len [47]) with 1.
    reflexivity. }
  split; [|split; [exact Hl|]].
  { apply Forall_app. split; [repeat constructor; lia|].
    apply Forall_app. split; [|repeat constructor; lia].
    unfold pad4. apply Forall_app. split.
    - apply Forall_app. split; [now apply bytes_of_cstring|repeat constructor; lia].
    - apply Forall_forall. intros x Hx. apply repeat_spec in Hx. subst. red. lia. }
  unfold extract_message. fold (len (pad4 ([47] ++ [0]) ++ pad4 (sg ++ [0]) ++ [0; 0; 0; 0])).
  assert (H47 : cstring [47]) by (repeat constructor; lia).
  pose proof (extractString_ok [] [47] (pad4 (sg ++ [0]) ++ [0; 0; 0; 0]) 8 0 H47) as E1.
  cbn [app] in E1. change (len []) with 0 in E1.
  change ([47] ++ [0]) with [47; 0] in *.
  rewrite E1 by exact Hl. cbn [rbind].
  rewrite (extractString_ok (pad4 [47; 0]) sg [0; 0; 0; 0] 8 0 Hsg Hl).
  cbn [rbind].
  assert (E3 : nth (Z.to_nat (len (pad4 [47; 0])))
                 (pad4 [47; 0] ++ pad4 (sg ++ [0]) ++ [0; 0; 0; 0]) 0 = 44).
  { unfold len. rewrite Nat2Z.id, pad4_cons. rewrite Esg at 1. cbn [app]. apply nth_middle. }
  rewrite E3. change (negb (44 =? cc_comma)) with false. cbv iota.
  rewrite Hlsg. replace (2 ^ 29 + 1 - 1) with (2 ^ 29) by lia.
  unfold allocate. cbn [o_pos o_cap o_aaddr o_acap].
  change (paddingSize 8 8) with 0. change (u32 (2 ^ 29 * 8)) with 0.
  change (0 <? 0 + 0) with false. change (8 + 0 =? 0) with false. cbv iota.
  assert (Esig : span_bytes (pad4 [47; 0] ++ pad4 (sg ++ [0]) ++ [0; 0; 0; 0])
                   (len (pad4 [47; 0]) + 1, 2 ^ 29) = 105 :: ts).
  { change 1 with (len [44]) at 1. rewrite <- len_app.
    replace (2 ^ 29) with (len (105 :: ts)) by (unfold len in *; cbn [length]; lia).
    assert (exists X, pad4 [47; 0] ++ pad4 (sg ++ [0]) ++ [0; 0; 0; 0]
                      = (pad4 [47; 0] ++ [44]) ++ (105 :: ts) ++ X) as [X ->].
    { rewrite Esg. unfold pad4 at 2. eexists. rewrite <- !app_assoc. cbn [app]. reflexivity. }
    apply span_bytes_app. }
  rewrite Esig. cbn [readArgs]. unfold readArg at 1.
  change ((105 =? cc_i) || (105 =? cc_c) || (105 =? cc_r)) with true. cbv iota.
  rewrite app_assoc.
  pose proof (extractUnsigned_ok (pad4 [47; 0] ++ pad4 (sg ++ [0])) [0; 0; 0; 0] [] 4
                (8 + 0 + 0) (0 - (0 + 0)) eq_refl) as E4.
  rewrite !app_nil_r in E4. rewrite E4. reflexivity.
Qed.

Theorem C03_argument_count_refuted :
  exists src, bytes src /\ len src < 2 ^ 32 /\ extract_message src 8 0 = RUndef.
Proof.
  eexists. apply (many_arguments (repeat cc_T (Z.to_nat (2 ^ 29 - 1)))).
  - generalize (Z.to_nat (2 ^ 29 - 1)) as n. clear.
    induction n; cbn; constructor; auto. unfold cc_T; lia.
  - unfold len. rewrite repeat_length. apply Z2Nat.id. lia.
Qed.

Print Assumptions C01_round_trip_partial.
Print Assumptions C01_exact_round_trip.
Print Assumptions C01_double_refuted.
Print Assumptions C02_size_and_prefix.
Print Assumptions C02_query_then_write.
Print Assumptions C02_unknown_tag.
Print Assumptions C03_extract_safe_partial.
Print Assumptions C03_allocation_within.
Print Assumptions C03_blob_length_refuted.
Print Assumptions C03_argument_count_refuted.
