From Coq Require Import ZArith List Bool Lia.
From Coq.Floats Require Import SpecFloat.
From Verif Require Import OscModel OscSpec.
Import ListNotations.
Local Open Scope Z_scope.

Lemma paddingSize4 c : 0 <= c -> paddingSize c 4 = (- c) mod 4.
Proof.
  intros H. unfold paddingSize. change (4 - 1) with (Z.ones 2).
  rewrite !Z.land_ones by lia. change (2 ^ 2) with 4.
  rewrite Zminus_mod, Z.mod_mod by lia. rewrite <- Zminus_mod.
  replace (4 - c) with (- c + 1 * 4) by lia. now rewrite Z_mod_plus_full.
Qed.
Lemma paddingSize8 c : 0 <= c -> paddingSize c 8 = (- c) mod 8.
Proof.
  intros H. unfold paddingSize. change (8 - 1) with (Z.ones 3).
  rewrite !Z.land_ones by lia. change (2 ^ 3) with 8.
  rewrite Zminus_mod, Z.mod_mod by lia. rewrite <- Zminus_mod.
  replace (8 - c) with (- c + 1 * 8) by lia. now rewrite Z_mod_plus_full.
Qed.
Lemma u32_small x : 0 <= x < 2 ^ 32 -> u32 x = x.
Proof. intros. unfold u32. now apply Z.mod_small. Qed.
Lemma u32_mod4 x : u32 x mod 4 = x mod 4.
Proof.
  unfold u32. change (2 ^ 32) with (4 * 1073741824).
  rewrite Z.rem_mul_r by lia. rewrite (Z.mul_comm 4), Z_mod_plus_full.
  now rewrite Z.mod_mod by lia.
Qed.

Lemma len_app a b : len (a ++ b) = len a + len b.
Proof. unfold len. rewrite app_length. lia. Qed.
Lemma len_nonneg a : 0 <= len a.
Proof. unfold len. lia. Qed.
Lemma len_pad4 l : len (pad4 l) = len l + (- len l) mod 4.
Proof.
  unfold pad4. rewrite len_app. unfold len at 2. rewrite repeat_length.
  pose proof (Z.mod_pos_bound (- len l) 4). lia.
Qed.
Lemma len_pad4_mod l : len (pad4 l) mod 4 = 0.
Proof.
  rewrite len_pad4. rewrite Z.add_mod_idemp_r by lia.
  replace (len l + - len l) with 0 by lia. reflexivity.
Qed.

(** * Big-endian integers *)
Lemma be_length n v : length (be n v) = n.
Proof. unfold be. now rewrite map_length, seq_length. Qed.
Lemma be_S n v : be (S n) v = (v / 256 ^ Z.of_nat n) mod 256 :: be n v.
Proof.
  unfold be. cbn [seq map]. rewrite <- seq_shift, map_map.
  replace (S n - 1 - 0)%nat with n by lia. f_equal.
  apply map_ext. intros k. do 4 f_equal. lia.
Qed.
Lemma be_bytes_be n v : be_bytes n v = be n v.
Proof.
  induction n; [reflexivity|]. rewrite be_S. cbn [be_bytes]. rewrite IHn. f_equal.
  change 255 with (Z.ones 8). rewrite Z.land_ones by lia.
  rewrite Z.shiftr_div_pow2 by lia. change (2 ^ 8) with 256. f_equal. f_equal.
  change 256 with (2 ^ 8). rewrite <- Z.pow_mul_r by lia. reflexivity.
Qed.
Lemma be_mod n m v : (n <= m)%nat -> be n (v mod 2 ^ (8 * Z.of_nat m)) = be n v.
Proof.
  intros Hm. induction n; [reflexivity|]. rewrite !be_S, IHn by lia. f_equal.
  assert (E : 2 ^ (8 * Z.of_nat m) = 256 ^ Z.of_nat n * (256 * 256 ^ Z.of_nat (m - S n))).
  { rewrite Z.pow_mul_r by lia. change (2 ^ 8) with 256.
    rewrite <- Z.pow_succ_r, <- Z.pow_add_r by lia. f_equal. lia. }
  rewrite E.
  assert (0 < 256 ^ Z.of_nat n) by (apply Z.pow_pos_nonneg; lia).
  assert (0 < 256 ^ Z.of_nat (m - S n)) by (apply Z.pow_pos_nonneg; lia).
  rewrite Z.rem_mul_r by lia. 
  rewrite Z.add_comm, Z.mul_comm, Z.div_add_l by lia.
  rewrite (Z.div_small (v mod _)) by (apply Z.mod_pos_bound; lia).
  rewrite Z.add_0_r, Z.rem_mul_r by lia.
  rewrite (Z.mul_comm 256), Z_mod_plus_full. now rewrite Z.mod_mod by lia.
Qed.
Lemma be_isbyte n v : bytes (be n v).
Proof.
  induction n; [constructor|]. rewrite be_S. constructor; auto.
  red. apply Z.mod_pos_bound. lia.
Qed.

Lemma lor_shift v b : isbyte b -> Z.lor (Z.shiftl v 8) b = v * 256 + b.
Proof.
  intros Hb. red in Hb. rewrite Z.shiftl_mul_pow2 by lia. change (2 ^ 8) with 256.
  rewrite <- Z.lxor_lor, <- Z.add_nocarry_lxor; auto.
  all: apply Z.bits_inj'; intros k Hk; rewrite Z.land_spec, Z.bits_0;
    destruct (Z.ltb_spec k 8) as [L|L];
    [ change 256 with (2 ^ 8); rewrite Z.mul_pow2_bits_low by lia; reflexivity
    | rewrite (Z.bits_above_log2 b); [apply andb_false_r| lia|];
      destruct (Z.eq_dec b 0) as [->|]; [simpl; lia|];
      apply Z.lt_le_trans with 8; auto; apply Z.log2_lt_pow2; lia ].
Qed.

Lemma be_value_acc n v acc :
  fold_left (fun x b => Z.lor (Z.shiftl x 8) b) (be n v) acc
  = acc * 256 ^ Z.of_nat n + v mod 256 ^ Z.of_nat n.
Proof.
  revert acc. induction n; intros acc.
  - cbn. rewrite Z.mod_1_r. lia.
  - rewrite be_S. cbn [fold_left].
    rewrite lor_shift by (red; apply Z.mod_pos_bound; lia). rewrite IHn.
    rewrite Nat2Z.inj_succ, Z.pow_succ_r by lia.
    rewrite (Z.mul_comm 256 (256 ^ Z.of_nat n)).
    assert (0 < 256 ^ Z.of_nat n) by (apply Z.pow_pos_nonneg; lia).
    rewrite (Z.rem_mul_r v) by lia. lia.
Qed.
Lemma be_value_be n v : be_value (be n v) = v mod 2 ^ (8 * Z.of_nat n).
Proof.
  unfold be_value. rewrite be_value_acc. rewrite Z.pow_mul_r by lia. reflexivity.
Qed.
Lemma to_signed_mod n v : (0 < n)%nat ->
  - 2 ^ (8 * Z.of_nat n - 1) <= v < 2 ^ (8 * Z.of_nat n - 1) ->
  to_signed n (v mod 2 ^ (8 * Z.of_nat n)) = v.
Proof.
  intros Hn Hv. unfold to_signed.
  assert (E : 2 ^ (8 * Z.of_nat n) = 2 * 2 ^ (8 * Z.of_nat n - 1)).
  { rewrite <- Z.pow_succ_r by lia. f_equal. lia. }
  rewrite E. set (h := 2 ^ (8 * Z.of_nat n - 1)) in *.
  destruct (Z.ltb_spec v 0) as [Hneg|Hpos].
  - replace (v mod (2 * h)) with (v + 2 * h).
    2:{ symmetry. rewrite <- (Z.mod_small (v + 2 * h) (2 * h)) by lia.
        replace (v + 2 * h) with (v + 1 * (2 * h)) by lia. now rewrite Z_mod_plus_full. }
    destruct (Z.ltb_spec (v + 2 * h) h); lia.
  - rewrite Z.mod_small by lia. destruct (Z.ltb_spec v h); lia.
Qed.

(** * Writer *)

(** State of the writer after [d] has been appended to a buffer of capacity [c]. *)
Definition wst (c : Z) (d : list Z) : writer :=
  Wr (firstn (Z.to_nat c) d) (Z.max 0 (c - len d)).

Lemma wst_nil c : 0 <= c -> wst c [] = Wr [] c.
Proof. intros. unfold wst. rewrite firstn_nil. f_equal. unfold len. simpl. lia. Qed.

Lemma wst_append c d src count :
  0 <= c -> 0 <= count <= len src ->
  Wr (firstn (Z.to_nat c) d ++ firstn (Z.to_nat (Z.min (Z.max 0 (c - len d)) count)) src)
     (Z.max 0 (c - len d) - Z.min (Z.max 0 (c - len d)) count)
  = wst c (d ++ firstn (Z.to_nat count) src).
Proof.
  intros Hc Hn. unfold wst. f_equal.
  - rewrite firstn_app. f_equal. rewrite firstn_firstn. f_equal. unfold len in *. lia.
  - rewrite len_app. unfold len in *. rewrite firstn_length. lia.
Qed.

Lemma appendBytes_wst c d src count :
  0 <= c -> 0 <= count <= len src ->
  appendBytes (wst c d) src count = Some (wst c (d ++ firstn (Z.to_nat count) src), count).
Proof.
  intros Hc Hn. unfold appendBytes. cbn [w_cap w_out wst].
  destruct (Z.ltb_spec (Z.of_nat (length src)) (Z.min (Z.max 0 (c - len d)) count)).
  - unfold len in *. lia.
  - rewrite wst_append by assumption. reflexivity.
Qed.
Lemma appendBytes_all c d src :
  0 <= c -> appendBytes (wst c d) src (len src) = Some (wst c (d ++ src), len src).
Proof.
  intros. rewrite appendBytes_wst; auto. 2:{ pose proof (len_nonneg src); lia. }
  unfold len at 1. rewrite Nat2Z.id, firstn_all. reflexivity.
Qed.
Lemma appendZeros_wst c d n :
  0 <= c -> 0 <= n ->
  appendZeros (wst c d) n = (wst c (d ++ repeat 0 (Z.to_nat n)), n).
Proof.
  intros Hc Hn. unfold appendZeros. cbn [w_cap w_out wst].
  set (k := Z.min (Z.max 0 (c - len d)) n).
  assert (L : len (repeat 0 (Z.to_nat n)) = n) by (unfold len; rewrite repeat_length; lia).
  assert (E : repeat 0 (Z.to_nat k) = firstn (Z.to_nat k) (repeat 0 (Z.to_nat n))).
  { replace (Z.to_nat n) with (Z.to_nat k + Z.to_nat (n - k))%nat by (unfold k; lia).
    rewrite repeat_app. rewrite firstn_app, repeat_length, Nat.sub_diag.
    rewrite firstn_O, app_nil_r. rewrite firstn_all2; auto. rewrite repeat_length. lia. }
  rewrite E. unfold k. rewrite wst_append by lia. f_equal. f_equal.
  f_equal. rewrite firstn_all2; auto. rewrite repeat_length. lia.
Qed.

Lemma appendInteger_wst c d n v :
  0 <= c -> appendInteger (wst c d) n v = Some (wst c (d ++ be n v), Z.of_nat n).
Proof.
  intros. unfold appendInteger. rewrite be_bytes_be, be_mod by lia.
  pose proof (appendBytes_all c d (be n v)) as E. unfold len in E.
  rewrite be_length in E. auto.
Qed.

Lemma appendCString_wst c d s :
  0 <= c -> len (pad4 (s ++ [0])) < 2 ^ 32 ->
  appendCString (wst c d) s = Some (wst c (d ++ pad4 (s ++ [0])), len (pad4 (s ++ [0]))).
Proof.
  intros Hc Hl. unfold appendCString.
  assert (L : Z.of_nat (length s) + 1 = len (s ++ [0])) by (rewrite len_app; reflexivity).
  rewrite L. rewrite len_pad4 in Hl.
  pose proof (len_nonneg (s ++ [0])).
  pose proof (Z.mod_pos_bound (- len (s ++ [0])) 4).
  rewrite u32_small by lia. rewrite appendBytes_all by auto.
  rewrite paddingSize4 by lia. rewrite appendZeros_wst by lia.
  rewrite u32_small by lia. rewrite <- app_assoc. rewrite len_pad4. reflexivity.
Qed.

(** Deciding the tag, once for the writer and once for the reader. *)
Lemma kind_cases tag (P : Prop) :
  (((tag =? cc_i) || (tag =? cc_c) || (tag =? cc_r) = true -> kind tag = Some KInt -> P)) ->
  (((tag =? cc_i) || (tag =? cc_c) || (tag =? cc_r) = false -> tag = cc_m -> kind tag = Some KMidi -> P)) ->
  ((tag = cc_h -> kind tag = Some KInt64 -> P)) ->
  ((tag = cc_f -> kind tag = Some KFloat -> P)) ->
  ((tag = cc_d -> kind tag = Some KDouble -> P)) ->
  ((tag = cc_s \/ tag = cc_S -> kind tag = Some KString -> P)) ->
  ((tag = cc_b -> kind tag = Some KBlob -> P)) ->
  ((tag = cc_T \/ tag = cc_F \/ tag = cc_N \/ tag = cc_I -> kind tag = Some KEmpty -> P)) ->
  (((tag =? cc_i) || (tag =? cc_c) || (tag =? cc_r) = false ->
    (tag =? cc_m) = false -> (tag =? cc_h) = false -> (tag =? cc_f) = false ->
    (tag =? cc_d) = false -> (tag =? cc_s) || (tag =? cc_S) = false -> (tag =? cc_b) = false ->
    (tag =? cc_T) || (tag =? cc_F) || (tag =? cc_N) || (tag =? cc_I) = false ->
    kind tag = None -> P)) -> P.
Proof.
  unfold kind. cbn [existsb].
  change cc_i with 105 in *. change cc_c with 99 in *. change cc_r with 114 in *.
  change cc_m with 109. change cc_h with 104. change cc_f with 102. change cc_d with 100.
  change cc_s with 115. change cc_S with 83. change cc_b with 98. change cc_T with 84.
  change cc_F with 70. change cc_N with 78. change cc_I with 73.
  intros H1 H2 H3 H4 H5 H6 H7 H8 H9.
  destruct (Z.eqb_spec tag 105) as [->|N105]; [apply H1; reflexivity|].
  destruct (Z.eqb_spec tag 99) as [->|N99]; [apply H1; reflexivity|].
  destruct (Z.eqb_spec tag 114) as [->|N114]; [apply H1; reflexivity|].
  destruct (Z.eqb_spec tag 109) as [->|N109]; [apply H2; reflexivity|].
  destruct (Z.eqb_spec tag 104) as [->|N104]; [apply H3; reflexivity|].
  destruct (Z.eqb_spec tag 102) as [->|N102]; [apply H4; reflexivity|].
  destruct (Z.eqb_spec tag 100) as [->|N100]; [apply H5; reflexivity|].
  destruct (Z.eqb_spec tag 115) as [->|N115]; [apply H6; auto; reflexivity|].
  destruct (Z.eqb_spec tag 83) as [->|N83]; [apply H6; auto; reflexivity|].
  destruct (Z.eqb_spec tag 98) as [->|N98]; [apply H7; auto; reflexivity|].
  destruct (Z.eqb_spec tag 84) as [->|N84]; [apply H8; auto; reflexivity|].
  destruct (Z.eqb_spec tag 70) as [->|N70]; [apply H8; auto; reflexivity|].
  destruct (Z.eqb_spec tag 78) as [->|N78]; [apply H8; auto; reflexivity|].
  destruct (Z.eqb_spec tag 73) as [->|N73]; [apply H8; auto; reflexivity|].
  apply H9; reflexivity.
Qed.

Lemma writeArg_wst c d tag a :
  0 <= c -> arg_fits tag a -> len (wire_arg a) < 2 ^ 32 ->
  writeArg (wst c d) tag a = Some (Some (wst c (d ++ wire_arg a), len (wire_arg a))).
Proof.
  intros Hc Hf Hl.
  apply (kind_cases tag); intros; unfold arg_fits in Hf;
    match goal with H : kind _ = _ |- _ => rewrite H in Hf end;
    destruct a; try contradiction; unfold writeArg.
  - rewrite H. cbn [wire_arg]. unfold len; rewrite be_length.
    rewrite appendInteger_wst by auto. reflexivity.
  - rewrite H. subst tag. cbn [wire_arg Z.eqb orb]. destruct Hf as [L _].
    pose proof (appendBytes_all c d m Hc) as E. unfold len in *. rewrite L in *.
    change 4 with (Z.of_nat 4). change (cc_m =? cc_m) with true. cbn [Z.of_nat] in *. 
    rewrite E. reflexivity.
  - subst tag. cbn -[appendInteger wst be]. rewrite appendInteger_wst by auto.
    unfold len; rewrite be_length. reflexivity.
  - subst tag. cbn -[appendInteger wst be]. rewrite appendInteger_wst by auto.
    unfold len; rewrite be_length. reflexivity.
  - subst tag. cbn -[appendInteger wst be double_through_float].
    rewrite appendInteger_wst by auto.
    unfold len; rewrite be_length. reflexivity.
  - cbn [wire_arg] in *.
    destruct H; subst tag; cbn -[appendCString wst pad4 Z.pow len app];
      rewrite appendCString_wst by auto; reflexivity.
  - subst tag. cbn [wire_arg] in *. cbn -[appendInteger appendBytes appendZeros wst be pad4 len app Z.of_nat u32].
    rewrite appendInteger_wst by auto. fold (len data).
    rewrite appendBytes_all by auto.
    rewrite len_app in *. rewrite len_pad4 in *.
    assert (L4 : len (be 4 (len data)) = 4) by (unfold len; now rewrite be_length).
    rewrite L4 in *. pose proof (len_nonneg data).
    pose proof (Z.mod_pos_bound (- len data) 4).
    rewrite paddingSize4 by lia. rewrite appendZeros_wst by lia.
    unfold pad4. rewrite <- !app_assoc. rewrite u32_small by (cbn [Z.of_nat]; lia).
    do 3 f_equal. change (Z.of_nat 4) with 4. lia.
  - destruct H as [?|[?|[?|?]]]; subst tag; cbn; rewrite app_nil_r; reflexivity.
Qed.

Lemma wire_arg_len a tag : arg_fits tag a -> len (wire_arg a) mod 4 = 0.
Proof.
  intros Hf. destruct a; cbn [wire_arg].
  - unfold len; now rewrite be_length.
  - unfold len; now rewrite be_length.
  - unfold len; now rewrite be_length.
  - unfold len; now rewrite be_length.
  - apply len_pad4_mod.
  - rewrite len_app. rewrite Z.add_mod, len_pad4_mod by lia.
    unfold len; now rewrite be_length.
  - unfold arg_fits in Hf. destruct (kind tag) as [[]|]; try contradiction.
    destruct Hf as [E _]. unfold len. now rewrite E.
  - reflexivity.
Qed.

Lemma writeArgs_wst c sig : forall args d n,
  0 <= c -> Forall2 arg_fits sig args -> 0 <= n ->
  n + len (concat (map wire_arg args)) < 2 ^ 32 ->
  writeArgs (wst c d) n sig args
  = Some (wst c (d ++ concat (map wire_arg args)), n + len (concat (map wire_arg args))).
Proof.
  induction sig as [|tag sig IH]; intros args d n Hc HF Hn Hl; inversion HF; subst; clear HF.
  - cbn. rewrite app_nil_r, Z.add_0_r. reflexivity.
  - cbn [writeArgs map concat] in *. rewrite len_app in *.
    pose proof (len_nonneg (wire_arg y)).
    pose proof (len_nonneg (concat (map wire_arg l'))).
    rewrite writeArg_wst by (auto; lia).
    rewrite u32_small by lia. rewrite IH by (auto; lia).
    rewrite <- app_assoc. do 2 f_equal. lia.
Qed.

Lemma concat_wire_mod sig args :
  Forall2 arg_fits sig args -> len (concat (map wire_arg args)) mod 4 = 0.
Proof.
  induction 1; [reflexivity|]. cbn [map concat]. rewrite len_app, Z.add_mod by lia.
  rewrite IHForall2. erewrite wire_arg_len by eauto. reflexivity.
Qed.

Lemma prepare_wire c path sig args :
  0 <= c -> message_ok path sig args -> len (wire path sig args) < 2 ^ 32 ->
  prepare_message c path sig args
  = Some (firstn (Z.to_nat c) (wire path sig args), len (wire path sig args)).
Proof.
  intros Hc (Hp & Hs & HF) Hl. unfold prepare_message. rewrite <- wst_nil by auto.
  unfold wire in *. rewrite !len_app in Hl.
  set (P := pad4 (path ++ [0])) in *.
  set (A := concat (map wire_arg args)) in *.
  pose proof (len_nonneg P). pose proof (len_nonneg A).
  pose proof (len_nonneg (pad4 ([44] ++ sig ++ [0]))).
  rewrite appendCString_wst by (fold P; auto; lia). fold P.
  replace (appendBytes (wst c ([] ++ P)) [cc_comma] 1)
    with (Some (wst c (P ++ [44]), 1)).
  2:{ symmetry. change 1 with (len [cc_comma]). rewrite appendBytes_all by auto. reflexivity. }
  assert (L : Z.of_nat (length sig) + 1 = len (sig ++ [0])) by (rewrite len_app; reflexivity).
  assert (L2 : Z.of_nat (length sig) + 2 = len ([44] ++ sig ++ [0])).
  { rewrite !len_app. change (len [44]) with 1. change (len [0]) with 1. unfold len. lia. }
  rewrite L, L2. rewrite len_pad4 in *. rewrite (len_app [44]) in *.
  change (len [44]) with 1 in *.
  pose proof (len_nonneg (sig ++ [0])).
  pose proof (Z.mod_pos_bound (- (1 + len (sig ++ [0]))) 4).
  rewrite u32_small by lia. rewrite appendBytes_all by auto.
  rewrite (u32_small (1 + _)) by lia. rewrite paddingSize4 by lia.
  rewrite appendZeros_wst by lia.
  rewrite u32_small by lia.
  rewrite writeArgs_wst by (auto; fold A; lia). fold A. cbn [w_out wst].
  assert (E : ((P ++ [44]) ++ sig ++ [0]) ++ repeat 0 (Z.to_nat ((- (1 + len (sig ++ [0]))) mod 4))
              = P ++ pad4 ([44] ++ sig ++ [0])).
  { unfold pad4. rewrite (len_app [44]). change (len [44]) with 1.
    rewrite <- !app_assoc. reflexivity. }
  f_equal. f_equal.
  - unfold wst, w_out. f_equal. rewrite E. rewrite <- !app_assoc. reflexivity.
  - rewrite !len_app, len_pad4, !len_app. change (len [44]) with 1. change (len [0]) with 1.
    rewrite len_app in *. change (len [0]) with 1 in *. lia.
Qed.

(** The size is a multiple of four. *)
Lemma wire_mod4 path sig args :
  message_ok path sig args -> len (wire path sig args) mod 4 = 0.
Proof.
  intros (_ & _ & HF). unfold wire. rewrite !len_app.
  rewrite Z.add_mod, len_pad4_mod by lia. rewrite Z.add_0_l, Z.mod_mod by lia.
  rewrite Z.add_mod, len_pad4_mod by lia. rewrite Z.add_0_l, Z.mod_mod by lia.
  eapply concat_wire_mod; eauto.
Qed.

(** * Reader *)

Lemma skipn_app_len {A} (a b : list A) : skipn (length a) (a ++ b) = b.
Proof. rewrite skipn_app, skipn_all, Nat.sub_diag. reflexivity. Qed.
Lemma firstn_app_len {A} (a b : list A) : firstn (length a) (a ++ b) = a.
Proof. rewrite firstn_app, Nat.sub_diag, firstn_all. cbn. apply app_nil_r. Qed.
Lemma zskip_app a b : zskip (len a) (a ++ b) = b.
Proof. unfold zskip, len. rewrite Nat2Z.id. apply skipn_app_len. Qed.
Lemma span_bytes_app a b c : span_bytes (a ++ b ++ c) (len a, len b) = b.
Proof.
  unfold span_bytes. cbn [fst snd]. rewrite zskip_app. unfold len. rewrite Nat2Z.id.
  apply firstn_app_len.
Qed.

Lemma strnlen_cstring s rest n :
  cstring s -> (length s < n)%nat -> strnlen_list (s ++ 0 :: rest) n = Some (length s).
Proof.
  intros Hs. revert n. induction Hs as [|b s Hb Hs IH]; intros n Hn.
  - destruct n; [cbn in Hn; lia|]. reflexivity.
  - destruct n; [cbn in Hn; lia|]. cbn [strnlen_list app].
    destruct (Z.eqb_spec b 0); [lia|]. rewrite IH; [reflexivity|]. cbn in Hn. lia.
Qed.

Lemma pad4_cons s l : pad4 (s ++ [0]) ++ l
  = s ++ 0 :: (repeat 0 (Z.to_nat ((- len (s ++ [0])) mod 4)) ++ l).
Proof. unfold pad4. rewrite <- !app_assoc. reflexivity. Qed.

Lemma extractString_ok pre s post aa ac :
  cstring s -> len (pre ++ pad4 (s ++ [0]) ++ post) < 2 ^ 32 ->
  extractString (pre ++ pad4 (s ++ [0]) ++ post)
    (Rd (len pre) (len (pad4 (s ++ [0]) ++ post)) aa ac)
  = ROk (len pre, len s, Rd (len (pre ++ pad4 (s ++ [0]))) (len post) aa ac).
Proof.
  intros Hs Hl. unfold extractString. cbn [o_pos o_cap o_aaddr o_acap].
  rewrite zskip_app. rewrite pad4_cons.
  rewrite strnlen_cstring; auto.
  2:{ rewrite <- pad4_cons. unfold len. rewrite Nat2Z.id, app_length.
      unfold pad4. rewrite !app_length. cbn. lia. }
  rewrite <- pad4_cons. fold (len s). rewrite !len_app in Hl.
  pose proof (len_nonneg pre). pose proof (len_nonneg post). pose proof (len_nonneg s).
  assert (L : len s + 1 = len (s ++ [0])) by (rewrite len_app; reflexivity).
  rewrite len_pad4 in Hl. rewrite <- L in Hl.
  pose proof (Z.mod_pos_bound (- (len s + 1)) 4).
  rewrite !len_app. rewrite !len_pad4. rewrite <- !L.
  rewrite (u32_small (len s + 1)) by lia.
  rewrite paddingSize4 by lia. rewrite u32_small by lia.
  destruct (Z.eqb_spec (len s) (len s + 1 + - (len s + 1) mod 4 + len post)); [lia|].
  destruct (Z.ltb_spec (len s + 1 + - (len s + 1) mod 4 + len post)
              (len s + 1 + - (len s + 1) mod 4)); [lia|].
  do 3 f_equal. lia.
Qed.

Lemma extractUnsigned_ok pre l post n aa ac :
  length l = n ->
  extractUnsigned (pre ++ l ++ post) n (Rd (len pre) (len (l ++ post)) aa ac)
  = ROk (be_value l, Rd (len (pre ++ l)) (len post) aa ac).
Proof.
  intros <-. unfold extractUnsigned. cbn [o_pos o_cap o_aaddr o_acap].
  rewrite zskip_app, firstn_app_len. rewrite Nat.ltb_irrefl.
  pose proof (len_nonneg post). rewrite !len_app. fold (len l).
  destruct (Z.ltb_spec (len l + len post) (len l)); [lia|]. do 3 f_equal. lia.
Qed.

(** The part of a message that follows: reading one argument. *)
Definition blob_count (a : osc_arg) : Z := if is_blob a then 1 else 0.

Lemma allocate_aligned p c aa ac count esz :
  aa mod 8 = 0 -> 0 < aa -> 0 <= count * esz < 2 ^ 32 -> count * esz <= ac ->
  allocate (Rd p c aa ac) count esz
  = Some (aa, count * esz, Rd p c (aa + count * esz) (ac - count * esz)).
Proof.
  intros Ha Hp Hs Hc. unfold allocate. cbn [o_pos o_cap o_aaddr o_acap].
  rewrite paddingSize8 by lia. rewrite Z.mod_opp_l_z by (auto; lia).
  rewrite u32_small by lia. rewrite !Z.add_0_l, !Z.add_0_r.
  destruct (Z.ltb_spec ac (count * esz)); [lia|].
  destruct (Z.eqb_spec aa 0); [lia|]. reflexivity.
Qed.

Lemma storeArg_ok asize i x r : (i + 1) * 8 <= asize -> storeArg asize i x r = ROk (x, r).
Proof. intros H. unfold storeArg. apply Z.leb_le in H. now rewrite H. Qed.

Lemma bytes_of_cstring s : cstring s -> bytes s.
Proof. intros H. eapply Forall_impl; [|exact H]. cbv beta. intros b Hb. red. lia. Qed.

Lemma double_range b : 0 <= double_through_float b < 2 ^ 64.
Proof. unfold double_through_float. apply Z.mod_pos_bound. lia. Qed.

Lemma readArg_ok pre post asize i tag a aa ac :
  arg_fits tag a -> (i + 1) * 8 <= asize ->
  aa mod 8 = 0 -> 0 < aa -> 16 * blob_count a <= ac ->
  len (pre ++ wire_arg a ++ post) < 2 ^ 32 ->
  exists x,
    readArg (pre ++ wire_arg a ++ post) asize i tag
      (Rd (len pre) (len (wire_arg a ++ post)) aa ac)
    = ROk (x, Rd (len (pre ++ wire_arg a)) (len post)
                 (aa + 16 * blob_count a) (ac - 16 * blob_count a))
    /\ arg_received (pre ++ wire_arg a ++ post) a x.
Proof.
  intros Hf Hi Ha Hp Hac Hl.
  apply (kind_cases tag); intros; unfold arg_fits in Hf;
    match goal with H : kind _ = _ |- _ => rewrite H in Hf end;
    destruct a; try contradiction; unfold readArg;
    unfold blob_count in *; cbn [is_blob] in *; rewrite ?Z.mul_0_r, ?Z.add_0_r, ?Z.sub_0_r.
  - rewrite H. cbn [wire_arg]. rewrite extractUnsigned_ok by apply be_length.
    cbn [rbind]. rewrite storeArg_ok by auto. eexists; split; [reflexivity|].
    rewrite be_value_be. cbn [arg_received]. apply to_signed_mod; [lia|]. exact Hf.
  - rewrite H. subst tag. change (cc_m =? cc_m) with true. cbn [wire_arg].
    destruct Hf as [L4 Hb]. cbn [o_pos o_cap o_aaddr o_acap].
    rewrite zskip_app.
    replace (firstn 4 (m ++ post)) with m by (rewrite <- L4; symmetry; apply firstn_app_len).
    rewrite L4, Nat.ltb_irrefl.
    pose proof (len_nonneg post). rewrite !len_app.
    assert (E : len m = 4) by (unfold len; now rewrite L4). rewrite E.
    destruct (Z.ltb_spec (4 + len post) 4); [lia|].
    rewrite storeArg_ok by auto. exists (XMidi m); split; [|reflexivity].
    do 3 f_equal. lia.
  - subst tag. cbn -[extractUnsigned storeArg be len app to_signed arg_received].
    rewrite extractUnsigned_ok by apply be_length.
    cbn [rbind]. rewrite storeArg_ok by auto. eexists; split; [reflexivity|].
    rewrite be_value_be. cbn [arg_received]. apply to_signed_mod; [lia|]. exact Hf.
  - subst tag. cbn -[extractUnsigned storeArg be len app arg_received].
    rewrite extractUnsigned_ok by apply be_length.
    cbn [rbind]. rewrite storeArg_ok by auto. eexists; split; [reflexivity|].
    rewrite be_value_be. cbn [arg_received]. apply Z.mod_small. exact Hf.
  - subst tag. cbn -[extractUnsigned storeArg be len app arg_received double_through_float].
    rewrite extractUnsigned_ok by apply be_length.
    cbn [rbind]. rewrite storeArg_ok by auto. eexists; split; [reflexivity|].
    rewrite be_value_be. cbn [arg_received]. apply Z.mod_small. apply double_range.
  - cbn [wire_arg] in *.
    destruct H; subst tag; cbn -[extractString storeArg len app arg_received pad4];
      (rewrite extractString_ok by auto);
      cbn [rbind]; (rewrite storeArg_ok by auto); (eexists; split; [reflexivity|]);
      cbn [arg_received]; rewrite pad4_cons;
      (split; [apply span_bytes_app|split; [reflexivity|]]);
      rewrite <- len_app; unfold len; rewrite Nat2Z.id;
      rewrite app_assoc, nth_middle; reflexivity.
  - subst tag. cbn -[allocate extractUnsigned storeArg be len app arg_received Z.mul Z.add pad4 rbind Z.pow Z.sub].
    rewrite allocate_aligned by lia. rewrite storeArg_ok by auto. cbn [rbind].
    cbn [wire_arg] in *. rewrite <- app_assoc in *.
    rewrite extractUnsigned_ok by apply be_length. cbn [rbind].
    rewrite be_value_be. change (2 ^ (8 * Z.of_nat 4)) with (2 ^ 32).
    pose proof (len_nonneg pre). pose proof (len_nonneg post). pose proof (len_nonneg data).
    rewrite !len_app in Hl. rewrite len_pad4 in Hl.
    assert (E4 : len (be 4 (len data)) = 4) by (unfold len; now rewrite be_length).
    pose proof (Z.mod_pos_bound (- len data) 4).
    rewrite (Z.mod_small (len data)) by lia.
    cbn [o_pos o_cap o_aaddr o_acap]. rewrite paddingSize4 by lia.
    rewrite u32_small by lia. rewrite !len_app, len_pad4.
    destruct (Z.ltb_spec (len data + - len data mod 4 + len post)
                (len data + - len data mod 4)); [lia|].
    exists (XBlob (len pre + 4) (len data)); split.
    + rewrite E4. do 3 f_equal; lia.
    + cbn [arg_received]. split; [|reflexivity].
      rewrite <- E4, <- len_app. unfold pad4. rewrite app_assoc. rewrite <- (app_assoc data).
      apply span_bytes_app.
  - destruct H as [?|[?|[?|?]]]; subst tag; exists XEmpty; (split; [|exact I]);
      cbn -[len app]; rewrite app_nil_r; reflexivity.
Qed.

Lemma arg_received_app pre w post a x : arg_received (pre ++ w ++ post) a x ->
  arg_received ((pre ++ w) ++ post) a x.
Proof. now rewrite app_assoc. Qed.

Definition blobs (args : list osc_arg) : Z := Z.of_nat (length (filter is_blob args)).
Lemma blobs_cons a args : blobs (a :: args) = blob_count a + blobs args.
Proof. unfold blobs, blob_count. cbn [filter]. destruct (is_blob a); cbn [length]; lia. Qed.

Lemma aligned_16 aa k : aa mod 8 = 0 -> (aa + 16 * k) mod 8 = 0.
Proof.
  intros H. replace (aa + 16 * k) with (aa + (2 * k) * 8) by lia. now rewrite Z_mod_plus_full.
Qed.

Lemma readArgs_ok sig : forall args pre post asize i aa ac,
  Forall2 arg_fits sig args -> (i + len sig) * 8 <= asize ->
  aa mod 8 = 0 -> 0 < aa -> 16 * blobs args <= ac ->
  len (pre ++ concat (map wire_arg args) ++ post) < 2 ^ 32 ->
  exists xs,
    readArgs (pre ++ concat (map wire_arg args) ++ post) asize i sig
      (Rd (len pre) (len (concat (map wire_arg args) ++ post)) aa ac)
    = ROk (xs, Rd (len (pre ++ concat (map wire_arg args))) (len post)
                 (aa + 16 * blobs args) (ac - 16 * blobs args))
    /\ Forall2 (arg_received (pre ++ concat (map wire_arg args) ++ post)) args xs.
Proof.
  induction sig as [|tag sig IH]; intros args pre post asize i aa ac HF Hi Ha Hp Hac Hl;
    inversion HF; subst; clear HF.
  - cbn [map concat]. exists []. split; [|constructor]. cbn -[len app].
    rewrite app_nil_r, Z.add_0_r, Z.sub_0_r. reflexivity.
  - rename y into a, l' into args. cbn [map concat] in *. rewrite <- app_assoc in *.
    rewrite blobs_cons in *.
    assert (Hb : 0 <= blob_count a) by (unfold blob_count; destruct (is_blob a); lia).
    assert (0 <= blobs args) by (unfold blobs; lia).
    assert (Hls : len (tag :: sig) = 1 + len sig) by (unfold len; cbn [length]; lia).
    pose proof (len_nonneg sig).
    destruct (readArg_ok pre (concat (map wire_arg args) ++ post) asize i tag a aa ac)
      as (x & E & R); auto; try lia.
    cbn [readArgs]. rewrite E. cbn [rbind].
    destruct (IH args (pre ++ wire_arg a) post asize (i + 1)
                (aa + 16 * blob_count a) (ac - 16 * blob_count a)) as (xs & E' & R');
      auto; try lia.
    + now apply aligned_16.
    + rewrite <- !app_assoc. auto.
    + rewrite <- !app_assoc in E'. rewrite E'. cbn [rbind].
      exists (x :: xs). split.
      * do 3 f_equal; lia.
      * constructor; auto. now rewrite <- app_assoc in R'.
Qed.

Lemma extract_wire path sig args rest aaddr acap :
  message_ok path sig args ->
  0 < aaddr -> acap < 2 ^ 32 -> args_room aaddr sig args <= acap ->
  len (wire path sig args ++ rest) < 2 ^ 32 ->
  exists e,
    extract_message (wire path sig args ++ rest) aaddr acap = ROk e
    /\ x_consumed e = len (wire path sig args)
    /\ x_path e = (0, len path) /\ x_sig e = (len (pad4 (path ++ [0])) + 1, len sig)
    /\ span_bytes (wire path sig args ++ rest) (x_path e) = path
    /\ span_bytes (wire path sig args ++ rest) (x_sig e) = sig
    /\ Forall2 (arg_received (wire path sig args ++ rest)) args (x_args e).
Proof.
  intros (Hp & Hs & HF) Haddr Hcap Hroom Hl.
  unfold extract_message. fold (len (wire path sig args ++ rest)).
  unfold wire in *. set (P := pad4 (path ++ [0])) in *.
  set (A := concat (map wire_arg args)) in *.
  assert (Hcs : cstring ([44] ++ sig)) by (constructor; auto; lia).
  rewrite <- !app_assoc in *. cbn [app] in *.
  change (44 :: sig ++ [0]) with ((44 :: sig) ++ [0]) in *.
  set (S := pad4 ((44 :: sig) ++ [0])) in *.
  pose proof (extractString_ok [] path (S ++ A ++ rest) aaddr acap Hp) as E1.
  cbn [app] in E1. fold P in E1. change (len []) with 0 in E1. rewrite E1 by auto. clear E1.
  cbn [rbind].
  pose proof (extractString_ok P (44 :: sig) (A ++ rest) aaddr acap Hcs) as E2.
  fold S in E2. rewrite E2 by auto. clear E2. cbn [rbind].
  assert (E3 : nth (Z.to_nat (len P)) (P ++ S ++ A ++ rest) 0 = 44).
  { unfold len. rewrite Nat2Z.id. unfold S. rewrite pad4_cons. cbn [app].
    apply nth_middle. }
  rewrite E3. change (negb (44 =? cc_comma)) with false. cbv iota.
  assert (Hls : len (44 :: sig) = 1 + len sig) by (unfold len; cbn [length]; lia).
  rewrite Hls. replace (1 + len sig - 1) with (len sig) by lia.
  pose proof (len_nonneg sig).
  unfold args_room in Hroom. fold (blobs args) in Hroom.
  assert (0 <= blobs args) by (unfold blobs; lia).
  pose proof (Z.mod_pos_bound (- aaddr) 8).
  unfold allocate. cbn [o_pos o_cap o_aaddr o_acap]. rewrite paddingSize8 by lia.
  rewrite u32_small by lia.
  destruct (Z.ltb_spec acap (- aaddr mod 8 + len sig * 8)); [lia|].
  destruct (Z.eqb_spec (aaddr + - aaddr mod 8) 0); [lia|].
  assert (Esig : span_bytes (P ++ S ++ A ++ rest) (len P + 1, len sig) = sig).
  { change 1 with (len [44]). rewrite <- len_app.
    assert (exists X, P ++ S ++ A ++ rest = (P ++ [44]) ++ sig ++ X) as [X ->].
    { unfold S, pad4. eexists. rewrite <- !app_assoc. cbn [app]. reflexivity. }
    apply span_bytes_app. }
  rewrite Esig.
  destruct (readArgs_ok sig args (P ++ S) rest (len sig * 8) 0
              (aaddr + - aaddr mod 8 + len sig * 8)
              (acap - (- aaddr mod 8 + len sig * 8))) as (xs & E & R); auto; try lia.
  - rewrite Z.add_mod by lia. rewrite Z.mod_mul by lia.
    rewrite Z.add_0_r, Z.mod_mod by lia. rewrite Z.add_mod_idemp_r by lia.
    replace (aaddr + - aaddr) with 0 by lia. reflexivity.
  - fold A. rewrite <- app_assoc. auto.
  - fold A in E, R. rewrite <- !app_assoc in E, R. rewrite E. cbn [rbind].
    eexists. split; [reflexivity|]. cbn [x_consumed x_path x_sig x_args o_pos].
    split; [now rewrite app_assoc|]. split; [reflexivity|]. split; [reflexivity|].
    split; [|split; auto].
    unfold P. rewrite pad4_cons. apply (span_bytes_app [] path).
Qed.

(** * Safety of the reader on arbitrary bytes *)

Definition rinv (src : list Z) (r : reader) : Prop :=
  0 <= o_pos r /\ 0 <= o_cap r /\ o_pos r + o_cap r = len src.

(** A span that lies in the source and is followed there by its NUL. *)
Definition string_in (src : list Z) (sp : Z * Z) : Prop :=
  0 <= fst sp /\ 0 <= snd sp /\ fst sp + snd sp < len src /\
  nth (Z.to_nat (fst sp + snd sp)) src 1 = 0.

Lemma nth_skipn_ {A} n m (l : list A) d : nth m (skipn n l) d = nth (n + m) l d.
Proof.
  revert l; induction n; intros l; cbn; auto. destruct l; cbn; auto.
  destruct m; reflexivity.
Qed.

Lemma strnlen_spec n : forall l, (n <= length l)%nat ->
  exists k, strnlen_list l n = Some k /\ (k <= n)%nat /\
    ((k < n)%nat -> nth k l 1 = 0).
Proof.
  induction n; intros l Hn.
  - exists 0%nat. split; [reflexivity|]. split; [lia|]. intros; lia.
  - destruct l as [|b l]; [cbn in Hn; lia|]. cbn [strnlen_list].
    destruct (Z.eqb_spec b 0) as [->|Hb].
    + exists 0%nat. split; [reflexivity|]. split; [lia|]. reflexivity.
    + destruct (IHn l) as (k & E & L & N); [cbn in Hn; lia|]. rewrite E. cbn [option_map].
      exists (S k). repeat split; auto; try lia. intros. cbn. apply N. lia.
Qed.

Lemma extractString_safe src r : rinv src r -> len src < 2 ^ 32 ->
  match extractString src r with
  | ROk (off, n, r') =>
    string_in src (off, n) /\ off = o_pos r /\ rinv src r' /\ o_aaddr r' = o_aaddr r
    /\ o_acap r' = o_acap r
  | RInvalid => True
  | _ => False
  end.
Proof.
  intros (H1 & H2 & H3) Hl. unfold extractString.
  destruct (strnlen_spec (Z.to_nat (o_cap r)) (zskip (o_pos r) src)) as (k & E & L & N).
  { unfold zskip. rewrite skipn_length. unfold len in *. lia. }
  rewrite E.
  destruct (Z.eqb_spec (Z.of_nat k) (o_cap r)); auto.
  set (padlen := u32 _). destruct (Z.ltb_spec (o_cap r) padlen); auto.
  assert (0 <= padlen) by (unfold padlen, u32; apply Z.mod_pos_bound; lia).
  unfold rinv, string_in. cbn [o_pos o_cap o_aaddr o_acap fst snd].
  unfold zskip in N. rewrite nth_skipn_ in N.
  replace (Z.to_nat (o_pos r + Z.of_nat k)) with (Z.to_nat (o_pos r) + k)%nat by lia.
  repeat split; auto; try lia; apply N; lia.
Qed.

Lemma fold_be_range l : bytes l -> forall acc, 0 <= acc ->
  0 <= fold_left (fun v b => Z.lor (Z.shiftl v 8) b) l acc
  < (acc + 1) * 256 ^ len l.
Proof.
  induction 1 as [|b l Hb Hl IH]; intros acc Hacc.
  - cbn. lia.
  - cbn [fold_left]. rewrite lor_shift by auto. red in Hb.
    specialize (IH (acc * 256 + b)).
    replace (len (b :: l)) with (Z.succ (len l)) by (unfold len; cbn [length]; lia).
    rewrite Z.pow_succ_r by apply len_nonneg.
    assert (0 < 256 ^ len l) by (apply Z.pow_pos_nonneg; unfold len; lia).
    split; [lia|]. eapply Z.lt_le_trans; [apply IH; lia|].
    replace ((acc + 1) * (256 * 256 ^ len l)) with ((acc * 256 + 256) * 256 ^ len l) by lia.
    apply Z.mul_le_mono_nonneg_r; lia.
Qed.
Lemma be_value_range l : bytes l -> 0 <= be_value l < 256 ^ len l.
Proof. intros H. pose proof (fold_be_range l H 0). unfold be_value. lia. Qed.

Lemma bytes_skipn n l : bytes l -> bytes (skipn n l).
Proof.
  intros H. revert n; induction H; intros [|n]; cbn; auto; constructor; auto.
Qed.
Lemma bytes_firstn n l : bytes l -> bytes (firstn n l).
Proof.
  intros H. revert n; induction H; intros [|n]; cbn; auto; constructor; auto. apply IHForall.
Qed.

Lemma extractUnsigned_safe src n r : rinv src r -> bytes src ->
  match extractUnsigned src n r with
  | ROk (v, r') => 0 <= v < 256 ^ Z.of_nat n /\ rinv src r' /\ o_aaddr r' = o_aaddr r
    /\ o_acap r' = o_acap r
  | RInvalid => True
  | _ => False
  end.
Proof.
  intros (H1 & H2 & H3) Hb. unfold extractUnsigned.
  destruct (Z.ltb_spec (o_cap r) (Z.of_nat n)); auto.
  assert (L : length (firstn n (zskip (o_pos r) src)) = n).
  { rewrite firstn_length. unfold zskip. rewrite skipn_length. unfold len in *. lia. }
  rewrite L, Nat.ltb_irrefl. unfold rinv. cbn [o_pos o_cap o_aaddr o_acap].
  pose proof (be_value_range (firstn n (zskip (o_pos r) src))) as R.
  unfold len in R. rewrite L in R.
  assert (0 <= be_value (firstn n (zskip (o_pos r) src)) < 256 ^ Z.of_nat n).
  { apply R. apply bytes_firstn, bytes_skipn, Hb. }
  repeat split; auto; lia.
Qed.

(** What is promised about a stored argument. *)
Definition rarg_in (src : list Z) (x : rarg) : Prop :=
  match x with
  | XString off n => string_in src (off, n)
  | XBlob off n => 0 <= off /\ 0 <= n < 2 ^ 32 /\ (n <= 2 ^ 32 - 4 -> off + n <= len src)
  | XMidi m => length m = 4%nat
  | _ => True
  end.

Lemma allocate_inv src r count esz a size r' :
  rinv src r -> allocate r count esz = Some (a, size, r') -> rinv src r'.
Proof.
  unfold allocate. intros H.
  destruct (_ <? _); [discriminate|]. destruct (_ =? _); [discriminate|].
  intros E. injection E as <- <- <-. exact H.
Qed.

Lemma readArg_safe src asize i tag r :
  rinv src r -> bytes src -> len src < 2 ^ 32 -> (i + 1) * 8 <= asize ->
  match readArg src asize i tag r with
  | ROk (x, r') => rarg_in src x /\ rinv src r'
  | RUndef => False
  | _ => True
  end.
Proof.
  intros Hr Hb Hl Hi. unfold readArg.
  pose proof (extractUnsigned_safe src 4 r Hr Hb) as U4.
  pose proof (extractUnsigned_safe src 8 r Hr Hb) as U8.
  pose proof (extractString_safe src r Hr Hl) as US.
  assert (forall x r, storeArg asize i x r = ROk (x, r)) as St
    by (intros; now apply storeArg_ok).
  destruct (_ || _ || _).
  { destruct (extractUnsigned src 4 r) as [[v r']| | |]; cbn [rbind]; auto.
    rewrite St. cbn. tauto. }
  destruct (tag =? cc_m).
  { destruct Hr as (H1 & H2 & H3). destruct (Z.ltb_spec (o_cap r) 4); auto.
    assert (L : length (firstn 4 (zskip (o_pos r) src)) = 4%nat).
    { rewrite firstn_length. unfold zskip. rewrite skipn_length. unfold len in *. lia. }
    rewrite L. cbn [Nat.ltb Nat.leb]. rewrite St. split; [exact L|].
    unfold rinv. cbn [o_pos o_cap]. lia. }
  destruct (tag =? cc_h).
  { destruct (extractUnsigned src 8 r) as [[v r']| | |]; cbn [rbind]; auto.
    rewrite St. cbn. tauto. }
  destruct (tag =? cc_f).
  { destruct (extractUnsigned src 4 r) as [[v r']| | |]; cbn [rbind]; auto.
    rewrite St. cbn. tauto. }
  destruct (tag =? cc_d).
  { destruct (extractUnsigned src 8 r) as [[v r']| | |]; cbn [rbind]; auto.
    rewrite St. cbn. tauto. }
  destruct (_ || _).
  { destruct (extractString src r) as [[[off n] r']| | |]; cbn [rbind]; auto.
    rewrite St. cbn [rarg_in]. tauto. }
  destruct (tag =? cc_b).
  { destruct (allocate r 1 16) as [[[a sz] r1]|] eqn:EA; auto.
    assert (Hr1 : rinv src r1) by (eapply allocate_inv; eauto).
    rewrite St. cbn [rbind].
    pose proof (extractUnsigned_safe src 4 r1 Hr1 Hb) as U.
    destruct (extractUnsigned src 4 r1) as [[n r2]| | |]; cbn [rbind]; auto.
    destruct U as (Hn & (H1 & H2 & H3) & _).
    change (256 ^ Z.of_nat 4) with (2 ^ 32) in Hn.
    rewrite paddingSize4 by lia.
    set (p := u32 (n + - n mod 4)).
    assert (0 <= p) by (unfold p, u32; apply Z.mod_pos_bound; lia).
    destruct (Z.ltb_spec (o_cap r2) p); auto.
    split.
    - cbn [rarg_in]. split; [auto|]. split; [lia|]. intros Hn4.
      assert (p = n + - n mod 4).
      { unfold p. apply u32_small. pose proof (Z.mod_pos_bound (- n) 4). split; [lia|].
        destruct (Z.eq_dec n (2 ^ 32 - 4)) as [->|]; [reflexivity|].
        destruct (Z.lt_ge_cases n (2 ^ 32 - 6)); [lia|].
        assert (n = 2 ^ 32 - 6 \/ n = 2 ^ 32 - 5) as [->| ->] by lia; reflexivity. }
      pose proof (Z.mod_pos_bound (- n) 4). lia.
    - unfold rinv. cbn [o_pos o_cap]. lia. }
  destruct (_ || _); [|auto]. cbn [rarg_in]. auto.
Qed.

Lemma readArgs_safe src asize sig : forall i r,
  rinv src r -> bytes src -> len src < 2 ^ 32 -> (i + len sig) * 8 <= asize ->
  match readArgs src asize i sig r with
  | ROk (xs, r') => Forall (rarg_in src) xs /\ length xs = length sig /\ rinv src r'
  | RUndef => False
  | _ => True
  end.
Proof.
  induction sig as [|tag sig IH]; intros i r Hr Hb Hl Hi.
  - cbn. auto.
  - cbn [readArgs]. 
    assert (Hls : len (tag :: sig) = 1 + len sig) by (unfold len; cbn [length]; lia).
    pose proof (len_nonneg sig).
    pose proof (readArg_safe src asize i tag r Hr Hb Hl ltac:(lia)) as S1.
    destruct (readArg src asize i tag r) as [[x r1]| | |]; cbn [rbind]; auto.
    destruct S1 as [Hx Hr1].
    pose proof (IH (i + 1) r1 Hr1 Hb Hl ltac:(lia)) as S2.
    destruct (readArgs src asize (i + 1) sig r1) as [[xs r2]| | |]; cbn [rbind]; auto.
    destruct S2 as (A & B & C). repeat split; auto; try apply C. cbn. congruence.
Qed.

Lemma extract_safe src aaddr acap :
  bytes src -> len src <= 2 ^ 29 ->
  match extract_message src aaddr acap with
  | ROk e => string_in src (x_path e) /\ string_in src (x_sig e)
      /\ 0 <= x_consumed e <= len src
      /\ Z.of_nat (length (x_args e)) = snd (x_sig e) /\ Forall (rarg_in src) (x_args e)
  | RUndef => False
  | _ => True
  end.
Proof.
  intros Hb Hl29. assert (Hl : len src < 2 ^ 32) by lia.
  unfold extract_message. fold (len src).
  assert (Hr0 : rinv src (Rd 0 (len src) aaddr acap)).
  { unfold rinv. cbn [o_pos o_cap]. pose proof (len_nonneg src). lia. }
  pose proof (extractString_safe _ _ Hr0 Hl) as S1.
  destruct (extractString _ _) as [[[po pl] r1]| | |]; cbn [rbind]; auto.
  destruct S1 as (S1 & _ & Hr1 & _ & _).
  pose proof (extractString_safe _ _ Hr1 Hl) as S2.
  destruct (extractString src r1) as [[[so sl] r2]| | |]; cbn [rbind]; auto.
  destruct S2 as (S2 & Eso & Hr2 & _ & _).
  destruct (Z.eqb_spec (nth (Z.to_nat so) src 0) cc_comma) as [Ec|]; cbn [negb]; auto.
  destruct S2 as (A1 & A2 & A3 & A4). cbn [fst snd] in *.
  assert (sl <> 0).
  { intros ->. rewrite Z.add_0_r in A4.
    rewrite (nth_indep src 1 0) in A4 by (unfold len in *; lia). rewrite Ec in A4. discriminate. }
  destruct (allocate r2 (sl - 1) 8) as [[[a sz] r3]|] eqn:EA; auto.
  assert (Hr3 : rinv src r3) by (eapply allocate_inv; eauto).
  assert (Esz : sz = (sl - 1) * 8).
  { unfold allocate in EA. destruct (_ <? _) in EA; [discriminate|].
    destruct (_ =? _) in EA; [discriminate|]. injection EA as _ <- _.
    apply u32_small. lia. }
  assert (Hsp : len (span_bytes src (so + 1, sl - 1)) = sl - 1).
  { unfold span_bytes, zskip, len in *. cbn [fst snd].
    rewrite firstn_length, skipn_length. lia. }
  pose proof (readArgs_safe src sz (span_bytes src (so + 1, sl - 1)) 0 r3 Hr3 Hb Hl
                ltac:(lia)) as S3.
  destruct (readArgs _ _ _ _ _) as [[xs r4]| | |]; cbn [rbind]; auto.
  cbn [x_path x_sig x_consumed x_args]. destruct S3 as (B1 & B2 & C1 & C2 & C3).
  split; [auto|]. split.
  { unfold string_in. cbn [fst snd].
    replace (so + 1 + (sl - 1)) with (so + sl) by lia. repeat split; auto; lia. }
  split; [lia|]. split; [|auto]. cbn [snd]. unfold len in Hsp. rewrite B2. lia.
Qed.
