(** C04: Base64 decoding. *)
From Coq Require Import ZArith List Bool Lia Ascii String.
From Verif Require Import Base64Model.
Import ListNotations.
Local Open Scope Z_scope.

(** * Specification: the encoder of RFC 4648 *)
Definition alphabet : list Z :=
  map (fun c => Z.of_nat (nat_of_ascii c))
    (list_ascii_of_string "ABCDEFGHIJKLMNOPQRSTUVWXYZabcdefghijklmnopqrstuvwxyz0123456789+/").
Definition letter (x : Z) : Z := nth (Z.to_nat x) alphabet 0.

Fixpoint encode (data : list Z) : list Z :=
  match data with
  | [] => []
  | [a] => map letter [a / 4; (a mod 4) * 16]
  | [a; b] => map letter [a / 4; (a mod 4) * 16 + b / 16; (b mod 16) * 4]
  | a :: b :: c :: rest =>
    map letter [a / 4; (a mod 4) * 16 + b / 16; (b mod 16) * 4 + c / 64; c mod 64]
    ++ encode rest
  end.
(** ASCII white space: space, tab, line feed, carriage return. *)
Definition white (c : Z) : bool := existsb (Z.eqb c) [32; 9; 10; 13].
Definition no_white (l : list Z) : list Z := filter (fun c => negb (white c)) l.
Definition isbyte (b : Z) : Prop := 0 <= b < 256.

(** * Proofs *)
Lemma is_ws_white c : is_ws c = white c.
Proof.
  unfold is_ws, white. cbn [existsb].
  destruct (c =? 32), (c =? 10), (c =? 9), (c =? 13); reflexivity.
Qed.

Lemma decode_loop_ws l : forall t p d,
  decode_loop l t p d = decode_loop (no_white l) t p d.
Proof.
  induction l as [|c l IH]; intros t p d; [reflexivity|].
  cbn [no_white filter decode_loop]. rewrite is_ws_white.
  destruct (white c) eqn:W; cbn [negb]; [apply IH|].
  cbn [decode_loop]. rewrite is_ws_white, W.
  destruct (char_value c); auto. destruct (Nat.eqb (S p) 4); apply IH.
Qed.

Lemma alphabet_check :
  forallb (fun n => match char_value (nth n alphabet 0) with
                    | Some v => v =? Z.of_nat n | None => false end
                    && negb (is_ws (nth n alphabet 0))
                    && negb (nth n alphabet 0 =? 61)) (seq 0 64) = true.
Proof. vm_compute. reflexivity. Qed.

Lemma letter_ok x : 0 <= x < 64 ->
  char_value (letter x) = Some x /\ is_ws (letter x) = false /\ letter x <> 61.
Proof.
  intros Hx. pose proof alphabet_check as H. rewrite forallb_forall in H.
  specialize (H (Z.to_nat x)). rewrite in_seq in H. specialize (H ltac:(lia)).
  fold (letter x) in H. apply andb_true_iff in H as [H H3]. apply andb_true_iff in H as [H H2].
  destruct (char_value (letter x)) as [v|]; [|discriminate].
  apply Z.eqb_eq in H. rewrite Z2Nat.id in H by lia. subst v.
  split; [auto|]. split; [now apply negb_true_iff|].
  apply negb_true_iff, Z.eqb_neq in H3. exact H3.
Qed.

Lemma lor_low t x : 0 <= x < 64 -> Z.lor (t * 64) x = t * 64 + x.
Proof.
  intros Hx. change 64 with (2 ^ 6) at 1 2.
  rewrite <- Z.lxor_lor, <- Z.add_nocarry_lxor; auto.
  all: apply Z.bits_inj'; intros k Hk; rewrite Z.land_spec, Z.bits_0;
    destruct (Z.ltb_spec k 6) as [L|L];
    [ rewrite Z.mul_pow2_bits_low by lia; reflexivity
    | rewrite (Z.bits_above_log2 x); [apply andb_false_r| lia|];
      destruct (Z.eq_dec x 0) as [->|]; [simpl; lia|];
      apply Z.lt_le_trans with 6; auto; apply Z.log2_lt_pow2; lia ].
Qed.

Lemma step_char x l t p d : 0 <= x < 64 -> (p < 3)%nat ->
  decode_loop (letter x :: l) (t * 64) p d = decode_loop l ((t * 64 + x) * 64) (S p) d.
Proof.
  intros Hx Hp. destruct (letter_ok x Hx) as (A & B & _). cbn [decode_loop].
  rewrite B, A. rewrite lor_low by auto.
  destruct (Nat.eqb_spec (S p) 4); [lia|]. now rewrite Z.shiftl_mul_pow2 by lia.
Qed.
Lemma step_last x l t d : 0 <= x < 64 ->
  decode_loop (letter x :: l) (t * 64) 3 d
  = decode_loop l 0 0
      (d ++ [byte_at (t * 64 + x) 16; byte_at (t * 64 + x) 8; byte_at (t * 64 + x) 0]).
Proof.
  intros Hx. destruct (letter_ok x Hx) as (A & B & _). cbn [decode_loop].
  rewrite B, A. rewrite lor_low by auto. reflexivity.
Qed.

Lemma byte_at_spec t sh : 0 <= sh -> byte_at t sh = (t / 2 ^ sh) mod 256.
Proof.
  intros. unfold byte_at. change 255 with (Z.ones 8). rewrite Z.land_ones by lia.
  rewrite Z.shiftr_div_pow2 by lia. reflexivity.
Qed.

Ltac byte_goal :=
  rewrite byte_at_spec by lia;
  change (2 ^ 16) with 65536; change (2 ^ 8) with 256; change (2 ^ 10) with 1024;
  change (2 ^ 0) with 1; Z.to_euclidean_division_equations; lia.

Lemma decode_encode data : forall d,
  Forall isbyte data -> decode_loop (encode data) 0 0 d = d ++ data.
Proof.
  remember (List.length data) as n eqn:En.
  revert data En. induction n as [n IH] using lt_wf_ind. intros data En d Hb.
  destruct data as [|a [|b [|c rest]]]; cbn [encode map app].
  - cbn. now rewrite app_nil_r.
  - inversion Hb; subst. red in H1.
    match goal with |- decode_loop ?l 0 _ _ = _ => change (decode_loop l 0) with (decode_loop l (0 * 64)) end.
    rewrite !step_char by (try lia; Z.to_euclidean_division_equations; lia).
    cbn [decode_loop]. f_equal. f_equal. byte_goal.
  - inversion Hb as [|? ? Ha Hb1]; subst. inversion Hb1 as [|? ? Hb2 _]; subst.
    red in Ha, Hb2. match goal with |- decode_loop ?l 0 _ _ = _ => change (decode_loop l 0) with (decode_loop l (0 * 64)) end.
    rewrite !step_char by (try lia; Z.to_euclidean_division_equations; lia).
    cbn [decode_loop]. f_equal. f_equal; [byte_goal|]. f_equal. byte_goal.
  - inversion Hb as [|? ? Ha Hb1]; subst. inversion Hb1 as [|? ? Hb2 Hb3]; subst.
    inversion Hb3 as [|? ? Hc Hr]; subst. red in Ha, Hb2, Hc.
    match goal with |- decode_loop ?l 0 _ _ = _ => change (decode_loop l 0) with (decode_loop l (0 * 64)) end.
    rewrite !step_char by (try lia; Z.to_euclidean_division_equations; lia).
    rewrite step_last by (Z.to_euclidean_division_equations; lia).
    rewrite (IH (List.length rest)); auto; [|cbn [List.length]; lia].
    rewrite <- app_assoc. f_equal. cbn [app]. f_equal; [byte_goal|]. f_equal; [byte_goal|].
    f_equal. byte_goal.
Qed.

Lemma encode_no_eq data : Forall isbyte data -> Forall (fun c => c <> 61) (encode data).
Proof.
  remember (List.length data) as n eqn:En.
  revert data En. induction n as [n IH] using lt_wf_ind. intros data En Hb.
  assert (L : forall x, 0 <= x < 64 -> letter x <> 61) by (intros; now apply letter_ok).
  destruct data as [|a [|b [|c rest]]]; cbn [encode map app].
  - constructor.
  - inversion Hb; subst. red in H1.
    repeat constructor; apply L; Z.to_euclidean_division_equations; lia.
  - inversion Hb as [|? ? Ha Hb1]; subst. inversion Hb1 as [|? ? Hb2 _]; subst.
    red in Ha, Hb2. repeat constructor; apply L; Z.to_euclidean_division_equations; lia.
  - inversion Hb as [|? ? Ha Hb1]; subst. inversion Hb1 as [|? ? Hb2 Hb3]; subst.
    inversion Hb3 as [|? ? Hc Hr]; subst. red in Ha, Hb2, Hc.
    repeat (constructor; [apply L; Z.to_euclidean_division_equations; lia|]).
    eapply IH; [|reflexivity|auto]. cbn [List.length]; lia.
Qed.

Lemma no_white_no_eq l : Forall (fun c => c <> 61) (no_white l) -> Forall (fun c => c <> 61) l.
Proof.
  induction l as [|c l IH]; intros H; [constructor|]. cbn [no_white filter] in H.
  destruct (white c) eqn:W; cbn [negb] in H.
  - constructor; [|now apply IH]. intros ->. discriminate.
  - inversion H; subst. constructor; auto.
Qed.

Lemma nth_no_eq (l : list Z) n : Forall (fun c => c <> 61) l -> (nth n l 0 =? 61) = false.
Proof.
  intros H. apply Z.eqb_neq. destruct (nth_in_or_default n l 0) as [I|E]; [|rewrite E; lia].
  rewrite Forall_forall in H. now apply H.
Qed.

Lemma strip_padding l k : Forall (fun c => c <> 61) l -> (k <= 2)%nat -> l <> [] ->
  decodeBase64 (l ++ repeat 61 k) = decode_loop l 0 0 [].
Proof.
  intros Hl Hk Hne. unfold decodeBase64.
  destruct (l ++ repeat 61 k) as [|y ys] eqn:E; [destruct l; [congruence|discriminate]|].
  rewrite <- E. clear E y ys. rewrite app_length, repeat_length.
  assert (1 <= List.length l)%nat by (destruct l; [congruence|cbn; lia]).
  assert (forall m x, (List.length l <= m)%nat -> (m < List.length l + k)%nat ->
                 (nth m (l ++ repeat 61 k) x =? 61) = true) as HE.
  { intros m x H1 H2. apply Z.eqb_eq. rewrite app_nth2 by lia.
    apply (repeat_spec k). apply nth_In. rewrite repeat_length. lia. }
  assert (forall m, (m < List.length l)%nat -> (nth m (l ++ repeat 61 k) 0 =? 61) = false) as HN.
  { intros m H1. rewrite app_nth1 by lia. now apply nth_no_eq. }
  destruct (Nat.leb_spec 1 (List.length l + k)); [|lia].
  destruct k as [|[|[|k]]]; [| | |lia]; cbn [andb].
  - rewrite HN by lia.
    replace (if (Nat.leb 2 (List.length l + 0)) && (nth (List.length l + 0 - 2) (l ++ repeat 61 0) 0 =? 61)
             then 1%nat else 0%nat) with 0%nat.
    2:{ destruct (Nat.leb_spec 2 (List.length l + 0)); [|reflexivity].
        rewrite HN by lia. reflexivity. }
    rewrite app_nil_r. rewrite firstn_all2 by lia. reflexivity.
  - rewrite HE by lia. rewrite HN by lia. rewrite andb_false_r.
    replace (List.length l + 1 - (1 + 0))%nat with (List.length l) by lia.
    rewrite firstn_app, Nat.sub_diag, firstn_all. cbn [firstn]. now rewrite app_nil_r.
  - rewrite HE by lia. rewrite HE by lia.
    destruct (Nat.leb_spec 2 (List.length l + 2)); [|lia]. cbn [andb].
    replace (List.length l + 2 - (1 + 1))%nat with (List.length l) by lia.
    rewrite firstn_app, Nat.sub_diag, firstn_all. cbn [firstn]. now rewrite app_nil_r.
Qed.

(** * Theorems *)

(** Any byte string, encoded, with white space inserted anywhere and up to two '='
    characters appended, decodes to itself. *)
Theorem C04_round_trip data text k :
  Forall isbyte data -> no_white text = encode data -> (k <= 2)%nat -> data <> [] ->
  decodeBase64 (text ++ repeat 61 k) = data.
Proof.
  intros Hb Ht Hk Hne. rewrite strip_padding; auto.
  - rewrite decode_loop_ws, Ht, decode_encode by auto. reflexivity.
  - apply no_white_no_eq. rewrite Ht. now apply encode_no_eq.
  - intros ->. cbn in Ht. destruct data as [|a [|b [|c r]]]; cbn in Ht; congruence.
Qed.
(** The empty string, with white space only. *)
Theorem C04_round_trip_empty text : no_white text = [] -> decodeBase64 text = [].
Proof.
  intros H. destruct text as [|c text]; [reflexivity|].
  rewrite <- (app_nil_r (c :: text)). change [] with (repeat 61 0).
  rewrite strip_padding; [|apply no_white_no_eq; rewrite H; constructor|lia|discriminate].
  now rewrite decode_loop_ws, H.
Qed.

(** A character that is neither white space nor in the alphabet, and is not one of the
    last two characters, makes the decoder return nothing. *)
Lemma decode_loop_bad l : forall t p d c,
  In c l -> white c = false -> ~ In c alphabet -> decode_loop l t p d = [].
Proof.
  induction l as [|x l IH]; intros t p d c Hin Hw Ha; [contradiction|].
  cbn [decode_loop]. rewrite is_ws_white.
  destruct Hin as [->|Hin].
  - rewrite Hw. replace (char_value c) with (@None Z); [reflexivity|].
    symmetry. unfold char_value.
    assert (forall x, 0 <= x < 64 -> c <> letter x) as N.
    { intros x Hx ->. apply Ha. apply nth_In. change (List.length alphabet) with 64%nat. lia. }
    assert (M : forall n, (n < 64)%nat -> c <> nth n alphabet 0).
    { intros n Hn. specialize (N (Z.of_nat n)). unfold letter in N. rewrite Nat2Z.id in N.
      apply N. lia. }
    assert (forall v, 65 <= v <= 90 -> c <> v).
    { intros v Hv. replace v with (nth (Z.to_nat (v - 65)) alphabet 0).
      - apply M. lia.
      - assert (G : forallb (fun n => nth n alphabet 0 =? Z.of_nat n + 65) (seq 0 26) = true)
          by reflexivity.
        rewrite forallb_forall in G. specialize (G (Z.to_nat (v - 65))).
        rewrite in_seq in G. apply Z.eqb_eq in G; lia. }
    assert (forall v, 97 <= v <= 122 -> c <> v).
    { intros v Hv. replace v with (nth (Z.to_nat (v - 71)) alphabet 0).
      - apply M. lia.
      - assert (G : forallb (fun n => nth n alphabet 0 =? Z.of_nat n + 71) (seq 26 26) = true)
          by reflexivity.
        rewrite forallb_forall in G. specialize (G (Z.to_nat (v - 71))).
        rewrite in_seq in G. apply Z.eqb_eq in G; lia. }
    assert (forall v, 48 <= v <= 57 -> c <> v).
    { intros v Hv. replace v with (nth (Z.to_nat (v + 4)) alphabet 0).
      - apply M. lia.
      - assert (G : forallb (fun n => nth n alphabet 0 =? Z.of_nat n - 4) (seq 52 10) = true)
          by reflexivity.
        rewrite forallb_forall in G. specialize (G (Z.to_nat (v + 4))).
        rewrite in_seq in G. apply Z.eqb_eq in G; lia. }
    assert (c <> 43) by (apply (M 62%nat); lia).
    assert (c <> 47) by (apply (M 63%nat); lia).
    destruct (Z.leb_spec 65 c), (Z.leb_spec c 90); cbn [andb];
      try (exfalso; now apply (H c)).
    all: destruct (Z.leb_spec 97 c), (Z.leb_spec c 122); cbn [andb];
      try (exfalso; now apply (H0 c)).
    all: destruct (Z.leb_spec 48 c), (Z.leb_spec c 57); cbn [andb];
      try (exfalso; now apply (H1 c)).
    all: destruct (Z.eqb_spec c 43); [contradiction|];
      destruct (Z.eqb_spec c 47); [contradiction|]; reflexivity.
  - destruct (white x); [eapply IH; eauto|]. destruct (char_value x); auto.
    destruct (Nat.eqb (S p) 4); eapply IH; eauto.
Qed.

Theorem C04_rejects_foreign_characters input i c :
  (i + 2 < List.length input)%nat -> nth_error input i = Some c ->
  white c = false -> ~ In c alphabet -> decodeBase64 input = [].
Proof.
  intros Hi Hn Hw Ha. unfold decodeBase64. destruct input as [|y ys]; [reflexivity|].
  set (l := y :: ys) in *. clearbody l.
  eapply decode_loop_bad; eauto.
  set (k := (List.length l - _)%nat).
  assert (i < k)%nat.
  { unfold k. destruct (_ && _), (_ && _); lia. }
  eapply nth_error_In with (n := i).
  rewrite <- (firstn_skipn k l) in Hn. rewrite nth_error_app1 in Hn; [exact Hn|].
  rewrite firstn_length. unfold k in *. lia.
Qed.

(** The same for any position, when the character is not '='. *)
Theorem C04_rejects_anywhere input c :
  In c input -> c <> 61 -> white c = false -> ~ In c alphabet -> decodeBase64 input = [].
Proof.
  intros Hin Hc Hw Ha. destruct (In_nth_error _ _ Hin) as [i Hn].
  assert (Hi : (i < List.length input)%nat) by (apply nth_error_Some; congruence).
  destruct (Nat.lt_ge_cases (i + 2) (List.length input)) as [H|H];
    [eapply C04_rejects_foreign_characters; eauto|].
  unfold decodeBase64. destruct input as [|y ys]; [reflexivity|].
  set (l := y :: ys) in *. clearbody l.
  assert (Keep : forall k, (i < k)%nat -> decode_loop (firstn k l) 0 0 [] = []).
  { intros k Hk. eapply decode_loop_bad with (c := c); eauto.
    eapply nth_error_In with (n := i). rewrite <- (firstn_skipn k l) in Hn.
    rewrite nth_error_app1 in Hn; [exact Hn|]. rewrite firstn_length. lia. }
  assert (Hnth : nth i l 0 = c) by (now apply nth_error_nth).
  destruct (Nat.leb_spec 1 (List.length l)) as [L1|L1]; [|lia]. cbn [andb].
  destruct (Z.eqb_spec (nth (List.length l - 1) l 0) 61) as [E1|E1].
  - assert (i <> List.length l - 1)%nat by (intros ->; congruence).
    destruct (Nat.leb_spec 2 (List.length l)) as [L2|L2]; [|lia]. cbn [andb].
    destruct (Z.eqb_spec (nth (List.length l - 2) l 0) 61) as [E2|E2].
    + assert (i <> List.length l - 2)%nat by (intros ->; congruence). lia.
    + apply Keep. lia.
  - destruct (Nat.leb_spec 2 (List.length l)) as [L2|L2]; cbn [andb]; [|apply Keep; lia].
    destruct (Z.eqb_spec (nth (List.length l - 2) l 0) 61) as [E2|E2]; [|apply Keep; lia].
    (* one character is removed but '=' remains *)
    eapply decode_loop_bad with (c := 61); auto.
    + eapply nth_error_In with (n := (List.length l - 2)%nat).
      assert (En : nth_error l (List.length l - 2) = Some 61).
      { rewrite <- E2. apply nth_error_nth'. lia. }
      rewrite <- (firstn_skipn (List.length l - (0 + 1)) l) in En at 1.
      rewrite nth_error_app1 in En; [exact En|]. rewrite firstn_length. lia.
    + cbv. intuition discriminate.
Qed.

(** '=' is not followed by anything: text after the padding other than white space is
    refused, and even white space after it is (the last two characters are examined
    before white space is skipped). *)
Theorem C04_trailing_newline_refuted :
  exists data text, Forall isbyte data /\ data <> [] /\
    no_white text = encode data ++ [61; 61] /\ decodeBase64 text = [].
Proof.
  exists [65], [81; 81; 61; 61; 10]. split; [repeat constructor; lia|].
  split; [discriminate|]. split; reflexivity.
Qed.

(** A text with one alphabet character too many (4k+1 of them) is refused. *)
Lemma decode_loop_dangling l : forall t p d, (p < 4)%nat -> (forall c, In c l -> In c alphabet) ->
  ((p + List.length l) mod 4 = 1)%nat -> decode_loop l t p d = [].
Proof.
  induction l as [|c l IH]; intros t p d Hp Ha Hm.
  - cbn [List.length] in Hm. rewrite Nat.add_0_r, Nat.mod_small in Hm by auto. now subst p.
  - cbn [decode_loop]. destruct (is_ws c) eqn:W.
    + exfalso. destruct (In_nth _ _ 0 (Ha c (or_introl eq_refl))) as (n & Hn & En).
      change (List.length alphabet) with 64%nat in Hn.
      destruct (letter_ok (Z.of_nat n)) as (_ & B & _); [lia|]. unfold letter in B.
      rewrite Nat2Z.id, En in B. congruence.
    + destruct (char_value c) as [v|]; [|reflexivity]. cbv zeta.
      assert (Ha' : forall c, In c l -> In c alphabet) by (intros; apply Ha; now right).
      cbn [List.length] in Hm. destruct (Nat.eqb_spec (S p) 4).
      * apply IH; [lia|auto|]. replace (p + S (List.length l))%nat with (List.length l + 1 * 4)%nat in Hm by lia.
        now rewrite Nat.mod_add in Hm by lia.
      * apply IH; [lia|auto|]. now replace (S p + List.length l)%nat with (p + S (List.length l))%nat by lia.
Qed.
Theorem C04_rejects_dangling text k : (forall c, In c (no_white text) -> In c alphabet) ->
  (List.length (no_white text) mod 4 = 1)%nat -> (k <= 2)%nat -> decodeBase64 (text ++ repeat 61 k) = [].
Proof.
  intros Ha Hm Hk. rewrite strip_padding; auto.
  - rewrite decode_loop_ws. apply decode_loop_dangling; auto.
  - apply no_white_no_eq. apply Forall_forall. intros c Hc ->. apply Ha in Hc. revert Hc.
    cbv. intuition discriminate.
  - intros ->. discriminate.
Qed.

(** "Hello" with a newline in the middle. *)
Example C04_ex :
  no_white [83; 71; 86; 115; 10; 98; 71; 32; 56] = encode [72; 101; 108; 108; 111] /\
  decodeBase64 ([83; 71; 86; 115; 10; 98; 71; 32; 56] ++ repeat 61 1) = [72; 101; 108; 108; 111] /\
  decodeBase64 [83; 71; 42; 115; 98; 71; 56] = [] /\
  decodeBase64 ([83; 71; 10; 86; 115; 98] ++ repeat 61 1) = [].
Proof. repeat split; reflexivity. Qed.

Print Assumptions C04_round_trip.
Print Assumptions C04_round_trip_empty.
Print Assumptions C04_rejects_foreign_characters.
Print Assumptions C04_rejects_anywhere.
Print Assumptions C04_rejects_dangling.
Print Assumptions C04_trailing_newline_refuted.
