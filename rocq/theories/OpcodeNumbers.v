(** Integer and note values of opcodes (C09, C10). *)
From Coq Require Import ZArith List Bool Ascii String Lia.
From Verif Require Import ParserModel ParserReader ParserAdvance OpcodeModel.
Import ListNotations.
Local Open Scope string_scope.
Local Open Scope Z_scope.
Local Open Scope list_scope.

(** * Specification *)

(** The number written by a run of digits. *)
Fixpoint decimal (t : text) : Z :=
  match t with
  | [] => 0
  | c :: r => (c - 48) * 10 ^ Z.of_nat (List.length r) + decimal r
  end.
Definition is_digits (t : text) : Prop := t <> [] /\ Forall (fun c => 48 <= c <= 57) t.
Definition blanks (t : text) : Prop := Forall (fun c => c = 32 \/ 9 <= c <= 13) t.
(** [signed t n]: an optional sign and digits, for the number n. *)
Inductive signed : text -> Z -> Prop :=
| s_plain d : is_digits d -> signed d (decimal d)
| s_plus d : is_digits d -> signed (str "+" ++ d) (decimal d)
| s_minus d : is_digits d -> signed (str "-" ++ d) (- decimal d).
(** A text that begins with an integer, which ends where the digits end. *)
Definition literal (t : text) (n : Z) : Prop :=
  exists d rest, t = d ++ rest /\ signed d n /\
    match rest with c :: _ => ~ 48 <= c <= 57 | [] => True end.
Definition padded (t : text) (n : Z) : Prop :=
  exists a d b, t = a ++ d ++ b /\ blanks a /\ blanks b /\ signed d n.

(** * Lemmas *)

Lemma some_inj {A} (a b : A) : Some a = Some b -> a = b.
Proof. now intros [=]. Qed.

Lemma isDigit_iff c : isDigit c = true <-> 48 <= c <= 57.
Proof. unfold isDigit. rewrite andb_true_iff, !Z.leb_le. reflexivity. Qed.
Lemma isTrimmed_iff c : isTrimmed c = true <-> c = 32 \/ 9 <= c <= 13.
Proof. unfold isTrimmed. rewrite orb_true_iff, andb_true_iff, Z.eqb_eq, !Z.leb_le. reflexivity. Qed.

Lemma digits_value_eq t : forall acc, digits_value acc t = acc * 10 ^ Z.of_nat (List.length t) + decimal t.
Proof.
  induction t as [|c r IH]; intros acc; [cbn; lia|]. cbn [digits_value decimal List.length].
  rewrite IH, Nat2Z.inj_succ, Z.pow_succ_r by lia. ring.
Qed.
Lemma decimal_nonneg t : Forall (fun c => 48 <= c <= 57) t -> 0 <= decimal t.
Proof.
  induction 1 as [|c r H _ IH]; [reflexivity|]. cbn [decimal].
  assert (0 < 10 ^ Z.of_nat (List.length r)) by (apply Z.pow_pos_nonneg; lia). nia.
Qed.

Lemma span_all f a b : Forall (fun c => f c = true) a ->
  match b with [] => True | c :: _ => f c = false end ->
  span f (a ++ b) = (a, b).
Proof.
  intros A B. induction A as [|c a H _ IH].
  - destruct b as [|c b]; [reflexivity|]. cbn [app span]. now rewrite B.
  - cbn [app span]. rewrite H, IH. reflexivity.
Qed.
Lemma trimLeft_blank a t : blanks a ->
  match t with [] => True | c :: _ => isTrimmed c = false end -> trimLeft (a ++ t) = t.
Proof.
  intros A B. unfold trimLeft. rewrite span_all; [reflexivity| |exact B].
  eapply Forall_impl; [|exact A]. intros c H. now apply isTrimmed_iff.
Qed.
Lemma blanks_rev a : blanks a -> blanks (rev a).
Proof. apply Forall_rev. Qed.
Lemma trim_pad a t b : blanks a -> blanks b -> t <> [] ->
  match t with [] => True | c :: _ => isTrimmed c = false end ->
  match rev t with [] => True | c :: _ => isTrimmed c = false end ->
  trim (a ++ t ++ b) = t.
Proof.
  intros A B N F E. unfold trim. rewrite trimLeft_blank; [|exact A|].
  - rewrite rev_app_distr, trimLeft_blank; [apply rev_involutive|apply blanks_rev; exact B|exact E].
  - destruct t; [now elim N|exact F].
Qed.
Lemma trim_split t : exists a b, blanks a /\ blanks b /\ t = a ++ trim t ++ b.
Proof.
  unfold trim, trimLeft.
  exists (fst (span isTrimmed t)).
  exists (rev (fst (span isTrimmed (rev (snd (span isTrimmed t)))))).
  split; [|split].
  - eapply Forall_impl; [|apply span_true]. intros c. apply isTrimmed_iff.
  - apply Forall_rev. eapply Forall_impl; [|apply span_true]. intros c. apply isTrimmed_iff.
  - rewrite <- rev_app_distr, span_app, rev_involutive, span_app. reflexivity.
Qed.

(** What a trimmed text looks like. *)
Definition solid (t : text) : Prop :=
  match t with [] => True | c :: _ => isTrimmed c = false end /\
  match rev t with [] => True | c :: _ => isTrimmed c = false end.
Lemma trim_solid t : solid t -> trim t = t.
Proof.
  intros [A B]. destruct t as [|c t]; [reflexivity|].
  pose proof (trim_pad [] (c :: t) []) as H. cbn [app] in H. rewrite app_nil_r in H.
  apply H; [constructor|constructor|discriminate|exact A|exact B].
Qed.
Lemma solid_trim t : solid (trim t).
Proof.
  unfold trim, trimLeft. pose proof (span_stop isTrimmed t) as A. set (u := snd (span isTrimmed t)) in *.
  pose proof (span_stop isTrimmed (rev u)) as B. pose proof (span_app isTrimmed (rev u)) as C.
  set (w := snd (span isTrimmed (rev u))) in *. set (x := fst (span isTrimmed (rev u))) in *.
  split; [|now rewrite rev_involutive].
  apply (f_equal (@rev Z)) in C. rewrite rev_app_distr, rev_involutive in C.
  destruct (rev w) as [|c r]; [exact Logic.I|]. rewrite <- C in A. exact A.
Qed.
Lemma trimmed_solid t : trim t = t -> solid t.
Proof. intros <-. apply solid_trim. Qed.
Lemma digit_not_blank c : 48 <= c <= 57 -> isTrimmed c = false.
Proof.
  intros H. destruct (isTrimmed c) eqn:E; [|reflexivity]. apply isTrimmed_iff in E. lia.
Qed.
Lemma last_app_ne {A} (l d : list A) x m : rev d = x :: m -> exists m', rev (l ++ d) = x :: m'.
Proof. intros E. rewrite rev_app_distr, E. cbn [app]. now eexists. Qed.
Lemma digits_last d : is_digits d -> exists x m, rev d = x :: m /\ 48 <= x <= 57.
Proof.
  intros [N F]. destruct (rev d) as [|x m] eqn:E.
  - apply (f_equal (@rev Z)) in E. rewrite rev_involutive in E. now elim N.
  - exists x, m. split; [reflexivity|]. apply Forall_rev in F. rewrite E in F. now inversion F.
Qed.
Lemma signed_ends d n : signed d n ->
  d <> [] /\ match d with [] => True | c :: _ => isTrimmed c = false end /\
  match rev d with [] => True | c :: _ => isTrimmed c = false end.
Proof.
  intros [e D|e D|e D].
  - split; [apply D|]. split.
    + destruct D as [N F]. destruct e as [|c e]; [exact Logic.I|]. inversion F. now apply digit_not_blank.
    + destruct (digits_last e D) as (x & m & -> & X). now apply digit_not_blank.
  - split; [discriminate|]. split; [reflexivity|].
    destruct (digits_last e D) as (x & m & R & X). destruct (last_app_ne (str "+") e x m R) as [m' ->].
    now apply digit_not_blank.
  - split; [discriminate|]. split; [reflexivity|].
    destruct (digits_last e D) as (x & m & R & X). destruct (last_app_ne (str "-") e x m R) as [m' ->].
    now apply digit_not_blank.
Qed.
Lemma digits_forallb d : Forall (fun c => 48 <= c <= 57) d <-> forallb isDigit d = true.
Proof.
  rewrite forallb_forall, Forall_forall. split; intros H x X.
  - apply isDigit_iff. now apply H.
  - apply isDigit_iff. now apply H.
Qed.

Lemma simpleAtoi_padded lo hi t n : padded t n -> (lo = 0 -> forall d, ~ is_digits d \/ ~ exists a b, t = a ++ str "-" ++ d ++ b) ->
  simpleAtoi lo hi t = if (lo <=? n) && (n <=? hi) then Some n else None.
Proof.
  intros (a & d & b & -> & A & B & D) U. unfold simpleAtoi.
  destruct (signed_ends _ _ D) as (N & F & E). rewrite trim_pad by assumption. cbv zeta.
  destruct D as [e De|e De|e De].
  - destruct e as [|c e]; [now elim N|]. destruct De as [_ Fe]. assert (C : 48 <= c <= 57) by now inversion Fe.
    destruct (Z.eqb_spec c 45); [lia|]. destruct (Z.eqb_spec c 43); [lia|]. cbn [andb].
    rewrite (proj1 (digits_forallb _) Fe), digits_value_eq, Z.mul_0_l, Z.add_0_l. reflexivity.
  - cbn [str app]. change (Z.of_nat (nat_of_ascii "+"%char)) with 43. cbn [Z.eqb Pos.eqb andb].
    destruct De as [Ne Fe]. destruct e as [|c e]; [now elim Ne|].
    rewrite (proj1 (digits_forallb _) Fe), digits_value_eq, Z.mul_0_l, Z.add_0_l. reflexivity.
  - cbn [str app]. change (Z.of_nat (nat_of_ascii "-"%char)) with 45. cbn [Z.eqb Pos.eqb].
    destruct (Z.eqb_spec lo 0) as [L|L].
    + exfalso. destruct (U L e) as [X|X]; [now apply X|]. apply X. exists a, b.
      now rewrite <- app_assoc.
    + cbn [andb]. destruct De as [Ne Fe]. destruct e as [|c e]; [now elim Ne|].
      rewrite (proj1 (digits_forallb _) Fe), digits_value_eq, Z.mul_0_l, Z.add_0_l. reflexivity.
Qed.
Lemma simpleAtoi_signed lo hi t n : padded t n -> lo <> 0 ->
  simpleAtoi lo hi t = if (lo <=? n) && (n <=? hi) then Some n else None.
Proof. intros P L. apply simpleAtoi_padded; [exact P|]. intros X. now elim L. Qed.

Lemma simpleAtoi_inv lo hi t n : simpleAtoi lo hi t = Some n -> padded t n /\ lo <= n <= hi.
Proof.
  unfold simpleAtoi. destruct (trim_split t) as (a & b & A & B & T).
  remember (trim t) as u eqn:U. clear U. cbv zeta. intros H.
  enough (signed u n /\ lo <= n <= hi) as [X Y] by (split; [now exists a, u, b|exact Y]).
  destruct u as [|c r].
  { cbn [andb] in H. discriminate. }
  destruct (Z.eqb_spec c 45) as [C|C].
  - subst c. destruct (true && (lo =? 0)); [discriminate|].
    destruct r as [|c r]; [discriminate|].
    destruct (forallb isDigit (c :: r)) eqn:F; [|discriminate].
    rewrite digits_value_eq, Z.mul_0_l, Z.add_0_l in H.
    destruct ((lo <=? - decimal (c :: r)) && (- decimal (c :: r) <=? hi)) eqn:Q; [|discriminate].
    apply andb_true_iff in Q. destruct Q as [Q1 Q2]. apply Z.leb_le in Q1, Q2. apply some_inj in H. subst n.
    split; [|lia]. apply (s_minus (c :: r)). split; [discriminate|now apply digits_forallb].
  - destruct (Z.eqb_spec c 43) as [C'|C'].
    + subst c. cbn [andb] in H. destruct r as [|c r]; [discriminate|].
      destruct (forallb isDigit (c :: r)) eqn:F; [|discriminate].
      rewrite digits_value_eq, Z.mul_0_l, Z.add_0_l in H.
      destruct ((lo <=? decimal (c :: r)) && (decimal (c :: r) <=? hi)) eqn:Q; [|discriminate].
      apply andb_true_iff in Q. destruct Q as [Q1 Q2]. apply Z.leb_le in Q1, Q2. apply some_inj in H. subst n.
      split; [|lia]. apply (s_plus (c :: r)). split; [discriminate|now apply digits_forallb].
    + cbn [andb] in H.
      destruct (forallb isDigit (c :: r)) eqn:F; [|discriminate].
      rewrite digits_value_eq, Z.mul_0_l, Z.add_0_l in H.
      destruct ((lo <=? decimal (c :: r)) && (decimal (c :: r) <=? hi)) eqn:Q; [|discriminate].
      apply andb_true_iff in Q. destruct Q as [Q1 Q2]. apply Z.leb_le in Q1, Q2. apply some_inj in H. subst n.
      split; [|lia]. apply (s_plain (c :: r)). split; [discriminate|now apply digits_forallb].
Qed.

Lemma signed_padded d n : signed d n -> padded d n.
Proof.
  intros D. exists [], d, []. rewrite app_nil_r. split; [reflexivity|]. split; [constructor|]. split; [constructor|exact D].
Qed.
Lemma span_digits d rest : Forall (fun c => 48 <= c <= 57) d ->
  match rest with c :: _ => ~ 48 <= c <= 57 | [] => True end -> span isDigit (d ++ rest) = (d, rest).
Proof.
  intros D R. apply span_all.
  - eapply Forall_impl; [|exact D]. intros c. apply isDigit_iff.
  - destruct rest as [|c r]; [exact Logic.I|]. destruct (isDigit c) eqn:E; [|reflexivity].
    apply isDigit_iff in E. contradiction.
Qed.
(** readLeadingInt reads exactly the texts that begin with an integer of 64 bits. *)
Lemma readLeadingInt_literal t n : literal t n ->
  readLeadingInt t = if (int64_min <=? n) && (n <=? int64_max) then Some n else None.
Proof.
  intros (d & rest & -> & D & R). unfold readLeadingInt.
  destruct D as [e De|e De|e De].
  - destruct De as [Ne Fe]. destruct e as [|c e]; [now elim Ne|].
    assert (C : 48 <= c <= 57) by now inversion Fe.
    cbn [app]. destruct (Z.eqb_spec c 43); [lia|]. destruct (Z.eqb_spec c 45); [lia|]. cbn [orb].
    change (c :: e ++ rest) with ((c :: e) ++ rest). rewrite span_digits by assumption. cbn [fst app].
    apply simpleAtoi_signed; [|discriminate]. apply signed_padded. constructor. now split.
  - cbn [str app]. change (Z.of_nat (nat_of_ascii "+"%char)) with 43. cbn [Z.eqb Pos.eqb orb].
    rewrite span_digits by (destruct De; assumption). cbn [fst app].
    apply simpleAtoi_signed; [|discriminate]. apply signed_padded. now apply (s_plus e).
  - cbn [str app]. change (Z.of_nat (nat_of_ascii "-"%char)) with 45. cbn [Z.eqb Pos.eqb orb].
    rewrite span_digits by (destruct De; assumption). cbn [fst app].
    apply simpleAtoi_signed; [|discriminate]. apply signed_padded. now apply (s_minus e).
Qed.
Lemma blanks_digits a b d : blanks a -> a ++ b = d -> Forall (fun c => 48 <= c <= 57) d -> a = [].
Proof.
  intros A E F. destruct A as [|c a C _]; [reflexivity|]. subst d. inversion F. lia.
Qed.
Lemma padded_sign_digits s d n : (s = [] \/ s = [43] \/ s = [45]) -> Forall (fun c => 48 <= c <= 57) d ->
  padded (s ++ d) n -> signed (s ++ d) n.
Proof.
  intros S0 F (a & e & b & E & A & B & D).
  assert (An : a = []).
  { destruct A as [|c a C _]; [reflexivity|]. destruct S0 as [-> | [-> | ->]].
    - cbn [app] in E. subst d. inversion F. lia.
    - cbn [app] in E. injection E as E1 _. lia.
    - cbn [app] in E. injection E as E1 _. lia. }
  subst a. cbn [app] in E.
  assert (Bn : b = []).
  { destruct (rev b) as [|c m] eqn:R; [apply (f_equal (@rev Z)) in R; now rewrite rev_involutive in R|].
    apply Forall_rev in B. fold (blanks (rev b)) in B. rewrite R in B. inversion B as [|? ? C _]; subst.
    apply (f_equal (@rev Z)) in E. rewrite (rev_app_distr e b), R in E. cbn [app] in E.
    rewrite rev_app_distr in E. apply Forall_rev in F. destruct (rev d) as [|x d'].
    - destruct S0 as [-> | [-> | ->]]; cbn [rev app] in E; [discriminate| |]; injection E as E1 _; lia.
    - cbn [app] in E. injection E as -> _. inversion F. lia. }
  subst b. rewrite app_nil_r in E. now rewrite E.
Qed.
Lemma readLeadingInt_inv t n : readLeadingInt t = Some n -> literal t n /\ int64_min <= n <= int64_max.
Proof.
  unfold readLeadingInt.
  assert (K : forall s r, (s = [] \/ s = [43] \/ s = [45]) -> t = s ++ r ->
    simpleAtoi int64_min int64_max (s ++ fst (span isDigit r)) = Some n ->
    literal t n /\ int64_min <= n <= int64_max).
  { intros s r S0 T H. apply simpleAtoi_inv in H. destruct H as [P B]. split; [|exact B].
    assert (F : Forall (fun c => 48 <= c <= 57) (fst (span isDigit r))).
    { eapply Forall_impl; [|apply span_true]. intros c. apply isDigit_iff. }
    apply padded_sign_digits in P; [|exact S0|exact F].
    exists (s ++ fst (span isDigit r)), (snd (span isDigit r)).
    split; [now rewrite <- app_assoc, span_app|]. split; [exact P|].
    pose proof (span_stop isDigit r) as Q. destruct (snd (span isDigit r)) as [|c r']; [exact Logic.I|].
    intros C. apply isDigit_iff in C. congruence. }
  destruct t as [|c r].
  - intros H. apply (K [] []); [now left|reflexivity|exact H].
  - destruct ((c =? 43) || (c =? 45)) eqn:C; intros H.
    + apply (K [c] r); [|reflexivity|exact H].
      apply orb_true_iff in C. rewrite !Z.eqb_eq in C. destruct C as [-> | ->]; tauto.
    + apply (K [] (c :: r)); [now left|reflexivity|exact H].
Qed.

(** * C09: integers and their bounds *)

(** A specification whose range is one and lies in its type, which is one of those instantiated. *)
Definition proper (s : ispec) : Prop :=
  s_min s <= s_lo s <= s_hi s /\ s_hi s <= s_max s.

(** No value is ever outside the type; and it is outside a bound only if this bound is permissive and not
    enforced. *)
Theorem C09_bounds s t n : proper s -> readInt s t = Result (Some n) ->
  s_min s <= n <= s_max s /\
  (s_enforceHi s = true \/ s_permHi s = false -> n <= s_hi s) /\
  (s_enforceLo s = true \/ s_permLo s = false -> s_lo s <= n).
Proof.
  intros [P1 P2] H.
  assert (K : exists v, transformInt s v = Some n).
  { unfold readInt in H. destruct (readLeadingInt t) as [v|]; [exists v; congruence|].
    destruct (s_note s); [|discriminate].
    destruct (readNoteValue t) as [|[v|]]; [discriminate|exists v; congruence|discriminate]. }
  destruct K as [v K]. clear H. unfold transformInt in K.
  destruct (Z.ltb_spec (s_hi s) v) as [A|A].
  - destruct (s_enforceHi s); [injection K as <-; repeat split; intros; lia|].
    destruct (s_permHi s); cbn [negb] in K; [|discriminate]. injection K as <-.
    repeat split; (lia || (intros [X|X]; discriminate)).
  - destruct (Z.ltb_spec v (s_lo s)) as [B|B].
    + destruct (s_enforceLo s); [injection K as <-; repeat split; intros; lia|].
      destruct (s_permLo s); cbn [negb] in K; [|discriminate]. injection K as <-.
      repeat split; (lia || (intros [X|X]; discriminate)).
    + injection K as <-. repeat split; intros; lia.
Qed.
(** Opcode::read also stays within enforced bounds, given a default that does. *)
Theorem C09_read_bounds s t n : proper s -> s_lo s <= s_default s <= s_hi s ->
  s_enforceLo s = true \/ s_permLo s = false -> s_enforceHi s = true \/ s_permHi s = false ->
  readIntOr s t = Some n -> s_lo s <= n <= s_hi s.
Proof.
  intros P D L H R. unfold readIntOr in R.
  destruct (readInt s t) as [|[v|]] eqn:E; [discriminate| |injection R as <-; lia].
  injection R as <-. destruct (C09_bounds _ _ _ P E) as (_ & U & W). auto.
Qed.

(** A number within the bounds is read as itself, whatever follows it. *)
Theorem C09_literal s t n : proper s -> int64_min <= s_min s -> s_max s <= int64_max ->
  literal t n -> s_lo s <= n <= s_hi s -> readInt s t = Result (Some n).
Proof.
  intros [P1 P2] A B Li N. unfold readInt. rewrite (readLeadingInt_literal _ _ Li).
  destruct (Z.leb_spec int64_min n); [|lia]. destruct (Z.leb_spec n int64_max); [|lia]. cbn [andb].
  unfold transformInt. destruct (Z.ltb_spec (s_hi s) n); [lia|]. destruct (Z.ltb_spec n (s_lo s)); [lia|].
  do 2 f_equal. lia.
Qed.
(** A number of 64 bits above the upper bound becomes this bound, is refused, or is limited to the type. *)
Theorem C09_above s t n : proper s -> literal t n -> s_hi s < n -> int64_min <= n <= int64_max ->
  readInt s t = Result (if s_enforceHi s then Some (s_hi s)
                        else if s_permHi s then Some (Z.min n (s_max s)) else None).
Proof.
  intros [P1 P2] Li H N. unfold readInt. rewrite (readLeadingInt_literal _ _ Li).
  destruct (Z.leb_spec int64_min n); [|lia]. destruct (Z.leb_spec n int64_max); [|lia]. cbn [andb].
  unfold transformInt. destruct (Z.ltb_spec (s_hi s) n); [|lia].
  destruct (s_enforceHi s); [reflexivity|]. destruct (s_permHi s); [|reflexivity]. cbn [negb]. do 2 f_equal. lia.
Qed.
Theorem C09_below s t n : proper s -> literal t n -> n < s_lo s -> int64_min <= n <= int64_max ->
  readInt s t = Result (if s_enforceLo s then Some (s_lo s)
                        else if s_permLo s then Some (Z.max n (s_min s)) else None).
Proof.
  intros [P1 P2] Li H N. unfold readInt. rewrite (readLeadingInt_literal _ _ Li).
  destruct (Z.leb_spec int64_min n); [|lia]. destruct (Z.leb_spec n int64_max); [|lia]. cbn [andb].
  unfold transformInt. destruct (Z.ltb_spec (s_hi s) n); [lia|]. destruct (Z.ltb_spec n (s_lo s)); [|lia].
  destruct (s_enforceLo s); [reflexivity|]. destruct (s_permLo s); [|reflexivity]. cbn [negb]. do 2 f_equal. lia.
Qed.
(** Any other text gives no value where notes are not allowed. *)
Theorem C09_other_text s t : s_note s = false ->
  (forall n, literal t n -> ~ int64_min <= n <= int64_max) -> readInt s t = Result None.
Proof.
  intros N H. unfold readInt. destruct (readLeadingInt t) as [n|] eqn:E; [|now rewrite N].
  apply readLeadingInt_inv in E. destruct E as [L B]. now elim (H n L).
Qed.

(** An int8_t in [-100,100] with permissive bounds. *)
Definition s_int8 : ispec := ISpec 0 (-100) 100 (-128) 127 false false false true true.
Lemma str_literal d rest n : signed d n -> match rest with c :: _ => ~ 48 <= c <= 57 | [] => True end ->
  literal (d ++ rest) n.
Proof. intros D R. exists d, rest. repeat split; assumption. Qed.
Lemma digits_str d : d <> [] -> forallb isDigit d = true -> is_digits d.
Proof. intros N F. split; [exact N|now apply digits_forallb]. Qed.
Example C09_ex_plain : literal (str "-99dB") (-99) /\ readInt s_int8 (str "-99dB") = Result (Some (-99)).
Proof.
  split; [|reflexivity]. apply (str_literal (str "-" ++ str "99") (str "dB")).
  - apply (s_minus (str "99")). apply digits_str; [discriminate|reflexivity].
  - cbn. lia.
Qed.
Example C09_ex_permissive : readInt s_int8 (str "+110") = Result (Some 110) /\ readInt s_int8 (str "-3000") = Result (Some (-128)).
Proof. split; reflexivity. Qed.

(** With an enforced upper bound a large number is still read as the default, not as the bound, when it
    does not fit 64 bits. *)
Theorem C09_huge_refuted :
  literal (str "99999999999999999999") 99999999999999999999 /\
  readIntOr (ISpec 64 0 256 0 65535 false true true false false) (str "99999999999999999999") = Some 64 /\
  readIntOr (ISpec 64 0 256 0 65535 false true true false false) (str "9999999999999999999") = Some 64 /\
  readIntOr (ISpec 64 0 256 0 65535 false true true false false) (str "999999999999999999") = Some 256.
Proof.
  split; [|repeat split; vm_compute; reflexivity].
  pose proof (str_literal (str "99999999999999999999") [] 99999999999999999999) as H.
  rewrite app_nil_r in H. apply H; [|exact Logic.I].
  change 99999999999999999999 with (decimal (str "99999999999999999999")).
  apply s_plain, digits_str; [discriminate|reflexivity].
Qed.

(** * C10: note names *)

(** The letters and the accidentals that may follow them. *)
Definition pitch_class : list (string * Z) :=
  [ ("c", 0); ("C", 0); ("d", 2); ("D", 2); ("e", 4); ("E", 4); ("f", 5); ("F", 5);
    ("g", 7); ("G", 7); ("a", 9); ("A", 9); ("b", 11); ("B", 11) ].
Definition sharps : list text := [str "#"; [226; 153; 175]].
Definition flats : list text := [str "b"; [226; 153; 173]].
(** [note_name t p o]: a letter, perhaps an accidental that is legal with this letter, and an octave; p is the
    pitch class with the accidental.  E and B have no sharp, C and F no flat. *)
Inductive note_name : text -> Z -> Z -> Prop :=
| n_natural l p oct o : In (l, p) pitch_class -> padded oct o -> note_name (str l ++ oct) p o
| n_sharp l p s oct o : In (l, p) pitch_class -> ~ In p [4; 11] -> In s sharps -> padded oct o ->
    note_name (str l ++ s ++ oct) (p + 1) o
| n_flat l p s oct o : In (l, p) pitch_class -> ~ In p [0; 5] -> In s flats -> padded oct o ->
    note_name (str l ++ s ++ oct) (p - 1) o.
Definition key_of (p o : Z) : Z := 12 * (o + 1) + p.

(** A padded number begins with a blank, a sign or a digit, hence not with an accidental. *)
Definition no_accidental (t : text) : Prop :=
  match t with c :: _ => c <> 35 /\ c <> 98 /\ c <> 226 | [] => True end.
Lemma padded_first t n : padded t n -> no_accidental t.
Proof.
  intros (a & d & b & -> & A & B & D). destruct A as [|c a C _]; [|cbn; lia].
  cbn [app]. destruct D as [e [N F]|e [N F]|e [N F]]; [|cbn; lia|cbn; lia].
  destruct e as [|c e]; [now elim N|]. inversion F. cbn. lia.
Qed.
Lemma accidental_none l t : no_accidental t -> accidental l accidentals t = Some (0, t).
Proof.
  destruct t as [|c t]; [reflexivity|]. intros (A & B & C).
  unfold accidentals. cbn [accidental].
  assert (K : forall x u, c <> x -> starts_with (x :: u) (c :: t) = false).
  { intros x u N. unfold starts_with. cbn [List.length firstn text_eqb]. now destruct (Z.eqb_spec c x). }
  change (str "#") with [35]. change (str "b") with [98]. rewrite !K by lia. reflexivity.
Qed.
Lemma starts_with_app p t : starts_with p (p ++ t) = true.
Proof.
  unfold starts_with. rewrite firstn_app, Nat.sub_diag, firstn_all. cbn [firstn]. rewrite app_nil_r.
  now apply text_eqb_eq.
Qed.
Lemma skipn_app_len {A} (p t : list A) : skipn (List.length p) (p ++ t) = t.
Proof. rewrite skipn_app, skipn_all, Nat.sub_diag. reflexivity. Qed.
Lemma accidental_sharp l s t : In s sharps ->
  accidental l accidentals (s ++ t) = if existsb (Z.eqb l) validSharpLetters then Some (1, t) else None.
Proof.
  intros [<-|[<-|[]]]; unfold accidentals; cbn [accidental].
  - rewrite starts_with_app, skipn_app_len. cbn [Z.eqb Pos.eqb andb].
    now destruct (existsb (Z.eqb l) validSharpLetters).
  - change (starts_with (str "#") ([226; 153; 175] ++ t)) with false.
    rewrite starts_with_app, skipn_app_len. cbn [Z.eqb Pos.eqb andb].
    now destruct (existsb (Z.eqb l) validSharpLetters).
Qed.
Lemma accidental_flat l s t : In s flats ->
  accidental l accidentals (s ++ t) = if existsb (Z.eqb l) validFlatLetters then Some (-1, t) else None.
Proof.
  intros [<-|[<-|[]]]; unfold accidentals; cbn [accidental].
  - change (starts_with (str "#") (str "b" ++ t)) with false.
    change (starts_with [226; 153; 175] (str "b" ++ t)) with false.
    rewrite starts_with_app, skipn_app_len. cbn [Z.eqb Pos.eqb andb].
    now destruct (existsb (Z.eqb l) validFlatLetters).
  - change (starts_with (str "#") ([226; 153; 173] ++ t)) with false.
    change (starts_with [226; 153; 175] ([226; 153; 173] ++ t)) with false.
    change (starts_with (str "b") ([226; 153; 173] ++ t)) with false.
    rewrite starts_with_app, skipn_app_len. cbn [Z.eqb Pos.eqb andb].
    now destruct (existsb (Z.eqb l) validFlatLetters).
Qed.
Lemma letter_in l p : In (l, p) pitch_class ->
  exists c, str l = [c] /\ 97 <= toLower c <= 103 /\ letter_offset (toLower c) = p /\
    (existsb (Z.eqb (toLower c)) validSharpLetters = true <-> ~ In p [4; 11]) /\
    (existsb (Z.eqb (toLower c)) validFlatLetters = true <-> ~ In p [0; 5]).
Proof.
  intros H.
  assert (K : forall c, str l = [c] -> (97 <=? toLower c) && (toLower c <=? 103) = true ->
    letter_offset (toLower c) = p ->
    existsb (Z.eqb (toLower c)) validSharpLetters = negb (existsb (Z.eqb p) [4; 11]) ->
    existsb (Z.eqb (toLower c)) validFlatLetters = negb (existsb (Z.eqb p) [0; 5]) ->
    exists c, str l = [c] /\ 97 <= toLower c <= 103 /\ letter_offset (toLower c) = p /\
    (existsb (Z.eqb (toLower c)) validSharpLetters = true <-> ~ In p [4; 11]) /\
    (existsb (Z.eqb (toLower c)) validFlatLetters = true <-> ~ In p [0; 5])).
  { intros c E R O X Y. exists c. split; [exact E|].
    apply andb_true_iff in R. rewrite !Z.leb_le in R. split; [exact R|]. split; [exact O|].
    rewrite X, Y, !negb_true_iff.
    assert (I2 : forall a b, existsb (Z.eqb p) [a; b] = false <-> ~ In p [a; b]).
    { intros a b. cbn [existsb In]. rewrite !orb_false_iff, !Z.eqb_neq. intuition congruence. }
    rewrite !I2. tauto. }
  repeat (destruct H as [H|H]; [injection H as <- <-; eapply K; vm_compute; reflexivity|]).
  destruct H.
Qed.

(** The result for a note name whose octave is an int. *)
Definition note_result (p o : Z) : outcome :=
  if negb (in_int (o + 1)) then Undefined
  else if negb (in_int ((o + 1) * 12)) then Undefined
  else if negb (in_int (p + (o + 1) * 12)) then Undefined
  else if (p + (o + 1) * 12 <? 0) || (128 <=? p + (o + 1) * 12) then Result None
  else Result (Some (p + (o + 1) * 12)).
Lemma note_name_read t p o : note_name t p o ->
  readNoteValue t = if in_int o then note_result p o else Result None.
Proof.
  assert (W : forall c value d v q oct, 97 <= toLower c <= 103 -> letter_offset (toLower c) = q -> padded v oct ->
    accidental (toLower c) accidentals value = Some (d, v) ->
    readNoteValue (c :: value) = if in_int oct then note_result (q + d) oct else Result None).
  { intros c value d v q oct R O P A. unfold readNoteValue.
    destruct (Z.ltb_spec (toLower c) 97); [lia|]. destruct (Z.ltb_spec 103 (toLower c)); [lia|]. cbn [orb].
    rewrite A, (simpleAtoi_signed int_min int_max v oct P) by discriminate. fold (in_int oct).
    destruct (in_int oct); [|reflexivity]. unfold note_result. rewrite O. reflexivity. }
  intros H. destruct H as [l p oct o I P|l p s oct o I N S0 P|l p s oct o I N S0 P].
  - destruct (letter_in l p I) as (c & -> & R & O & _ & _). cbn [app].
    replace p with (p + 0) by lia.
    apply (W c oct 0 oct p o R O P). apply accidental_none. eapply padded_first, P.
  - destruct (letter_in l p I) as (c & -> & R & O & X & _). cbn [app].
    apply (W c _ 1 oct p o R O P). rewrite accidental_sharp by exact S0. now rewrite (proj2 X N).
  - destruct (letter_in l p I) as (c & -> & R & O & _ & X). cbn [app].
    apply (W c _ (-1) oct p o R O P). rewrite accidental_flat by exact S0. now rewrite (proj2 X N).
Qed.
Lemma note_name_pitch t p o : note_name t p o -> 0 <= p <= 11.
Proof.
  assert (K : forall l q, In (l, q) pitch_class -> In q [0; 2; 4; 5; 7; 9; 11]).
  { intros l q H. repeat (destruct H as [H|H]; [injection H as _ <-; cbn; tauto|]). destruct H. }
  intros [l q oct o' I P|l q s oct o' I N S0 P|l q s oct o' I N S0 P]; apply K in I; cbn in I; cbn in N || idtac; lia.
Qed.

(** A note name that denotes a MIDI key is read as this key. *)
Theorem C10_key t p o : note_name t p o -> 0 <= key_of p o <= 127 -> readNoteValue t = Result (Some (key_of p o)).
Proof.
  intros H K. rewrite (note_name_read _ _ _ H). pose proof (note_name_pitch _ _ _ H) as P. unfold key_of in *.
  assert (I : forall v, -3 <= v <= 200 -> in_int v = true).
  { intros v V. unfold in_int. apply andb_true_iff. split; apply Z.leb_le; unfold int_min, int_max; lia. }
  rewrite (I o) by lia. unfold note_result. rewrite (I (o + 1)), (I ((o + 1) * 12)), (I (p + (o + 1) * 12)) by lia.
  cbn [negb]. destruct (Z.ltb_spec (p + (o + 1) * 12) 0); [lia|]. destruct (Z.leb_spec 128 (p + (o + 1) * 12)); [lia|].
  cbn [orb]. do 2 f_equal. lia.
Qed.

Lemma letter_out c : 97 <= toLower c <= 103 -> exists l p, In (l, p) pitch_class /\ str l = [c].
Proof.
  intros H. unfold toLower in H.
  assert (K : In c [97; 98; 99; 100; 101; 102; 103; 65; 66; 67; 68; 69; 70; 71]).
  { destruct ((65 <=? c) && (c <=? 90)) eqn:E; cbn; [|lia].
    apply andb_true_iff in E. rewrite !Z.leb_le in E. lia. }
  destruct K as [<-|K]; [exists "a", 9; split; [cbn; tauto|reflexivity]|].
  destruct K as [<-|K]; [exists "b", 11; split; [cbn; tauto|reflexivity]|].
  destruct K as [<-|K]; [exists "c", 0; split; [cbn; tauto|reflexivity]|].
  destruct K as [<-|K]; [exists "d", 2; split; [cbn; tauto|reflexivity]|].
  destruct K as [<-|K]; [exists "e", 4; split; [cbn; tauto|reflexivity]|].
  destruct K as [<-|K]; [exists "f", 5; split; [cbn; tauto|reflexivity]|].
  destruct K as [<-|K]; [exists "g", 7; split; [cbn; tauto|reflexivity]|].
  destruct K as [<-|K]; [exists "A", 9; split; [cbn; tauto|reflexivity]|].
  destruct K as [<-|K]; [exists "B", 11; split; [cbn; tauto|reflexivity]|].
  destruct K as [<-|K]; [exists "C", 0; split; [cbn; tauto|reflexivity]|].
  destruct K as [<-|K]; [exists "D", 2; split; [cbn; tauto|reflexivity]|].
  destruct K as [<-|K]; [exists "E", 4; split; [cbn; tauto|reflexivity]|].
  destruct K as [<-|K]; [exists "F", 5; split; [cbn; tauto|reflexivity]|].
  destruct K as [<-|K]; [exists "G", 7; split; [cbn; tauto|reflexivity]|].
  destruct K.
Qed.
Lemma starts_with_split p t : starts_with p t = true -> t = p ++ skipn (List.length p) t.
Proof.
  unfold starts_with. rewrite text_eqb_eq. intros E. rewrite <- E at 1. symmetry. apply firstn_skipn.
Qed.
Lemma accidental_inv l t d v : accidental l accidentals t = Some (d, v) ->
  (d = 0 /\ t = v) \/
  (d = 1 /\ existsb (Z.eqb l) validSharpLetters = true /\ exists s, In s sharps /\ t = s ++ v) \/
  (d = -1 /\ existsb (Z.eqb l) validFlatLetters = true /\ exists s, In s flats /\ t = s ++ v).
Proof.
  unfold accidentals. cbn [accidental].
  destruct (starts_with (str "#") t) eqn:E1.
  { apply starts_with_split in E1. cbn [Z.eqb Pos.eqb andb].
    destruct (existsb (Z.eqb l) validSharpLetters); [|discriminate]. cbn [negb]. intros H.
    apply some_inj, pair_equal_spec in H. destruct H as [<- <-]. right. left.
    split; [reflexivity|]. split; [reflexivity|]. exists (str "#"). split; [now left|exact E1]. }
  destruct (starts_with [226; 153; 175] t) eqn:E2.
  { apply starts_with_split in E2. cbn [Z.eqb Pos.eqb andb].
    destruct (existsb (Z.eqb l) validSharpLetters); [|discriminate]. cbn [negb]. intros H.
    apply some_inj, pair_equal_spec in H. destruct H as [<- <-]. right. left.
    split; [reflexivity|]. split; [reflexivity|]. exists [226; 153; 175]. split; [now right; left|exact E2]. }
  destruct (starts_with (str "b") t) eqn:E3.
  { apply starts_with_split in E3. cbn [Z.eqb Pos.eqb andb].
    destruct (existsb (Z.eqb l) validFlatLetters); [|discriminate]. cbn [negb]. intros H.
    apply some_inj, pair_equal_spec in H. destruct H as [<- <-]. right. right.
    split; [reflexivity|]. split; [reflexivity|]. exists (str "b"). split; [now left|exact E3]. }
  destruct (starts_with [226; 153; 173] t) eqn:E4.
  { apply starts_with_split in E4. cbn [Z.eqb Pos.eqb andb].
    destruct (existsb (Z.eqb l) validFlatLetters); [|discriminate]. cbn [negb]. intros H.
    apply some_inj, pair_equal_spec in H. destruct H as [<- <-]. right. right.
    split; [reflexivity|]. split; [reflexivity|]. exists [226; 153; 173]. split; [now right; left|exact E4]. }
  intros H. apply some_inj, pair_equal_spec in H. destruct H as [<- <-]. now left.
Qed.

(** Every text that reaches the octave is a note name. *)
Lemma note_text_inv t : 
  (exists p o, note_name t p o /\ in_int o = true) \/ t = [] \/ readNoteValue t = Result None.
Proof.
  destruct t as [|c value]; [now right; left|]. unfold readNoteValue.
  destruct (Z.ltb_spec (toLower c) 97) as [A|A]; [now right; right|].
  destruct (Z.ltb_spec 103 (toLower c)) as [B|B]; [now right; right|]. cbn [orb].
  destruct (accidental (toLower c) accidentals value) as [[d v]|] eqn:E; [|now right; right].
  destruct (simpleAtoi int_min int_max v) as [o|] eqn:O; [|now right; right]. left.
  apply simpleAtoi_inv in O. destruct O as [P R].
  assert (Io : in_int o = true).
  { unfold in_int. apply andb_true_iff. split; apply Z.leb_le; lia. }
  destruct (letter_out c) as (l & p & I & L0); [lia|].
  destruct (letter_in l p I) as (c' & L1 & _ & _ & X & Y). rewrite L0 in L1. injection L1 as <-.
  change (c :: value) with ([c] ++ value). rewrite <- L0.
  apply accidental_inv in E. destruct E as [[-> ->]|[(-> & V & s & S0 & ->)|(-> & V & s & S0 & ->)]].
  - exists p, o. split; [|exact Io]. now constructor.
  - exists (p + 1), o. split; [|exact Io]. constructor; [exact I|now apply X|exact S0|exact P].
  - exists (p - 1), o. split; [|exact Io]. constructor; [exact I|now apply Y|exact S0|exact P].
Qed.

(** A key is only ever read from a note name that denotes it; so every other text is rejected. *)
Theorem C10_only_names t k : readNoteValue t = Result (Some k) ->
  exists p o, note_name t p o /\ k = key_of p o /\ 0 <= k <= 127.
Proof.
  intros H. destruct (note_text_inv t) as [(p & o & N & I)|[->|R]]; [|discriminate|congruence].
  exists p, o. split; [exact N|]. rewrite (note_name_read _ _ _ N), I in H. unfold note_result in H.
  destruct (negb (in_int (o + 1))); [discriminate|]. destruct (negb (in_int ((o + 1) * 12))); [discriminate|].
  destruct (negb (in_int (p + (o + 1) * 12))); [discriminate|].
  destruct (Z.ltb_spec (p + (o + 1) * 12) 0); [discriminate|].
  destruct (Z.leb_spec 128 (p + (o + 1) * 12)); [discriminate|]. cbn [orb] in H. injection H as <-.
  unfold key_of. lia.
Qed.
(** The call is defined unless the text is empty or the octave is enormous. *)
Theorem C10_defined_partial t : t <> [] ->
  (forall p o, note_name t p o -> -178956971 <= o <= 178956968 \/ o < int_min \/ int_max < o) ->
  readNoteValue t <> Undefined.
Proof.
  intros N O. destruct (note_text_inv t) as [(p & o & M & I)|[->|R]]; [|now elim N|congruence].
  rewrite (note_name_read _ _ _ M), I. specialize (O p o M). pose proof (note_name_pitch _ _ _ M) as P.
  unfold in_int in I. apply andb_true_iff in I. rewrite !Z.leb_le in I. unfold int_min, int_max in *.
  assert (J : forall v, -2147483648 <= v <= 2147483647 -> in_int v = true).
  { intros v V. unfold in_int. apply andb_true_iff. split; apply Z.leb_le; unfold int_min, int_max; lia. }
  unfold note_result. rewrite (J (o + 1)), (J ((o + 1) * 12)), (J (p + (o + 1) * 12)) by lia. cbn [negb].
  destruct ((p + (o + 1) * 12 <? 0) || (128 <=? p + (o + 1) * 12)); discriminate.
Qed.

(** An octave in decimal and the usual name of a key. *)
Definition key_name (k : Z) : text :=
  str (nth (Z.to_nat (Z.modulo k 12)) ["c"; "c#"; "d"; "d#"; "e"; "f"; "f#"; "g"; "g#"; "a"; "a#"; "b"] "") ++
  str (nth (Z.to_nat (Z.div k 12)) ["-1"; "0"; "1"; "2"; "3"; "4"; "5"; "6"; "7"; "8"; "9"] "").
(** Each key has a name. *)
Theorem C10_names_read_back k : 0 <= k <= 127 -> readNoteValue (key_name k) = Result (Some k).
Proof.
  intros K.
  assert (A : forallb (fun k => match readNoteValue (key_name k) with Result (Some v) => v =? k | _ => false end)
    (map Z.of_nat (seq 0 128)) = true) by (vm_compute; reflexivity).
  rewrite forallb_forall in A. specialize (A k).
  assert (I : In k (map Z.of_nat (seq 0 128))).
  { apply in_map_iff. exists (Z.to_nat k). split; [lia|]. apply in_seq. lia. }
  apply A in I. destruct (readNoteValue (key_name k)) as [|[v|]]; try discriminate. apply Z.eqb_eq in I. now subst v.
Qed.

Example C10_ex_flat : note_name (str "Eb4") 3 4 /\ readNoteValue (str "Eb4") = Result (Some 63).
Proof.
  split; [|reflexivity]. apply (n_flat "E" 4 (str "b") (str "4") 4).
  - cbn. tauto.
  - cbn. lia.
  - now left.
  - apply signed_padded. change 4 with (decimal (str "4")). constructor. apply digits_str; [discriminate|reflexivity].
Qed.
Example C10_ex_rejected : map readNoteValue [str "cb4"; str "e#2"; str "h1"; str "c"; str "g#9"; str "c4x"] =
  repeat (Result None) 6.
Proof. reflexivity. Qed.

(** The empty text of an opcode such as [key=] removes a character from an empty view. *)
Definition s_key : ispec := ISpec 60 0 127 0 255 true false false false false.
Theorem C10_empty_refuted : readInt s_key [] = Undefined.
Proof. reflexivity. Qed.
(** An octave that fits an int may overflow the product by 12; where this wraps, c357913941 becomes key 8. *)
Theorem C10_octave_overflow_refuted :
  readInt s_key (str "c357913941") = Undefined /\ Z.modulo (key_of 0 357913941) (2 ^ 32) = 8.
Proof. split; reflexivity. Qed.
