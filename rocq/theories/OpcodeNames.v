(** Numbers inside opcode names and derived names (C11, C56). *)
From Coq Require Import ZArith List Bool Ascii String Lia.
From Verif Require Import ParserModel ParserReader ParserAdvance OpcodeModel OpcodeNumbers.
Import ListNotations.
Local Open Scope string_scope.
Local Open Scope Z_scope.
Local Open Scope list_scope.

(** * Specification *)

Definition no_digits (t : text) : Prop := Forall (fun c => ~ 48 <= c <= 57) t.
Definition ends_run (t : text) : Prop := match t with c :: _ => ~ 48 <= c <= 57 | [] => True end.
(** [reads name L N]: the name consists of letters and maximal runs of digits; L has '&' in place of each run and
    N their numbers, in order. *)
Inductive reads : text -> text -> list Z -> Prop :=
| rd_end l : no_digits l -> reads l l []
| rd_run l d r L N : no_digits l -> is_digits d -> ends_run r -> reads r L N ->
    reads (l ++ d ++ r) (l ++ 38 :: L) (decimal d :: N).
Definition no_ampersand (t : text) : Prop := ~ In 38 t.
(** No run of digits has a superfluous zero in front. *)
Fixpoint canonical (prev : bool) (t : text) : Prop :=
  match t with
  | [] => True
  | c :: r =>
      (48 <= c <= 57 -> prev = false -> c = 48 -> ends_run r) /\ canonical ((48 <=? c) && (c <=? 57)) r
  end.

Lemma no_digits_b t : forallb (fun c => negb (isDigit c)) t = true -> no_digits t.
Proof.
  intros H. apply Forall_forall. intros c C D. rewrite forallb_forall in H. specialize (H c C).
  rewrite (proj2 (isDigit_iff c) D) in H. discriminate.
Qed.

(** * Every name reads in one way *)

Lemma reads_total_len n : forall t, (List.length t <= n)%nat -> exists L N, reads t L N.
Proof.
  induction n as [|n IH]; intros t H.
  - destruct t; [|cbn in H; lia]. exists [], []. constructor. constructor.
  - set (f := fun c => negb (isDigit c)).
    pose proof (span_app f t) as A. pose proof (span_true f t) as T. pose proof (span_stop f t) as St.
    destruct (span f t) as [l r]. cbn [fst snd] in *.
    assert (Nl : no_digits l).
    { eapply Forall_impl; [|exact T]. intros c C D. unfold f in C. rewrite (proj2 (isDigit_iff c) D) in C. discriminate. }
    destruct r as [|c r].
    { rewrite app_nil_r in A. subst l. exists t, []. now constructor. }
    unfold f in St. apply negb_false_iff in St.
    pose proof (span_app isDigit (c :: r)) as B. pose proof (span_true isDigit (c :: r)) as T2.
    pose proof (span_stop isDigit (c :: r)) as St2. 
    assert (Ne : fst (span isDigit (c :: r)) <> []).
    { cbn [span]. rewrite St. destruct (span isDigit r). discriminate. }
    destruct (span isDigit (c :: r)) as [d r2]. cbn [fst snd] in *.
    destruct (IH r2) as (L & N & R).
    { rewrite <- A, <- B in H. rewrite !app_length in H. destruct d; [now elim Ne|]. cbn in H. lia. }
    exists (l ++ 38 :: L), (decimal d :: N). rewrite <- A, <- B. constructor; [exact Nl| | |exact R].
    + split; [exact Ne|]. eapply Forall_impl; [|exact T2]. intros x. apply isDigit_iff.
    + destruct r2 as [|x r2]; [exact Logic.I|]. intros D. apply isDigit_iff in D. congruence.
Qed.
Lemma reads_total t : exists L N, reads t L N.
Proof. exact (reads_total_len (List.length t) t (le_n _)). Qed.

Lemma letter_only_nodigits b l r : no_digits l -> l <> [] -> letter_only b (l ++ r) = l ++ letter_only false r.
Proof.
  intros N. revert b. induction N as [|c l C N IH]; intros b Ne; [now elim Ne|].
  cbn [app letter_only]. destruct (isDigit c) eqn:E; [now apply isDigit_iff in E|]. cbn [negb]. f_equal.
  destruct l as [|c' l]; [reflexivity|]. apply IH. discriminate.
Qed.
Lemma letter_only_digits d r : Forall (fun c => 48 <= c <= 57) d -> letter_only true (d ++ r) = letter_only true r.
Proof.
  induction 1 as [|c d C _ IH]; [reflexivity|]. cbn [app letter_only].
  now rewrite (proj2 (isDigit_iff c) C).
Qed.
Lemma letter_only_ends r : ends_run r -> letter_only true r = letter_only false r.
Proof.
  destruct r as [|c r]; [reflexivity|]. intros C. cbn [letter_only].
  destruct (isDigit c) eqn:E; [now apply isDigit_iff in E|reflexivity].
Qed.
Lemma reads_letters t L N : reads t L N -> letter_only false t = L.
Proof.
  induction 1 as [l Hl|l d r L N Hl Hd Hr R IH].
  - destruct l as [|c l]; [reflexivity|]. rewrite <- (app_nil_r (c :: l)) at 1.
    rewrite letter_only_nodigits; [now rewrite app_nil_r|exact Hl|discriminate].
  - assert (K : letter_only false (d ++ r) = 38 :: L).
    { destruct Hd as [Ne F]. destruct d as [|c d]; [now elim Ne|]. inversion F as [|? ? C F']; subst.
      cbn [app letter_only]. rewrite (proj2 (isDigit_iff c) C). cbn [negb].
      now rewrite letter_only_digits, letter_only_ends. }
    destruct l as [|c l]; [exact K|]. rewrite letter_only_nodigits; [now rewrite K|exact Hl|discriminate].
Qed.

(** * The constructor *)

Lemma hash_app a b h : hash (a ++ b) h = hash b (hash a h).
Proof. revert h. induction a as [|c a IH]; intros h; [reflexivity|]. cbn [app hash]. apply IH. Qed.
Lemma hashNoAmp_eq l h : no_ampersand l -> hashNoAmpersand l h = hash l h.
Proof.
  unfold no_ampersand. revert h. induction l as [|c l IH]; intros h A; [reflexivity|]. cbn [hash hashNoAmpersand].
  destruct (Z.eqb_spec c 38) as [->|]; [elim A; now left|]. apply IH. intros X. apply A. now right.
Qed.
Lemma span_letters l r : no_digits l -> match r with c :: _ => 48 <= c <= 57 | [] => True end ->
  span (fun c => negb (isDigit c)) (l ++ r) = (l, r).
Proof.
  intros N R. apply span_all.
  - eapply Forall_impl; [|exact N]. intros c C. destruct (isDigit c) eqn:E; [now apply isDigit_iff in E|reflexivity].
  - destruct r as [|c r]; [exact Logic.I|]. now rewrite (proj2 (isDigit_iff c) R).
Qed.
Lemma digits_no_minus d e a b : is_digits d -> d = a ++ str "-" ++ e ++ b -> False.
Proof.
  intros [_ F] E. rewrite E in F. apply Forall_app in F. destruct F as [_ F]. cbn in F.
  inversion F. lia.
Qed.
Lemma atoi_digits hi d : is_digits d -> simpleAtoi 0 hi d = if decimal d <=? hi then Some (decimal d) else None.
Proof.
  intros D. rewrite (simpleAtoi_padded 0 hi d (decimal d)).
  - pose proof (decimal_nonneg d (proj2 D)) as P. now destruct (Z.leb_spec 0 (decimal d)); [|lia].
  - apply signed_padded. now constructor.
  - intros _ e. right. intros (a & b & E). exact (digits_no_minus _ _ _ _ D E).
Qed.
Lemma no_amp_app a b : no_ampersand (a ++ b) -> no_ampersand a /\ no_ampersand b.
Proof. unfold no_ampersand. intros H. split; intros X; apply H, in_or_app; tauto. Qed.
Lemma scan_reads t L N : reads t L N -> no_ampersand t -> Forall (fun n => n < 2 ^ 32) N ->
  forall fuel h ps, (List.length t <= fuel)%nat ->
  scan_name fuel t h ps = (hash L h, ps ++ map (fun n => Z.modulo n 65536) N).
Proof.
  induction 1 as [l Hl|l d r L N Hl Hd Hr R IH]; intros A B fuel h ps F.
  - assert (S0 : span (fun c => negb (isDigit c)) l = (l, [])).
    { rewrite <- (app_nil_r l) at 1. apply span_letters; [exact Hl|exact Logic.I]. }
    destruct fuel; cbn [scan_name]; rewrite S0, hashNoAmp_eq, app_nil_r by exact A; reflexivity.
  - inversion B as [|? ? B1 B2]; subst.
    destruct (no_amp_app _ _ A) as [A1 A2]. destruct (no_amp_app _ _ A2) as [_ A3].
    assert (Q : exists c d', d = c :: d' /\ 48 <= c <= 57).
    { destruct Hd as [Ne Fd]. destruct d as [|c d]; [now elim Ne|]. exists c, d. split; [reflexivity|]. now inversion Fd. }
    destruct Q as (c & d' & Ed & C).
    assert (S1 : span (fun c => negb (isDigit c)) (l ++ d ++ r) = (l, d ++ r)).
    { apply span_letters; [exact Hl|]. rewrite Ed. exact C. }
    assert (S2 : span isDigit (d ++ r) = (d, r)) by (apply span_digits; [apply Hd|exact Hr]).
    assert (Sc : forall fuel, scan_name (S fuel) (l ++ d ++ r) h ps =
      scan_name fuel r (hash (str "&") (hash l h)) (ps ++ [Z.modulo (decimal d) 65536])).
    { intros f. cbn [scan_name]. rewrite S1, hashNoAmp_eq, S2, atoi_digits by assumption.
      destruct (Z.leb_spec (decimal d) (2 ^ 32 - 1)); [|lia]. rewrite Ed. reflexivity. }
    destruct fuel as [|fuel].
    { exfalso. rewrite !app_length, Ed in F. cbn in F. lia. }
    rewrite Sc, IH by (try assumption; rewrite !app_length, Ed in F; cbn in F; lia).
    rewrite <- app_assoc. cbn [app map]. f_equal. rewrite hash_app. reflexivity.
Qed.

Lemma mod_small_list N : Forall (fun n => 0 <= n < 65536) N -> map (fun n => Z.modulo n 65536) N = N.
Proof.
  induction 1 as [|n N H _ IH]; [reflexivity|]. cbn [map]. now rewrite IH, Z.mod_small by lia.
Qed.
Lemma reads_nonneg t L N : reads t L N -> Forall (fun n => 0 <= n) N.
Proof.
  induction 1 as [|l d r L N _ D _ _ IH]; constructor; [apply decimal_nonneg, D|exact IH].
Qed.

(** * C11: the numbers of a name *)

(** An opcode has exactly the numbers that its name contains, in order, if these are below 65536; and it is looked up by
    the hash of its name with '&' for each number, which is also what getLetterOnlyName returns. *)
Theorem C11_numbers n v L N : reads (trim n) L N -> no_ampersand n -> Forall (fun x => x < 65536) N ->
  o_params (mkOpcode n v) = N /\
  o_hash (mkOpcode n v) = hash L fnvBasis /\
  getLetterOnlyName (mkOpcode n v) = L.
Proof.
  intros R A B.
  assert (A' : no_ampersand (trim n)).
  { destruct (trim_split n) as (a & b & _ & _ & E). rewrite E in A. apply no_amp_app in A. destruct A as [_ A].
    now apply no_amp_app in A. }
  assert (B' : Forall (fun x => x < 2 ^ 32) N) by (eapply Forall_impl; [|exact B]; cbn; lia).
  unfold mkOpcode, getLetterOnlyName.
  rewrite (scan_reads _ _ _ R A' B') by apply le_n. cbn [o_params o_hash o_name app].
  split; [|split; [reflexivity|now apply reads_letters with N]].
  apply mod_small_list. apply reads_nonneg in R. rewrite Forall_forall in *. intros x X. split; [now apply R|now apply B].
Qed.

Lemma decimal_lt d : Forall (fun c => 48 <= c <= 57) d -> decimal d < 10 ^ Z.of_nat (List.length d).
Proof.
  induction 1 as [|c d C _ IH]; [reflexivity|]. cbn [decimal List.length].
  rewrite Nat2Z.inj_succ, Z.pow_succ_r by lia. nia.
Qed.
Lemma decimal_inj_len d e : Forall (fun c => 48 <= c <= 57) d -> Forall (fun c => 48 <= c <= 57) e ->
  List.length d = List.length e -> decimal d = decimal e -> d = e.
Proof.
  intros D. revert e. induction D as [|c d C D IH]; intros e E Le H.
  - destruct e; [reflexivity|discriminate].
  - destruct e as [|c' e]; [discriminate|]. inversion E as [|? ? C' E']; subst. cbn in Le. injection Le as Le.
    cbn [decimal] in H. rewrite <- Le in H.
    pose proof (decimal_lt d D). pose proof (decimal_nonneg d D). pose proof (decimal_lt e E'). pose proof (decimal_nonneg e E').
    rewrite <- Le in *. assert (c = c') by nia. subst c'. f_equal. apply IH; [exact E'|exact Le|lia].
Qed.
Definition no_zero (d : text) : Prop := match d with c :: _ :: _ => c <> 48 | _ => True end.
Lemma decimal_inj d e : is_digits d -> is_digits e -> no_zero d -> no_zero e -> decimal d = decimal e -> d = e.
Proof.
  intros [Nd D] [Ne E] Zd Ze H. apply decimal_inj_len; try assumption.
  assert (K : forall d e, d <> [] -> e <> [] -> Forall (fun c => 48 <= c <= 57) d -> Forall (fun c => 48 <= c <= 57) e -> no_zero d ->
    decimal d = decimal e -> (List.length d <= List.length e)%nat).
  { clear. intros d e Nd Ne D E Zd H. destruct (Nat.le_gt_cases (List.length d) (List.length e)) as [|Lt]; [assumption|exfalso].
    destruct d as [|c d]; [now elim Nd|]. destruct e as [|c' e]; [now elim Ne|].
    destruct d as [|c2 d]; [cbn in Lt; lia|].
    inversion D as [|? ? C D']; subst. cbn in Zd.
    pose proof (decimal_lt _ E) as U. pose proof (decimal_nonneg _ D') as P.
    change (decimal (c :: c2 :: d)) with ((c - 48) * 10 ^ Z.of_nat (List.length (c2 :: d)) + decimal (c2 :: d)) in H.
    assert (10 ^ Z.of_nat (List.length (c' :: e)) <= 10 ^ Z.of_nat (List.length (c2 :: d))).
    { apply Z.pow_le_mono_r; [lia|]. cbn [List.length] in *. lia. }
    nia. }
  apply Nat.le_antisymm; apply K; auto.
Qed.
Lemma canonical_app_r b l r : canonical b (l ++ r) -> exists b', canonical b' r.
Proof.
  revert b. induction l as [|c l IH]; intros b H; [now exists b|]. cbn [app canonical] in H. destruct H as [_ H].
  now apply IH in H.
Qed.
Lemma canonical_letters l r : no_digits l -> canonical false (l ++ r) -> canonical false r.
Proof.
  induction 1 as [|c l C _ IH]; [trivial|]. cbn [app canonical]. intros [_ H].
  destruct ((48 <=? c) && (c <=? 57)) eqn:E; [apply andb_true_iff in E; rewrite !Z.leb_le in E; contradiction|]. now apply IH.
Qed.
Lemma canonical_digits d r : Forall (fun c => 48 <= c <= 57) d -> ends_run r -> d <> [] -> canonical false (d ++ r) ->
  no_zero d /\ canonical false r.
Proof.
  intros F Er Ne H. split.
  - destruct d as [|c [|c2 d]]; [exact Logic.I|exact Logic.I|].
    cbn [app canonical] in H. destruct H as [H _]. inversion F as [|? ? C F']; subst. inversion F' as [|? ? C2 _]; subst.
    intros ->. elim (H C eq_refl eq_refl). exact C2.
  - assert (K : forall b, canonical b (d ++ r) -> exists b', canonical b' r) by (intros b; apply canonical_app_r).
    destruct (K _ H) as [b' Hr]. destruct r as [|c r]; [exact Logic.I|]. cbn [canonical] in *.
    split; [|apply Hr]. intros X. now elim Er.
Qed.
Lemma split_amp a b x y : no_ampersand a -> no_ampersand b -> a ++ 38 :: x = b ++ 38 :: y -> a = b /\ x = y.
Proof.
  unfold no_ampersand. revert b. induction a as [|c a IH]; intros [|c' b] A B H; cbn [app] in H.
  - now injection H.
  - injection H as <- _. elim B. now left.
  - injection H as -> _. elim A. now left.
  - injection H as <- H. destruct (IH b) as [-> ->]; try assumption; [| |now split].
    + intros X. apply A. now right.
    + intros X. apply B. now right.
Qed.
Lemma reads_inj n1 L N : reads n1 L N -> no_ampersand n1 -> canonical false n1 ->
  forall n2, reads n2 L N -> no_ampersand n2 -> canonical false n2 -> n1 = n2.
Proof.
  induction 1 as [l Hl|l d r L N Hl Hd Hr R IH]; intros A C n2 R2 A2 C2.
  - inversion R2; subst. reflexivity.
  - inversion R2 as [|l2 d2 r2 L2 N2 Hl2 Hd2 Hr2 R2' E1 E2 [E3 E4]]; subst.
    destruct (no_amp_app _ _ A) as [Al Ar]. destruct (no_amp_app _ _ Ar) as [_ Ar'].
    destruct (no_amp_app _ _ A2) as [Al2 Ar2]. destruct (no_amp_app _ _ Ar2) as [_ Ar2'].
    destruct (split_amp _ _ _ _ Al2 Al E2) as [-> ->].
    apply canonical_letters in C; [|exact Hl]. apply canonical_letters in C2; [|exact Hl].
    apply canonical_digits in C; [|apply Hd|exact Hr|apply Hd]. destruct C as [Z1 C].
    apply canonical_digits in C2; [|apply Hd2|exact Hr2|apply Hd2]. destruct C2 as [Z2 C2].
    rewrite (IH Ar' C r2 R2' Ar2' C2). rewrite (decimal_inj d d2); [reflexivity|assumption..|now symmetry].
Qed.

(** So two names with the same letters and the same numbers are one name, up to superfluous zeros; equivalently names
    that differ in a number have different numbers. *)
Theorem C11_injective n1 n2 v1 v2 L1 L2 N1 N2 :
  reads n1 L1 N1 -> reads n2 L2 N2 ->
  trim n1 = n1 -> trim n2 = n2 -> no_ampersand n1 -> no_ampersand n2 ->
  canonical false n1 -> canonical false n2 ->
  Forall (fun x => x < 65536) N1 -> Forall (fun x => x < 65536) N2 ->
  getLetterOnlyName (mkOpcode n1 v1) = getLetterOnlyName (mkOpcode n2 v2) ->
  o_params (mkOpcode n1 v1) = o_params (mkOpcode n2 v2) -> n1 = n2.
Proof.
  intros R1 R2 T1 T2 A1 A2 C1 C2 B1 B2 EL EP.
  pose proof R1 as R1'. pose proof R2 as R2'. rewrite <- T1 in R1'. rewrite <- T2 in R2'.
  destruct (C11_numbers n1 v1 _ _ R1' A1 B1) as (P1 & _ & X1).
  destruct (C11_numbers n2 v2 _ _ R2' A2 B2) as (P2 & _ & X2).
  assert (EL' : L2 = L1) by congruence. assert (EN : N2 = N1) by congruence. rewrite EL', EN in R2.
  exact (reads_inj _ _ _ R1 A1 C1 _ R2 A2 C2).
Qed.

Lemma reads_run l d r L N n Lr Nr : no_digits l -> is_digits d -> ends_run r -> reads r L N ->
  n = l ++ d ++ r -> Lr = l ++ 38 :: L -> Nr = decimal d :: N -> reads n Lr Nr.
Proof. intros A B C D -> -> ->. now constructor. Qed.
Ltac decide_text :=
  repeat constructor; try discriminate; cbn; lia.
Example C11_ex : reads (trim (str " eq12_gain_oncc74")) (str "eq&_gain_oncc&") [12; 74] /\
  o_params (mkOpcode (str " eq12_gain_oncc74") (str "3")) = [12; 74].
Proof.
  split; [|reflexivity].
  apply (reads_run (str "eq") (str "12") (str "_gain_oncc74") (str "_gain_oncc&") [74]); try reflexivity.
  - decide_text.
  - split; [discriminate|decide_text].
  - cbn. lia.
  - apply (reads_run (str "_gain_oncc") (str "74") [] [] []); try reflexivity.
    + decide_text.
    + split; [discriminate|decide_text].
    + constructor. constructor.
Qed.

(** Numbers are stored modulo 65536: locc65610 is locc74. *)
Theorem C11_truncated_refuted :
  o_params (mkOpcode (str "locc65610") (str "1")) = o_params (mkOpcode (str "locc74") (str "1")) /\
  o_hash (mkOpcode (str "locc65610") (str "1")) = o_hash (mkOpcode (str "locc74") (str "1")).
Proof. split; vm_compute; reflexivity. Qed.
(** Numbers of more than 32 bits vanish from the name: volume4294967296 is volume.  So do ampersands. *)
Theorem C11_dropped_refuted :
  o_hash (mkOpcode (str "volume4294967296") (str "1")) = o_hash (mkOpcode (str "volume") (str "1")) /\
  o_params (mkOpcode (str "volume4294967296") (str "1")) = [] /\
  o_hash (mkOpcode (str "vol&ume") (str "1")) = o_hash (mkOpcode (str "volume") (str "1")).
Proof. repeat split; vm_compute; reflexivity. Qed.

(** * C56: derived names *)

Lemma rev_digits_span x d : is_digits d -> ends_run (rev x) -> span isDigit (rev (x ++ d)) = (rev d, rev x).
Proof.
  intros [_ F] E. rewrite rev_app_distr. apply span_digits; [now apply Forall_rev|exact E].
Qed.
Lemma extract_back x d : is_digits d -> ends_run (rev x) -> extractBackInteger (x ++ d) = d /\ dropBackInteger (x ++ d) = x.
Proof.
  intros D E. unfold extractBackInteger, dropBackInteger. rewrite rev_digits_span by assumption. cbn [fst snd].
  now rewrite !rev_involutive.
Qed.
Lemma cat_suffix_ends base c : c <> Normal -> ends_run (rev (base ++ cat_suffix c)).
Proof. intros N. rewrite rev_app_distr. destruct c; [now elim N|cbn; lia..]. Qed.
Lemma identify_suffix base c d : c <> Normal -> is_digits d -> identifyCategory (base ++ cat_suffix c ++ d) = c.
Proof.
  intros N D. rewrite app_assoc. unfold identifyCategory.
  destruct (extract_back (base ++ cat_suffix c) d D (cat_suffix_ends base c N)) as [_ ->].
  destruct (digits_last d D) as (x & m & R & X). destruct (last_app_ne (base ++ cat_suffix c) d x m R) as [m' ->].
  rewrite (proj2 (isDigit_iff x) X). unfold ends_with. rewrite rev_app_distr.
  destruct c; [now elim N|reflexivity..].
Qed.
Lemma to_string_digits n : 0 <= n < 2 ^ 32 -> is_digits (to_string n) /\ decimal (to_string n) = n.
Proof.
  intros H. unfold to_string.
  assert (K : forall fuel n acc, 0 <= n < 10 ^ Z.of_nat (S fuel) -> Forall (fun c => 48 <= c <= 57) acc ->
    is_digits (digits_of fuel n acc) /\
    decimal (digits_of fuel n acc) = n * 10 ^ Z.of_nat (List.length acc) + decimal acc).
  { clear n H. induction fuel as [|fuel IH]; intros n acc H A.
    - cbn [digits_of]. assert (n < 10) by (change (10 ^ Z.of_nat 1) with 10 in H; lia). rewrite Z.mod_small by lia. split.
      + split; [discriminate|]. constructor; [lia|exact A].
      + cbn [decimal]. replace (48 + n - 48) with n by lia. reflexivity.
    - cbn [digits_of]. pose proof (Z.mod_pos_bound n 10 ltac:(lia)) as M.
      assert (A' : Forall (fun c => 48 <= c <= 57) (48 + n mod 10 :: acc)) by (constructor; [lia|exact A]).
      destruct (Z.ltb_spec n 10) as [L0|L0].
      + split; [split; [discriminate|exact A']|]. cbn [decimal]. rewrite Z.mod_small by lia.
        replace (48 + n - 48) with n by lia. reflexivity.
      + assert (Hd : 0 <= n / 10 < 10 ^ Z.of_nat (S fuel)).
        { split; [apply Z.div_pos; lia|]. apply Z.div_lt_upper_bound; [lia|].
          rewrite <- Z.pow_succ_r by lia. rewrite <- Nat2Z.inj_succ. lia. }
        destruct (IH (n / 10) _ Hd A') as [I1 I2]. split; [exact I1|]. rewrite I2. cbn [decimal List.length].
        rewrite Nat2Z.inj_succ, Z.pow_succ_r by lia. pose proof (Z.div_mod n 10 ltac:(lia)) as DM.
        replace (48 + n mod 10 - 48) with (n mod 10) by lia. rewrite DM at 3. ring. }
  destruct (K 10%nat n []) as [K1 K2].
  - split; [lia|]. change (10 ^ Z.of_nat 11) with 100000000000. lia.
  - constructor.
  - split; [exact K1|]. rewrite K2. cbn. lia.
Qed.
Lemma cut_last x y : Forall (fun c => c <> 95) y -> cut_last_underscore (x ++ 95 :: y) = Some x.
Proof.
  intros H. unfold cut_last_underscore. rewrite rev_app_distr. cbn [rev]. rewrite <- app_assoc. cbn [app].
  rewrite span_all.
  - cbn [snd]. now rewrite rev_involutive.
  - apply Forall_rev in H. eapply Forall_impl; [|exact H]. intros c C. cbn beta. now destruct (Z.eqb_spec c 95).
  - reflexivity.
Qed.
Lemma cut_suffix base c d : c <> Normal -> is_digits d -> cut_last_underscore (base ++ cat_suffix c ++ d) = Some base.
Proof.
  intros N [_ F].
  assert (E : exists s, cat_suffix c = 95 :: s /\ Forall (fun c => c <> 95) s).
  { destruct c; [now elim N|..]; (eexists; split; [reflexivity|]); repeat constructor; cbn; lia. }
  destruct E as (s & -> & S0). cbn [app]. apply cut_last. apply Forall_app. split; [exact S0|].
  eapply Forall_impl; [|exact F]. cbn. lia.
Qed.

(** Names of the form base, suffix, number are converted between the controller categories by exchanging the suffix; the
    new name belongs to the category asked for and keeps its number unless another is given. *)
Theorem C56_between_controllers base c c' d v number o :
  c <> Normal -> c' <> Normal -> is_digits d -> trim (base ++ cat_suffix c ++ d) = base ++ cat_suffix c ++ d ->
  (forall k, number = Some k -> 0 <= k < 2 ^ 32) ->
  o = mkOpcode (base ++ cat_suffix c ++ d) v ->
  exists e, getDerivedName o c' number = Some (base ++ cat_suffix c' ++ e) /\
    is_digits e /\ decimal e = match number with Some k => k | None => decimal d end /\
    identifyCategory (base ++ cat_suffix c' ++ e) = c' /\ o_cat o = c /\
    getDerivedName o Normal number = Some base.
Proof.
  intros N N' D T K ->.
  set (e := match number with Some k => to_string k | None => d end).
  assert (E : is_digits e /\ decimal e = match number with Some k => k | None => decimal d end).
  { unfold e. destruct number as [k|]; [now apply to_string_digits, K|now split]. }
  destruct E as [E1 E2]. exists e.
  assert (Ca : o_cat (mkOpcode (base ++ cat_suffix c ++ d) v) = c).
  { unfold mkOpcode. destruct (scan_name _ _ _ _). cbn [o_cat]. now apply identify_suffix. }
  assert (Na : o_name (mkOpcode (base ++ cat_suffix c ++ d) v) = base ++ cat_suffix c ++ d).
  { unfold mkOpcode. destruct (scan_name _ _ _ _). cbn [o_name]. exact T. }
  assert (G : forall c'', getDerivedName (mkOpcode (base ++ cat_suffix c ++ d) v) c'' number =
    Some (match c'' with Normal => base | _ => base ++ cat_suffix c'' ++ e end)).
  { intros c''. unfold getDerivedName. rewrite Ca, Na.
    assert (B : (match c with Normal => Some (base ++ cat_suffix c ++ d) | _ => cut_last_underscore (base ++ cat_suffix c ++ d) end) = Some base).
    { destruct c; [now elim N|now apply cut_suffix..]. }
    unfold text in *. rewrite B. cbn [bind].
    assert (X : extractBackInteger (base ++ cat_suffix c ++ d) = d).
    { rewrite app_assoc. now apply extract_back; [|apply cat_suffix_ends]. }
    rewrite X. destruct c''; reflexivity. }
  rewrite !G. split; [now destruct c'; [elim N'|..]|]. split; [exact E1|]. split; [exact E2|].
  split; [now apply identify_suffix|]. split; [exact Ca|reflexivity].
Qed.
Lemma reads_app_suffix n L N d c : reads n L N -> is_digits d -> c <> Normal ->
  reads (n ++ cat_suffix c ++ d) (L ++ cat_suffix c ++ [38]) (N ++ [decimal d]).
Proof.
  intros R D Nc.
  assert (Sc : exists x y, cat_suffix c = x :: y /\ no_digits (cat_suffix c) /\ ~ 48 <= x <= 57).
  { destruct c; [now elim Nc|..]; (exists 95; eexists; split; [reflexivity|]; split; [now apply no_digits_b|lia]). }
  destruct Sc as (x & y & Es & Sd & Sx).
  induction R as [l Hl|l e r L N Hl He Hr R IH].
  - pose proof (rd_run (l ++ cat_suffix c) d [] [] []) as H. rewrite <- !app_assoc in H. cbn [app] in H.
    rewrite app_nil_r in H. apply H; [apply Forall_app; now split|exact D|exact Logic.I|constructor; constructor].
  - rewrite <- !app_assoc. cbn [app]. apply (rd_run l e (r ++ cat_suffix c ++ d)); [exact Hl|exact He| |exact IH].
    destruct r as [|z r]; [rewrite Es; exact Sx|exact Hr].
Qed.
(** An ordinary name gets the suffix and the number; the new opcode has the old numbers and the new one. *)
Theorem C56_from_normal n v v' c k o L N n' :
  c <> Normal -> 0 <= k < 65536 -> o = mkOpcode n v -> trim n = n -> o_cat o = Normal ->
  reads n L N -> no_ampersand n -> Forall (fun x => x < 65536) N ->
  getDerivedName o c (Some k) = Some n' ->
  o_cat (mkOpcode n' v') = c /\ o_params (mkOpcode n' v') = o_params o ++ [k].
Proof.
  intros Nc K -> T Ca R A B G.
  assert (Na : o_name (mkOpcode n v) = n).
  { unfold mkOpcode. destruct (scan_name _ _ _ _). exact T. }
  unfold getDerivedName in G. rewrite Ca, Na in G. cbn [bind] in G.
  assert (E : n' = n ++ cat_suffix c ++ to_string k) by (destruct c; [now elim Nc|congruence..]).
  destruct (to_string_digits k ltac:(lia)) as [D1 D2]. subst n'.
  assert (T' : trim (n ++ cat_suffix c ++ to_string k) = n ++ cat_suffix c ++ to_string k).
  { apply trim_solid. apply trimmed_solid in T. destruct T as [T _]. split.
    - destruct n as [|x n]; [|exact T]. destruct c; [now elim Nc|reflexivity..].
    - destruct (digits_last _ D1) as (x & m & E & X). rewrite app_assoc.
      destruct (last_app_ne (n ++ cat_suffix c) _ x m E) as [m' ->]. now apply digit_not_blank. }
  split.
  - unfold mkOpcode. destruct (scan_name _ _ _ _). cbn [o_cat]. now apply identify_suffix.
  - pose proof (reads_app_suffix n L N _ c R D1 Nc) as R'. rewrite D2 in R'.
    rewrite <- T' in R'.
    assert (A' : no_ampersand (n ++ cat_suffix c ++ to_string k)).
    { unfold no_ampersand. rewrite !in_app_iff. intros [X|[X|X]]; [now apply A| |].
      - destruct c; cbn in X; lia.
      - destruct D1 as [_ F]. rewrite Forall_forall in F. specialize (F _ X). lia. }
    assert (B' : Forall (fun x => x < 65536) (N ++ [k])).
    { apply Forall_app. split; [exact B|]. repeat constructor. lia. }
    destruct (C11_numbers _ v' _ _ R' A' B') as (-> & _). rewrite <- T in R. now destruct (C11_numbers n v _ _ R A B) as (-> & _).
Qed.
Example C56_ex : getDerivedName (mkOpcode (str "eq3_gain_oncc74") []) SmoothCcN None = Some (str "eq3_gain_smoothcc74") /\
  getDerivedName (mkOpcode (str "lfo2_volume") []) OnCcN (Some 131) = Some (str "lfo2_volume_oncc131").
Proof. split; reflexivity. Qed.
(** A name with a blank in front of or behind it is categorised before it is trimmed: the suffix of this one is then
    not removed. *)
Theorem C56_untrimmed_refuted :
  let o := mkOpcode (str "volume_oncc7 ") (str "3") in
  o_name o = str "volume_oncc7" /\ o_cat o = Normal /\
  getDerivedName o CurveCcN None = Some (str "volume_oncc7_curvecc7").
Proof. repeat split; reflexivity. Qed.
