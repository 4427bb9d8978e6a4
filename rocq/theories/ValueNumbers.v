(** Values of opcodes: numbers (C76) and the ranges of controllers and velocities (C75). *)
From Coq Require Import String ZArith QArith Qabs Qpower List Bool Lia Lqa.
From Verif Require Import ParserModel OpcodeModel OpcodeNumbers Rounding ValueModel.
Import ListNotations.
Local Open Scope Z_scope.

(** * C76: the number a text stands for *)
Definition digits (t : text) : Prop := Forall (fun c => 48 <= c <= 57) t.
(** Characters by their codes: 43 is '+', 45 is '-', 46 is '.', 101 is 'e'. *)
Inductive sign_text : text -> Q -> Prop :=
| no_sign : sign_text [] 1
| plus_sign : sign_text [43] 1
| minus_sign : sign_text [45] (-1).
Inductive exponent_text : text -> Z -> Prop :=
| no_exponent : exponent_text [] 0
| exponent d : is_digits d -> exponent_text (101 :: d) (decimal d)
| exponent_plus d : is_digits d -> exponent_text (101 :: 43 :: d) (decimal d)
| exponent_minus d : is_digits d -> exponent_text (101 :: 45 :: d) (- decimal d).
(** [number t q rest]: [t] begins with a number, of value [q], after which there is [rest]. *)
Definition number (t : text) (q : Q) (rest : text) : Prop :=
  exists sg s ip fr fd ex k, t = sg ++ ip ++ fr ++ ex ++ rest /\ sign_text sg s /\ digits ip /\ digits fd /\
    (fr = [] /\ fd = [] \/ fr = 46 :: fd) /\ ip ++ fd <> [] /\ exponent_text ex k /\
    match rest with c :: _ => ~ 48 <= c <= 57 /\ (ex = [] -> c <> 101 /\ (fr = [] -> c <> 46)) | [] => True end /\
    (q == s * (inject_Z (decimal ip) + inject_Z (decimal fd) / inject_Z (10 ^ Z.of_nat (List.length fd))) * Qpower 10 k)%Q.

Lemma isDigit_no c : ~ 48 <= c <= 57 -> isDigit c = false.
Proof. intros H. destruct (isDigit c) eqn:E; [|reflexivity]. apply isDigit_iff in E. contradiction. Qed.
Lemma isDigit_yes c : 48 <= c <= 57 -> isDigit c = true.
Proof. apply isDigit_iff. Qed.
Lemma decimal_app a b : decimal (a ++ b) = decimal a * 10 ^ Z.of_nat (List.length b) + decimal b.
Proof.
  induction a as [|c a IH]; [reflexivity|]. cbn [app decimal]. rewrite IH, app_length, Nat2Z.inj_add, Z.pow_add_r by lia. ring.
Qed.
Lemma digits_value_decimal t : digits_value 0 t = decimal t.
Proof. rewrite digits_value_eq. lia. Qed.

(** The pieces of a text, as readLeadingFloat and SimpleAtof cut it. *)
Lemma span_ip ip r : digits ip -> match r with c :: _ => ~ 48 <= c <= 57 | [] => True end -> span isDigit (ip ++ r) = (ip, r).
Proof. apply span_digits. Qed.
Lemma cons_head {A} (x : A) l r : exists y m, l ++ x :: r = y :: m /\ (l = [] -> y = x) /\ forall P : A -> Prop, Forall P l -> P x -> P y.
Proof.
  destruct l as [|y l]; [exists x, r|exists y, (l ++ x :: r)]; refine (conj eq_refl (conj _ _)); auto; try discriminate.
  intros P F _. inversion F; assumption.
Qed.
Section Text.
Variables (sg : text) (s : Q) (ip fr fd ex : text) (k : Z) (rest : text).
Hypothesis Hs : sign_text sg s.
Hypothesis Hi : digits ip.
Hypothesis Hd : digits fd.
Hypothesis Hf : fr = [] /\ fd = [] \/ fr = 46 :: fd.
Hypothesis Hn : ip ++ fd <> [].
Hypothesis He : exponent_text ex k.
Hypothesis Hr : match rest with c :: _ => ~ 48 <= c <= 57 /\ (ex = [] -> c <> 101 /\ (fr = [] -> c <> 46)) | [] => True end.

Lemma after_ip : match fr ++ ex ++ rest with c :: _ => ~ 48 <= c <= 57 | [] => True end.
Proof.
  destruct Hf as [[-> _] | -> ]; [|cbn [app]; lia]. cbn [app].
  destruct He; cbn [app]; try (cbn; lia). destruct rest as [|c r]; [exact Logic.I|]. tauto.
Qed.
Lemma after_fd : match ex ++ rest with c :: _ => ~ 48 <= c <= 57 | [] => True end.
Proof. destruct He; cbn [app]; try (cbn; lia). destruct rest as [|c r]; [exact Logic.I|]. tauto. Qed.
Lemma first_char : match ip ++ fr ++ ex ++ rest with c :: _ => c <> 43 /\ c <> 45 | [] => True end.
Proof.
  destruct ip as [|c i]; [|cbn [app]; inversion Hi; subst; lia]. cbn [app].
  destruct Hf as [[-> ->] | -> ]; [now elim Hn|]. cbn [app]. lia.
Qed.
Lemma sign_taken (t : text) : match t with c :: _ => c <> 43 /\ c <> 45 | [] => True end -> take_sign (sg ++ t) = (sg, t).
Proof.
  intros H. destruct Hs; cbn [app]; try reflexivity. destruct t as [|c t]; [reflexivity|]. cbn [take_sign].
  destruct (Z.eqb_spec c 43); [lia|]. destruct (Z.eqb_spec c 45); [lia|]. reflexivity.
Qed.
Lemma rest_no_digit : match rest with c :: _ => ~ 48 <= c <= 57 | [] => True end.
Proof. destruct rest; [exact Logic.I|tauto]. Qed.
Lemma exponent_taken :
  (match ex ++ rest with
    | c :: r => if (c =? 101)%Z then
        let '(s, r) := match r with
          | x :: r' => if (x =? 43)%Z || (x =? 45)%Z || isDigit x then ([x], r') else ([], r)
          | [] => ([], []) end in
        let '(d, r) := span isDigit r in (c :: s ++ d, r)
      else ([], ex ++ rest)
    | [] => ([], []) end) = (ex, rest).
Proof.
  pose proof rest_no_digit as Rd. destruct He as [ |d [D1 D2] |d [D1 D2]|d [D1 D2]]; cbn [app].
  - destruct rest as [|c r]; [reflexivity|]. destruct Hr as [_ H]. destruct (H eq_refl) as [H1 _]. destruct (Z.eqb_spec c 101); [contradiction|reflexivity].
  - change (101 =? 101) with true. cbv iota. destruct d as [|x d]; [now elim D1|]. inversion D2; subst.
    cbn [app]. rewrite (isDigit_yes x) by assumption. rewrite orb_true_r. rewrite (span_digits d rest) by assumption. reflexivity.
  - cbn [Z.eqb Pos.eqb orb].
    rewrite (span_digits d rest) by assumption. reflexivity.
  - cbn [Z.eqb Pos.eqb orb].
    rewrite (span_digits d rest) by assumption. reflexivity.
Qed.
Lemma part_is : number_part (sg ++ ip ++ fr ++ ex ++ rest) = (sg ++ ip ++ fr ++ ex, rest).
Proof.
  pose proof after_fd as Af. unfold number_part. rewrite sign_taken by apply first_char. rewrite (span_ip ip) by (exact Hi || apply after_ip).
  assert (G : (match fr ++ ex ++ rest with
    | c :: r => if (c =? 46)%Z then let '(d, r) := span isDigit r in (c :: d, r) else ([], fr ++ ex ++ rest)
    | [] => ([], []) end) = (fr, ex ++ rest)).
  { destruct Hf as [[-> ->] | -> ].
    - cbn [app]. destruct (ex ++ rest) as [|c r] eqn:E; [reflexivity|]. destruct (Z.eqb_spec c 46) as [->|]; [|reflexivity]. exfalso.
      destruct He; cbn [app] in E.
      + rewrite E in Hr. destruct Hr as [_ H]. destruct (H eq_refl) as [_ H']. elim (H' eq_refl); reflexivity.
      + injection E as E _. discriminate E.
      + injection E as E _. discriminate E.
      + injection E as E _. discriminate E.
    - cbn [app]. cbn [Z.eqb Pos.eqb]. rewrite (span_digits fd) by (exact Hd || exact Af). reflexivity. }
  match goal with |- (let '(_, _) := ?m in _) = _ => replace m with (fr, ex ++ rest) by (symmetry; exact G) end. cbv iota beta.
  match goal with |- (let '(_, _) := ?m in _) = _ => replace m with (ex, rest) by (symmetry; exact exponent_taken) end. reflexivity.
Qed.
Local Open Scope Q_scope.
Definition exact_value : Q :=
  s * (inject_Z (decimal ip) + inject_Z (decimal fd) / inject_Z (10 ^ Z.of_nat (List.length fd))) * Qpower 10 k.
Lemma value_is : exists q, decimal_value (sg ++ ip ++ fr ++ ex) = Some q /\ q == exact_value.
Proof.
  unfold decimal_value.
  assert (Sg : split_sign (sg ++ ip ++ fr ++ ex) = (if Qle_bool 0 s then false else true, ip ++ fr ++ ex)).
  { destruct Hs; cbn [app]; try reflexivity. pose proof first_char as Fc.
    assert (X : match ip ++ fr ++ ex with c :: _ => (c <> 43 /\ c <> 45)%Z | [] => True end).
    { destruct ip as [|c i]; [|cbn [app]; inversion Hi; subst; lia]. cbn [app]. destruct Hf as [[-> ->] | -> ]; [now elim Hn|]. cbn [app]. lia. }
    unfold split_sign. destruct (ip ++ fr ++ ex) as [|c t]; [reflexivity|].
    destruct (Z.eqb_spec c 45); [lia|]. destruct (Z.eqb_spec c 43); [lia|]. reflexivity. }
  rewrite Sg.
  assert (A1 : match fr ++ ex with c :: _ => ~ (48 <= c <= 57)%Z | [] => True end).
  { destruct Hf as [[-> _] | -> ]; [|cbn [app]; lia]. cbn [app]. destruct He; cbn [app]; (exact Logic.I || cbn; lia). }
  rewrite (span_ip ip) by (exact Hi || exact A1).
  assert (A2 : match ex with c :: _ => ~ (48 <= c <= 57)%Z | [] => True end).
  { destruct He; cbn [app]; try (cbn; lia); exact Logic.I. }
  assert (G : (match fr ++ ex with
    | c :: r => if (c =? 46)%Z then span isDigit r else ([], fr ++ ex)
    | [] => ([], []) end) = (fd, ex)).
  { destruct Hf as [[-> ->] | -> ].
    - cbn [app]. destruct He; cbn [app]; try reflexivity.
    - cbn [app Z.eqb Pos.eqb]. apply span_ip; assumption. }
  match goal with |- exists q, (let '(_, _) := ?m in _) = _ /\ _ => replace m with (fd, ex) by (symmetry; exact G) end. cbv iota beta.
  destruct (ip ++ fd) as [|x w] eqn:W; [now elim Hn|]. rewrite <- W. clear Hn W.
  set (m := inject_Z (digits_value 0 (ip ++ fd)) * Qpower 10 (- Z.of_nat (List.length fd))).
  assert (Pp : (0 < 10 ^ Z.of_nat (List.length fd))%Z) by (apply Z.pow_pos_nonneg; lia).
  assert (Nz : ~ inject_Z (10 ^ Z.of_nat (List.length fd)) == 0).
  { intros X. change 0 with (inject_Z 0) in X. unfold Qeq in X. cbn [inject_Z Qnum Qden] in X. lia. }
  assert (Hm : m == inject_Z (decimal ip) + inject_Z (decimal fd) / inject_Z (10 ^ Z.of_nat (List.length fd))).
  { unfold m. rewrite digits_value_decimal, decimal_app, inject_Z_plus, inject_Z_mult.
    rewrite Qpower_opp, <- (Zpower_Qpower 10) by lia. field. exact Nz. }
  set (q := if (if Qle_bool 0 s then false else true) then - m else m).
  assert (Hq : q == s * m). { unfold q. destruct Hs; cbn; ring. }
  assert (Fin : forall e, e = k -> q * Qpower 10 e == exact_value).
  { intros e ->. unfold exact_value. rewrite Hq, Hm. reflexivity. }
  pose proof digits_value_decimal as Dv. clear x w. revert Fin. generalize exact_value. intros xv Fin.
  destruct He as [ | d [D1 D2]|d [D1 D2]|d [D1 D2]]; cbn [app].
  - exists q. split; [reflexivity|]. rewrite <- (Fin 0%Z eq_refl). cbn [Qpower]. ring.
  - change (101 =? 101)%Z with true. cbv iota. destruct d as [|x d]; [now elim D1|]. inversion D2; subst.
    unfold split_sign. destruct (Z.eqb_spec x 45); [lia|]. destruct (Z.eqb_spec x 43); [lia|].
    rewrite <- (app_nil_r (x :: d)). rewrite (span_digits (x :: d) []) by (assumption || exact Logic.I). rewrite Dv.
    eexists. split; [reflexivity|]. apply Fin. reflexivity.
  - change (101 =? 101)%Z with true. cbv iota. cbn [split_sign].
    change (43 =? 45)%Z with false. change (43 =? 43)%Z with true. cbv iota.
    replace (span isDigit d) with (d, @nil Z) by (symmetry; rewrite <- (app_nil_r d) at 1; apply (span_digits d []); [assumption|exact Logic.I]). destruct d as [|x d]; [now elim D1|]. rewrite Dv.
    eexists. split; [reflexivity|]. apply Fin. reflexivity.
  - change (101 =? 101)%Z with true. cbv iota. cbn [split_sign].
    change (45 =? 45)%Z with true. cbv iota.
    replace (span isDigit d) with (d, @nil Z) by (symmetry; rewrite <- (app_nil_r d) at 1; apply (span_digits d []); [assumption|exact Logic.I]). destruct d as [|x d]; [now elim D1|]. rewrite Dv.
    eexists. split; [reflexivity|]. apply Fin. reflexivity.
Qed.
End Text.

(** C76: the number at the beginning of a text is read, rounded once; what follows it does not matter. *)
Theorem C76_number below wrap db s t q rest : number t q rest ->
  readFloat float24 below wrap db s t = transformFloat float24 below wrap db s (float24 q).
Proof.
  intros (sg & sv & ip & fr & fd & ex & k & -> & Hs & Hi & Hd & Hf & Hn & He & Hr & Hq). unfold readFloat.
  rewrite (part_is sg sv ip fr fd ex k rest Hs Hi Hd Hf Hn He Hr). cbn [fst].
  destruct (value_is sg sv ip fr fd ex k rest Hs Hi Hd Hf Hn He Hr) as (q' & -> & E).
  rewrite (float24_wd q' q); [reflexivity|]. rewrite E, Hq. reflexivity.
Qed.

(** ** Bounds *)
Local Open Scope Q_scope.
Definition spec_ok (s : fspec) : bool :=
  Qle_bool (f_lo s) (f_default s) && Qle_bool (f_default s) (f_hi s) &&
  (if f_enforceLo s || f_enforceHi s then match f_norm s with NoNorm => negb (f_wrap s) | _ => false end else true).
Lemma specs_ok : forallb (fun p => spec_ok (snd p)) float_specs = true.
Proof. vm_compute. reflexivity. Qed.
Lemma negb_le a b : negb (Qle_bool a b) = true -> b < a.
Proof. intros H. apply Qnot_le_lt. intros L. apply Qle_bool_iff in L. rewrite L in H. discriminate. Qed.
Lemma negb_le_false a b : negb (Qle_bool a b) = false -> a <= b.
Proof. intros H. apply Qle_bool_iff. destruct (Qle_bool a b); [reflexivity|discriminate]. Qed.
(** C76: whatever the text, an opcode with enforced bounds has a value within them, and an opcode with neither enforced
    nor permissive bounds has the normalized form of a value within them. *)
Theorem C76_bounds round below wrap db n s t : In (n, s) float_specs ->
  let y := readFloatOr round below wrap db s t in
  (f_enforceLo s = true -> f_lo s <= y) /\ (f_enforceHi s = true -> y <= f_hi s) /\
  (f_enforceLo s = false -> f_permLo s = false -> f_enforceHi s = false -> f_permHi s = false ->
    exists v, f_lo s <= v <= f_hi s /\ y = normalizeInput round below db s v).
Proof.
  intros Hin. pose proof specs_ok as Ok. rewrite forallb_forall in Ok. specialize (Ok _ Hin). cbn [snd] in Ok. clear Hin.
  unfold spec_ok in Ok. apply andb_true_iff in Ok. destruct Ok as [Ok Ok3]. apply andb_true_iff in Ok. destruct Ok as [Ok1 Ok2].
  apply Qle_bool_iff in Ok1, Ok2. cbv zeta.
  assert (Nn : f_enforceLo s = true \/ f_enforceHi s = true -> forall v, normalizeInput round below db s v = v).
  { intros H v. unfold normalizeInput. replace (f_enforceLo s || f_enforceHi s) with true in Ok3.
    - destruct (f_norm s); try discriminate. reflexivity.
    - destruct H as [-> | ->]; [reflexivity|]. symmetry. apply orb_true_r. }
  unfold readFloatOr, readFloat, transformFloat.
  destruct (decimal_value (fst (number_part t))) as [q|].
  2: { refine (conj _ (conj _ _)); [intros H; rewrite Nn by auto; assumption|intros H; rewrite Nn by auto; assumption|].
       intros _ _ _ _. exists (f_default s). split; [split; assumption|reflexivity]. }
  set (v := if f_wrap s then wrap (round q) else round q).
  destruct (negb (Qle_bool v (f_hi s))) eqn:Eh.
  { apply negb_le in Eh. refine (conj _ (conj _ _)).
    - intros H. destruct (f_enforceHi s); [lra|]. destruct (f_permHi s); rewrite Nn by auto; lra.
    - intros ->. lra.
    - intros _ _ -> ->. exists (f_default s). split; [split; assumption|reflexivity]. }
  apply negb_le_false in Eh. destruct (negb (Qle_bool (f_lo s) v)) eqn:El.
  { apply negb_le in El. refine (conj _ (conj _ _)).
    - intros ->. lra.
    - intros H. destruct (f_enforceLo s); [lra|]. destruct (f_permLo s); rewrite Nn by auto; lra.
    - intros -> -> _ _. exists (f_default s). split; [split; assumption|reflexivity]. }
  apply negb_le_false in El. refine (conj _ (conj _ _)); [intros H; rewrite Nn by auto; assumption|intros H; rewrite Nn by auto; assumption|].
  intros _ _ _ _. exists v. split; [split; assumption|reflexivity].
Qed.
(** C76: an opcode whose bounds are permissive takes any number, in or out of bounds. *)
Theorem C76_permissive below wrap db n s t q rest : In (n, s) float_specs -> number t q rest ->
  f_enforceLo s = false -> f_enforceHi s = false -> f_permLo s = true -> f_permHi s = true -> f_wrap s = false ->
  readFloatOr float24 below wrap db s t = normalizeInput float24 below db s (float24 q).
Proof.
  intros _ N E1 E2 P1 P2 W. unfold readFloatOr. rewrite (C76_number below wrap db s t q rest N). unfold transformFloat. rewrite E1, E2, P1, P2, W.
  destruct (negb (Qle_bool (float24 q) (f_hi s))); [reflexivity|]. destruct (negb (Qle_bool (f_lo s) (float24 q))); reflexivity.
Qed.
Lemma number_int d rest : is_digits d -> match rest with c :: _ => ~ (48 <= c <= 57 \/ c = 46 \/ c = 101)%Z | [] => True end ->
  number (d ++ rest) (inject_Z (decimal d)) rest.
Proof.
  intros [D1 D2] R. exists [], 1, d, [], [], [], 0%Z. cbn [app]. rewrite app_nil_r.
  refine (conj eq_refl (conj no_sign (conj D2 (conj (Forall_nil _) (conj (or_introl (conj eq_refl eq_refl)) (conj D1 (conj no_exponent (conj _ _)))))))).
  - destruct rest as [|c r]; [exact Logic.I|]. lia.
  - cbn [decimal List.length Z.of_nat Z.pow Qpower]. field.
Qed.

(** C76, false: a letter after a number does not end it if the letter is an e; then there is no value at all.  And an
    exponent in capitals is not an exponent. *)
Theorem C76_trailing_e_refuted : exists s, In ("volume"%string, s) float_specs /\
  let r := fun t => readFloat float24 below24 (fun x => x) (fun x => x) s (str t) in
  r "-6db"%string = Some (-6) /\ r "-6else"%string = None /\ r "-6"%string = Some (-6) /\
  r "1e1"%string = Some 10 /\ r "1E1"%string = Some 1.
Proof.
  exists (FSpec 0 (-144) 48 false false true true false NoNorm false). split.
  - do 33 right. left. reflexivity.
  - cbv zeta. repeat split; vm_compute; reflexivity.
Qed.
Example C76_ex : number (str "-12.5e-1dB") (-125 # 100) (str "dB") /\
  (let r := fun n t => match spec_named n with Some s => Some (readFloatOr float24 below24 (fun x => x) (fun x => x) s (str t)) | None => None end in
   r "pan"%string "-50%"%string = Some (- (1 # 2)) /\ r "flexEGPointLevel"%string "7"%string = Some 1 /\
   r "effect"%string "7000"%string = Some 0 /\ r "rtDecay"%string "-3"%string = Some 0 /\ r "volume"%string "1000"%string = Some 1000).
Proof.
  split; [|cbv zeta; repeat split; vm_compute; reflexivity].
  exists (str "-"), (-1), (str "12"), (str ".5"), (str "5"), (str "e-1"), (-1)%Z.
  refine (conj eq_refl (conj minus_sign (conj _ (conj _ (conj (or_intror eq_refl) (conj _ (conj _ (conj _ _)))))))).
  - repeat constructor; cbn; lia.
  - repeat constructor; cbn; lia.
  - discriminate.
  - apply (exponent_minus (str "1")). split; [discriminate|]. repeat constructor; cbn; lia.
  - cbn. split; [lia|discriminate].
  - vm_compute. reflexivity.
Qed.
