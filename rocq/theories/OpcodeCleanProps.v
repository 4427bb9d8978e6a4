(** Clean-up of opcode names: theorems (C12, C57). *)
From Coq Require Import ZArith List Bool Ascii String Lia.
From Verif Require Import ParserModel ParserReader ParserAdvance OpcodeModel OpcodeNumbers OpcodeNames OpcodeClean.
Import ListNotations.
Local Open Scope string_scope.
Local Open Scope Z_scope.
Local Open Scope list_scope.

(** * C12 *)

Lemma digits_plain d : is_digits d -> Forall plain d.
Proof.
  intros [_ F]. eapply Forall_impl; [|exact F]. intros x H. cbn beta in H. split; [|lia].
  unfold toLower. now destruct (Z.leb_spec 65 x); [lia|].
Qed.
Lemma region_idem fuel t u : lower t -> normal (c_str t) -> ~ ends_cc (c_str t) ->
  cleanUpOpcodeName fuel t ScopeRegion = Some u -> u = t.
Proof.
  intros Lo N C. unfold cleanUpOpcodeName. rewrite (lower_id t Lo), (oncc_id t C).
  assert (E : first_rule region_rules t = None) by (rewrite first_rule_try; exact N).
  destruct fuel; cbn [region_block]; rewrite E; congruence.
Qed.
Lemma region_idem' fuel t : lower t -> normal (c_str t) -> ~ ends_cc (c_str t) ->
  cleanUpOpcodeName fuel t ScopeRegion = Some t.
Proof.
  intros Lo N C. unfold cleanUpOpcodeName. rewrite (lower_id t Lo), (oncc_id t C).
  assert (E : first_rule region_rules t = None) by (rewrite first_rule_try; exact N).
  destruct fuel; cbn [region_block]; now rewrite E.
Qed.
Lemma control_after t : lower t ->
  let u := match first_rule control_rules t with Some (t', _) => t' | None => t end in
  lower u /\ first_rule control_rules u = None /\ (c_str t = t -> solid' t -> solid' u /\ c_str u = u).
Proof.
  intros Lo. cbv zeta. destruct (first_rule control_rules t) as [[u b]|] eqn:E; [|split; [exact Lo|split; [exact E|now split]]].
  rewrite first_rule_try in E.
  pose proof (rules_plain _ _ _ _ (eq_refl : lits_plain control_rules = true) E (c_str_plain t Lo)) as Pu.
  split; [now apply plain_lower|]. rewrite (first_rule_try _ u), (c_str_id u Pu).
  assert (Q : exists d, is_digits d /\ u = str "set_hdcc" ++ d).
  { apply try_rules_inv in E. destruct E as (l1 & r & l2 & g & Er & _ & M & -> & _).
    destruct l1 as [|x l1]; [|destruct l1; discriminate]. injection Er as <- <-.
    apply pmatch_fits in M. cbn [fits r_pat lit] in M. destruct M as (r & _ & n & r' & g' & D & _ & -> & _ & -> & _).
    exists n. split; [exact D|]. cbn [build map List.concat r_out out nth]. now rewrite app_nil_r. }
  destruct Q as (d & D & ->). split; [reflexivity|]. intros _ _. split; [|reflexivity]. split; [reflexivity|].
  rewrite lastc_app. apply digit_not_blank. now apply lastc_digits.
Qed.

(** Clean-up ends after at most one round more, and its result does not depend on anything else. *)
Theorem C12_terminates fuel t sc :
  exists u, cleanUpOpcodeName (S fuel) t sc = Some u /\ cleanUpOpcodeName 1 t sc = Some u.
Proof.
  destruct sc; [|eexists; split; reflexivity..].
  unfold cleanUpOpcodeName. set (v := oncc_block (map toLower t)).
  destruct (oncc_after _ (lower_map t)) as [Lo N]. fold v in Lo, N.
  destruct (region_after fuel v Lo N) as (u & R & _). destruct (region_after 0 v Lo N) as (u' & R' & _).
  exists u. split; [exact R|]. rewrite R'. rewrite <- R, <- R'. clear.
  cbn [region_block]. destruct (first_rule region_rules v) as [[w []]|] eqn:E; [|reflexivity..].
  rewrite first_rule_try in E. apply rule_good in E. destruct E as (n & Fn & ->).
  destruct n as [|c n].
  - destruct fuel; vm_compute; reflexivity.
  - destruct (fil_random (c :: n) Fn ltac:(discriminate)) as (X & _).
    assert (Pu : Forall plain (str "fil" ++ (c :: n) ++ str "_random")).
    { apply Forall_app. split; [now apply plain_str|]. apply Forall_app. split; [|now apply plain_str].
      apply digits_plain. now split. }
    assert (Q : first_rule region_rules (str "fil" ++ (c :: n) ++ str "_random") = None).
    { rewrite first_rule_try, c_str_id by exact Pu. exact X. }
    destruct fuel; cbn [region_block]; now rewrite Q.
Qed.

(** Cleaning a cleaned name changes nothing, in any scope. *)
Theorem C12_idempotent fuel fuel' t u sc :
  cleanUpOpcodeName (S fuel) t sc = Some u -> cleanUpOpcodeName fuel' u sc = Some u.
Proof.
  destruct sc; intros H.
  - unfold cleanUpOpcodeName in H. destruct (oncc_after _ (lower_map t)) as [Lo N].
    destruct (region_after fuel _ Lo N) as (u' & R & Lu & Nu & Cu & _). rewrite R in H. apply some_inj in H. subst u'.
    now apply region_idem'.
  - unfold cleanUpOpcodeName in *. apply some_inj in H.
    destruct (control_after _ (lower_map t)) as (Lu & Nu & _). rewrite H in *.
    rewrite (lower_id u Lu), Nu. reflexivity.
  - unfold cleanUpOpcodeName in *. apply some_inj in H. subst u. now rewrite (lower_id _ (lower_map t)).
Qed.

Definition no_nul (t : text) : Prop := ~ In 0 t.
Lemma c_str_no_nul t : no_nul t -> c_str t = t.
Proof.
  intros H. unfold c_str. rewrite <- (app_nil_r t) at 1. rewrite span_all; [reflexivity| |exact Logic.I].
  apply Forall_forall. intros c C. destruct (Z.eqb_spec c 0) as [->|]; [contradiction|reflexivity].
Qed.
Lemma no_nul_lower t : no_nul t -> no_nul (map toLower t).
Proof.
  intros H X. apply in_map_iff in X. destruct X as (c & E & C). unfold toLower in E.
  destruct ((65 <=? c) && (c <=? 90)) eqn:B; [apply andb_true_iff in B; rewrite !Z.leb_le in B; lia|]. subst c. contradiction.
Qed.
Lemma blank_lower c : isTrimmed (toLower c) = isTrimmed c.
Proof.
  unfold toLower. destruct ((65 <=? c) && (c <=? 90)) eqn:B; [|reflexivity]. apply andb_true_iff in B. rewrite !Z.leb_le in B.
  assert (K : forall x, 65 <= x -> isTrimmed x = false).
  { intros x X. destruct (isTrimmed x) eqn:E; [apply isTrimmed_iff in E; lia|reflexivity]. }
  now rewrite !K by lia.
Qed.
Lemma lastc_lower def t : lastc (toLower def) (map toLower t) = toLower (lastc def t).
Proof. revert def. induction t as [|c t IH]; intros def; [reflexivity|]. cbn [map lastc]. apply IH. Qed.
Lemma lastc_blank a b t : isTrimmed a = isTrimmed b -> isTrimmed (lastc a t) = isTrimmed (lastc b t).
Proof. destruct t; [trivial|reflexivity]. Qed.
Lemma solid_lower t : solid' t -> solid' (map toLower t).
Proof.
  intros [A B]. split.
  - destruct t as [|c t]; [exact Logic.I|]. cbn [map]. now rewrite blank_lower.
  - rewrite (lastc_blank 65 (toLower 65)) by reflexivity. now rewrite lastc_lower, blank_lower.
Qed.
Lemma oncc_solid t : no_nul t -> solid' t -> solid' (oncc_block t) /\ no_nul (oncc_block t).
Proof.
  intros N [A B]. destruct (oncc_cases t) as [(p & d & D & E & ->)|[_ ->]]; [|now repeat split].
  rewrite (c_str_no_nul t N) in E. subst t. split; [split|].
  - destruct p as [|c p]; [reflexivity|exact A].
  - rewrite !lastc_app. apply digit_not_blank. now apply lastc_digits.
  - unfold no_nul in *. rewrite !in_app_iff in *. intros [X|[X|X]]; [tauto| |tauto]. cbn in X. lia.
Qed.
Lemma clean_solid fuel t u sc : no_nul t -> solid' t -> cleanUpOpcodeName (S fuel) t sc = Some u -> solid' u.
Proof.
  intros N H. pose proof (solid_lower t H) as H'. pose proof (no_nul_lower t N) as N'. unfold cleanUpOpcodeName. destruct sc; intros E.
  - destruct (oncc_after _ (lower_map t)) as [Lo Nc]. destruct (region_after fuel _ Lo Nc) as (u' & R & _ & _ & _ & K).
    rewrite R in E. apply some_inj in E. subst u'. destruct (oncc_solid _ N' H') as [A B].
    apply K; [now apply c_str_no_nul|exact A].
  - apply some_inj in E. destruct (control_after _ (lower_map t)) as (_ & _ & K). rewrite E in K.
    apply K; [now apply c_str_no_nul|exact H'].
  - apply some_inj in E. now subst u.
Qed.
Lemma trim_trim t : trim (trim t) = trim t.
Proof. apply trim_solid, solid_trim. Qed.
Lemma no_nul_trim t : no_nul t -> no_nul (trim t).
Proof.
  intros N X. destruct (trim_split t) as (a & b & _ & _ & E). apply N. rewrite E, !in_app_iff. tauto.
Qed.

(** The same for whole opcodes: name, value, hash, numbers and category.  Names with NUL bytes are excepted. *)
Theorem C12_opcode_idempotent_partial fuel fuel' n v o1 sc : no_nul n ->
  cleanUp (S fuel) (mkOpcode n v) sc = Some o1 -> cleanUp fuel' o1 sc = Some o1.
Proof.
  intros N H. unfold cleanUp in *. apply bind_some in H. destruct H as (u & H & E). apply some_inj in E.
  assert (En : o_name (mkOpcode n v) = trim n) by (unfold mkOpcode; now destruct (scan_name _ _ _ _)).
  assert (Ev : o_value (mkOpcode n v) = trim v) by (unfold mkOpcode; now destruct (scan_name _ _ _ _)).
  rewrite En in H. rewrite Ev in E.
  pose proof (clean_solid fuel (trim n) u sc (no_nul_trim n N) (proj1 (solid_iff _) (solid_trim n)) H) as Su.
  apply solid_iff, trim_solid in Su.
  assert (Eu : o_name o1 = u) by (rewrite <- E; unfold mkOpcode; destruct (scan_name _ _ _ _); exact Su).
  assert (Ew : o_value o1 = trim v) by (rewrite <- E; unfold mkOpcode; destruct (scan_name _ _ _ _); apply trim_trim).
  rewrite Eu, (C12_idempotent fuel fuel' _ _ _ H). cbn [bind]. rewrite Ew, E. reflexivity.
Qed.
Example C12_ex : option_map o_name (cleanUp 1 (mkOpcode (str " Cutoff_Random ") (str "9600")) ScopeRegion) = Some (str "fil1_random") /\
  cleanUpOpcodeName 1 (str "lfo3_cutoff_cc21") ScopeRegion = Some (str "lfo3_cutoff1_oncc21") /\
  cleanUpOpcodeName 1 (str "set_realcc5") ScopeControl = Some (str "set_hdcc5").
Proof. repeat split; vm_compute; reflexivity. Qed.
(** A name that contains a NUL byte is cut there, which may leave a blank at the end; once this is trimmed another rule
    may match. *)
Theorem C12_nul_refuted :
  let o := mkOpcode (str "cutoff_random " ++ [0; 120]) [] in
  exists o1 o2, cleanUp 1 o ScopeRegion = Some o1 /\ cleanUp 1 o1 ScopeRegion = Some o2 /\
    o_name o1 = str "cutoff1_random" /\ o_name o2 = str "fil1_random".
Proof.
  cbv zeta. exists (mkOpcode (str "cutoff1_random ") []), (mkOpcode (str "fil1_random") []).
  repeat split; vm_compute; reflexivity.
Qed.

(** * C57: which name an alias stands for *)

Definition tail_ok (a : text) : Prop := Forall plain a /\ ~ ends_cc a /\ (a = [] \/ exists r, a = 95 :: r).
(** Aliases of region opcodes and the names they stand for, for every number d and every tail a that is empty or begins
    with an underscore (and does not itself end with _cc and a number). *)
Inductive alias : text -> text -> Prop :=
| al_lfo b w d : In b ["amp"; "fil"; "pitch"] -> In w ["depth"; "freq"; "fade"] -> is_digits d ->
    alias (str b ++ str "lfo_" ++ str w ++ str "cc" ++ d) (str b ++ str "lfo_" ++ str w ++ str "_oncc" ++ d)
| al_eg b w d : In b ["amp"; "fil"; "pitch"] ->
    In w ["delay"; "start"; "attack"; "hold"; "decay"; "sustain"; "release"] -> is_digits d ->
    alias (str b ++ str "eg_" ++ str w ++ str "cc" ++ d) (str b ++ str "eg_" ++ str w ++ str "_oncc" ++ d)
| al_eg_vel b w : In b ["amp"; "fil"; "pitch"] -> In w ["delay"; "attack"; "hold"; "decay"; "sustain"; "release"; "depth"] ->
    alias (str b ++ str "eg_vel2" ++ str w) (str b ++ str "eg_velto" ++ str w)
| al_eq w n d : In w ["bw"; "freq"; "gain"] -> is_digits n -> is_digits d ->
    alias (str "eq" ++ n ++ str "_" ++ str w ++ str "cc" ++ d) (str "eq" ++ n ++ str "_" ++ str w ++ str "_oncc" ++ d)
| al_eq_vel w n : In w ["freq"; "gain"] -> is_digits n ->
    alias (str "eq" ++ n ++ str "_vel2" ++ str w) (str "eq" ++ n ++ str "_velto" ++ str w)
| al_lfo2 w n : In w ["wave"; "offset"; "ratio"; "scale"] -> is_digits n ->
    alias (str "lfo" ++ n ++ str "_" ++ str w) (str "lfo" ++ n ++ str "_" ++ str w ++ str "1")
| al_lfo2_fil k w n a : In k ["lfo"; "eg"] -> In w ["cutoff"; "resonance"] -> is_digits n -> tail_ok a ->
    alias (str k ++ n ++ str "_" ++ str w ++ a) (str k ++ n ++ str "_" ++ str w ++ str "1" ++ a)
| al_loop w : In w ["mode"; "start"; "end"] -> alias (str "loop" ++ str w) (str "loop_" ++ str w)
| al_off w : In w ["by"; "mode"] -> alias (str "off" ++ str w) (str "off_" ++ str w)
| al_bend w : In w ["up"; "down"; "step"] -> alias (str "bend" ++ str w) (str "bend_" ++ str w)
| al_filtype : alias (str "filtype") (str "fil1_type")
| al_filtypen n : is_digits n -> alias (str "fil" ++ n ++ str "type") (str "fil" ++ n ++ str "_type")
| al_group : alias (str "polyphony_group") (str "group")
| al_gain_random : alias (str "gain_random") (str "amp_random")
| al_gain a : a <> str "_random" -> tail_ok a -> alias (str "gain" ++ a) (str "volume" ++ a)
| al_tune a : tail_ok a -> alias (str "tune" ++ a) (str "pitch" ++ a)
| al_start w h d : In w ["hi"; "lo"] -> In h ["cc"; "hdcc"] -> is_digits d ->
    alias (str "on_" ++ str w ++ str h ++ d) (str "start_" ++ str w ++ str h ++ d)
| al_cutoff_random : alias (str "cutoff_random") (str "fil1_random")
| al_cutoffn_random n : is_digits n -> alias (str "cutoff" ++ n ++ str "_random") (str "fil" ++ n ++ str "_random")
| al_fil w : In w ["gain"; "keytrack"; "veltrack"; "random"; "keycenter"; "type"] -> alias (str "fil_" ++ str w) (str "fil1_" ++ str w)
| al_cutoff a : a <> str "_random" -> tail_ok a -> alias (str "cutoff" ++ a) (str "cutoff1" ++ a)
| al_resonance a : tail_ok a -> alias (str "resonance" ++ a) (str "resonance1" ++ a)
| al_realcc w d : In w ["hi"; "lo"] -> is_digits d -> alias (str w ++ str "realcc" ++ d) (str w ++ str "hdcc" ++ d)
| al_loop_start d : is_digits d -> alias (str "loop_startcc" ++ d) (str "loop_start_oncc" ++ d)
| al_loop_length k d : In k ["cc"; "_oncc"; "_cc"] -> is_digits d -> alias (str "loop_length" ++ str k ++ d) (str "loop_end_oncc" ++ d).

Lemma try_skip r l t : pmatch (r_pat r) t = None -> try_rules (r :: l) t = try_rules l t.
Proof. intros H. cbn [try_rules]. now rewrite H. Qed.
Lemma try_hit r l t g u : pmatch (r_pat r) t = Some g -> build g (r_out r) = u -> try_rules (r :: l) t = Some (u, r_again r).
Proof. intros H <-. cbn [try_rules]. now rewrite H. Qed.
Lemma alias_run fuel a b : Forall plain a -> ~ ends_cc a -> try_rules region_rules a = Some (b, false) ->
  cleanUpOpcodeName fuel a ScopeRegion = Some b.
Proof.
  intros P C H. pose proof (c_str_id a P) as E. unfold cleanUpOpcodeName. rewrite (lower_id a (plain_lower a P)), oncc_id by now rewrite E.
  destruct fuel; cbn [region_block]; now rewrite first_rule_try, E, H.
Qed.
Ltac hit :=
  rewrite rules_c_eq; unfold rules_c;
  repeat (first [ rewrite try_skip by (first [vm_compute; reflexivity | cbn [r_pat]; pm_step; reflexivity | assumption]) ]);
  (eapply try_hit; [cbn [r_pat]; pm_step; reflexivity|cbn; rewrite ?app_nil_r; reflexivity]).
Ltac plain_tac :=
  repeat (apply Forall_app; split); first [apply plain_str; reflexivity | assumption | apply digits_plain; assumption].
Ltac cc_no := let d := fresh in let L := fresh in intros (d & _ & L); lp_norm L; discriminate L.
Lemma tail_not_cc p a : ~ ends_cc p -> tail_ok a -> ~ ends_cc (p ++ a).
Proof.
  intros Hp (P & N & [->|[r ->]]) (d & D & E).
  - rewrite app_nil_r in E. apply Hp. now exists d.
  - apply N. exists d. split; [exact D|]. rewrite <- E, lastpart_app. cbn [lastpart].
    now destruct (lastpart r).
Qed.
(** Any name that ends with _cc and a number is treated like the same name with _oncc. *)
Theorem C57_cc fuel p d : Forall plain p -> is_digits d ->
  cleanUpOpcodeName fuel (p ++ str "_cc" ++ d) ScopeRegion = cleanUpOpcodeName fuel (p ++ str "_oncc" ++ d) ScopeRegion.
Proof.
  intros P D. unfold cleanUpOpcodeName.
  assert (P1 : Forall plain (p ++ str "_cc" ++ d)) by (repeat (apply Forall_app; split); [exact P|now apply plain_str|now apply digits_plain]).
  assert (P2 : Forall plain (p ++ str "_oncc" ++ d)) by (repeat (apply Forall_app; split); [exact P|now apply plain_str|now apply digits_plain]).
  rewrite (lower_id _ (plain_lower _ P1)), (lower_id _ (plain_lower _ P2)). f_equal.
  rewrite (oncc_id (p ++ str "_oncc" ++ d)).
  - destruct (oncc_cases (p ++ str "_cc" ++ d)) as [(p' & d' & D' & E & ->)|[N _]].
    + rewrite (c_str_id _ P1) in E. pose proof (f_equal lastpart E) as L.
      rewrite !lastpart_app, (lastpart_digits d), (lastpart_digits d') in L by (apply D || apply D'). cbn in L. injection L as <-.
      apply app_inv_tail in E. now subst p'.
    + elim N. rewrite (c_str_id _ P1). now apply ends_cc_intro.
  - rewrite (c_str_id _ P2). intros (e & _ & H). rewrite !lastpart_app, (lastpart_digits d) in H by apply D. discriminate.
Qed.
(** Clean-up replaces every alias by the name it stands for. *)
Theorem C57_aliases fuel a b : alias a b -> cleanUpOpcodeName (S fuel) a ScopeRegion = Some b.
Proof.
  Ltac norm_str := repeat match goal with
    | |- context [str ?s] => let v := eval vm_compute in (str s) in change (str s) with v
    end.
  Ltac al := open_words; (apply alias_run; [plain_tac| |]; norm_str; open_digits; [cc_no|hit]).
  Ltac tl :=
    match goal with T : tail_ok ?a |- _ =>
      pose proof (proj1 T); apply alias_run; [plain_tac| |]; norm_str;
      [rewrite ?app_assoc; apply tail_not_cc; [|exact T]; rewrite <- ?app_assoc; open_digits; cc_no|];
      open_digits; destruct T as (_ & _ & [->|[? ->]])
    end.
  intros H. destruct H.
  - al.
  - al.
  - al.
  - al.
  - al.
  - al.
  - open_words; tl; hit.
  - al.
  - al.
  - al.
  - al.
  - al.
  - al.
  - al.
  - tl; [hit|].
    assert (K : pmatch (r_pat (nth 14 rules_c (Rule [] [] false))) (str "gain" ++ 95 :: x) = None).
    { destruct (pmatch _ _) as [g|] eqn:E; [|reflexivity]. apply pmatch_fits in E. cbn [nth rules_c r_pat fits] in E.
      destruct E as (r & E1 & _ & ->). exfalso. vm_compute in E1.
      match goal with N : 95 :: x <> _ |- _ => apply N end. vm_compute. congruence. }
    hit.
  - tl; hit.
  - al.
  - destruct fuel; vm_compute; reflexivity.
  - assert (P : Forall plain (str "cutoff" ++ n ++ str "_random")) by plain_tac.
    assert (P' : Forall plain (str "fil" ++ n ++ str "_random")) by plain_tac.
    destruct (fil_random n (proj2 H) (proj1 H)) as (X & _).
    assert (Q : region_block fuel (str "fil" ++ n ++ str "_random") = Some (str "fil" ++ n ++ str "_random")).
    { destruct fuel; cbn [region_block]; now rewrite first_rule_try, (c_str_id _ P'), X. }
    assert (T : try_rules region_rules (str "cutoff" ++ n ++ str "_random") = Some (str "fil" ++ n ++ str "_random", true)).
    { norm_str. open_digits. hit. }
    unfold cleanUpOpcodeName. rewrite (lower_id _ (plain_lower _ P)).
    rewrite oncc_id.
    + cbn [region_block]. now rewrite first_rule_try, (c_str_id _ P), T.
    + rewrite (c_str_id _ P). norm_str. open_digits. cc_no.
  - al.
  - tl; [hit|].
    assert (K : pmatch (r_pat (nth 19 rules_c (Rule [] [] false))) (str "cutoff" ++ 95 :: x) = None).
    { destruct (pmatch _ _) as [g|] eqn:E; [|reflexivity]. apply pmatch_fits in E. cbn [nth rules_c r_pat fits] in E.
      destruct E as (r & E1 & n & r' & g' & Fn & _ & _ & E2 & r2 & E3 & _ & ->). exfalso. rewrite app_nil_r in E3. subst r r'.
      injection E1 as E1. destruct n as [|c n].
      - match goal with N : 95 :: x <> _ |- _ => apply N end. exact E1.
      - cbn [app] in E1. injection E1 as <- _. inversion Fn. lia. }
    hit.
  - tl; hit.
  - al.
  - al.
  - destruct H as [<-|H]; [al|]. destruct H as [<-|H]; [al|]. destruct H as [<-|[]].
    rewrite (C57_cc (S fuel) (str "loop_length") d); [|now apply plain_str|assumption].
    al.
Qed.
Example C57_ex : alias (str "eq3_gaincc12") (str "eq3_gain_oncc12") /\ alias (str "gain_oncc7") (str "volume_oncc7").
Proof.
  split.
  - apply (al_eq "gain" (str "3") (str "12")); [cbn; tauto|split; [discriminate|decide_text]|split; [discriminate|decide_text]].
  - apply (al_gain (str "_oncc7")); [discriminate|]. split; [apply plain_str; reflexivity|]. split.
    + intros (d & _ & H). vm_compute in H. discriminate.
    + right. now exists (str "oncc7").
Qed.
