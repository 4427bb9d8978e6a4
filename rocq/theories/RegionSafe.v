(** Parsing an opcode into a region reads only numbers that the opcode has, and elements that the vectors have (C92). *)
From Coq Require Import ZArith List Bool String Lia.
From Verif Require Import ParserModel OpcodeModel OpcodeNumbers OpcodeNames ModModel RegionModel.
Import ListNotations.
Local Open Scope string_scope.
Local Open Scope list_scope.
Local Open Scope Z_scope.

(** * Specification *)
Definition allCases : list string :=
  map fst regionTable ++ map fst lfo1Cases ++ map fst eg1Table ++ map fst lfo2Table ++ map fst eg2Table.
(** The opcode is made of a name with the letters L and the numbers N. *)
Definition named (L : text) (N : list Z) (o : opcode) : Prop :=
  exists n v, trim n = n /\ reads n L N /\ no_ampersand n /\ Forall (fun x => x < 2 ^ 32) N /\ o = mkOpcode n v.
(** The letters do not have the hash of the name of a case, unless they are this name. *)
Definition no_collision (L : text) : Prop :=
  forall c, In c allCases -> hash (str c) fnvBasis = hash L fnvBasis -> L = str c.

Fixpoint distinctb (l : list Z) : bool :=
  match l with [] => true | x :: l => negb (existsb (Z.eqb x) l) && distinctb l end.
Lemma distinctb_NoDup l : distinctb l = true -> NoDup l.
Proof.
  induction l as [|x l IH]; intros H; constructor; cbn [distinctb] in H; apply andb_true_iff in H; destruct H as [A B].
  - intros X. apply negb_true_iff in A. rewrite <- not_true_iff_false in A. apply A, existsb_exists. exists x. split; [exact X|apply Z.eqb_refl].
  - now apply IH.
Qed.
(** The cases have different hashes, also between the functions. *)
Theorem C92_cases_distinct : NoDup (map (fun c => hash (str c) fnvBasis) allCases) /\ (List.length allCases > 500)%nat.
Proof. split; [apply distinctb_NoDup; vm_compute; reflexivity|]. apply Nat.ltb_lt. vm_compute. reflexivity. Qed.
Lemma case_no_collision c : In c allCases -> no_collision (str c).
Proof.
  intros H c' H' E. f_equal. destruct C92_cases_distinct as [D _].
  apply In_nth_error in H, H'. destruct H as [i H], H' as [j H'].
  pose proof (map_nth_error (fun c => hash (str c) fnvBasis) _ _ H) as X. pose proof (map_nth_error (fun c => hash (str c) fnvBasis) _ _ H') as Y.
  cbv beta in X, Y. rewrite E, <- X in Y. symmetry in Y. apply (proj1 (NoDup_nth_error _) D) in Y.
  - congruence.
  - apply nth_error_Some. rewrite X. discriminate.
Qed.

(** * Names *)
Fixpoint amps (t : text) : nat := match t with [] => O | c :: t => if c =? 38 then S (amps t) else amps t end.
Lemma amps_app a b : amps (a ++ b) = (amps a + amps b)%nat.
Proof. induction a as [|c a IH]; [reflexivity|]. cbn [app amps]. destruct (c =? 38); rewrite IH; reflexivity. Qed.
Lemma amps_none t : no_ampersand t -> amps t = O.
Proof.
  unfold no_ampersand. induction t as [|c t IH]; intros H; [reflexivity|]. cbn [amps]. destruct (Z.eqb_spec c 38) as [->|_].
  - elim H. now left.
  - apply IH. intros X. apply H. now right.
Qed.
Lemma reads_amps t L N : reads t L N -> no_ampersand t -> amps L = List.length N.
Proof.
  induction 1 as [l Hl|l d r L N Hl Hd Hr R IH]; intros A; [now apply amps_none|].
  destruct (no_amp_app _ _ A) as [A1 A2]. destruct (no_amp_app _ _ A2) as [_ A3].
  rewrite amps_app, (amps_none _ A1). cbn. now rewrite IH.
Qed.
Lemma named_facts L N o : named L N o ->
  o_hash o = hash L fnvBasis /\ o_params o = map (fun x => x mod 65536) N /\ getLetterOnlyName o = L /\ amps L = List.length (o_params o).
Proof.
  intros (n & v & T & R & A & B & ->).
  assert (P : o_hash (mkOpcode n v) = hash L fnvBasis /\ o_params (mkOpcode n v) = map (fun x => x mod 65536) N).
  { unfold mkOpcode. rewrite T, (scan_reads _ _ _ R A B) by apply le_n. split; reflexivity. }
  destruct P as [P Q]. split; [exact P|]. split; [exact Q|]. split.
  - unfold getLetterOnlyName, mkOpcode. rewrite T, (scan_reads _ _ _ R A B) by apply le_n. cbn [o_name]. now apply reads_letters with N.
  - rewrite Q, map_length. now apply reads_amps with n.
Qed.
Lemma named_params L N o x : named L N o -> In x (o_params o) -> 0 <= x < 65536.
Proof.
  intros H X. destruct (named_facts _ _ _ H) as (_ & P & _). rewrite P in X. apply in_map_iff in X. destruct X as (y & <- & _).
  apply Z.mod_pos_bound. lia.
Qed.
Lemma case_named {A} (t : list (string * A)) L N o a : incl (map fst t) allCases -> named L N o -> no_collision L ->
  caseOf t o = Some a -> exists c, In (c, a) t /\ L = str c.
Proof.
  intros I0 H C E. unfold caseOf in E. destruct (find _ t) as [[c a']|] eqn:F; [|discriminate]. cbn in E. injection E as <-.
  apply find_some in F. destruct F as [F E]. cbn [fst] in E. apply Z.eqb_eq in E. exists c. split; [exact F|].
  apply C; [|destruct (named_facts _ _ _ H) as (<- & _); exact E]. apply I0. apply in_map_iff. now exists (c, a').
Qed.
Lemma starts_amps p t : starts_with p t = true -> (amps p <= amps t)%nat.
Proof. intros H. apply starts_with_split in H. rewrite H, amps_app. lia. Qed.
Lemma incl_region : incl (map fst regionTable) allCases. Proof. unfold allCases. intros x X. apply in_or_app. tauto. Qed.
Lemma incl_lfo1 : incl (map fst lfo1Cases) allCases. Proof. unfold allCases. intros x X. rewrite !in_app_iff. tauto. Qed.
Lemma incl_eg1 : incl (map fst eg1Table) allCases. Proof. unfold allCases. intros x X. rewrite !in_app_iff. tauto. Qed.
Lemma incl_lfo2 : incl (map fst lfo2Table) allCases. Proof. unfold allCases. intros x X. rewrite !in_app_iff. tauto. Qed.
Lemma incl_eg2 : incl (map fst eg2Table) allCases. Proof. unfold allCases. intros x X. rewrite !in_app_iff. tauto. Qed.

(** * How many numbers the cases need *)
Definition needs (a : act) : nat := match a with Set_ _ => 0 | _ => 1 end.
Definition needs1 (a : lfo1act) : nat := match a with L1DepthCC | L1FreqCC => 1 | _ => 0 end.
Definition needsE (a : eg1act) : nat := match a with E1Map _ _ _ | E1DepthCC _ => 1 | _ => 0 end.
Definition needsN (a : nact) : nat :=
  match a with NSet _ _ | NSteps | NAmpeg | NTarget _ _ => 0 | NMap _ _ | NGeneric _ _ | NTargetCC _ _ => 1 | _ => 2 end.
Definition enough {A} (needs : A -> nat) (t : list (string * A)) : bool := forallb (fun c => Nat.leb (needs (snd c)) (amps (str (fst c)))) t.
Lemma enough_region : enough needs regionTable = true. Proof. vm_compute. reflexivity. Qed.
Lemma enough_lfo1 : enough needs1 lfo1Cases = true. Proof. vm_compute. reflexivity. Qed.
Lemma enough_eg1 : enough needsE eg1Table = true. Proof. vm_compute. reflexivity. Qed.
Lemma enough_lfo2 : enough needsN lfo2Table = true. Proof. vm_compute. reflexivity. Qed.
Lemma enough_eg2 : enough needsN eg2Table = true. Proof. vm_compute. reflexivity. Qed.
Lemma enough_case {A} (nd : A -> nat) t L N o a : enough nd t = true -> incl (map fst t) allCases -> named L N o -> no_collision L ->
  caseOf t o = Some a -> (nd a <= List.length (o_params o))%nat.
Proof.
  intros E I0 H C X. destruct (case_named _ _ _ _ _ I0 H C X) as (c & F & ->).
  destruct (named_facts _ _ _ H) as (_ & _ & _ & <-). unfold enough in E. rewrite forallb_forall in E. specialize (E _ F). cbn [fst snd] in E.
  now apply Nat.leb_le.
Qed.

Section Safe.
Variable V : Type.
Variable apply : string -> text -> V -> V.
Variable read : string -> text -> V.
Variable readStep : string -> text -> V.
Variable zero : V.
Variable readAmpeg : text -> bool.
Variable readSteps : text -> nat.
Notation region := (region V).
Notation parseOpcode := (parseOpcode V apply read readStep zero readAmpeg readSteps).
Notation parseOpcodes := (parseOpcodes V apply read readStep zero readAmpeg readSteps).
Notation generic := (generic V read readStep zero).

Lemma back_some o : (1 <= List.length (o_params o))%nat -> exists x, back o = Some x /\ In x (o_params o).
Proof.
  unfold back. destruct (o_params o) as [|x l] eqn:E; [cbn; lia|]. intros _. exists (last (x :: l) 0). split; [reflexivity|].
  rewrite (app_removelast_last (l := x :: l) 0) at 2 by discriminate. apply in_or_app. right. now left.
Qed.
Lemma front_some o : (1 <= List.length (o_params o))%nat -> exists x, front o = Some x /\ In x (o_params o).
Proof. unfold front. destruct (o_params o) as [|x l]; [cbn; lia|]. intros _. exists x. split; [reflexivity|now left]. Qed.
Lemma second_some o : (2 <= List.length (o_params o))%nat -> exists x, second o = Some x /\ In x (o_params o).
Proof. unfold second. destruct (o_params o) as [|x [|y l]]; [cbn; lia|cbn; lia|]. intros _. exists y. split; [reflexivity|right; now left]. Qed.
Lemma generic_some spec t o r : (1 <= List.length (o_params o))%nat -> exists r', generic spec t o r = Some r'.
Proof.
  intros H. unfold RegionModel.generic. destruct (back_some o H) as (cc & -> & _).
  destruct (o_cat o); [eauto| | | |]; destruct (512 <=? cc); eauto; destruct (isKey t); eauto.
Qed.
Lemma extend_size v n (r r' : region) : 0 <= n -> extend V v n r = Some r' -> 1 <= n <= Z.of_nat (vecSize V v r').
Proof.
  intros P. unfold extend, extendSize. destruct v; destruct (Z.eqb_spec n 0); try discriminate; intros [= <-]; cbn; lia.
Qed.
Lemma padTo_length {A} n (x : A) l : List.length (padTo n x l) = Nat.max (List.length l) n.
Proof.
  revert l. induction n as [|n IH]; intros l; cbn [padTo]; [lia|]. destruct l; cbn [List.length]; rewrite IH; cbn; lia.
Qed.

Lemma runAct_some a o (r : region) : Forall (fun x => 0 <= x) (o_params o) -> (needs a <= List.length (o_params o))%nat ->
  exists x, runAct V apply read readStep zero a o r = Some x.
Proof.
  intros P H. rewrite Forall_forall in P. destruct a as [ws|inc ws m sub f|spec|spec|v m f|v m sub f|t spec|v t spec|v s nb t spec]; cbn [needs] in H; cbn [runAct]; [eauto|..];
    destruct (back_some o H) as (b & B & Bi); destruct (front_some o H) as (n & F & Fi); rewrite ?B, ?F; pose proof (P _ Bi); pose proof (P _ Fi).
  - destruct inc; [destruct (512 <? b)|destruct (512 <=? b)]; eauto.
  - destruct (127 <? b); eauto.
  - destruct ((b =? 0) || (256 <? b)) eqn:G; [eauto|]. apply orb_false_iff in G. destruct G as [G1 G2]. apply Z.ltb_ge in G2.
    cbv zeta. cbn [r_effects withSizes]. destruct (Z.ltb_spec b (Z.of_nat (Nat.max (r_effects V r) (Z.to_nat (b + 1))))); [eauto|]. lia.
  - destruct (extend V v n r) as [r'|] eqn:X; [|eauto]. apply extend_size in X; [|assumption].
    destruct (Z.ltb_spec (n - 1) (Z.of_nat (vecSize V v r'))); [eauto|lia].
  - destruct (extend V v n r) as [r'|] eqn:X; [|eauto]. apply extend_size in X; [|assumption]. destruct (512 <=? b); [eauto|].
    destruct (Z.ltb_spec (n - 1) (Z.of_nat (vecSize V v r'))); [eauto|lia].
  - destruct (generic_some spec (key0 V t r) o r H) as [r' ->]. eauto.
  - destruct (extend V v n r) as [r'|] eqn:X; [|eauto]. destruct (generic_some spec (keyN V t (n - 1) r) o r' H) as [r2 ->]. eauto.
  - destruct (extend V v n r) as [r'|] eqn:X; eauto.
Qed.
Lemma parseLFO1_some v L N o (r : region) : named L N o -> no_collision L -> exists x, parseLFO1 V apply read readStep zero v o r = Some x.
Proof.
  intros H C. unfold parseLFO1. destruct (caseOf lfo1Cases o) as [a|] eqn:E; [|eauto].
  pose proof (enough_case _ _ _ _ _ _ enough_lfo1 incl_lfo1 H C E) as G.
  destruct a; cbn [needs1] in G; eauto;
    match goal with |- context[generic ?s ?t ?o ?r] => destruct (generic_some s t o r G) as [r' ->] end; cbn; eauto.
Qed.
Lemma parseEG1_some v L N o (r : region) : named L N o -> no_collision L -> exists x, parseEG1 V apply read readStep zero v o r = Some x.
Proof.
  intros H C. unfold parseEG1. destruct (caseOf eg1Table o) as [a|] eqn:E; [|eauto].
  pose proof (enough_case _ _ _ _ _ _ enough_eg1 incl_eg1 H C E) as G.
  destruct a as [m s|m sub s|w|w|w]; cbn [needsE] in G; eauto.
  - destruct (back_some o G) as (b & -> & _). destruct (512 <=? b); eauto.
  - match goal with |- context[generic ?s ?t ?o ?r] => destruct (generic_some s t o r G) as [r' ->] end. cbn. eauto.
Qed.
Lemma runNumbered_some p s i a o (r : region) : Forall (fun x => 0 <= x) (o_params o) -> (1 <= List.length (o_params o))%nat ->
  (needsN a <= List.length (o_params o))%nat ->
  exists x, runNumbered V apply read readStep zero readAmpeg readSteps p s i a o r = Some x.
Proof.
  intros P H1 H. rewrite Forall_forall in P. destruct (back_some o H1) as (b & B & _).
  destruct a; cbn [needsN] in H; cbn [runNumbered];
    try (destruct (second_some o H) as (n & Sc & Si); rewrite Sc; pose proof (P _ Si)); rewrite ?B;
    repeat match goal with |- context[if ?c then _ else _] => destruct c end; eauto;
    try (destruct (extend V v n r) as [r'|] eqn:X; [|eauto]); unfold targetCC;
    match goal with |- context[generic ?s ?t ?o ?r] => destruct (generic_some s t o r H1) as [r2 ->] | _ => idtac end; eauto.
Qed.
Lemma parseLFO2_some L N o (r : region) : named L N o -> no_collision L -> (1 <= List.length (o_params o))%nat ->
  exists x, parseLFO2 V apply read readStep zero readAmpeg readSteps o r = Some x.
Proof.
  intros H C Le. unfold parseLFO2. destruct (front_some o Le) as (n & -> & Ni). pose proof (named_params _ _ _ _ H Ni).
  destruct (Z.eqb_spec n 0); [eauto|]. cbv zeta. cbn [r_lfos withLFOs].
  rewrite padTo_length. destruct (Z.leb_spec (Z.of_nat (Nat.max (List.length (r_lfos V r)) (Z.to_nat n))) (n - 1)); [lia|].
  destruct (caseOf lfo2Table o) as [a|] eqn:E; [|eauto].
  apply runNumbered_some; [|exact Le|exact (enough_case _ _ _ _ _ _ enough_lfo2 incl_lfo2 H C E)].
  apply Forall_forall. intros x X. apply (named_params _ _ _ _ H X).
Qed.
Lemma parseEG2_some L N o (r : region) : named L N o -> no_collision L -> (1 <= List.length (o_params o))%nat ->
  exists x, parseEG2 V apply read readStep zero readAmpeg readSteps o r = Some x.
Proof.
  intros H C Le. unfold parseEG2. destruct (front_some o Le) as (n & -> & Ni). pose proof (named_params _ _ _ _ H Ni).
  destruct (Z.eqb_spec n 0); [eauto|]. cbv zeta. cbn [r_egs withEGs].
  rewrite padTo_length. destruct (Z.leb_spec (Z.of_nat (Nat.max (List.length (r_egs V r)) (Z.to_nat n))) (n - 1)); [lia|].
  destruct (caseOf eg2Table o) as [a|] eqn:E; [|eauto].
  apply runNumbered_some; [|exact Le|exact (enough_case _ _ _ _ _ _ enough_eg2 incl_eg2 H C E)].
  apply Forall_forall. intros x X. apply (named_params _ _ _ _ H X).
Qed.
Lemma orElse_some (x : option (bool * region)) k : (exists y, x = Some y) -> (forall r, exists y, k r = Some y) -> exists y, orElse V x k = Some y.
Proof. intros [[b r] ->] K. destruct b; cbn; eauto. Qed.
Lemma try_some p o f g (r : region) : (exists x, f = Some x) -> exists y, try V p o f g r = Some y.
Proof. intros [[r'|] ->]; unfold try; destruct (starts_with _ _); eauto. Qed.

(** C92: parsing an opcode, whatever its name and value and whatever the region, reads only numbers that the name has and elements that there are. *)
Theorem C92_safe L N o (r : region) : named L N o -> no_collision L -> exists b r', parseOpcode o r = Some (b, r').
Proof.
  intros H C. cut (exists x, parseOpcode o r = Some x). { intros [[b r'] X]. eauto. }
  unfold RegionModel.parseOpcode. destruct (caseOf regionTable o) as [a|] eqn:E.
  { apply runAct_some; [|exact (enough_case _ _ _ _ _ _ enough_region incl_region H C E)].
    apply Forall_forall. intros x X. apply (named_params _ _ _ _ H X). }
  destruct (named_facts _ _ _ H) as (_ & _ & Lo & Am). unfold parseDefault. rewrite Lo.
  do 3 (apply orElse_some; [apply try_some; now apply parseEG1_some with L N|intros ?]).
  do 3 (apply orElse_some; [apply try_some; now apply parseLFO1_some with L N|intros ?]).
  apply orElse_some.
  - destruct (starts_with (str "lfo&_") L) eqn:W; [|eauto]. apply starts_amps in W. apply parseLFO2_some with L N; try assumption.
    rewrite <- Am. exact W.
  - intros rr. destruct (starts_with (str "eg&_") L) eqn:W; [|eauto]. apply starts_amps in W. apply parseEG2_some with L N; try assumption.
    rewrite <- Am. exact W.
Qed.
Definition nice (o : opcode) : Prop := exists L N, named L N o /\ no_collision L.
Theorem C92_safe_all l (r : region) : Forall nice l -> exists r', parseOpcodes l r = Some r'.
Proof.
  intros H. revert r. induction H as [|o l (L & N & H & C) _ IH]; intros r; [now exists r|]. cbn [RegionModel.parseOpcodes].
  destruct (C92_safe L N o r H C) as (b & r' & ->). apply IH.
Qed.
End Safe.

(** A number of 2^32 or more is dropped by the constructor of Opcode, but not by getLetterOnlyName: the first number of an LFO opcode is then read from an
    empty vector. *)
Theorem C92_safe_dropped_refuted V apply read readStep zero readAmpeg readSteps (r : region V) :
  let o := mkOpcode (str "lfo4294967296_freq") (str "1") in
  o_params o = [] /\ parseOpcode V apply read readStep zero readAmpeg readSteps o r = None.
Proof.
  cbv zeta. set (o := mkOpcode _ _). vm_compute in o. subst o. split; [reflexivity|].
  unfold parseOpcode.
  match goal with |- match caseOf ?t ?o with _ => _ end = _ => replace (caseOf t o) with (@None act) by (vm_compute; reflexivity) end.
  reflexivity.
Qed.
Example C92_safe_ex : exists L N, named L N (mkOpcode (str "lfo3_cutoff2_oncc14") (str "1200")) /\ no_collision L /\ N = [3; 2; 14].
Proof.
  exists (str "lfo&_cutoff&_oncc&"), [3; 2; 14]. split; [|split; [|reflexivity]].
  - exists (str "lfo3_cutoff2_oncc14"), (str "1200"). split; [reflexivity|]. split.
    + change (reads (str "lfo" ++ str "3" ++ str "_cutoff" ++ str "2" ++ str "_oncc" ++ str "14" ++ [])
        (str "lfo" ++ 38 :: str "_cutoff" ++ 38 :: str "_oncc" ++ 38 :: []) [decimal (str "3"); decimal (str "2"); decimal (str "14")]).
      repeat constructor; try (apply no_digits_b; reflexivity); try discriminate; cbn; try lia.
    + split; [|split; [repeat constructor|reflexivity]]. unfold no_ampersand. cbn. intuition discriminate.
  - change (str "lfo&_cutoff&_oncc&") with (str "lfo&_cutoff&_oncc&"). apply case_no_collision.
    apply incl_lfo2. assert (Q : existsb (String.eqb "lfo&_cutoff&_oncc&") (map fst lfo2Table) = true) by (vm_compute; reflexivity).
    apply existsb_exists in Q. destruct Q as (x & X & E). apply String.eqb_eq in E. now subst x.
Qed.
