(** The list of unknown opcodes, the regions of a file that has some, and the list as the C interface gives it (C103). *)
From Coq Require Import ZArith List Bool String Lia.
From Verif Require Import ParserModel ParserAdvance OpcodeModel OpcodeNumbers OpcodeCleanProps ModModel RegionModel UnknownModel Unknown.
Import ListNotations.
Local Open Scope string_scope.
Local Open Scope list_scope.
Local Open Scope Z_scope.

(** The opcode, with the name it has after the clean-up, does not let an envelope move the frequency of an LFO. *)
Definition plainOpcode (o : opcode) : Prop := forall c, cleanUp 1 o ScopeRegion = Some c -> ~ movesLFO c.

Lemma known_in n u : existsb (text_eqb n) u = true <-> In n u.
Proof.
  split; intros H.
  - apply existsb_exists in H. destruct H as (x & H & E0). apply text_eqb_eq in E0. now subst.
  - apply existsb_exists. exists n. split; [exact H|now apply text_eqb_eq].
Qed.
Lemma unknown_not n u : existsb (text_eqb n) u = false -> ~ In n u.
Proof. intros H X. apply known_in in X. congruence. Qed.
Lemma firsts_app a : forall u b, firsts u (a ++ b) = firsts u a ++ firsts (u ++ firsts u a) b.
Proof.
  induction a as [|n a IH]; intros u b; cbn [app firsts]; [now rewrite app_nil_r|]. destruct (existsb _ u); [apply IH|].
  rewrite IH. cbn [app]. f_equal. now rewrite <- app_assoc.
Qed.

Definition plainFile (file : list (list opcode)) : Prop := Forall (Forall (fun o => written o /\ plainOpcode o)) file.

Section List.
Variable V : Type.
Variable apply : string -> text -> V -> V.
Variable read readStep : string -> text -> V.
Variable zero : V.
Variable readAmpeg : text -> bool.
Variable readSteps : text -> nat.
Variable mem : place -> V.
Notation region := (region V).
Notation parseRaw := (parseRaw V apply read readStep zero readAmpeg readSteps).
Notation sift := (sift V apply read readStep zero readAmpeg readSteps).
Notation loadRegions := (loadRegions V apply read readStep zero readAmpeg readSteps mem).
Notation alike := (alike V).

(** The opcodes of a region, all of them read. *)
Fixpoint readAll (l : list opcode) (r : region) : option region :=
  match l with
  | [] => Some r
  | o :: l => match parseRaw o r with Some (_, r) => readAll l r | None => None end
  end.
(** The name is refused in a region that has nothing else. *)
Definition refusedAlone (n : text) : bool :=
  match parseRaw (mkOpcode n []) (freshRegion V 0 mem) with Some (b, _) => negb b | None => false end.

Lemma clean_name o o' : o_name o = o_name o' ->
  (cleanUp 1 o ScopeRegion = None /\ cleanUp 1 o' ScopeRegion = None) \/
  exists n, cleanUp 1 o ScopeRegion = Some (mkOpcode n (o_value o)) /\ cleanUp 1 o' ScopeRegion = Some (mkOpcode n (o_value o')).
Proof.
  intros N. unfold cleanUp. rewrite N. destruct (cleanUpOpcodeName 1 (o_name o') ScopeRegion) as [n|]; [right; now exists n|now left].
Qed.
Lemma make_hash n v v' : o_hash (mkOpcode n v) = o_hash (mkOpcode n v').
Proof. now destruct (kin_make n v v') as (_ & H & _). Qed.
Lemma plain_name o o' : o_name o = o_name o' -> plainOpcode o -> plainOpcode o'.
Proof.
  intros N P c C M. destruct (clean_name o o' N) as [[_ X]|(n & X & Y)]; [congruence|]. rewrite Y in C. injection C as <-.
  apply (P _ X). unfold movesLFO in *. now rewrite (make_hash n (o_value o) (o_value o')).
Qed.

(** Whether an opcode is accepted depends on its name alone. *)
Theorem C103_name o o' (r r' : region) : o_name o = o_name o' -> plainOpcode o -> option_map fst (parseRaw o r) = option_map fst (parseRaw o' r').
Proof.
  intros N P. unfold UnknownModel.parseRaw. destruct (clean_name o o' N) as [[-> ->]|(n & X & Y)]; [reflexivity|]. rewrite X, Y.
  apply parse_kin; [apply make_nonneg| |apply kin_make]. intros M. apply (P _ X). unfold movesLFO in *. now rewrite (make_hash n (o_value o) (o_value o')).
Qed.
(** A refused opcode leaves the region alike. *)
Theorem C103_refused o (r r' : region) : parseRaw o r = Some (false, r') -> alike r' r.
Proof. unfold UnknownModel.parseRaw. destruct (cleanUp 1 o ScopeRegion) as [c|]; [|discriminate]. apply parse_leaves. Qed.
Lemma raw_alike o (r r' : region) : plainOpcode o -> alike r r' -> steps V (parseRaw o r) (parseRaw o r').
Proof.
  intros P H. unfold UnknownModel.parseRaw. destruct (cleanUp 1 o ScopeRegion) as [c|] eqn:C; [|exact Logic.I]. apply parse_alike; [|now apply P|exact H].
  unfold cleanUp in C. destruct (cleanUpOpcodeName 1 (o_name o) ScopeRegion) as [n|]; [|discriminate]. cbn in C. injection C as <-. apply make_nonneg.
Qed.

Definition bad (n : text) : Prop := exists o r r', o_name o = n /\ plainOpcode o /\ parseRaw o r = Some (false, r').
Lemma bad_refused n o (r : region) : bad n -> o_name o = n -> exists r', parseRaw o r = Some (false, r') /\ alike r' r.
Proof.
  intros (o1 & r1 & r1' & N & P & H) E0. pose proof (C103_name o1 o r1 r ltac:(congruence) P) as X. rewrite H in X. cbn [option_map fst] in X.
  destruct (parseRaw o r) as [[b r']|] eqn:Y; [|discriminate]. injection X as <-. exists r'. split; [reflexivity|]. now apply C103_refused in Y.
Qed.
Lemma trim_identifier n : isIdentifier n = true -> trim n = n.
Proof.
  intros H. apply trim_solid. unfold isIdentifier in H. destruct n as [|c n]; [discriminate|]. rewrite forallb_forall in H.
  assert (T : forall d, In d (c :: n) -> isTrimmed d = false).
  { intros d D. apply H in D. destruct (isTrimmed d) eqn:X; [|reflexivity]. apply isTrimmed_iff in X. unfold isIdentifierChar in D.
    rewrite !orb_true_iff, !andb_true_iff, Z.eqb_eq, !Z.leb_le in D. lia. }
  split; [apply T; now left|]. destruct (rev (c :: n)) as [|d m] eqn:R; [exact Logic.I|]. apply T. apply in_rev. rewrite R. now left.
Qed.
Lemma written_name o : written o -> isIdentifier (o_name o) = true /\ o_name (mkOpcode (o_name o) []) = o_name o.
Proof.
  intros (n & v & I0 & ->). assert (N : forall m w, o_name (mkOpcode m w) = trim m) by (intros; unfold mkOpcode; now destruct (scan_name _ _ _ _)).
  rewrite !N, (trim_identifier n I0). split; [exact I0|]. now rewrite (trim_identifier n I0).
Qed.
Lemma alone_bad o (r : region) b r' : written o -> plainOpcode o -> parseRaw o r = Some (b, r') -> refusedAlone (o_name o) = negb b.
Proof.
  intros W P H. unfold refusedAlone. pose proof (C103_name o (mkOpcode (o_name o) []) r (freshRegion V 0 mem)) as X.
  destruct (written_name o W) as [_ N]. rewrite N in X. specialize (X eq_refl P). rewrite H in X. cbn [option_map fst] in X.
  destruct (UnknownModel.parseRaw _ _ _ _ _ _ _ (mkOpcode (o_name o) []) _) as [[b' q]|]; [|discriminate]. injection X as <-. reflexivity.
Qed.
Lemma sift_spec l : forall u r u' r1, Forall (fun o => written o /\ plainOpcode o) l -> (forall n, In n u -> bad n) -> sift l u r = Some (u', r1) ->
  u' = u ++ firsts u (filter refusedAlone (map o_name l)) /\ (forall n, In n u' -> bad n) /\
  forall r2, alike r r2 -> exists r3, readAll l r2 = Some r3 /\ alike r1 r3.
Proof.
  induction l as [|o l IH]; intros u r u' r1 F B H.
  - cbn [UnknownModel.sift] in H. injection H as <- <-. cbn [map filter firsts readAll]. rewrite app_nil_r. split; [reflexivity|]. split; [exact B|].
    intros r2 A. now exists r2.
  - apply Forall_cons_iff in F. destruct F as [[W P] F]. cbn [UnknownModel.sift] in H. cbn [map filter readAll]. destruct (existsb (text_eqb (o_name o)) u) eqn:K.
    + apply known_in in K. destruct (bad_refused _ o r (B _ K) eq_refl) as (q & Q & _). rewrite (alone_bad _ _ _ _ W P Q). cbn [negb firsts].
      rewrite (proj2 (known_in _ _) K). destruct (IH _ _ _ _ F B H) as (U & B' & A). split; [exact U|]. split; [exact B'|].
      intros r2 H2. destruct (bad_refused _ o r2 (B _ K) eq_refl) as (q2 & Q2 & A2). rewrite Q2. apply A. apply alike_trans with r2; [exact H2|]. now apply alike_sym.
    + destruct (parseRaw o r) as [[[] q]|] eqn:Q; [| |discriminate].
      * rewrite (alone_bad _ _ _ _ W P Q). cbn [negb]. destruct (IH _ _ _ _ F B H) as (U & B' & A). split; [exact U|]. split; [exact B'|].
        intros r2 H2. pose proof (raw_alike o r r2 P H2) as S0. rewrite Q in S0. destruct (parseRaw o r2) as [[b2 q2]|]; [|contradiction]. destruct S0 as [_ S0]. now apply A.
      * rewrite (alone_bad _ _ _ _ W P Q). cbn [negb firsts]. rewrite K.
        assert (B2 : forall n, In n (u ++ [o_name o]) -> bad n).
        { intros n X. apply in_app_iff in X. destruct X as [X|[<-|[]]]; [now apply B|]. now exists o, r, q. }
        destruct (IH _ _ _ _ F B2 H) as (U & B' & A). split; [rewrite U, <- app_assoc; reflexivity|]. split; [exact B'|].
        intros r2 H2. pose proof (raw_alike o r r2 P H2) as S0. rewrite Q in S0. destruct (parseRaw o r2) as [[b2 q2]|]; [|contradiction]. destruct S0 as [_ S0]. now apply A.
Qed.
Lemma load_spec file : forall id u u' rs, plainFile file -> (forall n, In n u -> bad n) -> loadRegions id file u = Some (u', rs) ->
  u' = u ++ firsts u (filter refusedAlone (map o_name (List.concat file))) /\ List.length rs = List.length file /\
  forall i l r, nth_error file i = Some l -> nth_error rs i = Some r -> exists r', readAll l (freshRegion V (id + Z.of_nat i) mem) = Some r' /\ alike r r'.
Proof.
  induction file as [|l file IH]; intros id u u' rs F B H; cbn [UnknownModel.loadRegions] in H.
  - injection H as <- <-. cbn [List.concat map filter firsts]. rewrite app_nil_r. repeat split. intros [|i] x r X; discriminate.
  - apply Forall_cons_iff in F. destruct F as [F1 F]. destruct (sift l u (freshRegion V id mem)) as [[u1 r1]|] eqn:S0; [|discriminate].
    destruct (loadRegions (id + 1) file u1) as [[u2 rs2]|] eqn:L; [|discriminate]. injection H as <- <-.
    destruct (sift_spec _ _ _ _ _ F1 B S0) as (U & B1 & A). destruct (IH _ _ _ _ F B1 L) as (U2 & Len & R). split; [|split].
    + rewrite U2, U. cbn [List.concat]. rewrite map_app, filter_app, firsts_app, <- app_assoc. reflexivity.
    + cbn [List.length]. now rewrite Len.
    + intros [|i] x r X Y; cbn [nth_error] in X, Y.
      * injection X as <-. injection Y as <-. rewrite Z.add_0_r. apply A. apply alike_refl.
      * replace (id + Z.of_nat (S i)) with (id + 1 + Z.of_nat i) by lia. now apply R.
Qed.

(** The list is the list of the names that are refused, each where it comes first. *)
Theorem C103_list file id u rs : plainFile file -> loadRegions id file [] = Some (u, rs) -> u = firsts [] (filter refusedAlone (map o_name (List.concat file))).
Proof. intros F H. now destruct (load_spec file id [] u rs F ltac:(intros n []) H) as (U & _). Qed.
(** Every region is what it would be if all its opcodes were read, whatever regions come before it. *)
Theorem C103_regions file id u rs i l r : plainFile file -> loadRegions id file [] = Some (u, rs) -> nth_error file i = Some l -> nth_error rs i = Some r ->
  List.length rs = List.length file /\ exists r', readAll l (freshRegion V (id + Z.of_nat i) mem) = Some r' /\ alike r r'.
Proof. intros F H X Y. destruct (load_spec file id [] u rs F ltac:(intros n []) H) as (_ & L & R). split; [exact L|]. now apply R. Qed.

(** For all files: no name is twice in the list, and all are names of the file. *)
Lemma sift_once l : forall u r u' r1, NoDup u -> sift l u r = Some (u', r1) -> NoDup u' /\ forall n, In n u' -> In n u \/ In n (map o_name l).
Proof.
  induction l as [|o l IH]; intros u r u' r1 N H; cbn [UnknownModel.sift] in H.
  - injection H as <- <-. tauto.
  - cbn [map]. destruct (existsb (text_eqb (o_name o)) u) eqn:K.
    + destruct (IH _ _ _ _ N H) as [A B]. split; [exact A|]. intros n X. destruct (B n X); cbn [In]; tauto.
    + destruct (parseRaw o r) as [[[] q]|]; [| |discriminate].
      * destruct (IH _ _ _ _ N H) as [A B]. split; [exact A|]. intros n X. destruct (B n X); cbn [In]; tauto.
      * destruct (IH (u ++ [o_name o]) q u' r1) as [A B]; [|exact H|].
        -- apply unknown_not in K. apply NoDup_rev in N. rewrite <- (rev_involutive (u ++ _)). apply NoDup_rev. rewrite rev_app_distr. constructor; [|exact N].
           intros X. now apply in_rev in X.
        -- split; [exact A|]. intros n X. destruct (B n X) as [Y|Y]; cbn [In]; [|tauto]. apply in_app_iff in Y. destruct Y as [Y|[Y|[]]]; tauto.
Qed.
Theorem C103_once file : forall id u u' rs, NoDup u -> loadRegions id file u = Some (u', rs) -> NoDup u' /\ forall n, In n u' -> In n u \/ In n (map o_name (List.concat file)).
Proof.
  induction file as [|l file IH]; intros id u u' rs N H; cbn [UnknownModel.loadRegions] in H.
  - injection H as <- <-. tauto.
  - destruct (sift l u (freshRegion V id mem)) as [[u1 r1]|] eqn:S0; [|discriminate].
    destruct (loadRegions (id + 1) file u1) as [[u2 rs2]|] eqn:L; [|discriminate]. injection H as <- <-.
    destruct (sift_once _ _ _ _ _ N S0) as [A B]. destruct (IH _ _ _ _ A L) as [A2 B2]. split; [exact A2|]. intros n X. cbn [List.concat]. rewrite map_app, in_app_iff.
    destruct (B2 n X) as [Y|Y]; [|tauto]. destruct (B n Y); tauto.
Qed.
End List.

(** * The list of the C interface *)
Definition clean (n : text) : Prop := ~ In 0 n /\ ~ In 44 n.
Lemma identifier_clean n : isIdentifier n = true -> clean n.
Proof.
  intros H. unfold isIdentifier in H. destruct n as [|c n]; [discriminate|]. rewrite forallb_forall in H.
  split; intros X; apply H in X; discriminate.
Qed.
Lemma total_sum l : forall k, fold_left (fun n o => (n + (List.length (o : text) + 1))%nat) l k = (k + list_sum (map (fun o => S (List.length o)) l))%nat.
Proof. induction l as [|o l IH]; intros k; cbn [fold_left map list_sum fold_right]; [lia|]. rewrite IH. unfold list_sum. lia. Qed.
Lemma total_length l : totalLength l = List.length (writeList l).
Proof.
  unfold totalLength, writeList. rewrite total_sum. cbn [Nat.add]. generalize (last l []). intros z. induction l as [|o l IH]; [reflexivity|].
  cbn [map list_sum fold_right flat_map]. unfold list_sum in IH. rewrite IH, !app_length. cbn [List.length]. lia.
Qed.
Lemma cstring_clean n t : ~ In 0 n -> cstring (n ++ t) = n ++ cstring t.
Proof.
  induction n as [|c n IH]; intros H; [reflexivity|]. cbn [app cstring]. destruct (Z.eqb_spec c 0) as [->|_]; [elim H; now left|]. rewrite IH; [reflexivity|]. intros X. apply H. now right.
Qed.
Lemma commas_clean n : ~ In 44 n -> commas n = [n].
Proof.
  induction n as [|c n IH]; intros H; [reflexivity|]. cbn [commas]. destruct (Z.eqb_spec c 44) as [->|_]; [elim H; now left|]. rewrite IH; [reflexivity|]. intros X. apply H. now right.
Qed.
Lemma commas_app n t : ~ In 44 n -> commas (n ++ 44 :: t) = n :: commas t.
Proof.
  induction n as [|c n IH]; intros H; [reflexivity|]. cbn [app commas]. destruct (Z.eqb_spec c 44) as [->|_]; [elim H; now left|]. rewrite IH; [reflexivity|]. intros X. apply H. now right.
Qed.
Lemma write_parts z l : l <> [] -> NoDup l -> last l [] = z -> Forall clean l ->
  let b := flat_map (fun o => o ++ [if text_eqb o z then 0 else 44]) l in commas (cstring b) = l /\ last b 1 = 0 /\ b = cstring b ++ [0].
Proof.
  intros N D L C. cbv zeta. induction l as [|o l IH]; [contradiction|]. apply Forall_cons_iff in C. destruct C as [[C0 C1] C]. cbn [flat_map].
  destruct l as [|p l].
  - cbn [last] in L. subst z. rewrite (proj2 (text_eqb_eq o o) eq_refl). cbn [flat_map]. rewrite app_nil_r, cstring_clean by exact C0. cbn [cstring Z.eqb].
    rewrite app_nil_r, commas_clean by exact C1. repeat split. now rewrite last_last.
  - assert (X : text_eqb o z = false).
    { destruct (text_eqb o z) eqn:X; [|reflexivity]. apply text_eqb_eq in X. subst o. inversion D as [|a b Y Y2]. elim Y. rewrite <- L. cbn [last].
      clear. change (In (last (p :: l) []) (p :: l)). revert p. induction l as [|q l IH]; intros p; [now left|]. right. apply IH. }
    rewrite X. inversion D as [|a b Y Y2]. subst a b. destruct IH as (A & B & E0); [discriminate|exact Y2|exact L|exact C|]. set (w := flat_map _ (p :: l)) in *.
    rewrite <- app_assoc. cbn [app]. rewrite cstring_clean by exact C0. cbn [cstring Z.eqb]. rewrite commas_app by exact C1. rewrite A. split; [reflexivity|]. split.
    + rewrite E0. change (last (o ++ 44 :: cstring w ++ [0]) 1 = 0). rewrite app_comm_cons, app_assoc, last_last. reflexivity.
    + rewrite <- app_assoc. cbn [app]. now rewrite <- E0.
Qed.
(** For every file, the interface gives the null pointer if all is understood; otherwise as many bytes as were asked for, a zero only at the end, and
    between the commas the names of the list. *)
Theorem C103_interface V apply read readStep zero readAmpeg readSteps mem file id u rs : Forall (Forall written) file ->
  loadRegions V apply read readStep zero readAmpeg readSteps mem id file [] = Some (u, rs) ->
  match getUnknown u with
  | None => u = []
  | Some (size, bytes) => u <> [] /\ List.length bytes = size /\ bytes = cstring bytes ++ [0] /\ commas (cstring bytes) = u
  end.
Proof.
  intros W H. destruct (C103_once V apply read readStep zero readAmpeg readSteps mem file id [] u rs (NoDup_nil _) H) as [D S0].
  assert (C : Forall clean u).
  { apply Forall_forall. intros n X. destruct (S0 n X) as [[]|Y]. apply in_map_iff in Y. destruct Y as (o & <- & Y). apply in_concat in Y. destruct Y as (l & Y1 & Y2).
    rewrite Forall_forall in W. apply W in Y1. rewrite Forall_forall in Y1. apply Y1 in Y2. apply identifier_clean. now apply written_name. }
  unfold getUnknown. destruct u as [|n u]; [reflexivity|]. assert (N : n :: u <> []) by discriminate. remember (n :: u) as l eqn:El.
  destruct (Nat.eqb_spec (totalLength l) 0) as [Z0|_].
  - exfalso. rewrite total_length, El in Z0. unfold writeList in Z0. cbn [flat_map] in Z0. rewrite !app_length in Z0. cbn [List.length] in Z0. lia.
  - destruct (write_parts (last l []) l N D eq_refl C) as (A & _ & B). split; [exact N|]. split; [symmetry; apply total_length|]. split; [exact B|exact A].
Qed.

(** * Cases *)
Definition plainb (o : opcode) : bool :=
  match cleanUp 1 o ScopeRegion with
  | None => true
  | Some c => negb (existsb (Z.eqb (o_hash c)) (map (fun n => hash (str n) fnvBasis) lfoNames))
  end.
Lemma plainb_plain o : plainb o = true -> plainOpcode o.
Proof.
  unfold plainb. intros H c C M. rewrite C in H. apply negb_true_iff in H. unfold movesLFO in M.
  assert (X : existsb (Z.eqb (o_hash c)) (map (fun n => hash (str n) fnvBasis) lfoNames) = true); [|congruence].
  apply existsb_exists. exists (o_hash c). split; [exact M|apply Z.eqb_refl].
Qed.
Definition ofTexts (l : list (list (string * string))) : list (list opcode) := map (map (fun x => mkOpcode (str (fst x)) (str (snd x)))) l.
Lemma ofTexts_written l : forallb (forallb (fun x => isIdentifier (str (fst x)))) l = true -> Forall (Forall written) (ofTexts l).
Proof.
  intros H. rewrite forallb_forall in H. unfold ofTexts. apply Forall_forall. intros m M. apply in_map_iff in M. destruct M as (a & <- & M). apply H in M.
  rewrite forallb_forall in M. apply Forall_forall. intros o O0. apply in_map_iff in O0. destruct O0 as (x & <- & O0). apply M in O0. now exists (str (fst x)), (str (snd x)).
Qed.
Lemma ofTexts_plain l : forallb (forallb (fun x => isIdentifier (str (fst x)))) l = true -> forallb (forallb plainb) (ofTexts l) = true -> plainFile (ofTexts l).
Proof.
  intros A B. apply ofTexts_written in A. rewrite Forall_forall in A. rewrite forallb_forall in B. apply Forall_forall. intros m M.
  specialize (A _ M). specialize (B _ M). rewrite Forall_forall in A. rewrite forallb_forall in B. apply Forall_forall. intros o O0. split; [now apply A|now apply plainb_plain, B].
Qed.
Definition loadText (l : list (list (string * string))) : option (list text * list (region text)) :=
  loadRegions text (fun _ t _ => t) (fun _ t => t) (fun _ t => t) [] (fun _ => false) (fun _ => O) (fun _ => []) 0 (ofTexts l) [].

(** Two regions and a name that is not understood in either. *)
Definition twoRegions : list (list (string * string)) := [[("volume", "1"); ("foo", "1")]; [("foo", "4")]].
(** What is looked at: the list, and of every region its volume, its LFOs, its connections and its filters. *)
Definition glance (x : list text * list (region text)) : list text * list (text * nat * nat * nat) :=
  (fst x, map (fun r => (r_mem text r ("volume", []), List.length (r_lfos text r), List.length (r_conns text r), r_filters text r)) (snd x)).
Example C103_ex : plainFile (ofTexts twoRegions) /\
  option_map glance (loadText twoRegions) = Some ([str "foo"], [(str "1", 0%nat, 0%nat, 0%nat); ([], 0%nat, 0%nat, 0%nat)]).
Proof.
  split; [apply ofTexts_plain; vm_compute; reflexivity|]. vm_compute. reflexivity.
Qed.
Example C103_text_ex : getUnknown (map str ["foo"; "lfo03_bar"; "offset_cc600"; "Foo"]) = Some (31%nat, str "foo,lfo03_bar,offset_cc600,Foo" ++ [0]).
Proof. vm_compute. reflexivity. Qed.

(** Without the condition on the LFOs it is false: the opcode of the second region, valid there, is not read because of the first. *)
Theorem C103_regions_refuted : exists l,
  option_map glance (loadText [[("eg1_freq_lfo3", "2")]; l]) = Some ([str "eg1_freq_lfo3"], [([], 0%nat, 0%nat, 0%nat); ([], 3%nat, 0%nat, 0%nat)]) /\
  option_map glance (loadText [l]) = Some ([], [([], 3%nat, 1%nat, 0%nat)]).
Proof.
  exists [("lfo03_freq", "5"); ("eg1_freq_lfo3", "2")]. split; vm_compute; reflexivity.
Qed.
(** "Alike" cannot be "the same": of two regions with the same opcodes the first has a filter and the second none; the opcode is refused after the filter
    was made. *)
Theorem C103_twins_refuted : exists l,
  option_map glance (loadText [l; l]) = Some ([str "fil1_veltrack_oncc600"], [([], 0%nat, 0%nat, 1%nat); ([], 0%nat, 0%nat, 0%nat)]).
Proof. exists [("fil1_veltrack_oncc600", "1200")]. vm_compute. reflexivity. Qed.
