(** Opcodes that are not understood are reported once each, and ignoring them later changes no region (C103). *)
From Coq Require Import ZArith List Bool String Lia.
From Verif Require Import ParserModel OpcodeModel OpcodeCleanProps ModModel RegionModel UnknownModel.
Import ListNotations.
Local Open Scope string_scope.
Local Open Scope list_scope.
Local Open Scope Z_scope.

(** * Specification *)
(** An opcode as the parser hands it over: the name is an identifier. *)
Definition written (o : opcode) : Prop := exists n v, isIdentifier n = true /\ o = mkOpcode n v.
(** Each name at the place where it comes first. *)
Fixpoint firsts (seen : list text) (l : list text) : list text :=
  match l with
  | [] => []
  | n :: l => if existsb (text_eqb n) seen then firsts seen l else n :: firsts (seen ++ [n]) l
  end.
(** The opcodes that let an envelope move the frequency of an LFO. *)
Definition lfoNames : list string :=
  ["eg&_freq_lfo&"; "eg&_freq_lfo&_oncc&"; "eg&_freq_lfo&_curvecc&"; "eg&_freq_lfo&_stepcc&"; "eg&_freq_lfo&_smoothcc&"].
Definition movesLFO (o : opcode) : Prop := In (o_hash o) (map (fun n => hash (str n) fnvBasis) lfoNames).
(** The bytes of a C string up to its end; the parts between the commas. *)
Fixpoint cstring (t : text) : text := match t with [] => [] | c :: t => if c =? 0 then [] else c :: cstring t end.
Fixpoint commas (t : text) : list text :=
  match t with
  | [] => [[]]
  | c :: t => if c =? 44 then [] :: commas t else match commas t with [] => [[c]] | x :: l => (c :: x) :: l end
  end.

(** * What decides whether an opcode is accepted *)
Definition kin (o o' : opcode) : Prop := o_name o = o_name o' /\ o_hash o = o_hash o' /\ o_params o = o_params o' /\ o_cat o = o_cat o'.
Lemma kin_make n v v' : kin (mkOpcode n v) (mkOpcode n v').
Proof. unfold mkOpcode. destruct (scan_name _ _ _ _) as [h ps]. repeat split. Qed.
Lemma scan_nonneg fuel : forall t h ps, Forall (fun x => 0 <= x) ps -> Forall (fun x => 0 <= x) (snd (scan_name fuel t h ps)).
Proof.
  induction fuel as [|fuel IH]; intros t h ps H; cbn [scan_name]; destruct (span _ t) as [l r]; (destruct r as [|c r]; [exact H|]);
  destruct (span _ (c :: r)) as [n q]; destruct (simpleAtoi _ _ n) as [v|]; cbn [snd]; try apply IH; try exact H;
  apply Forall_app; (split; [exact H|]); constructor; [|constructor| |constructor]; apply Z.mod_pos_bound; lia.
Qed.
Lemma make_nonneg n v : Forall (fun x => 0 <= x) (o_params (mkOpcode n v)).
Proof.
  unfold mkOpcode. pose proof (scan_nonneg (List.length (trim n)) (trim n) fnvBasis [] (Forall_nil _)) as H. destruct (scan_name _ _ _ _) as [h ps]. exact H.
Qed.

Section Unknown.
Variable V : Type.
Variable apply : string -> text -> V -> V.
Variable read readStep : string -> text -> V.
Variable zero : V.
Variable readAmpeg : text -> bool.
Variable readSteps : text -> nat.
Notation region := (region V).
Notation parse := (parseOpcode V apply read readStep zero readAmpeg readSteps).
Notation parseRaw := (parseRaw V apply read readStep zero readAmpeg readSteps).

(** Two regions that are the same but for the number of their filters, and elements that nothing was said of. *)
Record alike (r r' : region) : Prop := Alike {
  al_id : r_id V r = r_id V r';
  al_mem : forall k, r_mem V r k = r_mem V r' k;
  al_maps : r_maps V r = r_maps V r';
  al_points : r_points V r = r_points V r';
  al_eqs : r_eqs V r = r_eqs V r';
  al_effects : r_effects V r = r_effects V r';
  al_lfos : forall i, nth i (r_lfos V r) (LFO V 1 None) = nth i (r_lfos V r') (LFO V 1 None);
  al_egs : forall i, e_ampeg (nth i (r_egs V r) (EG 0 false)) = e_ampeg (nth i (r_egs V r') (EG 0 false));
  al_amp : r_flexAmpEG V r = r_flexAmpEG V r';
  al_v1 : r_v1 V r = r_v1 V r';
  al_conns : r_conns V r = r_conns V r' }.

(** Two readings say the same. *)
Definition agree (x y : option (bool * region)) : Prop := option_map fst x = option_map fst y.

Lemma agree_yes a b : agree (Some (true, a)) (Some (true, b)). Proof. reflexivity. Qed.
Lemma generic_kin spec t t' o o' (r r' : region) : kin o o' ->
  (generic V read readStep zero spec t o r = None <-> generic V read readStep zero spec t' o' r' = None).
Proof.
  intros (_ & _ & P & C). unfold generic, back. rewrite P, C. destruct (o_cat o'); try (split; discriminate); destruct (o_params o'); try tauto;
  destruct (512 <=? _); destruct (isKey t), (isKey t'); split; discriminate.
Qed.
Lemma lift_kin spec t t' o o' (r r' : region) : kin o o' ->
  agree (match generic V read readStep zero spec t o r with Some r => Some (true, r) | None => None end)
        (match generic V read readStep zero spec t' o' r' with Some r => Some (true, r) | None => None end).
Proof.
  intros K. pose proof (generic_kin spec t t' o o' r r' K) as G. destruct (generic _ _ _ _ _ t o r), (generic _ _ _ _ _ t' o' r'); try reflexivity;
  exfalso; [assert (Some r0 = None) by now apply G|assert (Some r0 = None) by now apply G]; discriminate.
Qed.
Lemma extend_kin v n (r r' : region) : (extend V v n r = None <-> extend V v n r' = None).
Proof. unfold extend, extendSize. destruct v; destruct (n =? 0); split; congruence. Qed.
Lemma extend_size v n (r r' : region) : 0 <= n -> extend V v n r = Some r' -> (n - 1 <? Z.of_nat (vecSize V v r')) = true.
Proof.
  intros N. unfold extend, extendSize. destruct v; destruct (Z.eqb_spec n 0); intros X; try discriminate; injection X as <-; apply Z.ltb_lt; cbn [vecSize withSizes r_filters r_eqs]; lia.
Qed.
Lemma runAct_kin a o o' (r r' : region) : Forall (fun x => 0 <= x) (o_params o') -> kin o o' ->
  agree (runAct V apply read readStep zero a o r) (runAct V apply read readStep zero a o' r').
Proof.
  intros NN K. pose proof K as (_ & _ & P & C).
  assert (F : front o = front o') by (unfold front; now rewrite P). assert (B : back o = back o') by (unfold back; now rewrite P).
  assert (FP : forall n, front o' = Some n -> 0 <= n).
  { intros n X. unfold front in X. apply nth_error_In in X. rewrite Forall_forall in NN. auto. }
  destruct a; cbn [runAct]; rewrite ?F, ?B.
  - reflexivity.
  - destruct (back o'); [|reflexivity]. destruct inclusive; destruct (_ : bool); reflexivity.
  - destruct (back o'); [|reflexivity]. destruct (_ : bool); reflexivity.
  - destruct (back o') as [n|]; [|reflexivity]. destruct ((n =? 0) || (256 <? n)); [reflexivity|].
    cbn [withSizes r_effects].
    destruct (Z.ltb_spec n (Z.of_nat (Nat.max (r_effects V r) (Z.to_nat (n + 1))))), (Z.ltb_spec n (Z.of_nat (Nat.max (r_effects V r') (Z.to_nat (n + 1))))); try reflexivity; lia.
  - destruct (front o') as [n|] eqn:X; [|reflexivity]. specialize (FP n eq_refl). pose proof (extend_kin v n r r') as EK.
    destruct (extend V v n r) as [a|] eqn:Y, (extend V v n r') as [b|] eqn:Z0; try (exfalso; assert (A : Some a = None) by tauto; discriminate); try (exfalso; assert (A : Some b = None) by tauto; discriminate); [|reflexivity].
    rewrite (extend_size _ _ _ _ FP Y), (extend_size _ _ _ _ FP Z0). reflexivity.
  - destruct (front o') as [n|] eqn:X; [|reflexivity]. specialize (FP n eq_refl). pose proof (extend_kin v n r r') as EK.
    destruct (back o') as [c|]; [|reflexivity].
    destruct (extend V v n r) as [a|] eqn:Y, (extend V v n r') as [b|] eqn:Z0; try (exfalso; assert (A : Some a = None) by tauto; discriminate); try (exfalso; assert (A : Some b = None) by tauto; discriminate); [|reflexivity].
    rewrite (extend_size _ _ _ _ FP Y), (extend_size _ _ _ _ FP Z0). destruct (512 <=? c); reflexivity.
  - now apply lift_kin.
  - destruct (front o') as [n|] eqn:X; [|reflexivity]. pose proof (extend_kin v n r r') as EK.
    destruct (extend V v n r) as [a|] eqn:Y, (extend V v n r') as [b|] eqn:Z0; try (exfalso; assert (A : Some a = None) by tauto; discriminate); try (exfalso; assert (A : Some b = None) by tauto; discriminate); [|reflexivity].
    now apply lift_kin.
  - destruct (front o') as [n|] eqn:X; [|reflexivity]. pose proof (extend_kin v n r r') as EK.
    destruct (extend V v n r) as [a|] eqn:Y, (extend V v n r') as [b|] eqn:Z0; try (exfalso; assert (A : Some a = None) by tauto; discriminate); try (exfalso; assert (A : Some b = None) by tauto; discriminate); reflexivity.
Qed.
Lemma caseOf_kin {A} (t : list (string * A)) o o' : kin o o' -> caseOf t o = caseOf t o'.
Proof. intros (_ & H & _). unfold caseOf. now rewrite H. Qed.
Definition shape {A} (x : option (option A)) : option bool := match x with None => None | Some None => Some false | Some (Some _) => Some true end.
Lemma optmap_shape {A} (x : option A) : shape (option_map Some x) = match x with None => None | Some _ => Some true end.
Proof. now destruct x. Qed.
Lemma generic_shape spec t t' o o' (r r' : region) : kin o o' ->
  shape (option_map Some (generic V read readStep zero spec t o r)) = shape (option_map Some (generic V read readStep zero spec t' o' r')).
Proof.
  intros K. pose proof (lift_kin spec t t' o o' r r' K) as L. unfold agree in L. rewrite !optmap_shape.
  destruct (generic _ _ _ _ _ t o r), (generic _ _ _ _ _ t' o' r'); try reflexivity; discriminate.
Qed.
Lemma lfo1_kin v o o' (r r' : region) : kin o o' ->
  shape (parseLFO1 V apply read readStep zero v o r) = shape (parseLFO1 V apply read readStep zero v o' r').
Proof.
  intros K. unfold parseLFO1. rewrite (caseOf_kin lfo1Cases o o' K). destruct (caseOf lfo1Cases o') as [[]|]; try reflexivity; now apply generic_shape.
Qed.
Lemma eg1_kin v o o' (r r' : region) : kin o o' ->
  shape (parseEG1 V apply read readStep zero v o r) = shape (parseEG1 V apply read readStep zero v o' r').
Proof.
  intros K. unfold parseEG1. rewrite (caseOf_kin eg1Table o o' K). destruct (caseOf eg1Table o') as [[]|]; try reflexivity; [|now apply generic_shape].
  destruct K as (_ & _ & P & _). unfold back. rewrite P. destruct (o_params o'); [reflexivity|]. destruct (512 <=? _); reflexivity.
Qed.
Lemma try_kin p o o' f f' g g' (r r' : region) : kin o o' -> shape f = shape f' -> agree (try V p o f g r) (try V p o' f' g' r').
Proof.
  intros (N & _) S0. unfold try. rewrite N. destruct (starts_with _ _); [|reflexivity]. destruct f as [[]|], f' as [[]|]; try discriminate; reflexivity.
Qed.
Lemma orElse_kin x y (k k' : region -> option (bool * region)) : agree x y -> (forall r r', agree (k r) (k' r')) -> agree (orElse V x k) (orElse V y k').
Proof.
  intros A B. unfold agree in A. destruct x as [[[] ?]|], y as [[[] ?]|]; try discriminate; try reflexivity. cbn [orElse]. apply B.
Qed.
Lemma pad_length {A} n (x : A) : forall l, List.length (padTo n x l) = Nat.max n (List.length l).
Proof. induction n as [|n IH]; intros [|y l]; cbn [padTo List.length]; rewrite ?IH; cbn [List.length]; lia. Qed.
Lemma numbered_kin p p' s s' i a o o' (r r' : region) : a <> NFreqLFO -> a <> NFreqLFOCC -> kin o o' ->
  agree (runNumbered V apply read readStep zero readAmpeg readSteps p s i a o r) (runNumbered V apply read readStep zero readAmpeg readSteps p' s' i a o' r').
Proof.
  intros N1 N2 K. pose proof K as (_ & _ & P & C).
  assert (F : second o = second o') by (unfold second; now rewrite P). assert (B : back o = back o') by (unfold back; now rewrite P).
  destruct a; try contradiction; cbn [runNumbered]; rewrite ?F, ?B; try reflexivity.
  - destruct (back o'); [|reflexivity]. destruct (_ : bool); reflexivity.
  - now apply lift_kin.
  - destruct (second o'); [|reflexivity]. destruct (_ : bool); reflexivity.
  - destruct (second o'); [|reflexivity]. destruct (_ : bool); reflexivity.
  - destruct (second o'); reflexivity.
  - destruct (second o'); [|reflexivity]. destruct (back o'); [|reflexivity]. destruct (512 <=? _); reflexivity.
  - unfold targetCC. now apply lift_kin.
  - destruct (second o') as [n|]; [|reflexivity]. pose proof (extend_kin v n r r') as EK.
    destruct (extend V v n r) as [a|] eqn:Y, (extend V v n r') as [b|] eqn:Z0; try (exfalso; assert (A : Some a = None) by tauto; discriminate); try (exfalso; assert (A : Some b = None) by tauto; discriminate); reflexivity.
  - destruct (second o') as [n|]; [|reflexivity]. pose proof (extend_kin v n r r') as EK.
    destruct (extend V v n r) as [a|] eqn:Y, (extend V v n r') as [b|] eqn:Z0; try (exfalso; assert (A : Some a = None) by tauto; discriminate); try (exfalso; assert (A : Some b = None) by tauto; discriminate); [|reflexivity].
    unfold targetCC. now apply lift_kin.
  - destruct (Bool.eqb _ _), (Bool.eqb _ _); reflexivity.
Qed.
Definition isMove (a : nact) : bool := match a with NFreqLFO | NFreqLFOCC => true | _ => false end.
Lemma case_hash {A} (t : list (string * A)) o a : caseOf t o = Some a -> exists c, In (c, a) t /\ o_hash o = hash (str c) fnvBasis.
Proof.
  unfold caseOf. destruct (find _ t) as [[c a']|] eqn:F; [|discriminate]. intros X. cbn in X. injection X as <-.
  apply find_some in F. destruct F as [F E0]. apply Z.eqb_eq in E0. cbn [fst] in E0. now exists c.
Qed.
Lemma moves_names : forallb (fun c => negb (isMove (snd c)) || existsb (String.eqb (fst c)) lfoNames) (lfo2Table ++ eg2Table) = true.
Proof. vm_cast_no_check (eq_refl true). Qed.
Lemma no_move t o a : incl t (lfo2Table ++ eg2Table) -> ~ movesLFO o -> caseOf t o = Some a -> isMove a = false.
Proof.
  intros T M H. apply case_hash in H. destruct H as (c & H & E0). destruct (isMove a) eqn:X; [|reflexivity]. exfalso. apply M.
  pose proof moves_names as Y. rewrite forallb_forall in Y. specialize (Y _ (T _ H)). cbn [fst snd] in Y. rewrite X in Y. cbn [negb orb] in Y.
  apply existsb_exists in Y. destruct Y as (c' & Y & E1). apply String.eqb_eq in E1. subst c'. unfold movesLFO. rewrite E0.
  apply (in_map (fun n => hash (str n) fnvBasis)) in Y. exact Y.
Qed.
Lemma front_nonneg o n : Forall (fun x => 0 <= x) (o_params o) -> front o = Some n -> 0 <= n.
Proof. intros NN X. unfold front in X. apply nth_error_In in X. rewrite Forall_forall in NN. auto. Qed.
Lemma room {A} n (x : A) l : 0 < n -> (Z.of_nat (List.length (padTo (Z.to_nat n) x l)) <=? n - 1) = false.
Proof. intros H. apply Z.leb_gt. rewrite pad_length. lia. Qed.
Lemma lfo2_kin o o' (r r' : region) : Forall (fun x => 0 <= x) (o_params o') -> ~ movesLFO o' -> kin o o' ->
  agree (parseLFO2 V apply read readStep zero readAmpeg readSteps o r) (parseLFO2 V apply read readStep zero readAmpeg readSteps o' r').
Proof.
  intros NN M K. unfold parseLFO2. replace (front o) with (front o') by (destruct K as (_ & _ & P & _); unfold front; now rewrite P).
  destruct (front o') as [n|] eqn:F; [|reflexivity]. apply (front_nonneg _ _ NN) in F. destruct (Z.eqb_spec n 0); [reflexivity|].
  cbn [withLFOs r_lfos]. rewrite !room by lia. rewrite (caseOf_kin lfo2Table o o' K). destruct (caseOf lfo2Table o') as [a|] eqn:C; [|reflexivity].
  assert (X : isMove a = false) by (apply (no_move lfo2Table o'); [apply incl_appl, incl_refl|exact M|exact C]).
  apply numbered_kin; [intros ->; discriminate|intros ->; discriminate|exact K].
Qed.
Lemma eg2_kin o o' (r r' : region) : Forall (fun x => 0 <= x) (o_params o') -> ~ movesLFO o' -> kin o o' ->
  agree (parseEG2 V apply read readStep zero readAmpeg readSteps o r) (parseEG2 V apply read readStep zero readAmpeg readSteps o' r').
Proof.
  intros NN M K. unfold parseEG2. replace (front o) with (front o') by (destruct K as (_ & _ & P & _); unfold front; now rewrite P).
  destruct (front o') as [n|] eqn:F; [|reflexivity]. apply (front_nonneg _ _ NN) in F. destruct (Z.eqb_spec n 0); [reflexivity|].
  cbn [withEGs r_egs]. rewrite !room by lia. rewrite (caseOf_kin eg2Table o o' K). destruct (caseOf eg2Table o') as [a|] eqn:C; [|reflexivity].
  assert (X : isMove a = false) by (apply (no_move eg2Table o'); [apply incl_appr, incl_refl|exact M|exact C]).
  apply numbered_kin; [intros ->; discriminate|intros ->; discriminate|exact K].
Qed.
Lemma letters_kin o o' : kin o o' -> getLetterOnlyName o = getLetterOnlyName o'.
Proof. intros (N & _). unfold getLetterOnlyName. now rewrite N. Qed.
Lemma parse_kin o o' (r r' : region) : Forall (fun x => 0 <= x) (o_params o') -> ~ movesLFO o' -> kin o o' -> agree (parse o r) (parse o' r').
Proof.
  intros NN M K. unfold parseOpcode. rewrite (caseOf_kin regionTable o o' K). destruct (caseOf regionTable o') as [a|]; [now apply runAct_kin|].
  unfold parseDefault. rewrite (letters_kin o o' K).
  apply orElse_kin; [apply try_kin; [exact K|now apply eg1_kin]|]. intros.
  apply orElse_kin; [apply try_kin; [exact K|now apply eg1_kin]|]. intros.
  apply orElse_kin; [apply try_kin; [exact K|now apply eg1_kin]|]. intros.
  apply orElse_kin; [apply try_kin; [exact K|now apply lfo1_kin]|]. intros.
  apply orElse_kin; [apply try_kin; [exact K|now apply lfo1_kin]|]. intros.
  apply orElse_kin; [apply try_kin; [exact K|now apply lfo1_kin]|]. intros.
  apply orElse_kin; [destruct (starts_with _ _); [now apply lfo2_kin|reflexivity]|]. intros.
  destruct (starts_with _ _); [now apply eg2_kin|reflexivity].
Qed.

(** * Regions that are alike stay alike *)
Lemma alike_refl r : alike r r. Proof. constructor; reflexivity. Qed.
Lemma alike_sym r r' : alike r r' -> alike r' r. Proof. intros []; constructor; intros; congruence. Qed.
Lemma alike_trans a b c : alike a b -> alike b c -> alike a c.
Proof. intros [] []; constructor; intros; congruence. Qed.

Definition steps (x y : option (bool * region)) : Prop :=
  match x, y with Some (b, r), Some (b', r') => b = b' /\ alike r r' | None, None => True | _, _ => False end.
Definition both1 (x y : option region) : Prop :=
  match x, y with Some r, Some r' => alike r r' | None, None => True | _, _ => False end.
Definition both2 (x y : option (option region)) : Prop :=
  match x, y with Some x, Some y => both1 x y | None, None => True | _, _ => False end.

Lemma al_setMem k f o r r' : alike r r' -> alike (setMem V apply k f o r) (setMem V apply k f o r').
Proof.
  intros []. constructor; cbn [setMem r_id r_mem r_maps r_points r_filters r_eqs r_effects r_lfos r_egs r_flexAmpEG r_v1 r_conns]; auto.
  intros k'. now rewrite al_mem0, al_mem0.
Qed.
Lemma al_setAll ws o : forall r r', alike r r' -> alike (setAll V apply ws o r) (setAll V apply ws o r').
Proof. unfold setAll. induction ws as [|w ws IH]; intros r r' H; [exact H|]. cbn [fold_left]. now apply IH, al_setMem. Qed.
Lemma al_setEntry m sub cc f o r r' : alike r r' -> alike (setEntry V apply m sub cc f o r) (setEntry V apply m sub cc f o r').
Proof.
  intros H. pose proof (al_setMem (append (fst m) sub, snd m ++ [cc]) f o r r' H) as []. unfold setEntry.
  constructor; cbn [r_id r_mem r_maps r_points r_filters r_eqs r_effects r_lfos r_egs r_flexAmpEG r_v1 r_conns]; auto. now rewrite al_maps0.
Qed.
Lemma al_withPoints p r r' : alike r r' -> alike (withPoints V p r) (withPoints V p r').
Proof. intros []. constructor; cbn [withPoints r_id r_mem r_maps r_points r_filters r_eqs r_effects r_lfos r_egs r_flexAmpEG r_v1 r_conns]; auto. Qed.
Lemma al_withSizes f f' e x r r' : alike r r' -> alike (withSizes V f e x r) (withSizes V f' e x r').
Proof. intros []. constructor; cbn [withSizes r_id r_mem r_maps r_points r_filters r_eqs r_effects r_lfos r_egs r_flexAmpEG r_v1 r_conns]; auto. Qed.
Lemma al_withLFOs l l' r r' : (forall i, nth i l (LFO V 1 None) = nth i l' (LFO V 1 None)) -> alike r r' -> alike (withLFOs V l r) (withLFOs V l' r').
Proof. intros L []. constructor; cbn [withLFOs r_id r_mem r_maps r_points r_filters r_eqs r_effects r_lfos r_egs r_flexAmpEG r_v1 r_conns]; auto. Qed.
Lemma al_withEGs l l' a r r' : (forall i, e_ampeg (nth i l (EG 0 false)) = e_ampeg (nth i l' (EG 0 false))) -> alike r r' ->
  alike (withEGs V l a r) (withEGs V l' a r').
Proof. intros L []. constructor; cbn [withEGs r_id r_mem r_maps r_points r_filters r_eqs r_effects r_lfos r_egs r_flexAmpEG r_v1 r_conns]; auto. Qed.
Lemma al_withV1 p r r' : alike r r' -> alike (withV1 V p r) (withV1 V p r').
Proof.
  intros []. constructor; cbn [withV1 r_id r_mem r_maps r_points r_filters r_eqs r_effects r_lfos r_egs r_flexAmpEG r_v1 r_conns]; auto. now rewrite al_v2.
Qed.
Lemma al_withConns c r r' : alike r r' -> alike (withConns V c r) (withConns V c r').
Proof. intros []. constructor; cbn [withConns r_id r_mem r_maps r_points r_filters r_eqs r_effects r_lfos r_egs r_flexAmpEG r_v1 r_conns]; auto. Qed.
Lemma al_connect s t f r r' : alike r r' -> alike (connect V zero s t f r) (connect V zero s t f r').
Proof. intros H. unfold connect. rewrite (al_conns _ _ H). now apply al_withConns. Qed.
Lemma al_key0 id r r' : alike r r' -> key0 V id r = key0 V id r'. Proof. intros H. unfold key0. now rewrite (al_id _ _ H). Qed.
Lemma al_keyN id n r r' : alike r r' -> keyN V id n r = keyN V id n r'. Proof. intros H. unfold keyN. now rewrite (al_id _ _ H). Qed.
Lemma al_aftKey s b r r' : alike r r' -> aftKey V s b r = aftKey V s b r'. Proof. intros H. unfold aftKey. now rewrite (al_id _ _ H). Qed.
Lemma al_generic spec t o r r' : alike r r' -> both1 (generic V read readStep zero spec t o r) (generic V read readStep zero spec t o r').
Proof.
  intros H. unfold generic. destruct (o_cat o); try exact H; (destruct (back o) as [cc|]; [|exact Logic.I]); destruct (512 <=? cc); try exact H;
  (destruct (isKey t); [|exact H]); cbn [both1]; rewrite (al_conns _ _ H); now apply al_withConns.
Qed.
Lemma al_lift x y : both1 x y -> steps (match x with Some r => Some (true, r) | None => None end) (match y with Some r => Some (true, r) | None => None end).
Proof. destruct x, y; cbn; auto. Qed.
Lemma al_extend v n r r' : alike r r' -> both1 (extend V v n r) (extend V v n r').
Proof.
  intros H. unfold extend, extendSize. rewrite (al_eqs _ _ H), (al_effects _ _ H). destruct v; (destruct (n =? 0); [exact Logic.I|]); now apply al_withSizes.
Qed.
Lemma runAct_alike a o r r' : Forall (fun x => 0 <= x) (o_params o) -> alike r r' ->
  steps (runAct V apply read readStep zero a o r) (runAct V apply read readStep zero a o r').
Proof.
  intros NN H. pose proof (front_nonneg o) as FP.
  destruct a; cbn [runAct].
  - split; [reflexivity|now apply al_setAll].
  - destruct (back o) as [cc|]; [|exact Logic.I]. destruct (if inclusive then _ else _); (split; [reflexivity|]); [exact H|now apply al_setEntry, al_setAll].
  - destruct (back o) as [n|]; [|exact Logic.I]. destruct (127 <? n); (split; [reflexivity|]); [exact H|]. rewrite (al_points _ _ H). now apply al_withPoints.
  - destruct (back o) as [n|]; [|exact Logic.I]. destruct ((n =? 0) || (256 <? n)); [split; [reflexivity|exact H]|].
    cbn [withSizes r_effects]. rewrite (al_effects _ _ H), (al_eqs _ _ H). destruct (_ <? _); [|exact Logic.I]. split; [reflexivity|now apply al_setMem, al_withSizes].
  - destruct (front o) as [n|] eqn:X; [|exact Logic.I]. specialize (FP n NN eq_refl). pose proof (al_extend v n r r' H) as EK.
    destruct (extend V v n r) as [a|] eqn:Y, (extend V v n r') as [b|] eqn:Z0; try contradiction; [|split; [reflexivity|exact H]].
    rewrite (extend_size _ _ _ _ FP Y), (extend_size _ _ _ _ FP Z0). split; [reflexivity|now apply al_setMem].
  - destruct (front o) as [n|] eqn:X; [|exact Logic.I]. specialize (FP n NN eq_refl). pose proof (al_extend v n r r' H) as EK.
    destruct (back o) as [cc|]; [|exact Logic.I].
    destruct (extend V v n r) as [a|] eqn:Y, (extend V v n r') as [b|] eqn:Z0; try contradiction; [|split; [reflexivity|exact H]].
    rewrite (extend_size _ _ _ _ FP Y), (extend_size _ _ _ _ FP Z0). destruct (512 <=? cc); (split; [reflexivity|]); [exact EK|now apply al_setEntry].
  - rewrite (al_key0 t r r' H). now apply al_lift, al_generic.
  - destruct (front o) as [n|] eqn:X; [|exact Logic.I]. pose proof (al_extend v n r r' H) as EK.
    destruct (extend V v n r) as [a|], (extend V v n r') as [b|]; try contradiction; [|split; [reflexivity|exact H]].
    rewrite (al_keyN t _ r r' H). now apply al_lift, al_generic.
  - destruct (front o) as [n|] eqn:X; [|exact Logic.I]. pose proof (al_extend v n r r' H) as EK.
    destruct (extend V v n r) as [a|], (extend V v n r') as [b|]; try contradiction; [|split; [reflexivity|exact H]].
    rewrite (al_keyN t _ r r' H), (al_aftKey s numbered r r' H). split; [reflexivity|now apply al_connect].
Qed.
Lemma both2_generic spec t o r r' : alike r r' ->
  both2 (option_map Some (generic V read readStep zero spec t o r)) (option_map Some (generic V read readStep zero spec t o r')).
Proof. intros H. pose proof (al_generic spec t o r r' H) as G. destruct (generic _ _ _ _ _ _ _ r), (generic _ _ _ _ _ _ _ r'); exact G. Qed.
Lemma lfo1_alike v o r r' : alike r r' -> both2 (parseLFO1 V apply read readStep zero v o r) (parseLFO1 V apply read readStep zero v o r').
Proof.
  intros H. unfold parseLFO1. rewrite !(fun id => al_key0 id r r' H). destruct (caseOf lfo1Cases o) as [[]|]; try exact Logic.I; cbn [both2 both1];
  rewrite ?(al_aftKey s numbered r r' H); try (now apply al_setMem); try (now apply al_connect); try (now apply al_connect, al_connect); apply both2_generic; auto using al_connect.
Qed.
Lemma eg1_alike v o r r' : alike r r' -> both2 (parseEG1 V apply read readStep zero v o r) (parseEG1 V apply read readStep zero v o r').
Proof.
  intros H. unfold parseEG1. destruct (caseOf eg1Table o) as [[]|]; try exact Logic.I; rewrite ?(fun id => al_key0 id r r' H); cbn [both2 both1];
  try (now apply al_setMem); try (now apply al_connect); [|apply both2_generic; auto using al_connect].
  destruct (back o) as [cc|]; [|exact Logic.I]. destruct (512 <=? cc); [exact Logic.I|]. now apply al_setEntry.
Qed.
Lemma try_alike p o f f' g r r' : alike r r' -> both2 f f' -> (forall a b, alike a b -> alike (g a) (g b)) -> steps (try V p o f g r) (try V p o f' g r').
Proof.
  intros H F G. unfold try. destruct (starts_with _ _); [|split; [reflexivity|exact H]].
  destruct f as [[a|]|], f' as [[b|]|]; try contradiction; try exact Logic.I; (split; [reflexivity|]); [|exact H]. now apply G, al_withV1.
Qed.
Lemma orElse_alike x y k k' : steps x y -> (forall a b, alike a b -> steps (k a) (k' b)) -> steps (orElse V x k) (orElse V y k').
Proof.
  intros S0 K. destruct x as [[[] a]|], y as [[[] b]|]; cbn [orElse]; try exact S0; try contradiction; destruct S0 as [E0 S0]; try discriminate E0. now apply K.
Qed.
Lemma al_connected v r r' : alike r r' -> alike (connected V zero v r) (connected V zero v r').
Proof. intros H. unfold connected. rewrite !(fun id => al_key0 id r r' H). now apply al_connect. Qed.

Lemma nth_pad {A} (d : A) n : forall l i, nth i (padTo n d l) d = nth i l d.
Proof. induction n as [|n IH]; intros [|y l] [|i]; cbn [padTo nth]; rewrite ?IH; try reflexivity. now destruct i. Qed.
Lemma nth_update {A} (d : A) f : forall l i j, (j < List.length l)%nat -> nth i (updateAt l j f) d = if Nat.eqb i j then f (nth j l d) else nth i l d.
Proof.
  induction l as [|y l IH]; intros i j H; cbn [List.length] in H; [lia|]. destruct j as [|j], i as [|i]; cbn [updateAt nth Nat.eqb]; try reflexivity. apply IH. lia.
Qed.
Lemma update_length {A} (f : A -> A) : forall l j, List.length (updateAt l j f) = List.length l.
Proof. induction l as [|y l IH]; intros [|j]; cbn [updateAt List.length]; rewrite ?IH; reflexivity. Qed.
Lemma find_ext {A} (f g : A -> bool) l : (forall x, f x = g x) -> find f l = find g l.
Proof. intros H. induction l as [|x l IH]; [reflexivity|]. cbn [find]. now rewrite H, IH. Qed.
Lemma find_more f m : forall d, (forall k, (m <= k)%nat -> f k = false) -> find f (seq 0 (m + d)) = find f (seq 0 m).
Proof.
  intros d H. rewrite seq_app. cbn [Nat.add]. generalize (seq 0 m). intros l. induction l as [|x l IH]; cbn [app find].
  - destruct (find f (seq m d)) as [k|] eqn:F; [|reflexivity]. apply find_some in F. destruct F as [F G]. apply in_seq in F. rewrite H in G by lia. discriminate.
  - now rewrite IH.
Qed.
Lemma find_enough f n m : (forall k, (n <= k)%nat -> f k = false) -> (forall k, (m <= k)%nat -> f k = false) -> find f (seq 0 n) = find f (seq 0 m).
Proof.
  intros A B. destruct (Nat.le_ge_cases n m).
  - replace m with (n + (m - n))%nat by lia. now rewrite find_more.
  - replace n with (m + (n - m))%nat by lia. now rewrite find_more.
Qed.
Definition flag (l : list eg) (k : nat) : bool := match nth_error l k with Some e => e_ampeg e | None => false end.
Lemma flag_nth l k : flag l k = e_ampeg (nth k l (EG 0 false)).
Proof. revert k. induction l as [|e l IH]; intros [|k]; try reflexivity. apply IH. Qed.
Lemma find_flags l l' : (forall i, e_ampeg (nth i l (EG 0 false)) = e_ampeg (nth i l' (EG 0 false))) ->
  find (flag l) (seq 0 (List.length l)) = find (flag l') (seq 0 (List.length l')).
Proof.
  intros H. rewrite (find_ext (flag l) (flag l')) by (intros x; now rewrite !flag_nth). apply find_enough; intros k K.
  - rewrite flag_nth, <- H, nth_overflow by lia. reflexivity.
  - rewrite flag_nth, nth_overflow by lia. reflexivity.
Qed.
Definition usesLFO (a : nact) : bool := match a with NSteps | NStep _ | NSub _ _ => true | _ => false end.
Definition usesEG (a : nact) : bool := match a with NPoint _ _ | NPointCC _ _ | NAmpeg => true | _ => false end.
Lemma al_updateLFO i f r r' : (i < List.length (r_lfos V r))%nat -> (i < List.length (r_lfos V r'))%nat -> alike r r' ->
  alike (withLFOs V (updateAt (r_lfos V r) i f) r) (withLFOs V (updateAt (r_lfos V r') i f) r').
Proof. intros A B H. apply al_withLFOs; [|exact H]. intros k. rewrite !nth_update by assumption. now rewrite !(al_lfos _ _ H). Qed.
Lemma al_updateEG i f g a r r' : (i < List.length (r_egs V r))%nat -> (i < List.length (r_egs V r'))%nat ->
  (forall x y, e_ampeg x = e_ampeg y -> e_ampeg (f x) = e_ampeg (g y)) -> alike r r' ->
  alike (withEGs V (updateAt (r_egs V r) i f) a r) (withEGs V (updateAt (r_egs V r') i g) a r').
Proof.
  intros A B F H. apply al_withEGs; [|exact H]. intros k. rewrite !nth_update by assumption. destruct (Nat.eqb k i); [|apply (al_egs _ _ H)].
  apply F. apply (al_egs _ _ H).
Qed.
Lemma numbered_alike p s i a o r r' : isMove a = false ->
  (usesLFO a = true -> (Z.to_nat i < List.length (r_lfos V r))%nat /\ (Z.to_nat i < List.length (r_lfos V r'))%nat) ->
  (usesEG a = true -> (Z.to_nat i < List.length (r_egs V r))%nat /\ (Z.to_nat i < List.length (r_egs V r'))%nat) -> alike r r' ->
  steps (runNumbered V apply read readStep zero readAmpeg readSteps p s i a o r) (runNumbered V apply read readStep zero readAmpeg readSteps p s i a o r').
Proof.
  intros M L G H. destruct a; try discriminate M; cbn [usesLFO usesEG] in L, G; cbn [runNumbered].
  - split; [reflexivity|now apply al_setMem].
  - destruct (back o) as [cc|]; [|exact Logic.I]. destruct (512 <? cc); (split; [reflexivity|]); [exact H|now apply al_setEntry].
  - rewrite (al_keyN t _ r r' H). now apply al_lift, al_generic.
  - destruct (L eq_refl). split; [reflexivity|now apply al_updateLFO].
  - destruct (second o) as [n|]; [|exact Logic.I]. destruct ((n =? 0) || (128 <? n)); (split; [reflexivity|]); [exact H|]. destruct (L eq_refl). now apply al_updateLFO.
  - destruct (second o) as [n|]; [|exact Logic.I]. destruct ((n =? 0) || (8 <? n)); (split; [reflexivity|]); [exact H|]. destruct (L eq_refl). now apply al_setMem, al_updateLFO.
  - destruct (second o) as [n|]; [|exact Logic.I]. split; [reflexivity|]. destruct (G eq_refl). rewrite (al_amp _ _ H). apply al_setMem, al_updateEG; auto.
  - destruct (second o) as [n|]; [|exact Logic.I]. destruct (back o) as [cc|]; [|exact Logic.I]. destruct (G eq_refl). rewrite (al_amp _ _ H).
    destruct (512 <=? cc); (split; [reflexivity|]); [|apply al_setEntry]; apply al_updateEG; auto.
  - rewrite (al_key0 t r r' H). split; [reflexivity|]. unfold target. now apply al_connect.
  - rewrite (al_key0 t r r' H). unfold targetCC. apply al_lift, al_generic. now apply al_connect.
  - destruct (second o) as [n|]; [|exact Logic.I]. pose proof (al_extend v n r r' H) as EK.
    destruct (extend V v n r) as [a|], (extend V v n r') as [b|]; try contradiction; [|split; [reflexivity|exact H]].
    rewrite (al_keyN t _ r r' H). split; [reflexivity|]. now apply al_connect.
  - destruct (second o) as [n|]; [|exact Logic.I]. pose proof (al_extend v n r r' H) as EK.
    destruct (extend V v n r) as [a|], (extend V v n r') as [b|]; try contradiction; [|split; [reflexivity|exact H]].
    rewrite (al_keyN t _ r r' H). unfold targetCC. apply al_lift, al_generic. now apply al_connect.
  - destruct (G eq_refl) as [G1 G2].
    change (match nth_error (r_egs V r) (Z.to_nat i) with Some e => e_ampeg e | None => false end) with (flag (r_egs V r) (Z.to_nat i)).
    change (match nth_error (r_egs V r') (Z.to_nat i) with Some e => e_ampeg e | None => false end) with (flag (r_egs V r') (Z.to_nat i)).
    rewrite !flag_nth, (al_egs _ _ H). destruct (Bool.eqb _ _); (split; [reflexivity|]); [exact H|].
    set (f := fun e : eg => EG (e_points e) (readAmpeg (o_value o))).
    change (find _ (seq 0 (List.length (updateAt (r_egs V r) (Z.to_nat i) f))))
      with (find (flag (updateAt (r_egs V r) (Z.to_nat i) f)) (seq 0 (List.length (updateAt (r_egs V r) (Z.to_nat i) f)))).
    change (find _ (seq 0 (List.length (updateAt (r_egs V r') (Z.to_nat i) f))))
      with (find (flag (updateAt (r_egs V r') (Z.to_nat i) f)) (seq 0 (List.length (updateAt (r_egs V r') (Z.to_nat i) f)))).
    rewrite (find_flags (updateAt (r_egs V r) (Z.to_nat i) f) (updateAt (r_egs V r') (Z.to_nat i) f)).
    + apply al_updateEG; auto.
    + intros k. rewrite !nth_update by assumption. destruct (Nat.eqb k _); [reflexivity|apply (al_egs _ _ H)].
Qed.
Lemma lfo_uses : forallb (fun c => negb (usesEG (snd c))) lfo2Table = true. Proof. vm_cast_no_check (eq_refl true). Qed.
Lemma eg_uses : forallb (fun c => negb (usesLFO (snd c))) eg2Table = true. Proof. vm_cast_no_check (eq_refl true). Qed.
Lemma case_holds {A} (f : A -> bool) (t : list (string * A)) o a : forallb (fun c => negb (f (snd c))) t = true -> caseOf t o = Some a -> f a = false.
Proof.
  intros T C. apply case_hash in C. destruct C as (c & C & _). rewrite forallb_forall in T. specialize (T _ C). cbn [snd] in T. now apply negb_true_iff in T.
Qed.
Lemma lfo2_alike o r r' : Forall (fun x => 0 <= x) (o_params o) -> ~ movesLFO o -> alike r r' ->
  steps (parseLFO2 V apply read readStep zero readAmpeg readSteps o r) (parseLFO2 V apply read readStep zero readAmpeg readSteps o r').
Proof.
  intros NN M H. unfold parseLFO2. destruct (front o) as [n|] eqn:F; [|exact Logic.I]. apply (front_nonneg _ _ NN) in F.
  destruct (Z.eqb_spec n 0); [split; [reflexivity|exact H]|]. cbn [withLFOs r_lfos]. rewrite !room by lia.
  assert (W : alike (withLFOs V (padTo (Z.to_nat n) (LFO V 1 None) (r_lfos V r)) r) (withLFOs V (padTo (Z.to_nat n) (LFO V 1 None) (r_lfos V r')) r')).
  { apply al_withLFOs; [|exact H]. intros i. rewrite !nth_pad. apply (al_lfos _ _ H). }
  destruct (caseOf lfo2Table o) as [a|] eqn:C; [|split; [reflexivity|exact W]].
  assert (K : keyN V MLFO (n - 1) (withLFOs V (padTo (Z.to_nat n) (LFO V 1 None) (r_lfos V r)) r) = keyN V MLFO (n - 1) (withLFOs V (padTo (Z.to_nat n) (LFO V 1 None) (r_lfos V r')) r')) by now apply al_keyN.
  cbn [withLFOs] in K, W |- *. rewrite K. apply numbered_alike; [|intros _|intros U|exact W].
  - apply (no_move lfo2Table o); [apply incl_appl, incl_refl|exact M|exact C].
  - cbn [withLFOs r_lfos]. rewrite !pad_length. lia.
  - rewrite (case_holds usesEG _ _ _ lfo_uses C) in U. discriminate.
Qed.
Lemma eg2_alike o r r' : Forall (fun x => 0 <= x) (o_params o) -> ~ movesLFO o -> alike r r' ->
  steps (parseEG2 V apply read readStep zero readAmpeg readSteps o r) (parseEG2 V apply read readStep zero readAmpeg readSteps o r').
Proof.
  intros NN M H. unfold parseEG2. destruct (front o) as [n|] eqn:F; [|exact Logic.I]. apply (front_nonneg _ _ NN) in F.
  destruct (Z.eqb_spec n 0); [split; [reflexivity|exact H]|]. cbn [withEGs r_egs]. rewrite !room by lia.
  assert (W : alike (withEGs V (padTo (Z.to_nat n) (EG 0 false) (r_egs V r)) (r_flexAmpEG V r) r) (withEGs V (padTo (Z.to_nat n) (EG 0 false) (r_egs V r')) (r_flexAmpEG V r') r')).
  { rewrite (al_amp _ _ H). apply al_withEGs; [|exact H]. intros i. rewrite !nth_pad. apply (al_egs _ _ H). }
  destruct (caseOf eg2Table o) as [a|] eqn:C; [|split; [reflexivity|exact W]].
  assert (K : keyN V MEnvelope (n - 1) (withEGs V (padTo (Z.to_nat n) (EG 0 false) (r_egs V r)) (r_flexAmpEG V r) r) = keyN V MEnvelope (n - 1) (withEGs V (padTo (Z.to_nat n) (EG 0 false) (r_egs V r')) (r_flexAmpEG V r') r')) by now apply al_keyN.
  cbn [withEGs] in K, W |- *. rewrite K. apply numbered_alike; [|intros U|intros _|exact W].
  - apply (no_move eg2Table o); [apply incl_appr, incl_refl|exact M|exact C].
  - rewrite (case_holds usesLFO _ _ _ eg_uses C) in U. discriminate.
  - cbn [withEGs r_egs]. rewrite !pad_length. lia.
Qed.
Lemma parse_alike o r r' : Forall (fun x => 0 <= x) (o_params o) -> ~ movesLFO o -> alike r r' -> steps (parse o r) (parse o r').
Proof.
  intros NN M H. unfold parseOpcode. destruct (caseOf regionTable o) as [a|]; [now apply runAct_alike|]. unfold parseDefault.
  apply orElse_alike; [apply try_alike; [exact H|now apply eg1_alike|auto]|]. clear r r' H. intros r r' H.
  apply orElse_alike; [apply try_alike; [exact H|now apply eg1_alike|intros; now apply al_connected]|]. clear r r' H. intros r r' H.
  apply orElse_alike; [apply try_alike; [exact H|now apply eg1_alike|intros; now apply al_connected]|]. clear r r' H. intros r r' H.
  apply orElse_alike; [apply try_alike; [exact H|now apply lfo1_alike|intros; now apply al_connected]|]. clear r r' H. intros r r' H.
  apply orElse_alike; [apply try_alike; [exact H|now apply lfo1_alike|intros; now apply al_connected]|]. clear r r' H. intros r r' H.
  apply orElse_alike; [apply try_alike; [exact H|now apply lfo1_alike|intros; now apply al_connected]|]. clear r r' H. intros r r' H.
  apply orElse_alike; [destruct (starts_with _ _); [now apply lfo2_alike|split; [reflexivity|exact H]]|]. clear r r' H. intros r r' H.
  destruct (starts_with _ _); [now apply eg2_alike|split; [reflexivity|exact H]].
Qed.

(** * What a refused opcode leaves *)
Definition leaves (x : option (bool * region)) (r : region) : Prop := forall r', x = Some (false, r') -> alike r' r.
Lemma leaves_same r : leaves (Some (false, r)) r. Proof. intros r' X. injection X as <-. apply alike_refl. Qed.
Lemma leaves_yes a r : leaves (Some (true, a)) r. Proof. intros r' X. discriminate. Qed.
Lemma leaves_none r : leaves None r. Proof. intros r' X. discriminate. Qed.
Hint Resolve leaves_same leaves_yes leaves_none : core.
Lemma leaves_lift x r : leaves (match x with Some r' => Some (true, r') | None => None end) r. Proof. destruct x; auto. Qed.
Definition onEQ (a : act) : bool := match a with ElementCC EQs _ _ _ => true | _ => false end.
Lemma no_eq : forallb (fun c => negb (onEQ (snd c))) regionTable = true. Proof. vm_cast_no_check (eq_refl true). Qed.
Lemma extend_filters n r r' : extend V Filters n r = Some r' -> alike r' r.
Proof. unfold extend. destruct (extendSize _ _); intros X; [|discriminate]. injection X as <-. constructor; reflexivity. Qed.
Lemma act_leaves a o r : onEQ a = false -> leaves (runAct V apply read readStep zero a o r) r.
Proof.
  intros Q. destruct a; cbn [runAct].
  - auto.
  - destruct (back o); auto. destruct (if inclusive then _ else _); auto.
  - destruct (back o); auto. destruct (127 <? _); auto.
  - destruct (back o) as [n|]; auto. destruct (_ || _); auto. destruct (_ <? _); auto.
  - destruct (front o); auto. destruct (extend _ _ _ _); auto. destruct (_ <? _); auto.
  - destruct v; [|discriminate Q]. destruct (front o) as [n|]; auto. destruct (back o) as [cc|]; auto. destruct (extend V Filters n r) as [a|] eqn:X; auto.
    destruct (512 <=? cc); [|destruct (_ <? _); auto]. intros r' Y. injection Y as <-. now apply extend_filters in X.
  - apply leaves_lift.
  - destruct (front o); auto. destruct (extend _ _ _ _); auto. apply leaves_lift.
  - destruct (front o); auto. destruct (extend _ _ _ _); auto.
Qed.
Lemma numbered_leaves p s i a o r : leaves (runNumbered V apply read readStep zero readAmpeg readSteps p s i a o r) r.
Proof.
  destruct a; cbn [runNumbered]; auto.
  - destruct (back o); auto. destruct (512 <? _); auto.
  - apply leaves_lift.
  - destruct (second o); auto. destruct (_ || _); auto.
  - destruct (second o); auto. destruct (_ || _); auto.
  - destruct (second o); auto.
  - destruct (second o) as [n|]; auto. destruct (back o) as [cc|]; auto. destruct (512 <=? cc); auto. intros r' X. injection X as <-.
    constructor; cbn [withEGs r_id r_mem r_maps r_points r_filters r_eqs r_effects r_lfos r_egs r_flexAmpEG r_v1 r_conns]; try reflexivity.
    intros k. destruct (Nat.lt_ge_cases (Z.to_nat i) (List.length (r_egs V r))) as [A|A].
    + rewrite nth_update by exact A. destruct (Nat.eqb_spec k (Z.to_nat i)) as [->|]; reflexivity.
    + assert (U : forall A (f : A -> A) l j, (List.length l <= j)%nat -> updateAt l j f = l).
      { intros T f l. induction l as [|y l IH]; intros [|j] B; cbn [List.length updateAt] in *; try reflexivity; try lia. rewrite IH; [reflexivity|lia]. }
      now rewrite U.
  - apply leaves_lift.
  - destruct (second o); auto. destruct (extend _ _ _ _); auto.
  - destruct (second o); auto. destruct (extend _ _ _ _); auto. apply leaves_lift.
  - destruct (Bool.eqb _ _); auto.
  - destruct (second o); auto. destruct (_ || _); auto.
  - destruct (second o); auto. destruct (_ || _); auto. apply leaves_lift.
Qed.
Lemma leaves_trans x r a : alike a r -> leaves x a -> leaves x r.
Proof. intros A L r' X. apply alike_trans with a; auto. Qed.
Lemma orElse_leaves x k r : leaves x r -> (forall a, leaves (k a) a) -> leaves (orElse V x k) r.
Proof.
  intros L K. destruct x as [[[] a]|]; cbn [orElse]; auto. apply leaves_trans with a; auto.
Qed.
Lemma try_leaves p o f g r : leaves (try V p o f g r) r.
Proof. unfold try. destruct (starts_with _ _); auto. destruct f as [[]|]; auto. Qed.
Lemma parse_leaves o r : leaves (parse o r) r.
Proof.
  unfold parseOpcode. destruct (caseOf regionTable o) as [a|] eqn:C; [apply act_leaves, (case_holds onEQ _ _ _ no_eq C)|]. unfold parseDefault.
  do 6 (apply orElse_leaves; [apply try_leaves|]; clear r; intros r).
  apply orElse_leaves; [|clear r; intros r]; (destruct (starts_with _ _); auto).
  - unfold parseLFO2. destruct (front o) as [n|]; auto. destruct (n =? 0); auto. destruct (_ <=? _); auto.
    assert (W : alike (withLFOs V (padTo (Z.to_nat n) (LFO V 1 None) (r_lfos V r)) r) r).
    { constructor; cbn [withLFOs r_id r_mem r_maps r_points r_filters r_eqs r_effects r_lfos r_egs r_flexAmpEG r_v1 r_conns]; try reflexivity. intros i. apply nth_pad. }
    destruct (caseOf lfo2Table o); [eapply leaves_trans; [exact W|apply numbered_leaves]|]. eapply leaves_trans; [exact W|auto].
  - unfold parseEG2. destruct (front o) as [n|]; auto. destruct (n =? 0); auto. destruct (_ <=? _); auto.
    assert (W : alike (withEGs V (padTo (Z.to_nat n) (EG 0 false) (r_egs V r)) (r_flexAmpEG V r) r) r).
    { constructor; cbn [withEGs r_id r_mem r_maps r_points r_filters r_eqs r_effects r_lfos r_egs r_flexAmpEG r_v1 r_conns]; try reflexivity. intros i. now rewrite nth_pad. }
    destruct (caseOf eg2Table o); [eapply leaves_trans; [exact W|apply numbered_leaves]|]. eapply leaves_trans; [exact W|auto].
Qed.
End Unknown.
