(** C87, C88: messages to the synthesizer. *)
From Coq Require Import ZArith List Bool String Lia.
From Verif Require Import ParserModel ParserAdvance OpcodeModel OpcodeNumbers OpcodeNames MessageModel.
Import ListNotations.
Local Open Scope Z_scope.
Local Open Scope list_scope.

(** ** Paths *)

(** [instance pattern path numbers]: the path is the pattern with a number in place of every '&'. *)
Inductive instance : text -> text -> list Z -> Prop :=
| in_end : instance [] [] []
| in_char c p t is : c <> 38 -> instance p t is -> instance (c :: p) (c :: t) is
| in_number d p t is : is_digits d -> decimal d < 2 ^ 32 -> match t with c :: _ => ~ 48 <= c <= 57 | [] => True end ->
    instance p t is -> instance (38 :: p) (d ++ t) (decimal d :: is).

Lemma beforeAmp_none p : beforeAmp p = None -> ~ In 38 p.
Proof.
  induction p as [|c p IH]; intros H; [intros []|]. cbn [beforeAmp] in H. unfold amp in H. destruct (Z.eqb_spec c 38) as [|N]; [discriminate|].
  destruct (beforeAmp p) as [[a b]|]; [discriminate|]. intros [X|X]; [lia|]. now apply IH.
Qed.
Lemma beforeAmp_some p : forall a r, beforeAmp p = Some (a, r) -> p = a ++ 38 :: r /\ ~ In 38 a.
Proof.
  induction p as [|c p IH]; intros a r H; [discriminate|]. cbn [beforeAmp] in H. unfold amp in H. destruct (Z.eqb_spec c 38) as [->|N].
  - inversion H; subst. split; [reflexivity|intros []].
  - destruct (beforeAmp p) as [[a' b]|]; [|discriminate]. inversion H; subst. destruct (IH a' r eq_refl) as [-> X].
    split; [reflexivity|]. intros [Y|Y]; [lia|]. now apply X.
Qed.
Lemma instance_plain p t is : ~ In 38 p -> (instance p t is <-> t = p /\ is = []).
Proof.
  intros N. split.
  - intros H. induction H as [|c p t is Hc H IH|d p t is]; [auto| |elim N; now left]. destruct IH as [-> ->]; [|auto]. intros X. apply N. now right.
  - intros [-> ->]. induction p as [|c p IH]; constructor.
    + intros ->. apply N. now left.
    + apply IH. intros X. apply N. now right.
Qed.
Lemma strip_spec a : forall t r, stripPrefix a t = Some r <-> t = a ++ r.
Proof.
  induction a as [|c a IH]; intros t r; cbn [stripPrefix].
  - split; [intros H; now inversion H|intros ->; reflexivity].
  - destruct t as [|d t]; [split; discriminate|]. destruct (Z.eqb_spec c d) as [->|N].
    + rewrite IH. split; [intros ->; reflexivity|]. intros H. now inversion H.
    + split; [discriminate|]. intros H. inversion H. lia.
Qed.
Lemma instance_prefix a p t is : ~ In 38 a -> (instance (a ++ p) t is <-> exists r, t = a ++ r /\ instance p r is).
Proof.
  revert t. induction a as [|c a IH]; intros t N; cbn [app].
  - split; [intros H; now exists t|]. intros (r & -> & H). exact H.
  - assert (Nc : c <> 38) by (intros ->; apply N; now left). assert (Na : ~ In 38 a) by (intros X; apply N; now right). split.
    + intros H. inversion H; subst; [|congruence]. apply (IH _ Na) in H5. destruct H5 as (r & -> & X). now exists r.
    + intros (r & -> & X). constructor; [exact Nc|]. apply (IH _ Na). now exists r.
Qed.
Lemma span_number d t : is_digits d -> match t with c :: _ => ~ 48 <= c <= 57 | [] => True end -> span isDigit (d ++ t) = (d, t).
Proof.
  intros [_ D] T. apply span_all.
  - eapply Forall_impl; [|exact D]. intros c C. now apply isDigit_iff.
  - destruct t as [|c t]; [exact Logic.I|]. destruct (isDigit c) eqn:E; [|reflexivity]. apply isDigit_iff in E. contradiction.
Qed.
Lemma span_inv t d r : span isDigit t = (d, r) -> t = d ++ r /\ Forall (fun c => 48 <= c <= 57) d /\ match r with c :: _ => ~ 48 <= c <= 57 | [] => True end.
Proof.
  revert d r. induction t as [|c t IH]; intros d r H; cbn [span] in H.
  - inversion H; subst. split; [reflexivity|]. split; [constructor|exact Logic.I].
  - destruct (isDigit c) eqn:E.
    + destruct (span isDigit t) as [a b]. inversion H; subst. destruct (IH a r eq_refl) as (-> & F & X). split; [reflexivity|].
      split; [constructor; [now apply isDigit_iff|exact F]|exact X].
    + inversion H; subst. split; [reflexivity|]. split; [constructor|]. intros X. apply isDigit_iff in X. congruence.
Qed.

Lemma match_spec : forall fuel p t acc is, (List.length p < fuel)%nat -> (List.length acc <= 8)%nat ->
  (matchPath fuel p t acc = Some is <-> exists js, is = acc ++ js /\ instance p t js /\ (List.length is <= 8)%nat).
Proof.
  induction fuel as [|fuel IH]; intros p t acc is F A; [lia|]. cbn [matchPath]. destruct (beforeAmp p) as [[a r]|] eqn:B.
  - apply beforeAmp_some in B. destruct B as [-> Na]. rewrite app_length in F. cbn [List.length] in F. unfold maxIndices.
    destruct (Nat.eqb_spec (List.length acc) 8) as [L|L].
    + split; [discriminate|]. intros (js & -> & H & X). apply (instance_prefix _ _ _ _ Na) in H. destruct H as (u & -> & H). inversion H; subst; [congruence|].
      rewrite app_length in X. cbn in X. lia.
    + destruct (stripPrefix a t) as [u|] eqn:P.
      * apply strip_spec in P. subst t. destruct (span isDigit u) as [d v] eqn:SP. apply span_inv in SP. destruct SP as (-> & D & V).
        destruct d as [|c d].
        { change (simpleAtoi 0 (2 ^ 32 - 1) []) with (@None Z). split; [discriminate|]. intros (js & _ & H & _).
          apply (instance_prefix _ _ _ _ Na) in H. destruct H as (u & X & H). apply app_inv_head in X. cbn [app] in X. subst v.
          inversion H as [| |d' p' t' is' D' _ _ _]; subst; [congruence|]. destruct D' as [N' D']. destruct d' as [|c d']; [congruence|].
          cbn [app] in V. inversion D'; subst. contradiction. }
        assert (DD : is_digits (c :: d)) by (split; [discriminate|exact D]). rewrite (atoi_digits _ _ DD).
        destruct (Z.leb_spec (decimal (c :: d)) (2 ^ 32 - 1)) as [LE|GT].
        { rewrite IH by (rewrite ?app_length; cbn [List.length]; lia). split.
          - intros (js & -> & H & X). exists (decimal (c :: d) :: js). rewrite <- app_assoc in *. split; [reflexivity|]. split; [|exact X].
            apply (instance_prefix _ _ _ _ Na). eexists. split; [reflexivity|]. constructor; [exact DD|lia|exact V|exact H].
          - intros (js & -> & H & X). apply (instance_prefix _ _ _ _ Na) in H. destruct H as (u & E & H). apply app_inv_head in E.
            inversion H as [| |d' p' t' is' D' LT' V' H']; subst; [congruence|].
            pose proof (span_number _ _ D' V') as S1. match goal with E : d' ++ t' = _ |- _ => rewrite E in S1 end.
            rewrite (span_number _ _ DD V) in S1. inversion S1; subst. exists is'. rewrite <- app_assoc. cbn [app]. split; [reflexivity|].
            split; [exact H'|exact X]. }
        { split; [discriminate|]. intros (js & _ & H & _). apply (instance_prefix _ _ _ _ Na) in H. destruct H as (u & E & H). apply app_inv_head in E.
          inversion H as [| |d' p' t' is' D' LT' V' H']; subst; [congruence|].
          pose proof (span_number _ _ D' V') as S1. match goal with E : d' ++ t' = _ |- _ => rewrite E in S1 end.
          rewrite (span_number _ _ DD V) in S1. inversion S1; subst. lia. }
      * split; [discriminate|]. intros (js & _ & H & _). apply (instance_prefix _ _ _ _ Na) in H. destruct H as (u & -> & _).
        assert (Y : stripPrefix a (a ++ u) = Some u) by now apply strip_spec. congruence.
  - apply beforeAmp_none in B. destruct (text_eqb t p) eqn:E.
    + apply text_eqb_eq in E. subst t. split.
      * intros H. inversion H; subst. exists []. rewrite app_nil_r. split; [reflexivity|]. split; [|exact A]. now apply instance_plain.
      * intros (js & -> & H & _). apply (instance_plain _ _ _ B) in H. destruct H as [_ ->]. now rewrite app_nil_r.
    + split; [discriminate|]. intros (js & _ & H & _). apply (instance_plain _ _ _ B) in H. destruct H as [-> _].
      assert (X : text_eqb p p = true) by now apply text_eqb_eq. congruence.
Qed.

(** what is hashed is the pattern *)
Lemma hash_instance p t is : instance p t is -> Forall (fun c => ~ 48 <= c <= 57) p -> forall fuel sig h, (List.length t < fuel)%nat ->
  hashMessage fuel t sig h = hash (p ++ 44 :: sig) h.
Proof.
  induction 1 as [|c p t is Nc H IH|d p t is D LT T H IH]; intros NP fuel sig h F.
  - destruct fuel; [cbn in F; lia|]. reflexivity.
  - destruct fuel; [cbn in F; lia|]. inversion NP; subst. cbn [hashMessage app hash]. destruct (isDigit c) eqn:E; [apply isDigit_iff in E; contradiction|].
    apply IH; [assumption|cbn in F; lia].
  - inversion NP; subst. destruct fuel; [cbn in F; lia|]. pose proof (span_number d t D T) as SN. destruct D as [N D]. destruct d as [|c d]; [congruence|].
    cbn [app] in *. inversion D; subst. assert (E : isDigit c = true) by now apply isDigit_iff. cbn [span] in SN. rewrite E in SN.
    destruct (span isDigit (d ++ t)) as [a b] eqn:SP. inversion SN; subst. cbn [hashMessage]. rewrite E, SP. cbn [snd hash]. apply IH; [assumption|].
    cbn [List.length] in F. rewrite app_length in F. lia.
Qed.

(** ** The table *)
Definition plainPattern (p : text) : bool := forallb (fun c => negb (isDigit c)) p.
Fixpoint distinct (l : list Z) : bool := match l with [] => true | x :: l => negb (existsb (Z.eqb x) l) && distinct l end.
Definition amps (p : text) : nat := List.length (filter (Z.eqb 38) p).
Definition hashes : list Z := Eval vm_compute in map caseHash table.
Lemma hashes_eq : map caseHash table = hashes.
Proof. vm_compute. reflexivity. Qed.
(** The switch with its constants computed once, for the cases below. *)
Definition quick (path sig : text) : option (case * list Z) :=
  let h := hashMessagePath path sig in
  match find (fun x => fst x =? h) (combine hashes table) with
  | Some (_, c) => match match_ (str (c_path c)) (str (c_sig c)) path sig with Some is => Some (c, is) | None => None end
  | None => None
  end.
Lemma find_combine {A} (f : A -> Z) h l : find (fun x => fst x =? h) (combine (map f l) l) = option_map (fun c => (f c, c)) (find (fun c => f c =? h) l).
Proof. induction l as [|c l IH]; [reflexivity|]. cbn [map combine find fst]. destruct (f c =? h); [reflexivity|exact IH]. Qed.
Lemma quick_ok path sig : dispatch path sig = quick path sig.
Proof.
  unfold quick, dispatch. cbv zeta. rewrite <- hashes_eq. rewrite (find_combine caseHash (hashMessagePath path sig) table).
  destruct (find (fun c => caseHash c =? hashMessagePath path sig) table); reflexivity.
Qed.
Lemma table_distinct : distinct (map caseHash table) = true.
Proof. rewrite hashes_eq. vm_compute. reflexivity. Qed.
Lemma table_plain : forallb (fun c => plainPattern (str (c_path c))) table = true.
Proof. vm_compute. reflexivity. Qed.
Lemma table_short : forallb (fun c => Nat.leb (amps (str (c_path c))) 8) table = true.
Proof. vm_compute. reflexivity. Qed.

Lemma find_distinct {A} (f : A -> Z) (l : list A) : distinct (map f l) = true -> forall x, In x l -> find (fun y => f y =? f x) l = Some x.
Proof.
  induction l as [|y l IH]; intros D x I; [destruct I|]. cbn [map distinct] in D. apply andb_true_iff in D. destruct D as [D1 D2]. cbn [find].
  destruct I as [->|I]; [now rewrite Z.eqb_refl|]. destruct (Z.eqb_spec (f y) (f x)) as [E|N]; [|now apply IH].
  apply negb_true_iff in D1. assert (X : existsb (Z.eqb (f y)) (map f l) = true); [|congruence].
  apply existsb_exists. exists (f x). split; [now apply in_map|]. now apply Z.eqb_eq.
Qed.
Lemma instance_count p t is : instance p t is -> List.length is = amps p.
Proof.
  unfold amps. induction 1 as [|c p t is N H IH|d p t is D LT T H IH]; [reflexivity| |].
  - cbn [filter]. destruct (Z.eqb_spec 38 c); [lia|exact IH].
  - cbn [filter List.length]. change (38 =? 38) with true. cbn. now rewrite IH.
Qed.

(** C87: a message runs a case exactly if its path is that of the case with numbers below 2^32 in place of '&' and its signature is that of
    the case; the numbers are what the case gets.  The hash never hides a case nor lets a wrong one run. *)
Theorem C87_dispatch : forall path sig c is,
  dispatch path sig = Some (c, is) <-> In c table /\ sig = str (c_sig c) /\ instance (str (c_path c)) path is.
Proof.
  intros path sig c is. unfold dispatch, match_. split.
  - destruct (find _ table) as [c'|] eqn:F; [|discriminate]. apply find_some in F. destruct F as [I _].
    destruct (matchPath _ _ path []) as [js|] eqn:M; [|discriminate]. destruct (text_eqb sig (str (c_sig c'))) eqn:E; [|discriminate].
    intros X. inversion X; subst. apply text_eqb_eq in E. apply match_spec in M; [|lia|cbn; lia]. destruct M as (js & -> & H & _). cbn [app]. auto.
  - intros (I & -> & H).
    pose proof (proj1 (forallb_forall _ _) table_plain c I) as P. pose proof (proj1 (forallb_forall _ _) table_short c I) as L.
    assert (NP : Forall (fun c => ~ 48 <= c <= 57) (str (c_path c))).
    { apply Forall_forall. intros x X Y. unfold plainPattern in P. rewrite forallb_forall in P. specialize (P x X). apply isDigit_iff in Y. rewrite Y in P. discriminate. }
    unfold hashMessagePath. rewrite (hash_instance _ _ _ H NP) by lia. change (hash (str (c_path c) ++ 44 :: str (c_sig c)) fnvBasis) with (caseHash c).
    rewrite (find_distinct caseHash table table_distinct c I).
    assert (M : matchPath (S (List.length (str (c_path c)))) (str (c_path c)) path [] = Some is).
    { apply match_spec; [lia|cbn; lia|]. exists is. split; [reflexivity|]. split; [exact H|]. rewrite (instance_count _ _ _ H).
      apply Nat.leb_le in L. exact L. }
    rewrite M. assert (E : text_eqb (str (c_sig c)) (str (c_sig c)) = true) by now apply text_eqb_eq. now rewrite E.
Qed.

(** C87: so at most one case matches, with one list of numbers. *)
Theorem C87_one_case : forall path c c' is is', In c table -> In c' table -> c_sig c = c_sig c' ->
  instance (str (c_path c)) path is -> instance (str (c_path c')) path is' -> c = c' /\ is = is'.
Proof.
  intros path c c' is is' I I' E H H'.
  assert (D : dispatch path (str (c_sig c)) = Some (c, is)) by (apply C87_dispatch; auto).
  assert (D' : dispatch path (str (c_sig c)) = Some (c', is')) by (apply C87_dispatch; rewrite E; auto).
  rewrite D in D'. inversion D'. auto.
Qed.

Example C87_ex :
  dispatch (str "/region007/eg2/point13/level_cc4294967295") (str "f") = Some (Case "/region&/eg&/point&/level_cc&" "f" Point true Set_, [7; 2; 13; 4294967295]) /\
  dispatch (str "/region0/eg2/point3/level_cc4294967296") (str "f") = None /\ dispatch (str "/region&/delay") (str "") = None /\
  dispatch (str "/region1/delay") (str "i") = None.
Proof. rewrite !quick_ok. vm_compute. auto. Qed.
