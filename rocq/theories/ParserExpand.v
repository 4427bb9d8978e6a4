(** Variable expansion terminates when definitions are not circular (C05). *)
From Coq Require Import ZArith List Bool Lia String.
From Verif Require Import ParserModel ParserReader ParserSteps ParserAdvance.
Import ListNotations.
Local Open Scope Z_scope.
Local Open Scope list_scope.

Definition prefix (a b : text) : Prop := exists c, b = a ++ c.

Lemma find_def_in d name v : find_def d name = Some v -> In (name, v) d.
Proof.
  induction d as [|[n w] d IH]; [discriminate|]. cbn [find_def].
  destruct (text_eqb n name) eqn:E.
  - intros [= <-]. apply text_eqb_eq in E. subst. now left.
  - intros H. right. now apply IH.
Qed.
Lemma scan_name_some d : forall rest name id v r, scan_name d name rest = (id, Some v, r) ->
  exists x, id = name ++ x /\ rest = x ++ r /\ find_def d id = Some v.
Proof.
  induction rest as [|c rest IH]; intros name id v r H; cbn [scan_name] in H; [discriminate|].
  destruct (isIdentifierChar c); [|discriminate].
  destruct (find_def d (name ++ [c])) as [u|] eqn:E.
  - injection H as <- <- <-. exists [c]. auto.
  - destruct (IH _ _ _ _ H) as (x & -> & -> & F). exists (c :: x). rewrite <- app_assoc in *. auto.
Qed.
Lemma scan_name_rest d : forall rest name id v r, scan_name d name rest = (id, v, r) ->
  exists x, rest = x ++ r.
Proof.
  induction rest as [|c rest IH]; intros name id v r H; cbn [scan_name] in H.
  - injection H as <- <- <-. now exists [].
  - destruct (isIdentifierChar c).
    + destruct (find_def d (name ++ [c])); [injection H as <- <- <-; now exists [c]|].
      destruct (IH _ _ _ _ H) as (x & ->). now exists (c :: x).
    + injection H as <- <- <-. now exists [].
Qed.

Lemma app_split (a b c d : text) : a ++ b = c ++ d ->
  (exists e, c = a ++ e /\ b = e ++ d) \/ (exists e, a = c ++ e /\ d = e ++ b).
Proof.
  revert c. induction a as [|x a IH]; intros c H.
  - left. exists c. auto.
  - destruct c as [|y c]; cbn [app] in H.
    + right. exists (x :: a). split; [reflexivity|]. cbn [app]. now rewrite H.
    + injection H as -> H. destruct (IH c H) as [(e & -> & ->)|(e & -> & ->)].
      * left. now exists e.
      * right. now exists e.
Qed.

(** Where a [$] of the result of a round comes from. *)
Lemma round_dollar d : forall fuel s t n w, (List.length s < fuel)%nat ->
  expand_round fuel d s = (t, n, w) -> forall a b, t = a ++ 36 :: b ->
  exists id v a1 b1 B s0 s1, find_def d id = Some v /\ s = s0 ++ 36 :: id ++ s1 /\
    v = a1 ++ 36 :: b1 /\ b = b1 ++ B.
Proof.
  induction fuel as [|fuel IH]; intros s t n w L E a b T; [lia|]. cbn [expand_round] in E.
  destruct s as [|c r].
  - injection E as <- <- <-. now destruct a.
  - destruct (Z.eqb_spec c 36) as [->|N].
    + destruct (scan_name d [] r) as [[id v] r'] eqn:S.
      destruct (scan_name_rest _ _ _ _ _ _ S) as (x & R).
      destruct (expand_round fuel d r') as [[t' n'] w'] eqn:E'.
      assert (L' : (List.length r' < fuel)%nat) by (subst r; cbn [List.length] in L; rewrite app_length in L; lia).
      destruct v as [v|].
      * injection E as Et _ _. destruct (scan_name_some _ _ _ _ _ _ S) as (y & I & RY & F).
        cbn [app] in I. subst y. rewrite <- Et in T.
        apply app_split in T as [(e & -> & T)|(e & -> & T)].
        -- destruct (IH _ _ _ _ L' E' e b T) as (id' & v' & a1 & b1 & B & s0 & s1 & H1 & H2 & H3 & H4).
           exists id', v', a1, b1, B, (36 :: x ++ s0), s1. repeat split; auto.
           rewrite R, H2. cbn [app]. now rewrite <- app_assoc.
        -- destruct e as [|z e]; cbn [app] in T.
           ++ rewrite app_nil_r in F.
              destruct (IH _ _ _ _ L' E' [] b (eq_sym T)) as (id' & v' & a1 & b1 & B & s0 & s1 & H1 & H2 & H3 & H4).
              exists id', v', a1, b1, B, (36 :: x ++ s0), s1. repeat split; auto.
              rewrite R, H2. cbn [app]. now rewrite <- app_assoc.
           ++ injection T as <- ->. exists id, (a ++ 36 :: e), a, e, t', [], r'.
              repeat split; auto. rewrite RY. reflexivity.
      * injection E as Et _ _. rewrite <- Et in T.
        destruct (IH _ _ _ _ L' E' a b T) as (id' & v' & a1 & b1 & B & s0 & s1 & H1 & H2 & H3 & H4).
        exists id', v', a1, b1, B, (36 :: x ++ s0), s1. repeat split; auto.
        rewrite R, H2. cbn [app]. now rewrite <- app_assoc.
    + destruct (expand_round fuel d r) as [[t' n'] w'] eqn:E'. injection E as Et _ _.
      rewrite <- Et in T. destruct a as [|z a]; cbn [app] in T; [congruence|]. injection T as _ T.
      assert (L' : (List.length r < fuel)%nat) by (cbn in L; lia).
      destruct (IH _ _ _ _ L' E' a b T) as (id' & v' & a1 & b1 & B & s0 & s1 & H1 & H2 & H3 & H4).
      exists id', v', a1, b1, B, (c :: s0), s1. repeat split; auto. cbn [app]. now rewrite H2.
Qed.
(** A text without [$] is left alone; a round over any other text counts an expansion. *)
Lemma round_plain d : forall fuel s, (List.length s < fuel)%nat -> ~ In 36 s ->
  expand_round fuel d s = (s, O, O).
Proof.
  induction fuel as [|fuel IH]; intros s L N; [lia|]. cbn [expand_round].
  destruct s as [|c r]; [reflexivity|].
  destruct (Z.eqb_spec c 36) as [->|M]; [exfalso; apply N; now left|].
  rewrite IH; [reflexivity|cbn in L; lia|]. intros I. apply N. now right.
Qed.
Lemma round_zero d : forall fuel s t w, (List.length s < fuel)%nat ->
  expand_round fuel d s = (t, O, w) -> t = s /\ w = O /\ ~ In 36 s.
Proof.
  induction fuel as [|fuel IH]; intros s t w L E; [lia|]. cbn [expand_round] in E.
  destruct s as [|c r]; [injection E as <- <-; auto|].
  destruct (Z.eqb_spec c 36) as [->|M].
  - destruct (scan_name d [] r) as [[id v] r']. destruct (expand_round fuel d r') as [[t' n'] w'].
    destruct v; discriminate.
  - destruct (expand_round fuel d r) as [[t' n'] w'] eqn:E'. injection E as <- -> <-.
    destruct (IH r t' w') as (-> & -> & N); [cbn in L; lia|exact E'|].
    repeat split; auto. intros [H|H]; auto.
Qed.

(** ** Specification: definitions that do not lead back to themselves.
    [E] is the set of definitions.  A [$] inside a value can only ever stand for a name that agrees
    with the characters which follow it in the value; such names have a smaller rank. *)
Definition ranked (E : text -> text -> Prop) (rk : text -> nat) (N : nat) : Prop :=
  forall id v, E id v -> (rk id < N)%nat /\
    forall a b id' v', v = a ++ 36 :: b -> E id' v' -> prefix id' b \/ prefix b id' ->
      (rk id' < rk id)%nat.

Section RANK.
Variables (E : text -> text -> Prop) (rk : text -> nat) (N : nat).
Hypothesis R : ranked E rk N.
Variable d : defs.
Hypothesis D : forall id v, In (id, v) d -> E id v.

Definition level (n : nat) (t : text) : Prop :=
  forall a b id v, t = a ++ 36 :: b -> find_def d id = Some v -> prefix id b -> (rk id < n)%nat.

Lemma level_round n s : level (S n) s ->
  level n (fst (fst (expand_round (S (List.length s)) d s))).
Proof.
  intros L. destruct (expand_round (S (List.length s)) d s) as [[t m] w] eqn:X. cbn [fst].
  intros a b id' v' T F P.
  destruct (round_dollar d _ _ _ _ _ (Nat.lt_succ_diag_r _) X a b T)
    as (id & v & a1 & b1 & B & s0 & s1 & H1 & H2 & H3 & H4).
  assert (K : (rk id < S n)%nat) by (eapply L; [exact H2|exact H1|eexists; reflexivity]).
  destruct (R id v (D _ _ (find_def_in _ _ _ H1))) as [_ Q].
  assert (M : (rk id' < rk id)%nat); [|lia].
  eapply Q; [exact H3|exact (D _ _ (find_def_in _ _ _ F))|].
  destruct P as [c Pc]. rewrite H4 in Pc. symmetry in Pc.
  apply app_split in Pc as [(e & -> & _)|(e & -> & _)].
  - left. now exists e.
  - right. now exists e.
Qed.
Lemma level_zero s : level 0 s -> ~ In 36 (fst (fst (expand_round (S (List.length s)) d s))).
Proof.
  intros L I. apply in_split in I as (a & b & T).
  destruct (expand_round (S (List.length s)) d s) as [[t m] w] eqn:X. cbn [fst] in T.
  destruct (round_dollar d _ _ _ _ _ (Nat.lt_succ_diag_r _) X a b T)
    as (id & v & a1 & b1 & B & s0 & s1 & H1 & H2 & H3 & H4).
  assert (K : (rk id < 0)%nat) by (eapply L; [exact H2|exact H1|eexists; reflexivity]). lia.
Qed.
Lemma expand_level : forall n s, level n s -> forall k, (n + 2 <= k)%nat ->
  exists t w, expandDollarVars k d s = Some (t, w).
Proof.
  induction n as [|n IH]; intros s L k K; (destruct k as [|k]; [lia|]); cbn [expandDollarVars].
  - pose proof (level_zero s L) as Z0.
    destruct (expand_round (S (List.length s)) d s) as [[t m] w]. cbn [fst] in Z0.
    destruct m as [|m]; [eauto|]. destruct k as [|k]; [lia|]. cbn [expandDollarVars].
    rewrite round_plain; [cbn [bind]; eauto|lia|exact Z0].
  - pose proof (level_round n s L) as Z0.
    destruct (expand_round (S (List.length s)) d s) as [[t m] w]. cbn [fst] in Z0.
    destruct m as [|m]; [eauto|].
    destruct (IH t Z0 k) as (t' & w' & X); [lia|]. rewrite X. cbn [bind]. eauto.
Qed.
Lemma level_start s : level N s.
Proof. intros a b id v _ F _. apply (R id v (D _ _ (find_def_in _ _ _ F))). Qed.
End RANK.

(** When expansion ends, nothing is left to expand. *)
Lemma expand_no_dollar : forall k d s t w, expandDollarVars k d s = Some (t, w) -> ~ In 36 t.
Proof.
  induction k as [|k IH]; intros d s t w H; [discriminate|]. cbn [expandDollarVars] in H.
  destruct (expand_round (S (List.length s)) d s) as [[t' m] w'] eqn:X. destruct m.
  - injection H as <- <-. destruct (round_zero d _ _ _ _ (Nat.lt_succ_diag_r _) X) as (-> & _ & N). exact N.
  - destruct (expandDollarVars k d t') as [[t2 w2]|] eqn:Y; [|discriminate]. cbn [bind] in H.
    injection H as <- <-. eapply IH, Y.
Qed.
Lemma expand_plain k d s : ~ In 36 s -> expandDollarVars (S k) d s = Some (s, O).
Proof. intros H. cbn [expandDollarVars]. now rewrite round_plain by (auto; lia). Qed.

(** C05: with definitions that do not lead back to themselves, expansion ends after a number of
    rounds that depends on the definitions only, whatever the text, and leaves no variable. *)
Theorem C05_expansion_terminates_partial E rk N d :
  ranked E rk N -> (forall id v, In (id, v) d -> E id v) ->
  forall s k, (N + 2 <= k)%nat ->
  exists t w, expandDollarVars k d s = Some (t, w) /\ ~ In 36 t.
Proof.
  intros R D s k K.
  destruct (expand_level E rk N R d D N s (level_start E rk N R d D s) k K) as (t & w & X).
  exists t, w. split; [exact X|]. eapply expand_no_dollar, X.
Qed.

(** C05: with values that mention no variable, two rounds suffice. *)
Theorem C05_plain_values_partial d :
  (forall id v, In (id, v) d -> ~ In 36 v) ->
  forall s k, (2 <= k)%nat -> exists t w, expandDollarVars k d s = Some (t, w) /\ ~ In 36 t.
Proof.
  intros H s k K. destruct k as [|[|k]]; try lia.
  cbn [expandDollarVars]. destruct (expand_round (S (List.length s)) d s) as [[t m] w] eqn:X.
  assert (P : ~ In 36 t).
  { intros I. apply in_split in I as (a & b & T).
    destruct (round_dollar d _ _ _ _ _ (Nat.lt_succ_diag_r _) X a b T)
      as (id & v & a1 & b1 & B & s0 & s1 & H1 & H2 & H3 & H4).
    apply (H id v (find_def_in _ _ _ H1)). rewrite H3. apply in_or_app. right. now left. }
  destruct m; [eauto|]. rewrite round_plain by (auto; lia). cbn [bind]. eauto.
Qed.

(** Two levels of definitions; the shortest defined name is taken, and the value of [$KEY] ends
    with the start of a variable whose name continues in the text. *)
Definition two_levels : defs :=
  [(str "KEY", str "c$OC"); (str "OCT", str "4"); (str "DIR", str "samples/$KEY")].
Lemma one_dollar x a u b : ~ In 36 x -> ~ In 36 u -> x ++ 36 :: u = a ++ 36 :: b -> b = u.
Proof.
  revert a. induction x as [|c x IH]; intros a N M H; destruct a as [|e a]; cbn [app] in H.
  - now injection H.
  - injection H as _ H. exfalso. apply M. rewrite H. apply in_or_app. right. now left.
  - injection H as H _. exfalso. apply N. now left.
  - injection H as _ H. apply (IH a); auto. intros I. apply N. now right.
Qed.
Example C05_ex :
  expandDollarVars 5 two_levels (str "$DIRT.wav") = Some (str "samples/c4.wav", O) /\
  ranked (fun id v => In (id, v) two_levels)
    (fun id => if text_eqb id (str "OCT") then 0%nat else if text_eqb id (str "KEY") then 1%nat else 2%nat) 3.
Proof.
  split; [vm_compute; reflexivity|].
  intros id v H. unfold two_levels in H. cbn [In] in H. split.
  - destruct (text_eqb id (str "OCT")); [lia|]. destruct (text_eqb id (str "KEY")); lia.
  - intros a b id' v' V H' P. unfold two_levels in H'. cbn [In] in H'.
    assert (PF : forall x y : text, prefix x y -> firstn (List.length x) y = x).
    { intros x y [z ->]. rewrite firstn_app, firstn_all, Nat.sub_diag. cbn [firstn]. apply app_nil_r. }
    destruct H as [H|[H|[H|[]]]]; injection H as <- <-.
    + rewrite (one_dollar (str "c") a (str "OC") b) in P by (auto; intros X; repeat destruct X as [X|X]; discriminate || contradiction).
      destruct H' as [H'|[H'|[H'|[]]]]; injection H' as <- <-; try (vm_compute; lia);
        exfalso; destruct P as [P|P]; apply PF in P; vm_compute in P; discriminate P.
    + exfalso. destruct a as [|? [|? a]]; discriminate.
    + rewrite (one_dollar (str "samples/") a (str "KEY") b) in P by (auto; intros X; repeat destruct X as [X|X]; discriminate || contradiction).
      destruct H' as [H'|[H'|[H'|[]]]]; injection H' as <- <-; try (vm_compute; lia);
        exfalso; destruct P as [P|P]; apply PF in P; vm_compute in P; discriminate P.
Qed.

(** C05 is false in general: [#define $A $A] and a use of [$A] never end. *)
Theorem C05_self_reference_refuted :
  exists d s, find_def d (str "A") = Some (str "$A") /\
    forall k, expandDollarVars k d s = None.
Proof.
  exists [(str "A", str "$A")], (str "$A"). split; [reflexivity|].
  induction k as [|k IH]; [reflexivity|].
  change (expandDollarVars (S k) [(str "A", str "$A")] (str "$A"))
    with ('(t', w') <- expandDollarVars k [(str "A", str "$A")] (str "$A") ;; Some (t', (0 + w')%nat)).
  now rewrite IH.
Qed.
