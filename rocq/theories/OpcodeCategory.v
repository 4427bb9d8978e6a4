(** The category of an opcode name (C56). *)
From Coq Require Import ZArith List Bool Ascii String Lia.
From Verif Require Import ParserModel ParserReader OpcodeModel OpcodeNumbers OpcodeNames.
Import ListNotations.
Local Open Scope string_scope.
Local Open Scope Z_scope.
Local Open Scope list_scope.

(** * Specification *)

(** The endings that stand before the number of the controller. *)
Inductive ending : category -> text -> Prop :=
| en_on : ending OnCcN (str "_oncc")
| en_cc : ending OnCcN (str "_cc")
| en_curve : ending CurveCcN (str "_curvecc")
| en_step : ending StepCcN (str "_stepcc")
| en_smooth : ending SmoothCcN (str "_smoothcc").
Definition has_ending (name : text) (c : category) : Prop :=
  exists base e d, ending c e /\ is_digits d /\ name = base ++ e ++ d.

(** * Proof *)
Lemma ends_with_iff p t : ends_with p t = true <-> exists b, t = b ++ p.
Proof.
  unfold ends_with. split.
  - intros H. apply starts_with_split in H. apply (f_equal (@rev Z)) in H. rewrite rev_app_distr, !rev_involutive in H. eauto.
  - intros (b & ->). rewrite rev_app_distr. apply starts_with_app.
Qed.
Lemma ending_ends base c e : ending c e -> ends_run (rev (base ++ e)).
Proof. intros N. rewrite rev_app_distr. destruct N; cbn; lia. Qed.
Lemma back_split name c r : rev name = c :: r -> isDigit c = true ->
  exists d, is_digits d /\ name = dropBackInteger name ++ d.
Proof.
  intros E H. exists (extractBackInteger name). unfold extractBackInteger, dropBackInteger.
  pose proof (span_app isDigit (rev name)) as A. pose proof (span_true isDigit (rev name)) as T. split.
  - split.
    + rewrite E. cbn [span]. rewrite H. destruct (span isDigit r). cbn [fst]. intros X.
      apply (f_equal (@rev Z)) in X. rewrite rev_involutive in X. discriminate.
    + apply Forall_rev. eapply Forall_impl; [|exact T]. intros x. apply isDigit_iff.
  - rewrite <- rev_app_distr, A. now rewrite rev_involutive.
Qed.
Lemma identify_ending base c e d : ending c e -> is_digits d -> identifyCategory (base ++ e ++ d) = c.
Proof.
  intros N D. rewrite app_assoc. unfold identifyCategory.
  destruct (extract_back (base ++ e) d D (ending_ends base c e N)) as [_ ->].
  destruct (digits_last d D) as (x & m & R & X). destruct (last_app_ne (base ++ e) d x m R) as [m' ->].
  rewrite (proj2 (isDigit_iff x) X). unfold ends_with. rewrite rev_app_distr.
  destruct N; reflexivity.
Qed.

(** C56: a name belongs to a controller category exactly when it has one of its endings and a number, and to at most
    one. *)
Theorem C56_category name c : c <> Normal -> (identifyCategory name = c <-> has_ending name c).
Proof.
  intros Nc. split.
  - unfold identifyCategory. destruct (rev name) as [|x r] eqn:E; [congruence|].
    destruct (isDigit x) eqn:Dx; [|congruence]. destruct (back_split name x r E Dx) as (d & D & S).
    intros H. unfold has_ending.
    assert (K : forall e, ending c e -> ends_with e (dropBackInteger name) = true ->
      exists base e d, ending c e /\ is_digits d /\ name = base ++ e ++ d).
    { intros e N T. apply ends_with_iff in T as (b & T). exists b, e, d. split; [exact N|]. split; [exact D|].
      rewrite S, T. now rewrite <- app_assoc. }
    destruct (ends_with (str "_oncc") _) eqn:E1; cbn [orb] in H; [subst c; exact (K _ en_on E1)|].
    destruct (ends_with (str "_cc") _) eqn:E2; [subst c; exact (K _ en_cc E2)|].
    destruct (ends_with (str "_curvecc") _) eqn:E3; [subst c; exact (K _ en_curve E3)|].
    destruct (ends_with (str "_stepcc") _) eqn:E4; [subst c; exact (K _ en_step E4)|].
    destruct (ends_with (str "_smoothcc") _) eqn:E5; [subst c; exact (K _ en_smooth E5)|]. congruence.
  - intros (base & e & d & N & D & ->). now apply identify_ending.
Qed.
(** C56: all other names are ordinary. *)
Theorem C56_normal name : identifyCategory name = Normal <-> forall c, ~ has_ending name c.
Proof.
  split.
  - intros H c X. assert (c <> Normal) as Nc by (destruct X as (b & e & d & N & _); destruct N; discriminate).
    apply C56_category in X; [|exact Nc]. congruence.
  - intros H. destruct (identifyCategory name) eqn:E; [reflexivity|..];
      (eapply C56_category in E; [|discriminate]; elim (H _ E)).
Qed.
(** C56: the same for the opcode; the name is taken as written, before blanks around it are removed. *)
Theorem C56_opcode_category n v c : c <> Normal -> (o_cat (mkOpcode n v) = c <-> has_ending n c).
Proof.
  intros Nc. rewrite <- C56_category by exact Nc. unfold mkOpcode. destruct (scan_name _ _ _ _). reflexivity.
Qed.
Example C56_category_ex :
  has_ending (str "cutoff2_cc74") OnCcN /\ identifyCategory (str "cutoff2_cc74") = OnCcN /\
  identifyCategory (str "locc74") = Normal /\ identifyCategory (str "cutoff_stepcc") = Normal.
Proof.
  split; [|repeat split; reflexivity].
  exists (str "cutoff2"), (str "_cc"), (str "74"). split; [constructor|]. split; [|reflexivity].
  split; [discriminate|]. repeat constructor; cbn; lia.
Qed.
