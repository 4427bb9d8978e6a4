(** Values of opcodes: words and booleans (C74). *)
From Coq Require Import String ZArith QArith Qabs Qpower List Bool Lia Lqa.
From Verif Require Import ParserModel OpcodeModel OpcodeNumbers Rounding ValueModel.
Import ListNotations.
Local Open Scope Z_scope.

(** * C74: words *)
Definition distinct_hashes {A} (table : list (string * A)) : bool :=
  forallb (fun p => match readWord table (str (fst p)) with Some _ => true | None => false end) table &&
  (fix nd (l : list Z) := match l with [] => true | h :: r => negb (existsb (Z.eqb h) r) && nd r end)
    (map (fun p => hash (str (fst p)) fnvBasis) table).
Lemma word_of {A} (table : list (string * A)) t v : distinct_hashes table = true ->
  (readWord table t = Some v <-> exists w, In (w, v) table /\ hash t fnvBasis = hash (str w) fnvBasis).
Proof.
  intros D. apply andb_prop in D. destruct D as [_ D]. unfold readWord. split.
  - intros H. destruct (find _ table) as [[w v']|] eqn:F; [|discriminate]. injection H as <-. apply find_some in F.
    destruct F as [F1 F2]. exists w. split; [exact F1|]. apply Z.eqb_eq. exact F2.
  - intros (w & H1 & H2). revert D H1. induction table as [|[x u] table IH]; [intros _ []|]. cbn [map find fst snd].
    intros D H1. apply andb_prop in D. destruct D as [D1 D2].
    destruct (Z.eqb_spec (hash t fnvBasis) (hash (str x) fnvBasis)) as [E|E].
    + destruct H1 as [H1|H1]; [injection H1 as -> ->; reflexivity|]. exfalso.
      apply negb_true_iff in D1. assert (X : existsb (Z.eqb (hash (str x) fnvBasis)) (map (fun p => hash (str (fst p)) fnvBasis) table) = true).
      { apply existsb_exists. exists (hash (str w) fnvBasis). split; [apply (in_map (fun p => hash (str (fst p)) fnvBasis) table (w, v) H1)|].
        apply Z.eqb_eq. congruence. }
      rewrite X in D1. discriminate.
    + destruct H1 as [H1|H1]; [injection H1 as -> ->; congruence|]. apply IH; assumption.
Qed.
(** C74: a text is read as a mode exactly if it has the hash of one of the words for that mode. *)
Theorem C74_words t :
  (forall v, readWord trigger_words t = Some v <-> exists w, In (w, v) trigger_words /\ hash t fnvBasis = hash (str w) fnvBasis) /\
  (forall v, readWord xcurve_words t = Some v <-> exists w, In (w, v) xcurve_words /\ hash t fnvBasis = hash (str w) fnvBasis) /\
  (forall v, readWord offmode_words t = Some v <-> exists w, In (w, v) offmode_words /\ hash t fnvBasis = hash (str w) fnvBasis) /\
  (forall v, readWord filter_words t = Some v <-> exists w, In (w, v) filter_words /\ hash t fnvBasis = hash (str w) fnvBasis) /\
  (forall v, readWord eq_words t = Some v <-> exists w, In (w, v) eq_words /\ hash t fnvBasis = hash (str w) fnvBasis) /\
  (forall v, readWord vel_words t = Some v <-> exists w, In (w, v) vel_words /\ hash t fnvBasis = hash (str w) fnvBasis) /\
  (forall v, readWord mask_words t = Some v <-> exists w, In (w, v) mask_words /\ hash t fnvBasis = hash (str w) fnvBasis).
Proof. repeat (split; [intros v; apply word_of; vm_compute; reflexivity|]). intros v; apply word_of; vm_compute; reflexivity. Qed.

(** ** Booleans *)
Definition any_case (w : string) (t : text) : Prop := map toLower t = str w.
Arguments any_case w%string t.
Lemma equals_case t w : map toLower (str w) = str w -> (equalsIgnoreCase t (str w) = true <-> any_case w t).
Proof.
  intros L. unfold equalsIgnoreCase, any_case. rewrite L.
  assert (E : forall a b, text_eqb a b = true <-> a = b).
  { induction a as [|x a IH]; intros [|y b]; cbn [text_eqb]; try (split; discriminate || reflexivity).
    rewrite andb_true_iff, Z.eqb_eq, IH. split; [intros [-> ->]; reflexivity|intros H; injection H; auto]. }
  apply E.
Qed.
Lemma not_any_case t w n : literal t n -> (forall c r, str w = c :: r -> ~ (48 <= c <= 57) /\ c <> 43 /\ c <> 45) -> str w <> [] -> ~ any_case w t.
Proof.
  intros (d & rest & -> & D & _) H N E. destruct (str w) as [|c r] eqn:W; [now elim N|]. destruct (H c r eq_refl) as (H1 & H2 & H3).
  unfold any_case in E. rewrite W in E.
  assert (Lo : forall x, 48 <= x <= 57 \/ x = 43 \/ x = 45 -> toLower x = x).
  { intros x Hx. unfold toLower. destruct (Z.leb_spec 65 x); [|reflexivity]. destruct (Z.leb_spec x 90); [|reflexivity]. lia. }
  destruct D as [e [De Df]|e De|e De].
  - destruct e as [|x e]; [now elim De|]. inversion Df; subst. cbn [app map] in E. injection E as E _. rewrite Lo in E by lia. lia.
  - cbn in E. injection E as E _. change (toLower 43) with 43 in E. lia.
  - cbn in E. injection E as E _. change (toLower 45) with 45 in E. lia.
Qed.
(** C74: "on" and "off" in any case; integers are true unless zero; anything else gives no value. *)
Theorem C74_boolean t :
  (any_case "on" t -> snd (readBoolean t) = Some true) /\
  (any_case "off" t -> snd (readBoolean t) = Some false) /\
  (forall n, literal t n -> int64_min <= n <= int64_max -> snd (readBoolean t) = Some (negb (n =? 0))) /\
  (~ any_case "on" t -> ~ any_case "off" t -> (forall n, literal t n -> ~ int64_min <= n <= int64_max) -> snd (readBoolean t) = None).
Proof.
  pose proof (equals_case t "on"%string eq_refl) as On. pose proof (equals_case t "off"%string eq_refl) as Off.
  unfold readBoolean. refine (conj _ (conj _ (conj _ _))).
  - intros H. destruct (equalsIgnoreCase t (str "off")).
    + pose proof (proj1 Off eq_refl) as E. unfold any_case in *. rewrite H in E. discriminate.
    + rewrite (proj2 On H). reflexivity.
  - intros H. rewrite (proj2 Off H). reflexivity.
  - intros n L B.
    assert (No : ~ any_case "off" t) by (apply (not_any_case t "off"%string n L); [intros c r X; injection X as <- _; lia|discriminate]).
    assert (Nn : ~ any_case "on" t) by (apply (not_any_case t "on"%string n L); [intros c r X; injection X as <- _; lia|discriminate]).
    destruct (equalsIgnoreCase t (str "off")); [elim No; apply Off; reflexivity|].
    destruct (equalsIgnoreCase t (str "on")); [elim Nn; apply On; reflexivity|].
    unfold readInt. rewrite (readLeadingInt_literal t n L).
    assert (Bn : (int64_min <=? n) && (n <=? int64_max) = true) by (apply andb_true_intro; split; apply Z.leb_le; tauto).
    rewrite Bn. unfold transformInt. cbn [fullInt64 s_hi s_lo s_min s_max].
    destruct (Z.ltb_spec int64_max n); [lia|]. destruct (Z.ltb_spec n int64_min); [lia|]. rewrite Z.max_l, Z.min_l by lia. reflexivity.
  - intros H1 H2 H3. destruct (equalsIgnoreCase t (str "off")); [elim H2; apply Off; reflexivity|].
    destruct (equalsIgnoreCase t (str "on")); [elim H1; apply On; reflexivity|].
    unfold readInt. destruct (readLeadingInt t) as [n|] eqn:R.
    + apply readLeadingInt_inv in R. elim (H3 n); tauto.
    + reflexivity.
Qed.
Example C74_ex :
  readWord trigger_words (str "release_key") = Some ReleaseKey /\ readWord trigger_words (str "Release") = None /\
  readWord filter_words (str "brf_1p") = Some Brf2p /\ readWord filter_words (str "apf_1p") = None /\
  snd (readBoolean (str "On")) = Some true /\ snd (readBoolean (str "OFF")) = Some false /\ snd (readBoolean (str "2x")) = Some true /\
  snd (readBoolean (str "-0")) = Some false /\ snd (readBoolean (str "yes")) = None /\ literal (str "2x") 2 /\
  readOscillator (str "auto") = Some OscAuto /\ readOscillator (str "on") = Some OscOn.
Proof.
  refine (conj _ (conj _ (conj _ (conj _ (conj _ (conj _ (conj _ (conj _ (conj _ (conj _ (conj _ _))))))))))); try (vm_compute; reflexivity).
  exists (str "2"), (str "x"). refine (conj eq_refl (conj _ _)); [|cbn; lia].
  apply (s_plain (str "2")). split; [discriminate|]. repeat constructor; cbn; lia.
Qed.
