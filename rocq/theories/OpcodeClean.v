(** Clean-up of opcode names (C12). *)
From Coq Require Import ZArith List Bool Ascii String Lia.
From Verif Require Import ParserModel ParserReader ParserAdvance OpcodeModel OpcodeNumbers OpcodeNames.
Import ListNotations.
Local Open Scope string_scope.
Local Open Scope Z_scope.
Local Open Scope list_scope.

(** * Matching *)

Fixpoint try_rules (l : list rule) (t : text) : option (text * bool) :=
  match l with
  | [] => None
  | r :: l' =>
      match pmatch (r_pat r) t with
      | Some g => Some (build g (r_out r), r_again r)
      | None => try_rules l' t
      end
  end.
Lemma first_rule_try l t : first_rule l t = try_rules l (c_str t).
Proof. induction l as [|r l IH]; [reflexivity|]. cbn [first_rule try_rules]. now rewrite IH. Qed.

(** What the captures of a match look like. *)
Fixpoint fits (p : list pat) (g : list text) (t : text) : Prop :=
  match p with
  | [] => g = [] /\ t = []
  | PLit s :: p' => exists r, t = s ++ r /\ fits p' g r
  | PAlt l :: p' => exists w r g', In w l /\ g = w :: g' /\ t = w ++ r /\ fits p' g' r
  | PNum :: p' => exists n r g', is_digits n /\ ends_run r /\ g = n :: g' /\ t = n ++ r /\ fits p' g' r
  | PONum :: p' => exists n r g', Forall (fun c => 48 <= c <= 57) n /\ ends_run r /\ g = n :: g' /\ t = n ++ r /\ fits p' g' r
  | PWordNum w :: p' => exists n r g', is_digits n /\ ends_run r /\ g = (w ++ n) :: g' /\ t = w ++ n ++ r /\ fits p' g' r
  | PAny :: p' => g = [t] /\ p' = []
  | POAny :: p' => g = [t] /\ p' = [] /\ (t = [] \/ exists r, t = 95 :: r)
  end.
Lemma bind_some {A B} (o : option A) (f : A -> option B) b : bind o f = Some b -> exists a, o = Some a /\ f a = Some b.
Proof. destruct o as [a|]; [|discriminate]. intros H. now exists a. Qed.
Lemma alt_inv l t w r : alt l t = Some (w, r) -> In w l /\ t = w ++ r.
Proof.
  induction l as [|x l IH]; [discriminate|]. cbn [alt]. destruct (starts_with x t) eqn:E.
  - intros H. apply some_inj, pair_equal_spec in H. destruct H as [<- <-]. split; [now left|]. now apply starts_with_split.
  - intros H. apply IH in H. destruct H as [H1 H2]. split; [now right|exact H2].
Qed.
Lemma span_digits_inv t n r : span isDigit t = (n, r) ->
  Forall (fun c => 48 <= c <= 57) n /\ ends_run r /\ t = n ++ r.
Proof.
  intros H. pose proof (span_app isDigit t) as A. pose proof (span_true isDigit t) as B. pose proof (span_stop isDigit t) as C.
  rewrite H in *. cbn [fst snd] in *. split; [|split; [|now symmetry]].
  - eapply Forall_impl; [|exact B]. intros c. apply isDigit_iff.
  - destruct r as [|c r]; [exact Logic.I|]. intros D. apply isDigit_iff in D. congruence.
Qed.
Lemma pmatch_fits p : forall t g, pmatch p t = Some g -> fits p g t.
Proof.
  induction p as [|x p IH]; intros t g H.
  - cbn in *. destruct t; [now injection H as <-|discriminate].
  - destruct x as [s|l| | |w| |]; cbn [pmatch fits] in *.
    + destruct (starts_with s t) eqn:E; [|discriminate]. exists (skipn (List.length s) t).
      split; [now apply starts_with_split|now apply IH].
    + apply bind_some in H. destruct H as ([w r] & A & H). apply bind_some in H. destruct H as (g' & B & H).
      apply some_inj in H. subst g. apply alt_inv in A. destruct A as [A1 A2]. exists w, r, g'.
      repeat split; try assumption. now apply IH.
    + destruct (span isDigit t) as [n r] eqn:E. apply span_digits_inv in E. destruct E as (E1 & E2 & E3).
      destruct n as [|c n]; [discriminate|]. apply bind_some in H. destruct H as (g' & B & H). apply some_inj in H. subst g.
      exists (c :: n), r, g'. split; [split; [discriminate|exact E1]|]. repeat split; try assumption. now apply IH.
    + destruct (span isDigit t) as [n r] eqn:E. apply span_digits_inv in E. destruct E as (E1 & E2 & E3).
      apply bind_some in H. destruct H as (g' & B & H). apply some_inj in H. subst g.
      exists n, r, g'. repeat split; try assumption. now apply IH.
    + destruct (starts_with w t) eqn:E; [|discriminate]. apply starts_with_split in E.
      destruct (span isDigit (skipn (List.length w) t)) as [n r] eqn:F. apply span_digits_inv in F. destruct F as (E1 & E2 & E3).
      destruct n as [|c n]; [discriminate|]. apply bind_some in H. destruct H as (g' & B & H). apply some_inj in H. subst g.
      exists (c :: n), r, g'. split; [split; [discriminate|exact E1]|]. rewrite E3 in E. repeat split; try assumption. now apply IH.
    + destruct p; [|discriminate]. injection H as <-. now split.
    + destruct p; [|discriminate]. destruct t as [|c t].
      * injection H as <-. repeat split. now left.
      * destruct (Z.eqb_spec c 95) as [->|]; [|discriminate]. injection H as <-. repeat split. right. now exists t.
Qed.

Lemma try_rules_inv l t u b : try_rules l t = Some (u, b) ->
  exists l1 r l2 g, l = l1 ++ r :: l2 /\ Forall (fun r => pmatch (r_pat r) t = None) l1 /\
    pmatch (r_pat r) t = Some g /\ u = build g (r_out r) /\ b = r_again r.
Proof.
  induction l as [|r l IH]; [discriminate|]. cbn [try_rules]. destruct (pmatch (r_pat r) t) as [g|] eqn:E.
  - intros H. apply some_inj, pair_equal_spec in H. destruct H as [<- <-].
    exists [], r, l, g. repeat split; [constructor|exact E].
  - intros H. destruct (IH H) as (l1 & r' & l2 & g & -> & A & B & C & D).
    exists (r :: l1), r', l2, g. repeat split; try assumption. now constructor.
Qed.
Lemma try_none l t : Forall (fun r => pmatch (r_pat r) t = None) l -> try_rules l t = None.
Proof. induction 1 as [|r l H _ IH]; [reflexivity|]. cbn [try_rules]. now rewrite H. Qed.
Lemma try_none_inv l t : try_rules l t = None -> Forall (fun r => pmatch (r_pat r) t = None) l.
Proof.
  induction l as [|r l IH]; [constructor|]. cbn [try_rules]. intros H.
  destruct (pmatch (r_pat r) t) eqn:E; [discriminate|]. constructor; [exact E|now apply IH].
Qed.

(** The rules with their texts computed. *)
Definition rules_c : list rule := Eval vm_compute in region_rules.
Lemma rules_c_eq : region_rules = rules_c. Proof. vm_compute. reflexivity. Qed.

(** * Outputs match no rule *)

Arguments isDigit : simpl never.
Lemma digit_neq c x : 48 <= c <= 57 -> ~ 48 <= x <= 57 -> (c =? x) = false.
Proof. intros A B. apply Z.eqb_neq. lia. Qed.
Lemma span_digits_end d : Forall (fun c => 48 <= c <= 57) d -> span isDigit d = (d, []).
Proof. intros H. rewrite <- (app_nil_r d) at 1. now apply span_digits. Qed.
Ltac is_const b := match b with true => idtac | false => idtac end.
Ltac pm_step :=
  cbn;
  repeat match goal with
  | |- context [isDigit ?z] => let b := eval vm_compute in (isDigit z) in is_const b; change (isDigit z) with b; cbn
  | H : 48 <= ?c <= 57 |- context [isDigit ?c] => rewrite (proj2 (isDigit_iff c) H); cbn
  | H : 48 <= ?c <= 57 |- context [?c =? ?x] => rewrite (digit_neq c x H) by lia; cbn
  | H : Forall _ ?d |- context [span isDigit (?d ++ ?r)] => rewrite (span_digits d r H) by (cbn; lia); cbn
  | H : Forall _ ?d |- context [span isDigit ?d] =>
      rewrite (span_digits_end d H); cbn
  end.
Ltac no_match :=
  rewrite rules_c_eq; apply try_none; unfold rules_c;
  repeat (apply Forall_cons; [cbn [r_pat]; first [vm_compute; reflexivity | pm_step; reflexivity]|]); apply Forall_nil.

Definition normal (u : text) : Prop := try_rules region_rules u = None.

(** ** Last parts: what follows the last underscore *)

Fixpoint lastpart (t : text) : option text :=
  match t with
  | [] => None
  | c :: r =>
      match lastpart r with
      | Some p => Some p
      | None => if c =? 95 then Some r else None
      end
  end.
Lemma lastpart_app x y : lastpart (x ++ y) =
  match lastpart y with
  | Some p => Some p
  | None => match lastpart x with Some p => Some (p ++ y) | None => None end
  end.
Proof.
  induction x as [|c x IH]; cbn [app lastpart]; [now destruct (lastpart y)|]. rewrite IH.
  destruct (lastpart y); [reflexivity|]. destruct (lastpart x); [reflexivity|]. now destruct (c =? 95).
Qed.
Lemma lastpart_digits d : Forall (fun c => 48 <= c <= 57) d -> lastpart d = None.
Proof.
  induction 1 as [|c d C _ IH]; [reflexivity|]. cbn [lastpart]. rewrite IH. now rewrite (digit_neq c 95 C) by lia.
Qed.
Lemma lastpart_split t q : lastpart t = Some q -> exists p, t = p ++ 95 :: q.
Proof.
  revert q. induction t as [|c t IH]; intros q; [discriminate|]. cbn [lastpart]. destruct (lastpart t) as [p|].
  - intros H. apply some_inj in H. subst p. destruct (IH q eq_refl) as [p ->]. now exists (c :: p).
  - destruct (Z.eqb_spec c 95) as [->|]; [|discriminate]. intros H. apply some_inj in H. subst q. now exists [].
Qed.
(** The name ends with _cc and a number. *)
Definition ends_cc (t : text) : Prop := exists d, is_digits d /\ lastpart t = Some (99 :: 99 :: d).
Lemma ends_cc_intro p d : is_digits d -> ends_cc (p ++ str "_cc" ++ d).
Proof.
  intros D. exists d. split; [exact D|]. rewrite !lastpart_app, (lastpart_digits d) by apply D. reflexivity.
Qed.
Lemma ends_cc_elim t : ends_cc t -> exists p d, is_digits d /\ t = p ++ str "_cc" ++ d.
Proof. intros (d & D & L). apply lastpart_split in L. destruct L as [p ->]. now exists p, d. Qed.

(** ** Last characters *)

Fixpoint lastc (def : Z) (t : text) : Z :=
  match t with [] => def | c :: r => lastc c r end.
Lemma lastc_app def x y : lastc def (x ++ y) = lastc (lastc def x) y.
Proof. revert def. induction x as [|c x IH]; intros def; [reflexivity|]. cbn [app lastc]. apply IH. Qed.
Lemma lastc_rev def t : lastc def t = match rev t with [] => def | c :: _ => c end.
Proof.
  rewrite <- (rev_involutive t) at 1. destruct (rev t) as [|c m]; [reflexivity|]. cbn [rev]. now rewrite lastc_app.
Qed.
Definition solid' (t : text) : Prop :=
  match t with [] => True | c :: _ => isTrimmed c = false end /\ isTrimmed (lastc 65 t) = false.
Lemma solid_iff t : solid t <-> solid' t.
Proof.
  unfold solid, solid'. rewrite lastc_rev. destruct (rev t); [|reflexivity]. intuition.
Qed.
Lemma lastc_digits def d : is_digits d -> 48 <= lastc def d <= 57.
Proof.
  intros D. rewrite lastc_rev. destruct (digits_last d D) as (x & m & -> & X). exact X.
Qed.

(** ** All rules *)

Definition good (t u : text) : Prop :=
  normal u /\ (ends_cc u -> ends_cc t) /\ (solid' t -> solid' u).
Definition good_again (u : text) : Prop :=
  exists n, Forall (fun c => 48 <= c <= 57) n /\ u = str "fil" ++ n ++ str "_random".

Ltac open_words :=
  repeat match goal with
  | H : In _ [] |- _ => destruct H
  | H : In _ (_ :: _) |- _ => destruct H as [<-|H]
  | H : ?t = [] \/ exists _, _ |- _ => let r := fresh in destruct H as [->|[r ->]]
  end.
Ltac open_digits :=
  repeat match goal with
  | H : is_digits ?d |- _ =>
      is_var d;
      let N := fresh "N" in let F := fresh "F" in let c := fresh "c" in
      pose proof (lastc_digits 65 d H);
      destruct H as [N F]; destruct d as [|c d]; [now elim N|];
      let C := fresh "C" in
      assert (C : 48 <= c <= 57) by (inversion F; assumption);
      let F' := fresh "F" in
      assert (F' : Forall (fun c => 48 <= c <= 57) d) by (inversion F; assumption);
      clear N F
  end.
Ltac split_fits E :=
  apply pmatch_fits in E; cbn [fits] in E;
  repeat match type of E with
  | exists _, _ => let x := fresh in destruct E as [x E]
  | _ /\ _ => let H := fresh in destruct E as [H E]
  end.

Ltac lp_norm L :=
  cbn in L;
  repeat (first
    [ rewrite lastpart_app in L
    | match goal with H : Forall _ ?x |- _ => rewrite (lastpart_digits x H) in L end
    | match goal with H : 48 <= ?c <= 57 |- _ => rewrite (digit_neq c 95 H) in L by lia end ]; cbn in L).
Ltac cc_solve :=
  let d := fresh in let D := fresh in let L := fresh in
  intros (d & D & L);
  first
    [ exfalso; lp_norm L; discriminate L
    | exists d; split; [exact D|]; 
      match goal with |- ?X = _ =>
        let Y := fresh in let Q := fresh in 
        remember X as Y eqn:Q; lp_norm L; lp_norm Q; subst Y;
        match type of L with context [lastpart ?a] => destruct (lastpart a) end; cbn in *; congruence
      end ].
Ltac solid_solve :=
  let A := fresh in let B := fresh in
  intros [A B]; split; [reflexivity|];
  first
    [ vm_compute; reflexivity
    | cbn in *; rewrite ?lastc_app in *; cbn in *;
      first
        [ vm_compute; reflexivity
        | apply digit_not_blank; assumption
        | match goal with |- context [lastc _ ?a] => destruct a; [vm_compute; reflexivity|exact B] end ] ].
Lemma rule_good t u b : try_rules region_rules t = Some (u, b) ->
  if b then good_again u else good t u.
Proof.
  rewrite rules_c_eq. unfold rules_c. cbn [try_rules r_pat r_out r_again]. intros H.
  Ltac case_rule H :=
    let g := fresh "g" in let E := fresh "E" in
    match type of H with match pmatch ?p ?t with _ => _ end = _ =>
      destruct (pmatch p t) as [g|] eqn:E; [apply some_inj, pair_equal_spec in H; destruct H as [<- <-]|]
    end.
  Ltac one_rule :=
    match goal with E : pmatch _ _ = Some _ |- _ => split_fits E end;
    subst; cbn [build map List.concat nth app]; open_words; open_digits;
    unfold good; cbn [app]; rewrite ?app_nil_r;
    (split; [unfold normal; no_match|]);
    (split; [cc_solve|solid_solve]).
  case_rule H; [one_rule|].
  case_rule H; [one_rule|].
  case_rule H; [one_rule|].
  case_rule H; [one_rule|].
  case_rule H; [one_rule|].
  case_rule H; [one_rule|].
  case_rule H; [one_rule|].
  case_rule H; [one_rule|].
  case_rule H; [one_rule|].
  case_rule H; [one_rule|].
  case_rule H; [one_rule|].
  case_rule H; [one_rule|].
  case_rule H; [one_rule|].
  case_rule H; [one_rule|].
  case_rule H; [one_rule|].
  case_rule H; [one_rule|].
  case_rule H; [one_rule|].
  case_rule H; [one_rule|].
  case_rule H; [one_rule|].
  case_rule H.
  { match goal with E : pmatch _ _ = Some _ |- _ => split_fits E end.
    subst. match goal with F : Forall _ ?n |- _ => exists n; split; [exact F|reflexivity] end. }
  case_rule H; [one_rule|].
  case_rule H.
  { match goal with E : pmatch _ _ = Some _ |- _ => split_fits E end.
    match goal with H : ?t = [] \/ exists _, _ |- _ => destruct H as [->|[r ->]] end.
    { subst. cbn [build map List.concat nth app]. split; [vm_compute; reflexivity|]. split; [cc_solve|solid_solve]. }
    subst. cbn [build map List.concat nth app]. rewrite app_nil_r.
    match goal with E : pmatch [PLit [99; 117; 116; 111; 102; 102]; PONum; _] _ = None |- _ => rename E into K end.
    assert (K' : pmatch [PLit [99; 117; 116; 111; 102; 102]; PONum; PLit [95; 114; 97; 110; 100; 111; 109]]
      (99 :: 117 :: 116 :: 111 :: 102 :: 102 :: 49 :: 95 :: r) = None).
    { revert K. pm_step. match goal with |- bind ?x _ = None -> _ => destruct x end; [discriminate|trivial]. }
    split.
    - unfold normal. rewrite rules_c_eq. apply try_none. unfold rules_c.
      repeat (apply Forall_cons; [cbn [r_pat]; first [exact K'|vm_compute; reflexivity]|]). apply Forall_nil.
    - split; [cc_solve|solid_solve]. }
  do 5 (case_rule H; [one_rule|]).
  discriminate H.
Qed.

(** ** Characters *)

Lemma fits_forall (P : Z -> Prop) p : forall g t, fits p g t -> Forall P t -> Forall (Forall P) g.
Proof.
  induction p as [|x p IH]; intros g t H F; [destruct H as [-> _]; constructor|].
  destruct x as [s|l| | |w| |]; cbn [fits] in H.
  - destruct H as (r & -> & H). apply Forall_app in F. now apply (IH g r).
  - destruct H as (w & r & g' & _ & -> & -> & H). apply Forall_app in F. destruct F. constructor; [assumption|now apply (IH g' r)].
  - destruct H as (n & r & g' & _ & _ & -> & -> & H). apply Forall_app in F. destruct F. constructor; [assumption|now apply (IH g' r)].
  - destruct H as (n & r & g' & _ & _ & -> & -> & H). apply Forall_app in F. destruct F. constructor; [assumption|now apply (IH g' r)].
  - destruct H as (n & r & g' & _ & _ & -> & -> & H). rewrite app_assoc in F. apply Forall_app in F. destruct F.
    constructor; [assumption|now apply (IH g' r)].
  - destruct H as [-> _]. now constructor.
  - destruct H as [-> _]. now constructor.
Qed.
Definition plain (c : Z) : Prop := toLower c = c /\ c <> 0.
Definition plainb (c : Z) : bool := (toLower c =? c) && negb (c =? 0).
Definition lits_plain (l : list rule) : bool :=
  forallb (fun r => forallb (fun p => match p with L s => forallb plainb s | G _ => true end) (r_out r)) l.
Lemma plainb_ok s : forallb plainb s = true -> Forall plain s.
Proof.
  intros H. apply Forall_forall. intros c C. rewrite forallb_forall in H. specialize (H c C).
  unfold plainb in H. apply andb_true_iff in H. destruct H as [A B]. apply Z.eqb_eq in A.
  split; [exact A|]. now destruct (Z.eqb_spec c 0).
Qed.
Lemma build_plain g l : Forall (Forall plain) g ->
  forallb (fun p => match p with L s => forallb plainb s | G _ => true end) l = true -> Forall plain (build g l).
Proof.
  intros G0 H. unfold build. induction l as [|p l IH]; [constructor|]. cbn [map List.concat forallb] in *.
  apply andb_true_iff in H. destruct H as [H1 H2]. apply Forall_app. split; [|now apply IH].
  destruct p as [s|n]; [now apply plainb_ok|].
  destruct (Nat.lt_ge_cases n (List.length g)) as [Lt|Ge].
  - rewrite Forall_forall in G0. apply G0, nth_In, Lt.
  - rewrite nth_overflow by exact Ge. constructor.
Qed.
Lemma rules_plain l t u b : lits_plain l = true -> try_rules l t = Some (u, b) -> Forall plain t -> Forall plain u.
Proof.
  intros P H F. apply try_rules_inv in H. destruct H as (l1 & r & l2 & g & -> & _ & M & -> & _).
  apply pmatch_fits in M. pose proof (fits_forall plain _ _ _ M F) as Q. apply build_plain; [exact Q|].
  unfold lits_plain in P. rewrite forallb_forall in P. apply P. apply in_or_app. right. now left.
Qed.
Lemma toLower_idem c : toLower (toLower c) = toLower c.
Proof.
  unfold toLower. destruct ((65 <=? c) && (c <=? 90)) eqn:E; [|now rewrite E].
  apply andb_true_iff in E. rewrite !Z.leb_le in E. destruct (Z.leb_spec (c + 32) 90); [lia|]. now rewrite andb_false_r.
Qed.
Definition lower (t : text) : Prop := Forall (fun c => toLower c = c) t.
Lemma lower_map t : lower (map toLower t).
Proof. apply Forall_map, Forall_forall. intros c _. apply toLower_idem. Qed.
Lemma lower_id t : lower t -> map toLower t = t.
Proof. induction 1 as [|c t H _ IH]; [reflexivity|]. cbn [map]. now rewrite H, IH. Qed.
Lemma c_str_plain t : lower t -> Forall plain (c_str t).
Proof.
  intros H. unfold c_str. pose proof (span_true (fun c => negb (c =? 0)) t) as A.
  pose proof (span_app (fun c => negb (c =? 0)) t) as B.
  destruct (span (fun c => negb (c =? 0)) t) as [a b]. cbn [fst snd] in *. subst t. apply Forall_app in H. destruct H as [H _].
  rewrite Forall_forall in *. intros c C. split; [now apply H|]. specialize (A c C). cbn in A. now destruct (Z.eqb_spec c 0).
Qed.
Lemma c_str_id t : Forall plain t -> c_str t = t.
Proof.
  intros H. unfold c_str. rewrite <- (app_nil_r t) at 1. rewrite span_all; [reflexivity| |exact Logic.I].
  eapply Forall_impl; [|exact H]. intros c [_ C]. cbn. now destruct (Z.eqb_spec c 0).
Qed.
Lemma plain_lower t : Forall plain t -> lower t.
Proof. intros H. eapply Forall_impl; [|exact H]. intros c C. apply C. Qed.

(** ** The first block *)

Lemma oncc_cases t :
  (exists p d, is_digits d /\ c_str t = p ++ str "_cc" ++ d /\ oncc_block t = p ++ str "_oncc" ++ d) \/
  (~ ends_cc (c_str t) /\ oncc_block t = t).
Proof.
  unfold oncc_block. set (c := c_str t).
  pose proof (span_app isDigit (rev c)) as A. pose proof (span_true isDigit (rev c)) as B. pose proof (span_stop isDigit (rev c)) as C.
  unfold extractBackInteger, dropBackInteger. destruct (span isDigit (rev c)) as [n r]. cbn [fst snd] in *.
  assert (Ec : c = rev r ++ rev n).
  { rewrite <- rev_app_distr, A. now rewrite rev_involutive. }
  assert (Dn : Forall (fun c => 48 <= c <= 57) (rev n)).
  { apply Forall_rev. eapply Forall_impl; [|exact B]. intros x. apply isDigit_iff. }
  assert (Er : ends_run r).
  { destruct r as [|x r]; [exact Logic.I|]. intros D. apply isDigit_iff in D. congruence. }
  assert (No : forall p d, is_digits d -> c = p ++ str "_cc" ++ d -> rev r = p ++ str "_cc" /\ rev n = d).
  { intros p d D E. destruct (extract_back (p ++ str "_cc") d D) as [X Y].
    - rewrite rev_app_distr. cbn. lia.
    - rewrite <- app_assoc, <- E in X, Y. unfold extractBackInteger in X. unfold dropBackInteger in Y.
      rewrite Ec, rev_app_distr, !rev_involutive in X, Y. rewrite span_digits in X, Y.
      + cbn [fst snd] in *. now split.
      + eapply Forall_impl; [|exact B]. intros x. apply isDigit_iff.
      + exact Er.
      + eapply Forall_impl; [|exact B]. intros x. apply isDigit_iff.
      + exact Er. }
  destruct (rev n) as [|x m] eqn:En.
  { right. split; [|reflexivity]. intros X. apply ends_cc_elim in X. destruct X as (p & d & D & E).
    destruct (No p d D E) as [_ F]. destruct D as [D _]. now elim D. }
  destruct (ends_with (str "_cc") (rev r)) eqn:Ew.
  - left. unfold ends_with in Ew. rewrite rev_involutive in Ew. apply starts_with_split in Ew.
    set (q := skipn (List.length (rev (str "_cc"))) r) in *.
    assert (Rr : rev r = rev q ++ str "_cc").
    { rewrite Ew, rev_app_distr, rev_involutive. reflexivity. }
    exists (rev q), (x :: m). split; [split; [discriminate|exact Dn]|].
    split; [rewrite Ec, Rr, <- app_assoc; reflexivity|].
    assert (Fc : firstn (List.length (rev r) - 3) c = rev q).
    { rewrite Ec, Rr, <- app_assoc, !app_length. change (List.length (str "_cc")) with 3%nat.
      replace (List.length (rev q) + 3 - 3)%nat with (List.length (rev q)) by lia.
      rewrite firstn_app, Nat.sub_diag, firstn_all. cbn [firstn]. apply app_nil_r. }
    now rewrite Fc.
  - right. split; [|reflexivity]. intros X. apply ends_cc_elim in X. destruct X as (p & d & D & E).
    destruct (No p d D E) as [F _]. rewrite F in Ew. unfold ends_with in Ew. rewrite rev_app_distr, starts_with_app in Ew. discriminate.
Qed.
Lemma oncc_id t : ~ ends_cc (c_str t) -> oncc_block t = t.
Proof.
  intros N. destruct (oncc_cases t) as [(p & d & D & E & _)|[_ H]]; [|exact H].
  elim N. rewrite E. now apply ends_cc_intro.
Qed.
Lemma plain_str s : forallb plainb (str s) = true -> Forall plain (str s).
Proof. apply plainb_ok. Qed.
(** After the first block the name does not end with _cc and a number. *)
Lemma oncc_after t : lower t -> lower (oncc_block t) /\ ~ ends_cc (c_str (oncc_block t)).
Proof.
  intros Lo. destruct (oncc_cases t) as [(p & d & D & E & ->)|[N ->]]; [|now split].
  pose proof (c_str_plain t Lo) as P. rewrite E in P. apply Forall_app in P. destruct P as [P1 P2]. apply Forall_app in P2. destruct P2 as [_ P2].
  assert (P : Forall plain (p ++ str "_oncc" ++ d)).
  { apply Forall_app. split; [exact P1|]. apply Forall_app. split; [now apply plain_str|exact P2]. }
  split; [now apply plain_lower|]. rewrite c_str_id by exact P. intros (e & _ & H).
  rewrite !lastpart_app, (lastpart_digits d) in H by apply D. discriminate.
Qed.

(** ** The second block *)

Lemma fil_random n : Forall (fun c => 48 <= c <= 57) n -> n <> [] -> normal (str "fil" ++ n ++ str "_random") /\
  ~ ends_cc (str "fil" ++ n ++ str "_random") /\ solid' (str "fil" ++ n ++ str "_random").
Proof.
  intros F N. assert (D : is_digits n) by now split. clear F N.
  assert (K : good (str "cutoff_random") (str "fil" ++ n ++ str "_random")).
  { unfold good. open_digits. cbn [app]. split; [unfold normal; no_match|]. split; [cc_solve|solid_solve]. }
  destruct K as (K1 & K2 & K3). split; [exact K1|]. split.
  - intros X. apply K2 in X. destruct X as (d & _ & X). discriminate.
  - apply K3. split; reflexivity.
Qed.

(** What the second block makes of a name without NUL bytes. *)
Lemma region_after fuel t : lower t -> ~ ends_cc (c_str t) ->
  exists u, region_block (S fuel) t = Some u /\ lower u /\ normal (c_str u) /\ ~ ends_cc (c_str u) /\
    (c_str t = t -> solid' t -> solid' u /\ c_str u = u).
Proof.
  intros Lo N.
  assert (Ra : forall f v, lower v -> match first_rule region_rules v with
    | None => region_block f v = Some v
    | Some (v', false) => region_block f v = Some v'
    | Some (v', true) => region_block (S f) v = region_block f v' end).
  { intros f v _. destruct (first_rule region_rules v) as [[v' []]|] eqn:E.
    - cbn [region_block]. now rewrite E.
    - destruct f; cbn [region_block]; now rewrite E.
    - destruct f; cbn [region_block]; now rewrite E. }
  pose proof (Ra fuel t Lo) as R1. pose proof (Ra (S fuel) t Lo) as R2.
  destruct (first_rule region_rules t) as [[u []]|] eqn:E.
  - rewrite first_rule_try in E. pose proof (rules_plain _ _ _ _ (eq_refl : lits_plain region_rules = true) E (c_str_plain t Lo)) as Pu.
    apply rule_good in E. destruct E as (n & Fn & ->). rewrite R1.
    destruct n as [|c n].
    + exists (str "fil1_random").
      assert (Q : region_block fuel (str "fil" ++ [] ++ str "_random") = Some (str "fil1_random")).
      { destruct fuel; vm_compute; reflexivity. }
      split; [exact Q|]. split; [apply plain_lower, plain_str; reflexivity|]. split; [vm_compute; reflexivity|].
      split; [intros (d & _ & X); vm_compute in X; discriminate|]. intros _ _. split; [split; reflexivity|reflexivity].
    + destruct (fil_random (c :: n) Fn ltac:(discriminate)) as (X & Y & W).
      exists (str "fil" ++ (c :: n) ++ str "_random"). pose proof (c_str_id _ Pu) as Cu.
      assert (Q : region_block fuel (str "fil" ++ (c :: n) ++ str "_random") = Some (str "fil" ++ (c :: n) ++ str "_random")).
      { pose proof (Ra fuel _ (plain_lower _ Pu)) as R. rewrite first_rule_try, Cu, X in R. exact R. }
      rewrite Cu. split; [exact Q|]. split; [now apply plain_lower|]. split; [exact X|]. split; [exact Y|]. intros _ _. now split.
  - rewrite first_rule_try in E. pose proof (rules_plain _ _ _ _ (eq_refl : lits_plain region_rules = true) E (c_str_plain t Lo)) as Pu.
    apply rule_good in E. destruct E as (X & Y & W). exists u. rewrite (c_str_id _ Pu).
    split; [exact R2|]. split; [now apply plain_lower|]. split; [exact X|]. split; [intros H; apply N, Y, H|].
    intros Et Ht. split; [|reflexivity]. apply W. now rewrite Et.
  - rewrite first_rule_try in E. exists t. split; [exact R2|]. split; [exact Lo|]. split; [exact E|]. split; [exact N|]. now split.
Qed.
