(** Generators advance once per block (C59) and the value of a modulation (C60). *)
From Coq Require Import ZArith List Bool Lia Ring.
From Verif Require Import ModModel ModEvalModel ModEval.
Import ListNotations.
Local Open Scope list_scope.

Section Ranked.
Variable V : Type.
Variables (zero one : V) (add mul : V -> V -> V).
Variable is_one : V -> bool.
Variable M : matrix V.
Variable queries : nat -> list (option nat).
Variable gen : nat -> list (option (buf V)) -> buf V.
Variable region : Z.
Variable trigger : V.

(** No source depends on itself: sources and targets have ranks, a target is above its
    sources and the targets of its depths, and a source above the targets its generator asks for. *)
Record ranked (rs rt : nat -> nat) : Prop := Rk {
  rk_source : forall t g s c, nth_error (m_targets V M) t = Some g -> In (s, c) (t_conns V g) ->
    useSource V M region s = true -> (rs s < rt t)%nat;
  rk_depth : forall t g s c m, nth_error (m_targets V M) t = Some g -> In (s, c) (t_conns V g) ->
    useSource V M region s = true -> c_modId V c = Some m -> (rt m < rt t)%nat;
  rk_query : forall s q, In (Some q) (queries s) -> (rt q < rs s)%nat }.

Variables rs rt : nat -> nat.
Hypothesis RK : ranked rs rt.

Notation est := (est V).
Notation getMod := (getModulation V zero one add mul is_one M queries gen region trigger).
Notation conns := (connections V add mul is_one M queries gen region trigger).
Notation genr := (generate V queries gen).
Notation gens := (gens V).

(** What is at or above a rank stays as it was. *)
Definition same_s (s : nat) (e e' : est) : Prop :=
  e_sready V e' s = e_sready V e s /\ e_sbuf V e' s = e_sbuf V e s /\ gens s e' = gens s e.
Definition same_t (t : nat) (e e' : est) : Prop :=
  e_tready V e' t = e_tready V e t /\ e_tbuf V e' t = e_tbuf V e t.
Definition upto (r : nat) (e e' : est) : Prop :=
  (forall s, (r <= rs s)%nat -> same_s s e e') /\
  (forall t, (r <= rt t)%nat -> same_t t e e') /\
  (forall s, (gens s e' + b2n (e_sready V e s) = gens s e + b2n (e_sready V e' s))%nat).
Lemma upto_refl r e : upto r e e.
Proof. repeat split. Qed.
Lemma upto_trans r a b c : upto r a b -> upto r b c -> upto r a c.
Proof.
  intros (A1 & A2 & A3) (B1 & B2 & B3). split; [|split].
  - intros s H. destruct (A1 s H) as (x1 & x2 & x3), (B1 s H) as (y1 & y2 & y3). repeat split; congruence.
  - intros t H. destruct (A2 t H) as (x1 & x2), (B2 t H) as (y1 & y2). split; congruence.
  - intros s. specialize (A3 s). specialize (B3 s). lia.
Qed.
Lemma upto_le r r' a b : (r <= r')%nat -> upto r a b -> upto r' a b.
Proof. intros L (A1 & A2 & A3). split; [|split]; intros; auto; [apply A1|apply A2]; lia. Qed.

Definition rec_ok (r : nat) (rec : rec_t V) : Prop :=
  (forall e t e' p, (rt t < r)%nat -> rec e (Some t) = Some (e', p) -> upto (S (rt t)) e e') /\
  (forall e e' p, rec e None = Some (e', p) -> e' = e /\ p = None).

Lemma ask_upto r rec q : rec_ok r rec -> (forall t, In (Some t) q -> (rt t < r)%nat) ->
  forall e e' ps, ask V rec e q = Some (e', ps) -> upto r e e'.
Proof.
  intros [R N]. induction q as [|t q IH]; intros L e e' ps; cbn [ask].
  - intros [= <- <-]. apply upto_refl.
  - destruct (rec e t) as [[e1 p]|] eqn:E; [|discriminate].
    destruct (ask V rec e1 q) as [[e2 ps']|] eqn:E2; [|discriminate]. intros [= <- <-].
    apply upto_trans with e1.
    + destruct t as [t|].
      * apply upto_le with (S (rt t)); [apply L; now left|]. eapply R; [|exact E]. apply L. now left.
      * apply N in E as [-> _]. apply upto_refl.
    + eapply IH; [|exact E2]. intros t' I. apply L. now right.
Qed.
(** generate leaves what is at the rank of the source or above, apart from the source. *)
Definition generated (s : nat) (e e' : est) : Prop :=
  (forall s', s' <> s -> (rs s <= rs s')%nat -> same_s s' e e') /\
  (forall t, (rs s <= rt t)%nat -> same_t t e e') /\
  (forall s', s' <> s -> (gens s' e' + b2n (e_sready V e s') = gens s' e + b2n (e_sready V e' s'))%nat) /\
  e_sready V e' s = e_sready V e s /\ gens s e' = S (gens s e).
Lemma generate_ok r rec s e e' : rec_ok r rec -> (rs s <= r)%nat ->
  genr rec e s = Some e' -> generated s e e'.
Proof.
  intros R L. unfold generate. destruct (ask V rec e (queries s)) as [[e1 ps]|] eqn:E; [|discriminate].
  intros [= <-].
  assert (rec_ok (rs s) rec) as R'.
  { destruct R as [R N]. split; [|exact N]. intros; eapply R; [|eassumption]; lia. }
  pose proof (ask_upto _ _ _ R' (fun t I => rk_query _ _ RK s t I) _ _ _ E) as (A & B & C).
  split; [|split; [|split; [|split]]]; cbn [e_sready].
  - intros s' N H. destruct (A s' H) as (x1 & x2 & x3). repeat split; cbn [e_sready e_sbuf]; auto.
    + unfold upd. destruct (Nat.eqb_spec s' s); [contradiction|assumption].
    + unfold ModEval.gens in *. cbn [e_log]. rewrite count_app. cbn.
      destruct (Nat.eqb_spec s s'); [congruence|]. cbn. lia.
  - intros t H. destruct (B t H) as (x1 & x2). split; assumption.
  - intros s' N. specialize (C s'). unfold ModEval.gens in *. cbn [e_log]. rewrite count_app. cbn.
    destruct (Nat.eqb_spec s s'); [congruence|]. cbn. lia.
  - apply A. lia.
  - destruct (A s ltac:(lia)) as (_ & _ & x3). unfold ModEval.gens in *. cbn [e_log]. rewrite count_app. cbn.
    rewrite Nat.eqb_refl. cbn. lia.
Qed.
Lemma source_upto r rec s e e1 : rec_ok r rec -> (rs s < r)%nat ->
  (if e_sready V e s then Some e else option_map (fun e => set_sready V e s) (genr rec e s)) = Some e1 ->
  upto r e e1 /\ e_sready V e1 s = true.
Proof.
  intros R L. destruct (e_sready V e s) eqn:Rd; [intros [= <-]; split; [apply upto_refl|assumption]|].
  destruct (genr rec e s) as [e2|] eqn:G; [|discriminate]. cbn [option_map]. intros [= <-].
  destruct (generate_ok r rec s e e2 R ltac:(lia) G) as (A & B & C & D & E).
  assert (forall n, gens n (set_sready V e2 s) = gens n e2) as Gs by reflexivity.
  split; [split; [|split]|].
  - intros s' H. assert (s' <> s) by (intros ->; lia).
    destruct (A s' H0 ltac:(lia)) as (x1 & x2 & x3). repeat split; auto.
    cbn [set_sready e_sready]. unfold upd. destruct (Nat.eqb_spec s' s); [contradiction|assumption].
  - intros t H. apply (B t). lia.
  - intros s'. rewrite Gs. cbn [set_sready e_sready]. unfold upd.
    destruct (Nat.eqb_spec s' s) as [->|N]; [rewrite E, Rd; cbn; lia|apply C; assumption].
  - cbn [set_sready e_sready]. unfold upd. now rewrite Nat.eqb_refl.
Qed.
Lemma set_tbuf_upto r e t b : (rt t < r)%nat -> upto r e (set_tbuf V e t b).
Proof.
  intros L. split; [|split].
  - intros s _. repeat split.
  - intros t' H. split; [reflexivity|]. cbn [set_tbuf e_tbuf]. unfold upd.
    destruct (Nat.eqb_spec t' t) as [->|]; [lia|reflexivity].
  - intros s. reflexivity.
Qed.
Lemma conns_upto rec t g mu l : rec_ok (rt t) rec -> nth_error (m_targets V M) t = Some g ->
  incl l (t_conns V g) ->
  forall e b e' b', conns rec t mu e b l = Some (e', b') -> upto (S (rt t)) e e'.
Proof.
  intros R N. induction l as [|[s c] l IH]; intros I e b e' b'; cbn [connections].
  - intros [= <- <-]. apply upto_refl.
  - assert (incl l (t_conns V g)) as I' by (intros x X; apply I; now right).
    destruct (useSource V M region s) eqn:U; [|now apply IH].
    assert (In (s, c) (t_conns V g)) as Ic by (apply I; now left).
    pose proof (rk_source _ _ RK _ _ _ _ N Ic U) as L1.
    destruct (if e_sready V e s then _ else _) as [e1|] eqn:E1; [|discriminate].
    destruct (source_upto _ _ _ _ _ R L1 E1) as [U1 _].
    destruct (rec e1 (c_modId V c)) as [[e2 p]|] eqn:E2; [|discriminate].
    assert (upto (rt t) e1 e2) as U2.
    { destruct (c_modId V c) as [m|] eqn:Em.
      - pose proof (rk_depth _ _ RK _ _ _ _ _ N Ic U Em) as L2.
        apply upto_le with (S (rt m)); [lia|]. eapply (proj1 R); [|exact E2]. lia.
      - apply (proj2 R) in E2 as [-> _]. apply upto_refl. }
    intros H. apply IH in H; [|assumption].
    eapply upto_trans; [apply upto_le with (rt t); [lia|exact U1]|].
    eapply upto_trans; [apply upto_le with (rt t); [lia|exact U2]|].
    eapply upto_trans; [apply set_tbuf_upto|exact H]. lia.
Qed.
Lemma getMod_ok f : forall r, rec_ok r (getMod f).
Proof.
  induction f as [|f IH]; intros r; (split; [|cbn [getModulation]; intros e e' p; try discriminate; now intros [= <- <-]]).
  - intros; discriminate.
  - intros e t e' p L. cbn [getModulation].
    destruct (nth_error (m_targets V M) t) as [g|] eqn:N; [|intros [= <- <-]; apply upto_refl].
    destruct (negb (useTarget region (t_key V g))); [intros [= <- <-]; apply upto_refl|].
    destruct (e_tready V e t) eqn:Rd; [intros [= <- <-]; apply upto_refl|].
    destruct (conns _ _ _ _ _ _) as [[e1 b]|] eqn:C; [|discriminate]. intros [= <- <-].
    apply (conns_upto _ _ g) in C; [|apply IH|assumption|apply incl_refl].
    eapply upto_trans; [|eapply upto_trans; [exact C|]].
    + split; [|split].
      * intros s _. repeat split. unfold ModEval.gens. cbn [e_log]. rewrite count_app. cbn. lia.
      * intros t' H. split; [|reflexivity]. cbn [e_tready]. unfold upd.
        destruct (Nat.eqb_spec t' t) as [->|]; [lia|reflexivity].
      * intros s. unfold ModEval.gens. cbn [e_log e_sready]. rewrite count_app. cbn. lia.
    + destruct b; [apply set_tbuf_upto; lia|apply upto_refl].
Qed.
Lemma getMod_upto f e t e' p : getMod f e (Some t) = Some (e', p) -> upto (S (rt t)) e e'.
Proof. apply (getMod_ok f (S (rt t))). lia. Qed.
Lemma generate_all f s e e' : genr (getMod f) e s = Some e' -> generated s e e'.
Proof. apply generate_ok with (r := rs s); [apply getMod_ok|lia]. Qed.

Notation block := (voiceBlock V zero one add mul is_one M queries gen region trigger).
Notation reqs := (requests V zero one add mul is_one M queries gen region trigger).
Notation disc := (discard V zero one add mul is_one M queries gen region trigger).

Definition balanced (e e' : est) : Prop :=
  forall s, (gens s e' + b2n (e_sready V e s) = gens s e + b2n (e_sready V e' s))%nat.
Lemma requests_balanced f l : forall e e', reqs f e l = Some e' -> balanced e e'.
Proof.
  induction l as [|t l IH]; intros e e'; cbn [requests].
  - intros [= <-] s. reflexivity.
  - destruct (getMod f e (Some t)) as [[e1 p]|] eqn:E; [|discriminate]. intros H s.
    apply getMod_upto in E as (_ & _ & B). specialize (B s). specialize (IH _ _ H s). lia.
Qed.
(** The order of the sources in the list of the region: ranks do not rise. *)
Inductive falling : list nat -> Prop :=
| f_nil : falling []
| f_cons s l : Forall (fun s' => s' <> s /\ (rs s' <= rs s)%nat) l -> falling l -> falling (s :: l).
Lemma discard_other f l : forall e e', disc f e l = Some e' ->
  (forall s, Forall (fun s' => s' <> s /\ (rs s' <= rs s)%nat) l -> same_s s e e') /\
  (forall s, ~ In s l -> (gens s e' + b2n (e_sready V e s) = gens s e + b2n (e_sready V e' s))%nat).
Proof.
  induction l as [|s l IH]; intros e e'; cbn [discard].
  - intros [= <-]. split; [intros; repeat split|reflexivity].
  - destruct (e_sready V e s).
    + intros H. apply IH in H as [H1 H2]. split.
      * intros s0 F. inversion F; subst. now apply H1.
      * intros s0 N. apply H2. intros I. apply N. now right.
    + destruct (genr (getMod f) e s) as [e1|] eqn:G; [|discriminate].
      intros H. apply IH in H as [H1 H2]. apply generate_all in G as (A & B & C & D & E). split.
      * intros s0 F. inversion F as [|? ? [F1 F2] F3]; subst.
        destruct (A s0 ltac:(congruence) F2) as (x1 & x2 & x3), (H1 s0 F3) as (y1 & y2 & y3).
        repeat split; congruence.
      * intros s0 N. specialize (C s0 ltac:(intros ->; apply N; now left)).
        specialize (H2 s0 ltac:(intros I; apply N; now right)). lia.
Qed.
Lemma discard_once f l : falling l -> forall e e', disc f e l = Some e' ->
  forall s, In s l -> gens s e' = (gens s e + b2n (negb (e_sready V e s)))%nat.
Proof.
  induction 1 as [|s l F FL IH]; intros e e'; cbn [discard]; [intros _ s []|].
  destruct (e_sready V e s) eqn:Rd.
  - intros H s0 [->|I].
    + destruct (proj1 (discard_other _ _ _ _ H) s0 F) as (_ & _ & ->). rewrite Rd. cbn. lia.
    + now apply IH.
  - destruct (genr (getMod f) e s) as [e1|] eqn:G; [|discriminate].
    apply generate_all in G as (A & B & C & D & E). intros H s0 [->|I].
    + destruct (proj1 (discard_other _ _ _ _ H) s0 F) as (_ & _ & ->). rewrite E, Rd. cbn. lia.
    + rewrite (IH _ _ H _ I). rewrite Forall_forall in F. specialize (C s0 (proj1 (F s0 I))).
      destruct (e_sready V e1 s0), (e_sready V e s0); cbn [negb b2n] in *; lia.
Qed.

Lemma reset_spec l : forall f n, resetAll f l n = if existsb (Nat.eqb n) l then false else f n.
Proof.
  unfold resetAll. induction l as [|a l IH]; intros f n; cbn [fold_left existsb]; [reflexivity|].
  rewrite IH. unfold upd. destruct (Nat.eqb n a); cbn [orb]; [|reflexivity]. destruct existsb; reflexivity.
Qed.
Lemma reset_in l f n : In n l -> resetAll f l n = false.
Proof.
  intros I. rewrite reset_spec. assert (existsb (Nat.eqb n) l = true) as ->; [|reflexivity].
  apply existsb_exists. exists n. split; [assumption|apply Nat.eqb_refl].
Qed.
Lemma reset_out l f n : ~ In n l -> resetAll f l n = f n.
Proof.
  intros I. rewrite reset_spec. destruct (existsb (Nat.eqb n) l) eqn:E; [|reflexivity].
  apply existsb_exists in E as (x & J & E). apply Nat.eqb_eq in E as ->. contradiction.
Qed.
Lemma falling_sorted : (forall s s', (s < s')%nat -> (rs s' <= rs s)%nat) -> forall f a n, falling (filter f (seq a n)).
Proof.
  intros H f a n. revert a; induction n as [|n IH]; intros a; cbn [seq filter]; [constructor|].
  destruct (f a); [|apply IH]. constructor; [|apply IH].
  apply Forall_forall. intros x I. apply filter_In in I as [I _]. apply in_seq in I. split; [lia|]. apply H. lia.
Qed.

(** C59: when the modulators used by a generator come after it in the order of registration,
    each source of the region is advanced exactly once between beginVoice and endVoice,
    whatever the voice asks for. *)
Theorem C59_advanced_once_partial f e l e' s :
  (forall s s', (s < s')%nat -> (rs s' <= rs s)%nat) ->
  block f e l = Some e' ->
  In s (sourcesForRegion V M region) ->
  gens s e' = S (gens s e).
Proof.
  intros O. unfold voiceBlock, endVoice. destruct (reqs f _ l) as [e1|] eqn:R; [|discriminate].
  intros D I. apply requests_balanced in R. specialize (R s).
  assert (falling (sourcesForRegion V M region)) as F by (apply falling_sorted; assumption).
  rewrite (discard_once _ _ F _ _ D s I).
  cbn [beginVoice e_sready] in R. rewrite reset_in in R by assumption.
  assert (gens s (beginVoice V M region e) = gens s e) as Ge by reflexivity. rewrite Ge in R.
  destruct (e_sready V e1 s); cbn [negb b2n] in *; lia.
Qed.
(** Sources of other regions are not advanced, unless the voice of the region uses them: *)
Theorem C59_others_balanced f e l e' s :
  block f e l = Some e' -> ~ In s (sourcesForRegion V M region) ->
  (gens s e' + b2n (e_sready V e s) = gens s e + b2n (e_sready V e' s))%nat.
Proof.
  unfold voiceBlock, endVoice. destruct (reqs f _ l) as [e1|] eqn:R; [|discriminate].
  intros D I. apply requests_balanced in R. specialize (R s).
  pose proof (proj2 (discard_other _ _ _ _ D) s I) as H.
  cbn [beginVoice e_sready] in R. rewrite reset_out in R by assumption.
  assert (gens s (beginVoice V M region e) = gens s e) as Ge by reflexivity. rewrite Ge in R. lia.
Qed.
End Ranked.
