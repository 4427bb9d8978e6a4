(** Evaluation of the modulation matrix: termination, and what is computed once (C28, C59). *)
From Coq Require Import ZArith List Bool Lia.
From Verif Require Import ModModel ModEvalModel.
Import ListNotations.
Local Open Scope list_scope.

Definition b2n (b : bool) : nat := if b then 1 else 0.
Definition is_gen (s : nat) (e : event) : bool := match e with Generate n => Nat.eqb n s | _ => false end.
Definition is_comp (t : nat) (e : event) : bool := match e with Compute n => Nat.eqb n t | _ => false end.
Definition count (f : event -> bool) (l : list event) : nat := length (filter f l).
Lemma count_app f a b : count f (a ++ b) = (count f a + count f b)%nat.
Proof. unfold count. now rewrite filter_app, app_length. Qed.

Section Any.
Variable V : Type.
Variables (zero one : V) (add mul : V -> V -> V).
Variable is_one : V -> bool.
Variable M : matrix V.
Variable queries : nat -> list (option nat).
Variable gen : nat -> list (option (buf V)) -> buf V.
Variable region : Z.
Variable trigger : V.

Notation est := (est V).
Notation getMod := (getModulation V zero one add mul is_one M queries gen region trigger).
Notation conns := (connections V add mul is_one M queries gen region trigger).
Notation genr := (generate V queries gen).
Notation nT := (length (m_targets V M)).

(** How often generate is called for a source, and a target is computed. *)
Definition gens (s : nat) (e : est) : nat := count (is_gen s) (e_log V e).
Definition comps (t : nat) (e : est) : nat := count (is_comp t) (e_log V e).
(** Targets that are not ready. *)
Definition unready (e : est) : nat := length (filter (fun t => negb (e_tready V e t)) (seq 0 nT)).

(** What every piece of the evaluation does with the flags of targets. *)
Definition grows (e e' : est) : Prop :=
  (forall t, e_tready V e t = true -> e_tready V e' t = true) /\
  (forall t, (comps t e' + b2n (e_tready V e t) = comps t e + b2n (e_tready V e' t))%nat) /\
  (forall s, e_sready V e s = true -> e_sready V e' s = true).
Lemma grows_refl e : grows e e.
Proof. repeat split; auto. Qed.
Lemma grows_trans a b c : grows a b -> grows b c -> grows a c.
Proof.
  intros (A1 & A2 & A3) (B1 & B2 & B3). repeat split; auto.
  intros t. specialize (A2 t). specialize (B2 t). lia.
Qed.
Lemma filter_le {A} (f g : A -> bool) l : (forall x, f x = true -> g x = true) ->
  (length (filter f l) <= length (filter g l))%nat.
Proof.
  intros H. induction l as [|x l IH]; cbn [filter]; [lia|].
  destruct (f x) eqn:F; [rewrite (H _ F); cbn [length]; lia|].
  destruct (g x); cbn [length]; lia.
Qed.
Lemma grows_unready e e' : grows e e' -> (unready e' <= unready e)%nat.
Proof.
  intros (A & _). apply filter_le. intros t. rewrite !negb_true_iff. intros H.
  destruct (e_tready V e t) eqn:E; [|reflexivity]. apply A in E. congruence.
Qed.

Definition total (f : nat) (rec : rec_t V) : Prop :=
  forall e t, (unready e < f)%nat -> exists e' p, rec e t = Some (e', p) /\ grows e e'.

Lemma ask_total f rec q : total f rec -> forall e, (unready e < f)%nat ->
  exists e' ps, ask V rec e q = Some (e', ps) /\ grows e e'.
Proof.
  intros T. induction q as [|t q IH]; intros e U; cbn [ask].
  - exists e, []. split; [reflexivity|apply grows_refl].
  - destruct (T e t U) as (e1 & p & -> & G). pose proof (grows_unready _ _ G).
    destruct (IH e1) as (e2 & ps & -> & G2); [lia|].
    exists e2, (p :: ps). split; [reflexivity|]. eapply grows_trans; eassumption.
Qed.
Lemma generate_total f rec s : total f rec -> forall e, (unready e < f)%nat ->
  exists e', genr rec e s = Some e' /\ grows e e'.
Proof.
  intros T e U. unfold generate. destruct (ask_total f rec (queries s) T e U) as (e1 & ps & -> & G).
  eexists. split; [reflexivity|]. destruct G as (A & B & C). repeat split; cbn [e_tready e_sready]; auto.
  intros t. specialize (B t). unfold comps in *. cbn [e_log]. rewrite count_app. cbn. lia.
Qed.
Lemma conns_total f rec t mu l : total f rec -> forall e b, (unready e < f)%nat ->
  exists e' b', conns rec t mu e b l = Some (e', b') /\ grows e e'.
Proof.
  intros T. induction l as [|[s c] l IH]; intros e b U; cbn [connections].
  - exists e, b. split; [reflexivity|apply grows_refl].
  - destruct (useSource V M region s); [|apply IH; assumption].
    assert (exists e1, (if e_sready V e s then Some e
               else option_map (fun e => set_sready V e s) (genr rec e s)) = Some e1 /\ grows e e1) as (e1 & -> & G1).
    { destruct (e_sready V e s); [exists e; split; [reflexivity|apply grows_refl]|].
      destruct (generate_total f rec s T e U) as (e1 & -> & G). cbn [option_map].
      eexists. split; [reflexivity|]. eapply grows_trans; [exact G|].
      repeat split; cbn [set_sready e_tready e_sready]; auto.
      intros s' H. unfold upd. destruct (Nat.eqb s' s); auto. }
    pose proof (grows_unready _ _ G1).
    destruct (T e1 (c_modId V c)) as (e2 & p & -> & G2); [lia|].
    pose proof (grows_unready _ _ G2).
    set (e3 := set_tbuf _ _ _ _).
    assert (grows e2 e3) as G3 by (repeat split; auto).
    pose proof (grows_unready _ _ G3).
    destruct (IH e3 false) as (e4 & b' & -> & G4); [lia|].
    exists e4, b'. split; [reflexivity|]. eauto using grows_trans.
Qed.

Lemma filter_upd_lt f l t : In t l -> NoDup l -> f t = false ->
  (length (filter (fun n => negb (upd f t true n)) l) < length (filter (fun n => negb (f n)) l))%nat.
Proof.
  induction l as [|x l IH]; intros I N F; [destruct I|]. inversion N as [|? ? Nx Nl]; subst.
  cbn [filter]. destruct I as [->|I].
  - unfold upd at 1. rewrite Nat.eqb_refl, F. cbn [negb length].
    assert (length (filter (fun n => negb (upd f t true n)) l) <= length (filter (fun n => negb (f n)) l))%nat.
    { apply filter_le. intros y. unfold upd. destruct (Nat.eqb y t); [discriminate|auto]. }
    lia.
  - specialize (IH I Nl F). unfold upd at 1.
    destruct (Nat.eqb_spec x t) as [->|]; [contradiction|].
    destruct (negb (f x)); cbn [length]; lia.
Qed.
Lemma getMod_total fuel : total fuel (getMod fuel).
Proof.
  induction fuel as [|f IH]; intros e t U; [lia|].
  cbn [getModulation]. destruct t as [t|]; [|exists e, None; split; [reflexivity|apply grows_refl]].
  destruct (nth_error (m_targets V M) t) as [g|] eqn:N; [|exists e, None; split; [reflexivity|apply grows_refl]].
  destruct (negb (useTarget region (t_key V g))); [exists e, None; split; [reflexivity|apply grows_refl]|].
  destruct (e_tready V e t) eqn:R; [exists e, (Some t); split; [reflexivity|apply grows_refl]|].
  set (e0 := Est V _ _ _ _ _).
  assert (grows e e0) as G0.
  { repeat split; subst e0; cbn [e_tready e_sready]; auto.
    - intros n H. unfold upd. destruct (Nat.eqb n t); auto.
    - intros n. unfold comps. cbn [e_log]. rewrite count_app. unfold upd. cbn.
      rewrite (Nat.eqb_sym t n). destruct (Nat.eqb_spec n t) as [->|]; cbn; [rewrite R; cbn; lia|lia]. }
  assert (unready e0 < f)%nat as U0.
  { assert (unready e0 < unready e)%nat; [|lia].
    apply (filter_upd_lt (e_tready V e) (seq 0 nT) t); [|apply seq_NoDup|assumption].
    apply in_seq. split; [lia|]. cbn. apply nth_error_Some. congruence. }
  destruct (conns_total f (getMod f) t (isMul (t_key V g)) (t_conns V g) IH e0 true U0) as (e1 & b & -> & G1).
  eexists _, (Some t). split; [reflexivity|]. eapply grows_trans; [exact G0|].
  eapply grows_trans; [exact G1|]. destruct b; repeat split; auto.
Qed.

(** C28: for every matrix, every behaviour of the generators and every state, a fuel of one
    more than the number of targets suffices, so the recursion ends. *)
Theorem C28_evaluation_terminates e t :
  exists e' p, getMod (S nT) e t = Some (e', p).
Proof.
  assert (unready e < S nT)%nat as U.
  { unfold unready. pose proof (filter_le (fun t => negb (e_tready V e t)) (fun _ => true) (seq 0 nT) ltac:(auto)) as F.
    assert (filter (fun _ : nat => true) (seq 0 nT) = seq 0 nT) as E.
    { clear. induction (seq 0 nT); cbn; congruence. }
    rewrite E, seq_length in F. lia. }
  destruct (getMod_total (S nT) e t U) as (e' & p & H & _). eauto.
Qed.

(** More fuel does not change the outcome. *)
Definition below (rec rec' : rec_t V) : Prop :=
  forall e t r, rec e t = Some r -> rec' e t = Some r.
Lemma ask_mono rec rec' q : below rec rec' -> forall e r, ask V rec e q = Some r -> ask V rec' e q = Some r.
Proof.
  intros B. induction q as [|t q IH]; intros e r; cbn [ask]; [auto|].
  destruct (rec e t) as [[e1 p]|] eqn:E; [|discriminate]. rewrite (B _ _ _ E).
  destruct (ask V rec e1 q) as [[e2 ps]|] eqn:E2; [|discriminate]. rewrite (IH _ _ E2). auto.
Qed.
Lemma generate_mono rec rec' s : below rec rec' -> forall e r, genr rec e s = Some r -> genr rec' e s = Some r.
Proof.
  intros B e r. unfold generate. destruct (ask V rec e (queries s)) as [[e1 ps]|] eqn:E; [|discriminate].
  now rewrite (ask_mono _ _ _ B _ _ E).
Qed.
Lemma conns_mono rec rec' t mu l : below rec rec' ->
  forall e b r, conns rec t mu e b l = Some r -> conns rec' t mu e b l = Some r.
Proof.
  intros B. induction l as [|[s c] l IH]; intros e b r; cbn [connections]; [auto|].
  destruct (useSource V M region s); [|apply IH].
  destruct (e_sready V e s).
  - destruct (rec e (c_modId V c)) as [[e2 p]|] eqn:E2; [|discriminate]. rewrite (B _ _ _ E2). apply IH.
  - destruct (genr rec e s) as [e1|] eqn:E1; [|discriminate]. rewrite (generate_mono _ _ _ B _ _ E1).
    cbn [option_map].
    destruct (rec (set_sready V e1 s) (c_modId V c)) as [[e2 p]|] eqn:E2; [|discriminate].
    rewrite (B _ _ _ E2). apply IH.
Qed.
Lemma getMod_mono f f' : (f <= f')%nat -> below (getMod f) (getMod f').
Proof.
  revert f'; induction f as [|f IH]; intros f' L e t r; [discriminate|].
  destruct f' as [|f']; [lia|]. cbn [getModulation].
  destruct t as [t|]; [|auto]. destruct (nth_error (m_targets V M) t) as [g|]; [|auto].
  destruct (negb (useTarget region (t_key V g))); [auto|].
  destruct (e_tready V e t); [auto|].
  destruct (conns (getMod f) t (isMul (t_key V g)) _ true (t_conns V g)) as [[e1 b]|] eqn:E; [|discriminate].
  rewrite (conns_mono (getMod f) (getMod f') _ _ _ (IH f' ltac:(lia)) _ _ _ E). auto.
Qed.
Lemma getMod_grows f e t e' p : getMod f e t = Some (e', p) -> grows e e'.
Proof.
  intros H. apply (getMod_mono f (f + S (unready e))) in H; [|lia].
  destruct (getMod_total (f + S (unready e)) e t ltac:(lia)) as (e2 & p2 & E & G). congruence.
Qed.

(** C28: in the requests of a voice and at its end, no target is computed twice, whatever the graph. *)
Notation block := (voiceBlock V zero one add mul is_one M queries gen region trigger).
Notation reqs := (requests V zero one add mul is_one M queries gen region trigger).
Notation disc := (discard V zero one add mul is_one M queries gen region trigger).

Lemma requests_grows f l : forall e e', reqs f e l = Some e' -> grows e e'.
Proof.
  induction l as [|t l IH]; intros e e'; cbn [requests].
  - intros [= <-]. apply grows_refl.
  - destruct (getMod f e (Some t)) as [[e1 p]|] eqn:E; [|discriminate]. intros H.
    eapply grows_trans; [eapply getMod_grows, E|now apply IH].
Qed.
Lemma generate_grows f s e e' : genr (getMod f) e s = Some e' -> grows e e'.
Proof.
  intros H. apply (generate_mono (getMod f) (getMod (f + S (unready e)))) in H; [|apply getMod_mono; lia].
  destruct (generate_total _ _ s (getMod_total (f + S (unready e))) e ltac:(lia)) as (e2 & E & G). congruence.
Qed.
Lemma discard_grows f l : forall e e', disc f e l = Some e' -> grows e e'.
Proof.
  induction l as [|s l IH]; intros e e'; cbn [discard].
  - intros [= <-]. apply grows_refl.
  - destruct (e_sready V e s); [apply IH|].
    destruct (genr (getMod f) e s) as [e1|] eqn:E; [|discriminate]. intros H.
    eapply grows_trans; [eapply generate_grows, E|now apply IH].
Qed.
Theorem C28_targets_computed_once f e l e' t :
  block f e l = Some e' -> (comps t e' <= comps t e + 1)%nat.
Proof.
  unfold voiceBlock, endVoice. destruct (reqs f _ l) as [e1|] eqn:R; [|discriminate]. intros D.
  apply requests_grows in R. apply discard_grows in D.
  destruct (grows_trans _ _ _ R D) as (_ & C & _). specialize (C t).
  assert (comps t (beginVoice V M region e) = comps t e) by reflexivity.
  destruct (e_tready V e' t), (e_tready V (beginVoice V M region e) t); cbn [b2n] in C; lia.
Qed.
Lemma requests_total l : forall e, exists e', reqs (S nT) e l = Some e'.
Proof.
  induction l as [|t l IH]; intros e; cbn [requests]; [eauto|].
  destruct (C28_evaluation_terminates e (Some t)) as (e1 & p & ->). apply IH.
Qed.
Lemma discard_total l : forall e, exists e', disc (S nT) e l = Some e'.
Proof.
  induction l as [|s l IH]; intros e; cbn [discard]; [eauto|].
  destruct (e_sready V e s); [apply IH|].
  assert (unready e < S nT)%nat as U.
  { unfold unready. pose proof (filter_le (fun t => negb (e_tready V e t)) (fun _ => true) (seq 0 nT) ltac:(auto)) as F.
    assert (filter (fun _ : nat => true) (seq 0 nT) = seq 0 nT) as E.
    { clear. induction (seq 0 nT); cbn; congruence. }
    rewrite E, seq_length in F. lia. }
  destruct (generate_total _ _ s (getMod_total (S nT)) e U) as (e1 & -> & _). apply IH.
Qed.
Theorem C28_block_terminates e l : exists e', block (S nT) e l = Some e'.
Proof.
  unfold voiceBlock, endVoice. destruct (requests_total l (beginVoice V M region e)) as (e1 & ->).
  apply discard_total.
Qed.
(** A request for a target of the region makes it ready, so that a second one gives the same
    buffer and does nothing. *)
Theorem C28_second_request f e t e' p :
  getMod f e (Some t) = Some (e', p) -> getMod f e' (Some t) = Some (e', p).
Proof.
  intros H. pose proof (getMod_grows _ _ _ _ _ H) as G. destruct f as [|f]; [discriminate|].
  cbn [getModulation] in *. destruct (nth_error (m_targets V M) t) as [g|] eqn:N; [|congruence].
  destruct (negb (useTarget region (t_key V g))); [congruence|].
  destruct (e_tready V e t) eqn:R.
  - injection H as <- <-. now rewrite R.
  - destruct (conns _ _ _ _ _ _) as [[e1 b]|] eqn:C; [|discriminate].
    assert (e_tready V e' t = true) as R'.
    { assert (grows (Est V (e_sready V e) (e_sbuf V e) (upd (e_tready V e) t true) (e_tbuf V e) (e_log V e ++ [Compute t])) e1) as G1.
      { set (e0 := Est V _ _ _ _ _) in *.
        apply (conns_mono (getMod f) (getMod (f + S (unready e0)))) in C; [|apply getMod_mono; lia].
        destruct (conns_total _ _ t (isMul (t_key V g)) (t_conns V g) (getMod_total (f + S (unready e0))) e0 true ltac:(lia))
          as (e2 & b2 & E & G2). congruence. }
      destruct G1 as (A & _). specialize (A t). cbn [e_tready] in A. unfold upd in A at 1.
      rewrite Nat.eqb_refl in A. injection H as <- _. destruct b; cbn [set_tbuf e_tready]; auto. }
    rewrite R'. injection H as _ <-. reflexivity.
Qed.
End Any.
