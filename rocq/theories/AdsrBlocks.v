(** The envelope fills every block, and where blocks may be cut (C33, C34). *)
From Coq Require Import QArith Qround ZArith List Lia Bool.
Import ListNotations.
From Verif Require Import AdsrModel.
Open Scope nat_scope.

Section Blocks.
Variable rnd : Q -> Q.
Notation segment := (segment rnd).
Notation iteration := (iteration rnd).
Notation run := (getBlockInternal rnd).

(** ** Loops *)
Lemma loop_length step n : forall e, length (fst (loop step n e)) <= n.
Proof.
  induction n as [|n IH]; intros e; cbn [loop]; [cbn; lia|].
  destruct (step e) as [[y|] e']; [|cbn; lia]. specialize (IH e'). destruct (loop step n e'). cbn in *. lia.
Qed.
(** A loop that stops by its test stops in the same way when there is more space. *)
Lemma loop_short step a b : forall e,
  length (fst (loop step a e)) < a -> loop step (a + b) e = loop step a e.
Proof.
  induction a as [|a IH]; intros e; cbn [loop plus]; [cbn; lia|].
  destruct (step e) as [[y|] e']; [|reflexivity]. specialize (IH e').
  destruct (loop step a e') as [l e1] eqn:E. cbn. intros L. rewrite IH by (cbn; lia). reflexivity.
Qed.
Lemma loop_full step a b : forall e,
  length (fst (loop step a e)) = a ->
  loop step (a + b) e =
  (fst (loop step a e) ++ fst (loop step b (snd (loop step a e))), snd (loop step b (snd (loop step a e)))).
Proof.
  induction a as [|a IH]; intros e; cbn [loop plus].
  - intros _. cbn. now destruct (loop step b e).
  - destruct (step e) as [[y|] e']; [|cbn; lia]. specialize (IH e').
    destruct (loop step a e') as [l e1] eqn:E. cbn. intros L. rewrite IH by (cbn; lia). reflexivity.
Qed.
Lemma loop_inv (P : env -> Prop) step :
  (forall e y e', P e -> step e = (y, e') -> P e') ->
  forall n e, P e -> P (snd (loop step n e)).
Proof.
  intros H. induction n as [|n IH]; intros e p; cbn [loop]; [assumption|].
  destruct (step e) as [[y|] e'] eqn:E; [|cbn; eapply H; eassumption].
  specialize (IH e' (H _ _ _ p E)). now destruct (loop step n e').
Qed.

(** ** Every call ends *)
Definition mu (e : env) : nat :=
  (7 - rank (e_st e)) + (if (e_rd e =? 0)%Z then 8 else 0) + (if e_rel e then 0 else 16).
Lemma Qltb_false x y : Qltb x y = false -> Qle_bool y x = true.
Proof. unfold Qltb. now destruct (Qle_bool y x). Qed.
Definition same_control (e e' : env) : Prop :=
  e_st e' = e_st e /\ e_rd e' = e_rd e /\ e_rel e' = e_rel e /\ e_sus e' = e_sus e /\ e_thr e' = e_thr e.

Definition proper_thr (e : env) : Prop := (e_sus e <= e_thr e)%Q.
Lemma loop_first step n e : 0 < n -> fst (step e) <> None -> 0 < length (fst (loop step n e)).
Proof.
  destruct n as [|n]; [lia|]. intros _. cbn [loop]. destruct (step e) as [[y|] e']; cbn; [|congruence].
  destruct (loop step n e'). cbn. lia.
Qed.
Lemma loop_none step n e : 0 < n -> fst (step e) = None -> loop step n e = ([], snd (step e)).
Proof. destruct n as [|n]; [lia|]. intros _. cbn [loop]. destruct (step e) as [[y|] e']; cbn; congruence. Qed.

(** A turn of the switch that writes nothing moves on. *)
Lemma segment_moves n e : 0 < n -> proper_thr e ->
  let '(l, e') := segment n e in
  0 < length l \/ (l = [] /\ e_rd e' = e_rd e /\
    ((e_rel e' = e_rel e /\ rank (e_st e) < rank (e_st e') <= 7) \/
     (e_rel e = false /\ e_rel e' = true /\ e_st e' = e_st e))).
Proof.
  intros n0 T. unfold AdsrModel.segment. destruct (e_st e) eqn:St.
  - destruct (fst (stepDelay e)) eqn:F.
    + assert (0 < length (fst (loop stepDelay n e))) by (apply loop_first; congruence).
      destruct (loop stepDelay n e). left. assumption.
    + rewrite loop_none by assumption. unfold stepDelay in *.
      destruct (Z.ltb_spec 0 (e_delay e)); [discriminate|]. cbn.
      unfold afterDelay. cbn. destruct (Z.leb_spec (e_delay e - 1) 0); [|lia]. cbn.
      right. repeat split. left. split; [reflexivity|lia].
  - destruct (fst (stepAttack rnd e)) eqn:F.
    + assert (0 < length (fst (loop (stepAttack rnd) n e))) by (apply loop_first; congruence).
      destruct (loop (stepAttack rnd) n e). left. assumption.
    + rewrite loop_none by assumption. unfold stepAttack in *. cbn in *.
      destruct (Qltb _ 1) eqn:L; [discriminate|]. apply Qltb_false in L.
      unfold afterAttack. cbn. rewrite L. cbn. right. repeat split. left. split; [reflexivity|lia].
  - destruct (fst (stepHold e)) eqn:F.
    + assert (0 < length (fst (loop stepHold n e))) by (apply loop_first; congruence).
      destruct (loop stepHold n e). left. assumption.
    + rewrite loop_none by assumption. unfold stepHold in *. cbn in *.
      destruct (Z.ltb_spec 0 (e_hold e)); [discriminate|].
      unfold afterHold. cbn. destruct (Z.leb_spec (e_hold e - 1) 0); [|lia]. cbn.
      right. repeat split. left. split; [reflexivity|lia].
  - destruct (fst (stepDecay rnd e)) eqn:F.
    + assert (0 < length (fst (loop (stepDecay rnd) n e))) by (apply loop_first; congruence).
      destruct (loop (stepDecay rnd) n e). left. assumption.
    + rewrite loop_none by assumption. unfold stepDecay in *. cbn in *.
      destruct (Qltb (e_sus e) _) eqn:L; [discriminate|]. apply Qltb_false in L.
      unfold afterDecay. cbn.
      assert (Qle_bool (rnd (e_v e * e_drate e)) (e_thr e) = true) as ->.
      { apply Qle_bool_iff. apply Qle_bool_iff in L. eapply Qle_trans; eassumption. }
      cbn. right. repeat split. left. split; [reflexivity|lia].
  - destruct (negb (e_rel e) && e_free e) eqn:R.
    + apply andb_true_iff in R as [R _]. apply negb_true_iff in R. cbn. right. repeat split. right. auto.
    + assert (0 < length (fst (loop (stepSustain rnd) n e))) by (apply loop_first; [lia|discriminate]).
      destruct (loop (stepSustain rnd) n e). left. assumption.
  - destruct (fst (stepRelease rnd e)) eqn:F.
    + assert (0 < length (fst (loop (stepRelease rnd) n e))) by (apply loop_first; congruence).
      destruct (loop (stepRelease rnd) n e). left. assumption.
    + rewrite loop_none by assumption. unfold stepRelease in *. cbn in *.
      destruct (Qltb _ _) eqn:L; [discriminate|]. apply Qltb_false in L.
      unfold afterRelease. cbn. rewrite L. cbn. right. repeat split. left. split; [reflexivity|lia].
  - destruct (fst (stepFadeout rnd e)) eqn:F.
    + assert (0 < length (fst (loop (stepFadeout rnd) n e))) by (apply loop_first; congruence).
      destruct (loop (stepFadeout rnd) n e). left. assumption.
    + rewrite loop_none by assumption. unfold stepFadeout in *. cbn in *.
      destruct (Qltb _ _) eqn:L; [discriminate|]. apply Qltb_false in L.
      unfold afterFadeout. cbn. rewrite L. cbn. right. repeat split. left. split; [reflexivity|lia].
  - left. rewrite repeat_length. assumption.
Qed.

(** Which fields the parts of an iteration leave alone. *)
Definition params (e : env) := (e_sus e, e_thr e, e_free e, e_dyn e, e_rate e, (e_astep e, e_drate e, e_rrate e, e_start e)).
Lemma loop_params step n e : (forall e, params (snd (step e)) = params e) -> params (snd (loop step n e)) = params e.
Proof.
  intros H. apply (loop_inv (fun e' => params e' = params e)); [|reflexivity].
  intros e1 y e2 P E. specialize (H e1). rewrite E in H. cbn in H. congruence.
Qed.
Lemma segment_params n e : params (snd (segment n e)) = params e.
Proof.
  unfold AdsrModel.segment. destruct (e_st e) eqn:St.
  - pose proof (loop_params stepDelay n e) as H. destruct (loop stepDelay n e) as [l e1]. cbn in *.
    rewrite <- H; [|intros; unfold stepDelay; destruct (0 <? _)%Z; reflexivity].
    unfold afterDelay. destruct (_ <=? 0)%Z; reflexivity.
  - pose proof (loop_params (stepAttack rnd) n e) as H. destruct (loop (stepAttack rnd) n e) as [l e1]. cbn in *.
    rewrite <- H; [|reflexivity]. unfold afterAttack. destruct (Qle_bool _ _); reflexivity.
  - pose proof (loop_params stepHold n e) as H. destruct (loop stepHold n e) as [l e1]. cbn in *.
    rewrite <- H; [|reflexivity]. unfold afterHold. destruct (_ <=? 0)%Z; reflexivity.
  - pose proof (loop_params (stepDecay rnd) n e) as H. destruct (loop (stepDecay rnd) n e) as [l e1]. cbn in *.
    rewrite <- H; [|reflexivity]. unfold afterDecay. destruct (Qle_bool _ _); reflexivity.
  - destruct (_ && _); [reflexivity|]. apply loop_params. reflexivity.
  - pose proof (loop_params (stepRelease rnd) n e) as H. destruct (loop (stepRelease rnd) n e) as [l e1]. cbn in *.
    rewrite <- H; [|reflexivity]. unfold afterRelease. destruct (Qle_bool _ _); reflexivity.
  - pose proof (loop_params (stepFadeout rnd) n e) as H. destruct (loop (stepFadeout rnd) n e) as [l e1]. cbn in *.
    rewrite <- H; [|reflexivity]. unfold afterFadeout. destruct (Qle_bool _ _); reflexivity.
  - reflexivity.
Qed.
Lemma pending_params n e : params (snd (pending n e)) = params e.
Proof.
  unfold pending. destruct (e_rel e); [|reflexivity]. destruct (0 <? _)%Z; [reflexivity|].
  destruct (_ && _). { destruct (_ <? 0)%Z; reflexivity. } destruct (_ && _ && _); reflexivity.
Qed.
Lemma iteration_params n e : params (snd (iteration n e)) = params e.
Proof.
  unfold AdsrModel.iteration. pose proof (pending_params n e) as P. destruct (pending n e) as [n1 e1].
  pose proof (segment_params n1 e1) as H. destruct (segment n1 e1) as [l e2]. cbn in *. rewrite <- P, <- H.
  unfold countdown. destruct (e_rel e2); reflexivity.
Qed.
Lemma params_thr e e' : params e' = params e -> proper_thr e -> proper_thr e'.
Proof. unfold params, proper_thr. intros [= -> ->]. auto. Qed.

Lemma segment_length n e : length (fst (segment n e)) <= n.
Proof.
  assert (forall step, length (fst (loop step n e)) <= n) as H by (intros; apply loop_length).
  unfold AdsrModel.segment. destruct (e_st e);
    try (match goal with |- context [loop ?s n e] => specialize (H s); destruct (loop s n e) end; exact H).
  - destruct (_ && _); [cbn; lia|apply H].
  - cbn. now rewrite repeat_length.
Qed.
Lemma pending_size n e : 0 < n -> 0 < fst (pending n e) <= n.
Proof.
  intros n0. unfold pending. destruct (e_rel e); [|cbn; lia].
  destruct (Z.ltb_spec 0 (e_rd e)). { cbn [fst]. destruct (Nat.min_spec n (Z.to_nat (e_rd e))); lia. }
  destruct (_ && _). { destruct (_ <? 0)%Z; cbn; lia. } destruct (_ && _ && _); cbn; lia.
Qed.
Lemma iteration_length n e : 0 < n -> length (fst (iteration n e)) <= n.
Proof.
  intros n0. unfold AdsrModel.iteration. pose proof (pending_size n e n0). destruct (pending n e) as [n1 e1].
  pose proof (segment_length n1 e1) as L. destruct (segment n1 e1). cbn in *. lia.
Qed.
Lemma iteration_moves n e : 0 < n -> proper_thr e ->
  let '(l, e') := iteration n e in 0 < length l \/ mu e' < mu e.
Proof.
  intros n0 T. unfold AdsrModel.iteration.
  pose proof (pending_size n e n0) as P. pose proof (pending_params n e) as PP.
  assert (mu (snd (pending n e)) <= mu e) as M.
  { unfold pending. destruct (e_rel e) eqn:R; [|reflexivity].
    destruct (Z.ltb_spec 0 (e_rd e)); [reflexivity|].
    destruct (Z.eqb_spec (e_rd e) 0) as [Z0|Z0].
    - destruct (e_delay e <=? 0)%Z; cbn [andb].
      + destruct (_ <? 0)%Z; unfold mu; cbn; rewrite Z0; cbn; destruct (e_st e); cbn; lia.
      + replace (e_rd e =? -1)%Z with false by (rewrite Z0; reflexivity). cbn. lia.
    - cbn [andb]. destruct (e_rd e =? -1)%Z; cbn [andb]; [|cbn; lia].
      unfold beforeRelease. destruct (Nat.ltb_spec (rank (e_st e)) 5); cbn [andb]; [|cbn; lia].
      destruct (_ <=? 0)%Z; [|cbn; lia]. unfold mu. cbn [e_st e_rd e_rel set_st rank snd].
      destruct (e_st e); cbn in *; lia. }
  destruct (pending n e) as [n1 e1]. cbn [fst snd] in P, PP, M.
  pose proof (segment_moves n1 e1 ltac:(lia) (params_thr _ _ PP T)) as S.
  destruct (segment n1 e1) as [l e2]. destruct S as [S|(-> & Rd & S)]; [now left|]. right.
  assert (mu e2 < mu e1) as L.
  { unfold mu. rewrite Rd. destruct S as [(Rl & S)|(R1 & R2 & ->)]; [rewrite Rl; lia|].
    rewrite R1, R2. destruct (e_rd e1 =? 0)%Z; cbn iota; lia. }
  unfold countdown. cbn [length]. destruct (e_rel e2) eqn:R2; [|lia].
  assert (mu (set_rd (Z.max (-1) (e_rd e2 - Z.of_nat 0)) e2) <= mu e2) as L2.
  { unfold mu. cbn [e_st e_rd e_rel set_rd Z.of_nat]. destruct (Z.eqb_spec (Z.max (-1) (e_rd e2 - 0)) 0), (Z.eqb_spec (e_rd e2) 0); lia. }
  lia.
Qed.
Lemma mu_le e : mu e <= 31.
Proof. unfold mu. destruct (_ =? 0)%Z, (e_rel e); lia. Qed.
(** C33: every call fills its block. The number of turns of the outer loop is at most 32 per
    frame plus 32, whatever the state. *)
Theorem C33_fills_block n e : proper_thr e ->
  exists l e', run (32 * n + 32) n e = Some (l, e') /\ length l = n.
Proof.
  intros T.
  assert (forall f n e, proper_thr e -> 32 * n + mu e < f -> exists l e', run f n e = Some (l, e') /\ length l = n) as H.
  { clear. induction f as [|f IH]; intros n e T L; [lia|]. cbn [getBlockInternal].
    destruct n as [|n]; [exists [], e; auto|].
    pose proof (iteration_moves (S n) e ltac:(lia) T) as M. pose proof (iteration_length (S n) e ltac:(lia)) as Le.
    pose proof (iteration_params (S n) e) as P.
    destruct (iteration (S n) e) as [l e1]. cbn [fst snd] in *.
    destruct (IH (S n - length l) e1) as (l' & e' & -> & L').
    - eapply params_thr; eassumption.
    - pose proof (mu_le e1). lia.
    - exists (l ++ l'), e'. split; [reflexivity|]. rewrite app_length. lia. }
  apply H; [assumption|]. pose proof (mu_le e). lia.
Qed.
(** More fuel changes nothing. *)
Lemma run_mono f : forall f' n e r, f <= f' -> run f n e = Some r -> run f' n e = Some r.
Proof.
  induction f as [|f IH]; intros f' n e r L.
  - destruct n; cbn [getBlockInternal]; [|discriminate]. destruct f'; auto.
  - destruct f' as [|f']; [lia|]. cbn [getBlockInternal]. destruct n as [|n]; [auto|].
    destruct (iteration (S n) e) as [l e1]. destruct (run f _ e1) as [[l' e']|] eqn:E; [|discriminate].
    rewrite (IH f' _ _ _ ltac:(lia) E). auto.
Qed.
Lemma run_length f : forall n e l e', run f n e = Some (l, e') -> length l = n.
Proof.
  induction f as [|f IH]; intros n e l e'; cbn [getBlockInternal]; destruct n as [|n]; try discriminate;
    try (intros [= <- <-]; reflexivity).
  pose proof (iteration_length (S n) e ltac:(lia)) as Le.
  destruct (iteration (S n) e) as [l1 e1]. destruct (run f _ e1) as [[l' e2]|] eqn:E; [|discriminate].
  intros [= <- <-]. apply IH in E. rewrite app_length. cbn in Le. lia.
Qed.
End Blocks.
