(** What an envelope says about its own release (C77). *)
From Coq Require Import QArith ZArith List Bool Lia.
From Verif Require Import AdsrModel.
Import ListNotations.
Local Open Scope nat_scope.

Section Query.
Variable rnd : Q -> Q.
Variable expo : Q -> Q.
Variable offTime : Q.
Notation getBlock := (getBlock rnd expo offTime).
Notation getBlockInternal := (getBlockInternal rnd).

(** Either kind of state is kept by a part of the computation. *)
Definition keeps (f : env -> env) : Prop := forall e,
  (isReleased e = true -> isReleased (f e) = true) /\
  (isReleased e = false -> e_free e = false -> isReleased (f e) = false /\ e_free (f e) = false).
Lemma keeps_comp f g : keeps f -> keeps g -> keeps (fun e => g (f e)).
Proof.
  intros F G e. destruct (F e) as [F1 F2], (G (f e)) as [G1 G2]. split; [auto|]. intros A B.
  destruct (F2 A B). now apply G2.
Qed.
Definition frame (f : env -> env) : Prop := forall e, e_st (f e) = e_st e /\ e_rel (f e) = e_rel e /\ e_free (f e) = e_free e.
Lemma frame_loop step : frame (fun e => snd (step e)) -> forall n, frame (fun e => snd (loop step n e)).
Proof.
  intros F. induction n as [|n IH]; intros e; cbn [loop]; [cbn; auto|].
  pose proof (F e) as Fe. cbv beta in Fe. destruct (step e) as [[y|] e']; cbn [snd] in *; [|exact Fe].
  specialize (IH e'). cbv beta in IH. destruct (loop step n e') as [l e'']. cbn [snd] in *. intuition congruence.
Qed.
Ltac look := unfold isReleased, beforeRelease in *; cbn [set_st set_v set_rel set_rd set_td set_delay set_hold e_st e_v e_rel e_rd e_td
    e_delay e_hold e_free] in *.
Lemma segment_keeps n : keeps (fun e => snd (segment rnd n e)).
Proof.
  intros e. unfold segment.
  assert (L : forall step, frame (fun e => snd (step e)) -> forall l e', loop step n e = (l, e') ->
    e_st e' = e_st e /\ e_rel e' = e_rel e /\ e_free e' = e_free e).
  { intros step F l e' E. pose proof (frame_loop step F n e) as X. cbv beta in X. rewrite E in X. exact X. }
  destruct (e_st e) eqn:S0.
  - destruct (loop stepDelay n e) as [l e'] eqn:E. apply L in E.
    2:{ intros x. unfold stepDelay. destruct (0 <? e_delay x)%Z; cbn; auto. }
    destruct E as (E1 & E2 & E3). cbn [snd]. unfold afterDelay. look. rewrite S0.
    destruct (e_delay e' <=? 0)%Z; look; rewrite ?E1, ?E2, ?E3, ?S0; split; auto.
  - destruct (loop (stepAttack rnd) n e) as [l e'] eqn:E. apply L in E; [|intros x; cbn; auto].
    destruct E as (E1 & E2 & E3). cbn [snd]. unfold afterAttack. look. rewrite S0.
    destruct (Qle_bool 1 (e_v e')); look; rewrite ?E1, ?E2, ?E3, ?S0; split; auto.
  - destruct (loop stepHold n e) as [l e'] eqn:E. apply L in E; [|intros x; cbn; auto].
    destruct E as (E1 & E2 & E3). cbn [snd]. unfold afterHold. look. rewrite S0.
    destruct (e_hold e' <=? 0)%Z; look; rewrite ?E1, ?E2, ?E3, ?S0; split; auto.
  - destruct (loop (stepDecay rnd) n e) as [l e'] eqn:E. apply L in E; [|intros x; cbn; auto].
    destruct E as (E1 & E2 & E3). cbn [snd]. unfold afterDecay. look. rewrite S0.
    destruct (Qle_bool (e_v e') (e_thr e')); cbv zeta; look; rewrite ?E1, ?E2, ?E3, ?S0; split; auto.
  - destruct (negb (e_rel e) && e_free e) eqn:B.
    + cbn [snd]. look. rewrite S0. cbn. split; auto. intros A F. rewrite F, andb_false_r in B. discriminate.
    + destruct (loop (stepSustain rnd) n e) as [l e'] eqn:E. apply L in E; [|intros x; cbn; auto].
      destruct E as (E1 & E2 & E3). cbn [snd]. look. rewrite E1, E2, E3, S0. split; auto.
  - destruct (loop (stepRelease rnd) n e) as [l e'] eqn:E. apply L in E; [|intros x; cbn; auto].
    destruct E as (E1 & E2 & E3). cbn [snd]. unfold afterRelease. look. rewrite S0. cbn.
    split; [|discriminate]. intros _. destruct (Qle_bool (e_v e') egReleaseThreshold); look; rewrite ?E1, ?S0; reflexivity.
  - destruct (loop (stepFadeout rnd) n e) as [l e'] eqn:E. apply L in E; [|intros x; cbn; auto].
    destruct E as (E1 & E2 & E3). cbn [snd]. unfold afterFadeout. look. rewrite S0. cbn.
    split; [|discriminate]. intros _. destruct (Qle_bool (e_v e') 0); look; rewrite ?E1, ?S0; reflexivity.
  - cbn [snd]. look. rewrite S0. cbn. split; [auto|discriminate].
Qed.
Lemma pending_keeps n : keeps (fun e => snd (pending n e)).
Proof.
  intros e. unfold pending. destruct (e_rel e) eqn:R; [|cbn; auto].
  assert (isReleased e = true) as A by (unfold isReleased; rewrite R; apply orb_true_r).
  split; [|congruence]. intros _.
  repeat match goal with |- context [if ?b then _ else _] => destruct b end; look; rewrite ?R, ?orb_true_r; auto.
Qed.
Lemma countdown_keeps n : keeps (countdown n).
Proof.
  intros e. unfold countdown. destruct (e_rel e) eqn:R; [|auto]. look. rewrite R, !orb_true_r. split; [auto|intros; discriminate].
Qed.
Lemma iteration_keeps n : keeps (fun e => snd (iteration rnd n e)).
Proof.
  intros e. unfold iteration. pose proof (pending_keeps n e) as P. cbv beta in P. destruct (pending n e) as [k e1]. cbn [snd] in P.
  pose proof (segment_keeps k e1) as S0. cbv beta in S0. destruct (segment rnd k e1) as [l e2]. cbn [snd] in *.
  pose proof (countdown_keeps (length l) e2) as C. destruct P as [P1 P2], S0 as [S1 S2], C as [C1 C2]. split; [auto|].
  intros A B. destruct (P2 A B) as [A1 B1]. destruct (S2 A1 B1) as [A2 B2]. now apply C2.
Qed.
Lemma internal_keeps f : forall n e l e', getBlockInternal f n e = Some (l, e') ->
  (isReleased e = true -> isReleased e' = true) /\
  (isReleased e = false -> e_free e = false -> isReleased e' = false /\ e_free e' = false).
Proof.
  induction f as [|f IH]; intros n e l e' E; (destruct n as [|n]; [cbn in E; injection E as <- <-; auto|]); [discriminate|].
  cbn [AdsrModel.getBlockInternal] in E. pose proof (iteration_keeps (S n) e) as I. cbv beta in I.
  destruct (iteration rnd (S n) e) as [l1 e1]. cbn [snd] in I.
  destruct (getBlockInternal f (S n - length l1) e1) as [[l2 e2]|] eqn:E2; [|discriminate]. injection E as <- <-.
  apply IH in E2. destruct I as [I1 I2], E2 as [J1 J2]. split; [auto|]. intros A B. destruct (I2 A B). now apply J2.
Qed.
Lemma block_keeps d f n e l e' : getBlock d f n e = Some (l, e') ->
  (isReleased e = true -> isReleased e' = true) /\
  (isReleased e = false -> e_free e = false -> isReleased e' = false /\ e_free e' = false).
Proof.
  unfold AdsrModel.getBlock. destruct (e_dyn e); [|apply internal_keeps].
  generalize 0 at 1. generalize n at 1. intros steps. revert n e l e'.
  induction steps as [|steps IH]; intros n e l e' p E; (destruct n as [|n]; [cbn in E; injection E as <- <-; auto|]); [discriminate|].
  cbn [getBlockDynamic] in E.
  destruct (getBlockInternal f (Nat.min processChunkSize (S n)) _) as [[l1 e1]|] eqn:E1; [|discriminate].
  destruct (getBlockDynamic rnd expo offTime d f steps _ _ e1) as [[l2 e2]|] eqn:E2; [|discriminate]. injection E as <- <-.
  apply internal_keeps in E1. apply IH in E2. destruct E1 as [I1 I2], E2 as [J1 J2].
  change (isReleased (updateValues rnd expo offTime d (Z.of_nat p) e)) with (isReleased e) in *.
  change (e_free (updateValues rnd expo offTime d (Z.of_nat p) e)) with (e_free e) in *.
  split; [auto|]. intros A B. destruct (I2 A B). now apply J2.
Qed.

(** * What happens to an envelope after its reset *)
Inductive event := EBlock (n : nat) | ERelease (delay : Z) | ECancel | ETime (t : Q) | EFix.
Inductive happens (d : desc) : env -> event -> env -> Prop :=
| h_block f n e l e' : getBlock d f n e = Some (l, e') -> happens d e (EBlock n) e'
| h_release k e : happens d e (ERelease k) (startRelease k e)
| h_cancel e : happens d e ECancel (cancelRelease e)
| h_time t e : happens d e (ETime t) (setReleaseTime rnd expo offTime t e)
| h_fix e : happens d e EFix (stopDynamicUpdates e).
Inductive history (d : desc) : env -> list event -> env -> Prop :=
| hi_nil e : history d e [] e
| hi_cons e v e1 l e2 : happens d e v e1 -> history d e1 l e2 -> history d e (v :: l) e2.
(** The last order given: a release, or none (at first, and after a cancellation). *)
Definition ordered (l : list event) : bool :=
  fold_left (fun b v => match v with ERelease _ => true | ECancel => false | _ => b end) l false.

(** C77: an envelope that does not run free says that it is released exactly when the last order was a release, however
    the blocks are cut and even before the release is due. *)
Theorem C77_is_released d k rate e0 l e : ~ (e_sus (reset rnd expo offTime d false k rate e0) <= sustainFreeRunningThreshold)%Q ->
  history d (reset rnd expo offTime d false k rate e0) l e -> isReleased e = ordered l.
Proof.
  intros F H. set (e1 := reset rnd expo offTime d false k rate e0) in *.
  assert (R1 : isReleased e1 = false) by reflexivity.
  assert (F1 : e_free e1 = false).
  { unfold e1, reset. cbn [e_free]. rewrite orb_false_r. apply not_true_iff_false. rewrite Qle_bool_iff. exact F. }
  unfold ordered. clearbody e1. clear F. assert (G : forall b, isReleased e1 = b -> e_free e1 = false -> isReleased e =
    fold_left (fun b v => match v with ERelease _ => true | ECancel => false | _ => b end) l b); [|now apply G].
  clear R1 F1. induction H as [e|e v e1 l e2 Hv Hl IH]; intros b R F; [exact R|]. cbn [fold_left]. apply IH.
  - destruct Hv as [f n e l0 e' B|k' e|e|t e|e].
    + destruct b; [now apply (block_keeps _ _ _ _ _ _ B)|now apply (block_keeps _ _ _ _ _ _ B)].
    + unfold startRelease. look. apply orb_true_r.
    + reflexivity.
    + exact R.
    + exact R.
  - destruct Hv as [f n e l0 e' B|k' e|e|t e|e]; try exact F.
    assert (K : forall f' n' e l e', getBlockInternal f' n' e = Some (l, e') -> e_free e' = e_free e).
    { clear - rnd expo offTime. induction f' as [|f IH]; intros n e l e' E; (destruct n as [|n]; [cbn in E; now injection E as <- <-|]); [discriminate|].
      cbn [AdsrModel.getBlockInternal] in E.
      assert (I : e_free (snd (iteration rnd (S n) e)) = e_free e).
      { unfold iteration. destruct (pending (S n) e) as [k e1] eqn:P.
        assert (e_free e1 = e_free e) as X.
        { unfold pending in P. repeat match type of P with context [if ?b then _ else _] => destruct b end; injection P as <- <-; reflexivity. }
        destruct (segment rnd k e1) as [l1 e2] eqn:S1. cbn [snd].
        assert (e_free e2 = e_free e1) as Y.
        { unfold segment in S1.
          assert (L : forall step, frame (fun e => snd (step e)) -> forall l e', loop step k e1 = (l, e') -> e_free e' = e_free e1).
          { intros step Fr l0 e0 E0. pose proof (frame_loop step Fr k e1) as Z. cbv beta in Z. rewrite E0 in Z. apply Z. }
          destruct (e_st e1).
          - destruct (loop stepDelay k e1) as [l2 e3] eqn:E3. apply L in E3.
            2:{ intros x. unfold stepDelay. destruct (0 <? e_delay x)%Z; cbn; auto. }
            injection S1 as <- <-. unfold afterDelay. destruct (_ <=? _)%Z; exact E3.
          - destruct (loop (stepAttack rnd) k e1) as [l2 e3] eqn:E3. apply L in E3; [|intros x; cbn; auto].
            injection S1 as <- <-. unfold afterAttack. destruct (Qle_bool _ _); exact E3.
          - destruct (loop stepHold k e1) as [l2 e3] eqn:E3. apply L in E3; [|intros x; cbn; auto].
            injection S1 as <- <-. unfold afterHold. destruct (_ <=? _)%Z; exact E3.
          - destruct (loop (stepDecay rnd) k e1) as [l2 e3] eqn:E3. apply L in E3; [|intros x; cbn; auto].
            injection S1 as <- <-. unfold afterDecay. destruct (Qle_bool _ _); exact E3.
          - destruct (_ && _); [injection S1 as <- <-; reflexivity|]. apply L in S1; [exact S1|intros x; cbn; auto].
          - destruct (loop (stepRelease rnd) k e1) as [l2 e3] eqn:E3. apply L in E3; [|intros x; cbn; auto].
            injection S1 as <- <-. unfold afterRelease. destruct (Qle_bool _ _); exact E3.
          - destruct (loop (stepFadeout rnd) k e1) as [l2 e3] eqn:E3. apply L in E3; [|intros x; cbn; auto].
            injection S1 as <- <-. unfold afterFadeout. destruct (Qle_bool _ _); exact E3.
          - injection S1 as <- <-. reflexivity. }
        unfold countdown. destruct (e_rel e2); cbn; congruence. }
      destruct (iteration rnd (S n) e) as [l1 e1]. cbn [snd] in I.
      destruct (getBlockInternal f (S n - length l1) e1) as [[l2 e2]|] eqn:E2; [|discriminate]. injection E as <- <-.
      apply IH in E2. congruence. }
    rewrite <- F. revert B. unfold AdsrModel.getBlock. destruct (e_dyn e); [|apply K].
    generalize 0 at 1. generalize n at 1. clear F R IH Hl. intros steps. revert n e l0 e'.
    induction steps as [|steps IH]; intros n e l0 e' p E; (destruct n as [|n]; [cbn in E; now injection E as <- <-|]); [discriminate|].
    cbn [getBlockDynamic] in E.
    destruct (getBlockInternal f (Nat.min processChunkSize (S n)) _) as [[l1 e3]|] eqn:E1; [|discriminate].
    destruct (getBlockDynamic rnd expo offTime d f steps _ _ e3) as [[l2 e4]|] eqn:E2; [|discriminate]. injection E as <- <-.
    apply K in E1. apply IH in E2. rewrite E2, E1. reflexivity.
Qed.
End Query.
(** An envelope with a release that is due later, and one whose release was cancelled. *)
Example C77_is_released_ex :
  let d := Desc (fun _ => 0%Q) (fun _ => 1%Q) (fun _ => 0%Q) (fun _ => 1%Q) (fun _ => 1%Q) (fun _ => (1 # 2)%Q) (fun _ => 0%Q) false in
  let r := fun x : Q => x in let e := reset r (fun _ => (1 # 2)%Q) (1 # 100)%Q d false 0 4%Q (Env SDone 0%Q true 0 0%Q 0 0 0%Q 0%Q 0%Q 0%Q 0%Q 0%Q false false 1%Q) in
  ~ (e_sus e <= sustainFreeRunningThreshold)%Q /\
  isReleased (startRelease 5 e) = true /\ isReleased (cancelRelease (startRelease 5 e)) = false /\
  exists l e', getBlock r (fun _ => (1 # 2)%Q) (1 # 100)%Q d 10 3 (startRelease 5 e) = Some (l, e') /\ isReleased e' = true /\ e_st e' = SAttack.
Proof.
  cbv zeta. split; [vm_compute; intros H; now apply H|]. split; [reflexivity|]. split; [reflexivity|].
  eexists _, _. split; [vm_compute; reflexivity|]. split; reflexivity.
Qed.
