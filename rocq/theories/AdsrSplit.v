(** Cutting a block in two (C34). *)
From Coq Require Import QArith Qround ZArith List Lia Bool.
Import ListNotations.
From Verif Require Import AdsrModel AdsrBlocks AdsrRange AdsrEnd.
Open Scope nat_scope.

Ltac fields := cbn [e_st e_v e_rel e_rd e_td e_delay e_hold e_astep e_drate e_rrate e_start e_sus e_thr e_free e_dyn e_rate
  set_v set_st set_rel set_rd set_td set_delay set_hold fst snd].

Section Split.
Variable rnd : Q -> Q.
Notation run := (getBlockInternal rnd).

(** ** The hold counter has no effect after its stage *)
Definition same (e e' : env) : Prop :=
  e' = e \/ (3 <= rank (e_st e) /\ exists h, e' = set_hold h e).
Lemma loop_hold step n h : forall e,
  (forall e, step (set_hold h e) = (fst (step e), set_hold h (snd (step e)))) ->
  loop step n (set_hold h e) = (fst (loop step n e), set_hold h (snd (loop step n e))).
Proof.
  induction n as [|n IH]; intros e H; cbn [loop]; [reflexivity|]. rewrite H. destruct (step e) as [[y|] e']; cbn [fst snd]; [|reflexivity].
  rewrite IH by assumption. now destruct (loop step n e').
Qed.
Lemma segment_hold n h e : 3 <= rank (e_st e) ->
  segment rnd n (set_hold h e) = (fst (segment rnd n e), set_hold h (snd (segment rnd n e))).
Proof.
  intros R. unfold segment. fields. destruct (e_st e) eqn:St; cbn in R; try lia.
  - rewrite loop_hold by reflexivity. destruct (loop (stepDecay rnd) n e) as [l e1]. fields. f_equal.
    unfold afterDecay. fields. destruct (Qle_bool _ _); reflexivity.
  - destruct (_ && _); [reflexivity|]. now rewrite loop_hold by reflexivity.
  - rewrite loop_hold by reflexivity. destruct (loop (stepRelease rnd) n e) as [l e1]. fields. f_equal.
    unfold afterRelease. fields. destruct (Qle_bool _ _); reflexivity.
  - rewrite loop_hold by reflexivity. destruct (loop (stepFadeout rnd) n e) as [l e1]. fields. f_equal.
    unfold afterFadeout. fields. destruct (Qle_bool _ _); reflexivity.
  - reflexivity.
Qed.
Lemma pending_hold n h e : pending n (set_hold h e) = (fst (pending n e), set_hold h (snd (pending n e))).
Proof.
  unfold pending. fields. destruct (e_rel e); [|reflexivity]. destruct (0 <? _)%Z; [reflexivity|].
  destruct (_ && _). { destruct (_ <? 0)%Z; reflexivity. } destruct (_ && _ && _); reflexivity.
Qed.
Lemma pending_rank n e : 3 <= rank (e_st e) -> 3 <= rank (e_st (snd (pending n e))).
Proof.
  intros R. unfold pending. destruct (e_rel e); [|assumption]. destruct (0 <? _)%Z; [assumption|].
  destruct (_ && _). { destruct (_ <? 0)%Z; fields; [cbn; lia|assumption]. } destruct (_ && _ && _); fields; [cbn; lia|assumption].
Qed.
Lemma iteration_hold n h e : 3 <= rank (e_st e) ->
  iteration rnd n (set_hold h e) = (fst (iteration rnd n e), set_hold h (snd (iteration rnd n e))) /\
  3 <= rank (e_st (snd (iteration rnd n e))).
Proof.
  intros R. unfold iteration. rewrite pending_hold. pose proof (pending_rank n e R) as R1.
  destruct (pending n e) as [n1 e1]. cbn [fst snd] in *. rewrite segment_hold by assumption.
  pose proof (segment_control rnd n1 e1) as (_ & _ & C & _).
  destruct (segment rnd n1 e1) as [l e2]. cbn [fst snd] in *. unfold countdown. fields.
  destruct (e_rel e2); fields; split; try reflexivity; lia.
Qed.
Lemma run_hold f : forall n h e, 3 <= rank (e_st e) ->
  run f n (set_hold h e) = match run f n e with Some (l, e') => Some (l, set_hold h e') | None => None end /\
  (forall l e', run f n e = Some (l, e') -> 3 <= rank (e_st e')).
Proof.
  induction f as [|f IH]; intros n h e R; cbn [getBlockInternal]; destruct n as [|n].
  - split; [reflexivity|]. now intros l e' [= <- <-].
  - split; [reflexivity|discriminate].
  - split; [reflexivity|]. now intros l e' [= <- <-].
  - destruct (iteration_hold (S n) h e R) as [-> R1]. destruct (iteration rnd (S n) e) as [l e1]. cbn [fst snd] in *.
    destruct (IH (S n - length l) h e1 R1) as [-> R2]. destruct (run f _ e1) as [[l2 e2]|] eqn:E; split; try reflexivity; try discriminate.
    intros l' e' [= <- <-]. eapply R2. reflexivity.
Qed.
Lemma run_same f n e e' l e1 : same e e' -> run f n e = Some (l, e1) ->
  exists e2, run f n e' = Some (l, e2) /\ same e1 e2.
Proof.
  intros [->|(R & h & ->)] H; [exists e1; split; [assumption|now left]|].
  destruct (run_hold f n h e R) as [E R1]. rewrite H in E. exists (set_hold h e1). split; [assumption|].
  right. split; [|eauto]. eapply R1. eassumption.
Qed.
Lemma same_trans a b c : same a b -> same b c -> same a c.
Proof.
  intros [->|(R & h & ->)]; [auto|]. intros [->|(R' & h' & ->)]; [right; eauto|].
  right. split; [assumption|]. exists h'. reflexivity.
Qed.

(** ** A turn of the loop that fills the space it is given *)
(** Where the first block may end: not with the last frame of the delay, and not in the decay
    close to the sustain level. *)
Definition clean (e : env) : Prop :=
  e_delay e <> 0%Z /\ (e_st e = SSustain -> (e_v e <= e_sus e)%Q).

Lemma loop_split step a b e : length (fst (loop step a e)) = a ->
  fst (loop step (a + b) e) = fst (loop step a e) ++ fst (loop step b (snd (loop step a e))) /\
  snd (loop step (a + b) e) = snd (loop step b (snd (loop step a e))).
Proof. intros L. rewrite loop_full by assumption. auto. Qed.
(** The last value written passed the test. *)
Lemma loop_last (good : env -> Prop) step a e :
  (forall e y e', step e = (Some y, e') -> good e') ->
  0 < a -> length (fst (loop step a e)) = a -> good (snd (loop step a e)).
Proof.
  intros H. revert e. induction a as [|a IH]; intros e; [lia|]. intros _. cbn [loop].
  destruct (step e) as [[y|] e1] eqn:E; [|cbn; lia]. destruct a as [|a].
  - intros _. cbn. eapply H; eassumption.
  - specialize (IH e1). destruct (loop step (S a) e1) as [l e2]. cbn in *. intros L. apply IH; lia.
Qed.

Lemma last_app_last (l l3 : list Q) x : last (l ++ l3) x = last l3 (last l x).
Proof.
  revert x. induction l as [|y l IH]; intros x; [reflexivity|]. cbn [app]. rewrite !last_cons. apply IH.
Qed.
Lemma loop_value step n : forall e,
  (forall e y e', step e = (Some y, e') -> e_v e' = y) ->
  length (fst (loop step n e)) = n -> e_v (snd (loop step n e)) = last (fst (loop step n e)) (e_v e).
Proof.
  induction n as [|n IH]; intros e H; cbn [loop]; [reflexivity|].
  destruct (step e) as [[y|] e1] eqn:E; [|cbn; lia]. specialize (IH e1 H).
  destruct (loop step n e1) as [l e2]. cbn [fst snd] in *. intros L. rewrite last_cons.
  rewrite IH by (cbn in L; lia). f_equal. eapply H. eassumption.
Qed.
Lemma loop_rel step n : forall e,
  (forall e, e_rel (snd (step e)) = e_rel e /\ e_free (snd (step e)) = e_free e /\ e_st (snd (step e)) = e_st e) ->
  e_rel (snd (loop step n e)) = e_rel e /\ e_free (snd (loop step n e)) = e_free e /\ e_st (snd (loop step n e)) = e_st e.
Proof.
  intros e H. apply (loop_inv (fun e' => e_rel e' = e_rel e /\ e_free e' = e_free e /\ e_st e' = e_st e)); [|auto].
  intros e1 y e2 (A & B & C) E. destruct (H e1) as (A' & B' & C'). rewrite E in *. cbn [snd] in *. repeat split; congruence.
Qed.
Lemma segment_split a b e : 0 < a -> 0 < b -> length (fst (segment rnd a e)) = a ->
  (e_st (snd (segment rnd a e)) <> SDelay -> e_st e = SDelay -> e_delay (snd (segment rnd a e)) <> 0%Z) ->
  (e_st (snd (segment rnd a e)) = SSustain -> (e_v (snd (segment rnd a e)) <= e_sus (snd (segment rnd a e)))%Q) ->
  (exists h, segment rnd (a + b) e = (fst (segment rnd a e), set_hold h (snd (segment rnd a e))) /\
     3 <= rank (e_st (snd (segment rnd a e))) /\ e_st e = SHold) \/
  (e_st (snd (segment rnd a e)) = e_st e /\
   segment rnd (a + b) e = (fst (segment rnd a e) ++ fst (segment rnd b (snd (segment rnd a e))),
                            snd (segment rnd b (snd (segment rnd a e))))).
Proof.
  intros a0 b0. unfold segment. destruct (e_st e) eqn:St.
  - pose proof (loop_split stepDelay a b e) as Sp.
    pose proof (loop_last (fun e => 0 <= e_delay e)%Z stepDelay a e) as La.
    pose proof (loop_rel stepDelay a e) as Re.
    destruct (loop stepDelay a e) as [l e1]. destruct (loop stepDelay (a + b) e) as [l' e']. cbn [fst snd] in *.
    intros L C1 C2. destruct (Sp L) as [-> ->]. clear Sp. specialize (fun H => La H a0 L) as La'. clear La. rename La' into La.
    destruct Re as (_ & _ & Re). { intros. unfold stepDelay. destruct (0 <? _)%Z; auto. }
    assert (0 <= e_delay e1)%Z as D.
    { apply La. intros e2 y e3. unfold stepDelay. cbv zeta. destruct (Z.ltb_spec 0 (e_delay e2)); [|discriminate]. intros [= <- <-]. fields. lia. }
    right. unfold afterDelay in *. destruct (Z.leb_spec (e_delay e1) 0).
    + exfalso. apply C1; [discriminate|reflexivity|]. fields. lia.
    + rewrite Re, St. split; [reflexivity|]. destruct (loop stepDelay b e1). reflexivity.
  - pose proof (loop_split (stepAttack rnd) a b e) as Sp.
    pose proof (loop_last (fun e => Qltb (e_v e) 1 = true) (stepAttack rnd) a e) as La.
    pose proof (loop_rel (stepAttack rnd) a e) as Re.
    destruct (loop (stepAttack rnd) a e) as [l e1]. destruct (loop (stepAttack rnd) (a + b) e) as [l' e']. cbn [fst snd] in *.
    intros L C1 C2. destruct (Sp L) as [-> ->]. clear Sp. specialize (fun H => La H a0 L) as La'. clear La. rename La' into La.
    destruct Re as (_ & _ & Re). { auto. }
    assert (Qltb (e_v e1) 1 = true) as D.
    { apply La. intros e2 y e3. unfold stepAttack. cbv zeta. destruct (Qltb (rnd _) 1) eqn:Q1; [|discriminate]. intros [= <- <-]. exact Q1. }
    right. unfold afterAttack in *. unfold Qltb in D. apply negb_true_iff in D. rewrite D. rewrite Re, St. split; [reflexivity|].
    destruct (loop (stepAttack rnd) b e1). reflexivity.
  - pose proof (loop_split stepHold a b e) as Sp.
    pose proof (loop_last (fun e => 0 <= e_hold e)%Z stepHold a e) as La.
    pose proof (loop_rel stepHold a e) as Re.
    destruct (loop stepHold a e) as [l e1]. destruct (loop stepHold (a + b) e) as [l' e']. cbn [fst snd] in *.
    intros L C1 C2. destruct (Sp L) as [-> ->]. clear Sp. specialize (fun H => La H a0 L) as La'. clear La. rename La' into La.
    destruct Re as (_ & _ & Re). { auto. }
    assert (0 <= e_hold e1)%Z as D.
    { apply La. intros e2 y e3. unfold stepHold. destruct (Z.ltb_spec 0 (e_hold e2)); [|discriminate]. intros [= <- <-]. fields. lia. }
    unfold afterHold in *. destruct (Z.leb_spec (e_hold e1) 0).
    + left. exists (-1)%Z. split; [|split; [cbn; lia|reflexivity]].
      assert (e_hold e1 = 0%Z) as Z0 by lia.
      rewrite loop_none by (try assumption; unfold stepHold; rewrite Z0; reflexivity).
      unfold stepHold. rewrite Z0. fields. cbn. now rewrite app_nil_r.
    + right. rewrite Re, St. split; [reflexivity|]. destruct (loop stepHold b e1). reflexivity.
  - pose proof (loop_split (stepDecay rnd) a b e) as Sp.
    pose proof (loop_last (fun e => Qltb (e_sus e) (e_v e) = true) (stepDecay rnd) a e) as La.
    pose proof (loop_rel (stepDecay rnd) a e) as Re.
    destruct (loop (stepDecay rnd) a e) as [l e1]. destruct (loop (stepDecay rnd) (a + b) e) as [l' e']. cbn [fst snd] in *.
    intros L C1 C2. destruct (Sp L) as [-> ->]. clear Sp. specialize (fun H => La H a0 L) as La'. clear La. rename La' into La.
    destruct Re as (_ & _ & Re). { auto. }
    assert (Qltb (e_sus e1) (e_v e1) = true) as D.
    { apply La. intros e2 y e3. unfold stepDecay. cbv zeta. destruct (Qltb _ (rnd _)) eqn:Q1; [|discriminate]. intros [= <- <-]. exact Q1. }
    right. unfold afterDecay in *. destruct (Qle_bool (e_v e1) (e_thr e1)) eqn:Q1.
    + exfalso. specialize (C2 eq_refl). cbn [e_v e_sus set_td set_v set_st] in C2.
      apply Qltb_spec in D. destruct (Qmaxf_cases (e_sus e1) (e_v e1)) as [[E ?]|[E ?]]; rewrite E in C2;
        apply (Qlt_irrefl (e_sus e1)); eapply Qlt_le_trans; eassumption.
    + rewrite Re, St. split; [reflexivity|]. destruct (loop (stepDecay rnd) b e1). reflexivity.
  - destruct (negb (e_rel e) && e_free e) eqn:RF.
    { cbn. lia. }
    intros L C1 C2. right. pose proof (loop_split (stepSustain rnd) a b e L) as [E1 E2].
    destruct (loop_rel (stepSustain rnd) a e) as (R1 & R2 & R3). { auto. }
    rewrite R3, St, R1, R2, RF. split; [reflexivity|].
    rewrite <- E1, <- E2. now destruct (loop (stepSustain rnd) (a + b) e).
  - pose proof (loop_split (stepRelease rnd) a b e) as Sp.
    pose proof (loop_last (fun e => Qltb egReleaseThreshold (e_v e) = true) (stepRelease rnd) a e) as La.
    pose proof (loop_rel (stepRelease rnd) a e) as Re.
    pose proof (loop_value (stepRelease rnd) a e) as Va.
    destruct (loop (stepRelease rnd) a e) as [l e1]. destruct (loop (stepRelease rnd) (a + b) e) as [l' e']. cbn [fst snd] in *.
    intros L C1 C2. destruct (Sp L) as [-> ->]. clear Sp. specialize (fun H => La H a0 L) as La'. clear La. rename La' into La.
    destruct Re as (_ & _ & Re). { auto. }
    assert (Qltb egReleaseThreshold (e_v e1) = true) as D.
    { apply La. intros e2 y e3. unfold stepRelease. cbv zeta. destruct (Qltb _ (rnd _)) eqn:Q1; [|discriminate]. intros [= <- <-]. exact Q1. }
    assert (e_v e1 = last l (e_v e)) as Ve.
    { apply Va; [|assumption]. intros e2 y e3. unfold stepRelease. cbv zeta. destruct (Qltb _ (rnd _)) eqn:Q1; [|discriminate]. intros [= <- <-]. reflexivity. }
    assert (afterRelease rnd (last l (e_v e)) e1 = e1) as A1.
    { unfold afterRelease. unfold Qltb in D. apply negb_true_iff in D. now rewrite D. }
    right. rewrite A1, Re, St. split; [reflexivity|]. rewrite last_app_last, <- Ve.
    destruct (loop (stepRelease rnd) b e1). reflexivity.
  - pose proof (loop_split (stepFadeout rnd) a b e) as Sp.
    pose proof (loop_last (fun e => Qltb 0 (e_v e) = true) (stepFadeout rnd) a e) as La.
    pose proof (loop_rel (stepFadeout rnd) a e) as Re.
    destruct (loop (stepFadeout rnd) a e) as [l e1]. destruct (loop (stepFadeout rnd) (a + b) e) as [l' e']. cbn [fst snd] in *.
    intros L C1 C2. destruct (Sp L) as [-> ->]. clear Sp. specialize (fun H => La H a0 L) as La'. clear La. rename La' into La.
    destruct Re as (_ & _ & Re). { auto. }
    assert (Qltb 0 (e_v e1) = true) as D.
    { apply La. intros e2 y e3. unfold stepFadeout. cbv zeta. destruct (Qltb _ (rnd _)) eqn:Q1; [|discriminate]. intros [= <- <-]. exact Q1. }
    right. unfold afterFadeout in *. unfold Qltb in D. apply negb_true_iff in D. rewrite D. rewrite Re, St. split; [reflexivity|].
    destruct (loop (stepFadeout rnd) b e1). reflexivity.
  - fields. intros _ _ _. right. rewrite St. split; [reflexivity|]. fields. now rewrite repeat_app.
Qed.

(** A turn of the outer loop. *)
Lemma countdown_hold n h e : countdown n (set_hold h e) = set_hold h (countdown n e).
Proof. unfold countdown. fields. destruct (e_rel e); reflexivity. Qed.
Lemma segment_fixed n e :
  e_rd (snd (segment rnd n e)) = e_rd e /\
  (0 < length (fst (segment rnd n e)) -> e_rel (snd (segment rnd n e)) = e_rel e) /\
  (e_st e <> SDelay -> e_delay (snd (segment rnd n e)) = e_delay e).
Proof.
  pose proof (segment_control rnd n e) as (A & B & _). split; [assumption|]. split.
  - destruct B as [B|(_ & _ & _ & B & _)]; [auto|]. rewrite B. cbn. lia.
  - intros D. assert (forall step, (forall e1, e_delay (snd (step e1)) = e_delay e1) -> e_delay (snd (loop step n e)) = e_delay e) as H.
    { intros step H. apply (loop_inv (fun e' => e_delay e' = e_delay e)); [|reflexivity].
      intros e1 y e2 P E. specialize (H e1). rewrite E in H. cbn in H. congruence. }
    unfold segment. destruct (e_st e); [congruence| | | | | | |reflexivity].
    + specialize (H (stepAttack rnd) ltac:(reflexivity)). destruct (loop (stepAttack rnd) n e) as [l e1]. cbn [fst snd] in *. unfold afterAttack. destruct (Qle_bool _ _); exact H.
    + specialize (H stepHold ltac:(reflexivity)). destruct (loop stepHold n e) as [l e1]. cbn [fst snd] in *. unfold afterHold. destruct (_ <=? 0)%Z; exact H.
    + specialize (H (stepDecay rnd) ltac:(reflexivity)). destruct (loop (stepDecay rnd) n e) as [l e1]. cbn [fst snd] in *. unfold afterDecay. destruct (Qle_bool _ _); exact H.
    + destruct (_ && _); [reflexivity|]. apply (H (stepSustain rnd) ltac:(reflexivity)).
    + specialize (H (stepRelease rnd) ltac:(reflexivity)). destruct (loop (stepRelease rnd) n e) as [l e1]. cbn [fst snd] in *. unfold afterRelease. destruct (Qle_bool _ _); exact H.
    + specialize (H (stepFadeout rnd) ltac:(reflexivity)). destruct (loop (stepFadeout rnd) n e) as [l e1]. cbn [fst snd] in *. unfold afterFadeout. destruct (Qle_bool _ _); exact H.
Qed.
Lemma segment_short a b e : 0 < a -> length (fst (segment rnd a e)) < a -> segment rnd (a + b) e = segment rnd a e.
Proof.
  intros a0. assert (forall step, length (fst (loop step a e)) < a -> loop step (a + b) e = loop step a e) as H by (intros; now apply loop_short).
  unfold segment. destruct (e_st e);
    try (match goal with |- context [loop ?s a e] => specialize (H s); destruct (loop s a e) end; cbn [fst] in *; intros L; now rewrite H).
  - destruct (_ && _); [reflexivity|apply H].
  - cbn [fst]. rewrite repeat_length. lia.
Qed.
(** The same after the release has been dealt with, sizes [n1] in place of [a] and [n1 + b1] in place
    of [a + b]. *)
Definition extends (a : nat) (r r' : list Q * env) (b : nat) : Prop :=
  (length (fst r) < a -> r' = r) /\
  (length (fst r) = a -> clean (snd r) ->
     r' = r \/ (exists h, r' = (fst r, set_hold h (snd r)) /\ 3 <= rank (e_st (snd r))) \/
     r' = (fst r ++ fst (iteration rnd b (snd r)), snd (iteration rnd b (snd r)))).
Lemma turn_split a b e b1 : 0 < a -> 0 < b1 ->
  (forall l e1, segment rnd a e = (l, e1) -> length l = a -> e_st e1 = e_st e -> (e_st e = SDelay -> e_delay e1 <> 0%Z) ->
     pending b (countdown a e1) = (b1, countdown a e1)) ->
  extends a (let '(l, e1) := segment rnd a e in (l, countdown (length l) e1))
            (let '(l, e1) := segment rnd (a + b1) e in (l, countdown (length l) e1)) b.
Proof.
  intros a0 b0 P. pose proof (segment_short a b1 e a0) as Sh. pose proof (segment_split a b1 e a0 b0) as Sp.
  pose proof (segment_fixed a e) as (X1 & X2 & X3).
  destruct (segment rnd a e) as [l e1] eqn:Sa. cbn [fst snd] in *. split; cbn [fst snd].
  - intros L. now rewrite Sh.
  - intros L [C1 C2].
    assert (e_delay (countdown (length l) e1) = e_delay e1 /\ e_st (countdown (length l) e1) = e_st e1 /\
            e_v (countdown (length l) e1) = e_v e1 /\ e_sus (countdown (length l) e1) = e_sus e1) as (Y1 & Y2 & Y3 & Y4).
    { unfold countdown. destruct (e_rel e1); auto. }
    rewrite Y1 in C1. rewrite Y2, Y3, Y4 in C2.
    destruct Sp as [(h & -> & R & _)|(S & ->)]; try assumption.
    { intros _ _. assumption. }
    + right. left. exists h. split; [|rewrite Y2; exact R]. now rewrite countdown_hold.
    + right. right. specialize (P l e1 eq_refl L S ltac:(auto)).
      unfold iteration. rewrite L, P.
      pose proof (segment_control rnd b1 e1) as (_ & Zr & _).
      assert (e_rel e1 = false -> e_rel (snd (segment rnd b1 e1)) = false) as Zf.
      { intros F. destruct Zr as [Zr|(_ & Zr & St & Zl & _)]; [congruence|]. exfalso.
        pose proof (segment_params rnd a e) as PP. rewrite Sa in PP. cbn [snd] in PP.
        assert (e_free e1 = e_free e) as Fr by (unfold params in PP; congruence).
        rewrite X2 in F by lia. unfold segment in Sa, Zl. rewrite St in *. rewrite <- S in Sa.
        rewrite X2, Fr in Zl by lia.
        destruct (negb (e_rel e) && e_free e); [injection Sa as <- <-; cbn in L; lia|].
        destruct b1 as [|b1]; [lia|]. cbn [loop] in Zl. unfold stepSustain in Zl at 1.
        destruct (loop (stepSustain rnd) b1 _); discriminate. }
      pose proof (segment_fixed b1 e1) as (Z1 & Z2 & _).
      assert (segment rnd b1 (countdown a e1) =
        (fst (segment rnd b1 e1), if e_rel e1 then set_rd (Z.max (-1) (e_rd e1 - Z.of_nat a)) (snd (segment rnd b1 e1)) else snd (segment rnd b1 e1))) as E.
      { unfold countdown. destruct (e_rel e1) eqn:Re; [|now destruct (segment rnd b1 e1)].
        generalize (Z.max (-1) (e_rd e1 - Z.of_nat a)). intros r.
        assert (forall step n e1, (forall e, step (set_rd r e) = (fst (step e), set_rd r (snd (step e)))) ->
          loop step n (set_rd r e1) = (fst (loop step n e1), set_rd r (snd (loop step n e1)))) as Lr.
        { clear. intros step n. induction n as [|n IH]; intros e1 H; cbn [loop]; [reflexivity|]. rewrite H. destruct (step e1) as [[y|] e']; cbn [fst snd]; [|reflexivity].
          rewrite IH by assumption. now destruct (loop step n e'). }
        unfold segment. fields. destruct (e_st e1) eqn:St.
        - rewrite Lr by (intros; unfold stepDelay; fields; destruct (0 <? _)%Z; reflexivity). destruct (loop stepDelay b1 e1) as [l2 e2]. fields. f_equal.
          unfold afterDelay. fields. destruct (_ <=? 0)%Z; reflexivity.
        - rewrite Lr by reflexivity. destruct (loop (stepAttack rnd) b1 e1) as [l2 e2]. fields. f_equal.
          unfold afterAttack. fields. destruct (Qle_bool _ _); reflexivity.
        - rewrite Lr by reflexivity. destruct (loop stepHold b1 e1) as [l2 e2]. fields. f_equal.
          unfold afterHold. fields. destruct (_ <=? 0)%Z; reflexivity.
        - rewrite Lr by reflexivity. destruct (loop (stepDecay rnd) b1 e1) as [l2 e2]. fields. f_equal.
          unfold afterDecay. fields. destruct (Qle_bool _ _); reflexivity.
        - destruct (_ && _); [reflexivity|]. now rewrite Lr by reflexivity.
        - rewrite Lr by reflexivity. destruct (loop (stepRelease rnd) b1 e1) as [l2 e2]. fields. f_equal.
          unfold afterRelease. fields. destruct (Qle_bool _ _); reflexivity.
        - rewrite Lr by reflexivity. destruct (loop (stepFadeout rnd) b1 e1) as [l2 e2]. fields. f_equal.
          unfold afterFadeout. fields. destruct (Qle_bool _ _); reflexivity.
        - reflexivity. }
      rewrite E. cbn [fst snd]. f_equal.
      destruct (segment rnd b1 e1) as [l2 e2]. cbn [fst snd] in *. rewrite app_length, L. unfold countdown.
      destruct (e_rel e1) eqn:Re.
      * fields. destruct (e_rel e2) eqn:R2.
        { unfold set_rd. fields. f_equal. rewrite Z1. lia. }
        { destruct Zr as [Zr|(Zr & _)]; congruence. }
      * now rewrite Zf.
Qed.
Lemma iteration_split a b e : 0 < a -> 0 < b -> (-1 <= e_rd e)%Z -> extends a (iteration rnd a e) (iteration rnd (a + b) e) b.
Proof.
  intros a0 b0 Rm.
  assert (forall r, extends a r r b) as Same by (intros r; split; auto).
  assert (forall e, (forall l e1, segment rnd a e = (l, e1) -> length l = a -> e_st e1 = e_st e -> (e_st e = SDelay -> e_delay e1 <> 0%Z) ->
     pending b (countdown a e1) = (b, countdown a e1)) ->
     extends a (let '(l, e1) := segment rnd a e in (l, countdown (length l) e1))
            (let '(l, e1) := segment rnd (a + b) e in (l, countdown (length l) e1)) b) as Plain by (intros; now apply turn_split).
  unfold iteration, pending. destruct (e_rel e) eqn:R.
  2: { apply Plain. intros l e1 Sa L St D. unfold pending.
       pose proof (segment_fixed a e) as (_ & X2 & _). rewrite Sa in X2. cbn [fst snd] in X2.
       unfold countdown. rewrite X2, R by lia. rewrite X2, R by lia. reflexivity. }
  destruct (Z.ltb_spec 0 (e_rd e)) as [Lr|Lr].
  { destruct (Nat.le_gt_cases (Z.to_nat (e_rd e)) a) as [C|C].
    - replace (Nat.min (a + b) (Z.to_nat (e_rd e))) with (Nat.min a (Z.to_nat (e_rd e))) by lia. apply Same.
    - replace (Nat.min a (Z.to_nat (e_rd e))) with a by lia.
      replace (Nat.min (a + b) (Z.to_nat (e_rd e))) with (a + Nat.min b (Z.to_nat (e_rd e) - a)) by lia.
      apply turn_split; try lia. intros l e1 Sa L St D.
      pose proof (segment_fixed a e) as (X1 & X2 & _). rewrite Sa in X1, X2. cbn [fst snd] in X1, X2.
      unfold countdown. rewrite X2, R by lia. unfold pending. fields. rewrite X2, R, X1 by lia.
      destruct (Z.ltb_spec 0 (Z.max (-1) (e_rd e - Z.of_nat a))); [|lia].
      f_equal. lia. }
  assert (forall e0, e_rel e0 = true -> e_rd e0 = (-1)%Z -> beforeRelease (e_st e0) = false ->
    forall l e1, segment rnd a e0 = (l, e1) -> length l = a -> e_st e1 = e_st e0 -> (e_st e0 = SDelay -> e_delay e1 <> 0%Z) ->
     pending b (countdown a e1) = (b, countdown a e1)) as Rel.
  { intros e0 R0 D0 B0 l e1 Sa L St D. pose proof (segment_fixed a e0) as (X1 & X2 & _). rewrite Sa in X1, X2. cbn [fst snd] in X1, X2.
    unfold countdown. rewrite X2, R0 by lia. unfold pending. fields. rewrite X2, R0, X1, D0, St, B0 by lia.
    destruct (Z.ltb_spec 0 (Z.max (-1) (-1 - Z.of_nat a))); [lia|].
    destruct (Z.eqb_spec (Z.max (-1) (-1 - Z.of_nat a)) 0); [lia|]. cbn [andb]. rewrite andb_false_r. reflexivity. }
  assert (forall e0, e_rel e0 = true -> (e_rd e0 <= 0)%Z -> (0 < e_delay e0)%Z ->
    forall l e1, segment rnd a e0 = (l, e1) -> length l = a -> e_st e1 = e_st e0 -> (e_st e0 = SDelay -> e_delay e1 <> 0%Z) ->
     pending b (countdown a e1) = (b, countdown a e1)) as Del.
  { intros e0 R0 D0 B0 l e1 Sa L St D. pose proof (segment_fixed a e0) as (X1 & X2 & X3). rewrite Sa in X1, X2, X3. cbn [fst snd] in X1, X2, X3.
    assert (0 < e_delay e1)%Z as P.
    { destruct (e_st e0) eqn:S0; try (rewrite X3 by discriminate; assumption).
      unfold segment in Sa. rewrite S0 in Sa. pose proof (loop_last (fun e => 0 <= e_delay e)%Z stepDelay a e0) as La.
      destruct (loop stepDelay a e0) as [l' e2]. apply pair_equal_spec in Sa as [-> <-]. cbn [fst snd] in La.
      assert (0 <= e_delay e2)%Z.
      { apply La; try assumption. intros e3 y e4. unfold stepDelay. cbv zeta. destruct (Z.ltb_spec 0 (e_delay e3)); [|discriminate]. intros [= <- <-]. fields. lia. }
      specialize (D eq_refl). unfold afterDelay in *. destruct (_ <=? 0)%Z; fields; cbn [e_delay set_st] in D; lia. }
    unfold countdown. rewrite X2, R0 by lia. unfold pending. fields. rewrite X2, R0, X1 by lia.
    destruct (Z.ltb_spec 0 (Z.max (-1) (e_rd e0 - Z.of_nat a))); [lia|].
    destruct (Z.eqb_spec (Z.max (-1) (e_rd e0 - Z.of_nat a)) 0); [lia|]. cbn [andb].
    destruct (Z.leb_spec (e_delay e1) 0); [lia|]. rewrite andb_false_r. reflexivity. }
  destruct (Z.eqb_spec (e_rd e) 0) as [Z0|Z0]; cbn [andb].
  - destruct (Z.leb_spec (e_delay e) 0) as [Ld|Ld]; cbn [andb].
    + destruct (Z.ltb_spec (e_delay e) 0) as [Ld'|Ld']; [|apply Same].
      apply Plain. now apply Rel.
    + replace (e_rd e =? -1)%Z with false by (symmetry; apply Z.eqb_neq; lia). cbn [andb]. apply Plain. apply Del; [assumption|lia|lia].
  - destruct (Z.eqb_spec (e_rd e) (-1)) as [Z1|Z1]; cbn [andb].
    + destruct (beforeRelease (e_st e)) eqn:B; cbn [andb].
      * destruct (Z.leb_spec (e_delay e) 0) as [Ld|Ld]; apply Plain; [now apply Rel|apply Del; [assumption|lia|lia]].
      * apply Plain. now apply Rel.
    + lia.
Qed.
Lemma iteration_rd n e : (-1 <= e_rd e)%Z -> (-1 <= e_rd (snd (iteration rnd n e)))%Z.
Proof.
  intros R. unfold iteration.
  assert (-1 <= e_rd (snd (pending n e)))%Z as R1.
  { unfold pending. destruct (e_rel e); [|assumption]. destruct (0 <? _)%Z; [assumption|].
    destruct (_ && _). { destruct (_ <? 0)%Z; fields; lia. } destruct (_ && _ && _); fields; assumption. }
  destruct (pending n e) as [n1 e1]. pose proof (segment_control rnd n1 e1) as (C & _).
  destruct (segment rnd n1 e1) as [l e2]. cbn [fst snd] in *. unfold countdown. destruct (e_rel e2); fields; lia.
Qed.
Lemma same_sym e e' : same e e' -> same e' e.
Proof.
  intros [->|(R & h & ->)]; [now left|]. right. split; [exact R|]. exists (e_hold e). now destruct e.
Qed.
(** C34: a block of [a + b] frames gives the same samples as one of [a] frames followed by one of [b]
    frames, and leads to the same state (the hold counter, no longer in use, apart), unless the cut is
    exactly at the end of the delay or in the decay close to the sustain level. *)
Theorem C34_cut_partial f : forall a b e L E l1 e1,
  (-1 <= e_rd e)%Z ->
  run f (a + b) e = Some (L, E) -> run f a e = Some (l1, e1) -> clean e1 ->
  exists l2 e2, run f b e1 = Some (l2, e2) /\ L = l1 ++ l2 /\ same E e2.
Proof.
  induction f as [|f IH]; intros a b e L E l1 e1 Rd H H1 C.
  - destruct a as [|a]; [|discriminate]. cbn in H1. injection H1 as <- <-. exists L, E. repeat split; [exact H|now left].
  - destruct a as [|a].
    { cbn in H1. injection H1 as <- <-. exists L, E. repeat split; [exact H|now left]. }
    destruct b as [|b].
    { rewrite Nat.add_0_r in H. rewrite H in H1. injection H1 as <- <-. exists [], E. rewrite app_nil_r. repeat split. now left. }
    pose proof (iteration_split (S a) (S b) e ltac:(lia) ltac:(lia) Rd) as [S1 S2].
    pose proof (iteration_rd (S a) e Rd) as Rd1.
    pose proof (iteration_length rnd (S a) e ltac:(lia)) as Ln.
    change (S a + S b) with (S (a + S b)) in *. cbn [getBlockInternal] in H, H1.
    destruct (iteration rnd (S a) e) as [l e']. cbn [fst snd] in *.
    destruct (run f (S a - length l) e') as [[l3 e3]|] eqn:R1; [|discriminate]. injection H1 as <- <-.
    destruct (Nat.lt_ge_cases (length l) (S a)) as [Lt|Ge].
    + rewrite (S1 Lt) in H. replace (S (a + S b) - length l) with ((S a - length l) + S b) in H by lia.
      destruct (run f (S a - length l + S b) e') as [[l4 e4]|] eqn:R2; [|discriminate]. injection H as <- <-.
      destruct (IH _ _ _ _ _ _ _ Rd1 R2 R1 C) as (l2 & e2 & X1 & -> & X3).
      exists l2, e2. split; [eapply run_mono; [|exact X1]; lia|]. split; [now rewrite app_assoc|assumption].
    + assert (length l = S a) as Le by lia. rewrite Le, Nat.sub_diag in R1.
      assert (l3 = [] /\ e3 = e') as [-> ->] by (destruct f; cbn in R1; injection R1 as <- <-; auto).
      rewrite app_nil_r. destruct (S2 Le C) as [E1|[(h & E1 & Rk)|E1]]; rewrite E1 in H; clear E1.
      * replace (S (a + S b) - length l) with (S b) in H by lia.
        destruct (run f (S b) e') as [[l4 e4]|] eqn:R2; [|discriminate]. injection H as <- <-.
        exists l4, e4. split; [eapply run_mono; [|exact R2]; lia|]. split; [reflexivity|now left].
      * replace (S (a + S b) - length l) with (S b) in H by lia.
        destruct (run f (S b) (set_hold h e')) as [[l4 e4]|] eqn:R2; [|discriminate]. injection H as <- <-.
        destruct (run_same f (S b) (set_hold h e') e' l4 e4) as (e5 & R3 & Sm); [|exact R2|].
        { apply same_sym. right. eauto. }
        exists l4, e5. split; [eapply run_mono; [|exact R3]; lia|]. auto.
      * pose proof (iteration_length rnd (S b) e' ltac:(lia)) as Lb. cbn [getBlockInternal].
        destruct (iteration rnd (S b) e') as [l5 e5]. cbn [fst snd] in *.
        replace (S (a + S b) - length (l ++ l5)) with (S b - length l5) in H by (rewrite app_length; lia).
        destruct (run f (S b - length l5) e5) as [[l4 e4]|] eqn:R2; [|discriminate]. injection H as <- <-.
        exists (l5 ++ l4), e4. split; [reflexivity|]. split; [now rewrite app_assoc|now left].
Qed.

(** C34: any number of blocks, all cuts but the last being clean. *)
Fixpoint clean_cuts (f : nat) (ns : list nat) (e : env) : Prop :=
  match ns with
  | [] => True
  | n :: ns' => forall l e1, run f n e = Some (l, e1) -> (ns' <> [] -> clean e1) /\ clean_cuts f ns' e1
  end.
Lemma run_rd f : forall n e l e', (-1 <= e_rd e)%Z -> run f n e = Some (l, e') -> (-1 <= e_rd e')%Z.
Proof.
  induction f as [|f IH]; intros n e l e' R; cbn [getBlockInternal]; destruct n as [|n]; try discriminate;
    try (intros [= <- <-]; assumption).
  pose proof (iteration_rd (S n) e R) as R1.
  destruct (iteration rnd (S n) e) as [l1 e1]. cbn [snd] in R1.
  destruct (run f _ e1) as [[l2 e2]|] eqn:E; [|discriminate]. intros [= <- <-]. eapply IH; eassumption.
Qed.
Theorem C34_blocks_partial f : forall ns e L E L' E',
  (-1 <= e_rd e)%Z -> clean_cuts f ns e ->
  run f (fold_right plus 0 ns) e = Some (L, E) -> blocks rnd f ns e = Some (L', E') ->
  L' = L /\ same E E'.
Proof.
  induction ns as [|n ns IH]; intros e L E L' E' Rd C H H'; cbn [fold_right blocks clean_cuts] in *.
  - injection H' as <- <-. destruct f; cbn in H; injection H as <- <-; split; auto; now left.
  - destruct (run f n e) as [[l1 e1]|] eqn:R1; [|discriminate].
    destruct (blocks rnd f ns e1) as [[l2 e2]|] eqn:B; [|discriminate]. injection H' as <- <-.
    destruct (C l1 e1 eq_refl) as [C1 C2]. destruct ns as [|m ns].
    + cbn [fold_right] in H. rewrite Nat.add_0_r, R1 in H. injection H as <- <-. cbn in B. injection B as <- <-.
      rewrite app_nil_r. split; [reflexivity|now left].
    + destruct (C34_cut_partial f n _ e L E l1 e1 Rd H R1 ltac:(apply C1; discriminate)) as (l3 & e3 & R3 & -> & Sm).
      destruct (IH e1 l3 e3 l2 e2) as [-> Sm2]; try assumption; [eapply run_rd; eassumption|].
      split; [reflexivity|]. eapply same_trans; eassumption.
Qed.

(** ** A release known in advance *)
Lemma segment_rel n r e : (e_st e = SSustain -> e_free e = false) -> e_rel e = false ->
  segment rnd n (set_rd r (set_rel true e)) = (fst (segment rnd n e), set_rd r (set_rel true (snd (segment rnd n e)))) /\
  e_rel (snd (segment rnd n e)) = false.
Proof.
  intros Fr R0.
  assert (forall step n e1, (forall e, step (set_rd r (set_rel true e)) = (fst (step e), set_rd r (set_rel true (snd (step e)))) /\ e_rel (snd (step e)) = e_rel e) ->
    loop step n (set_rd r (set_rel true e1)) = (fst (loop step n e1), set_rd r (set_rel true (snd (loop step n e1)))) /\ e_rel (snd (loop step n e1)) = e_rel e1) as Lr.
  { clear. intros step n. induction n as [|n IH]; intros e1 H; cbn [loop]; [auto|]. destruct (H e1) as [-> H2].
    destruct (step e1) as [[y|] e']; cbn [fst snd] in *; [|auto].
    destruct (IH e' H) as [-> H4]. destruct (loop step n e'). cbn [fst snd] in *. split; [reflexivity|congruence]. }
  unfold segment. fields. destruct (e_st e) eqn:St.
  - destruct (Lr stepDelay n e) as [-> X]. { intros; unfold stepDelay; fields; destruct (0 <? _)%Z; auto. }
    destruct (loop stepDelay n e) as [l2 e2]. cbn [fst snd] in *.
    unfold afterDelay. fields. destruct (_ <=? 0)%Z; fields; (split; [reflexivity|congruence]).
  - destruct (Lr (stepAttack rnd) n e) as [-> X]. { auto. }
    destruct (loop (stepAttack rnd) n e) as [l2 e2]. cbn [fst snd] in *.
    unfold afterAttack. fields. destruct (Qle_bool _ _); fields; (split; [reflexivity|congruence]).
  - destruct (Lr stepHold n e) as [-> X]. { auto. }
    destruct (loop stepHold n e) as [l2 e2]. cbn [fst snd] in *.
    unfold afterHold. fields. destruct (_ <=? 0)%Z; fields; (split; [reflexivity|congruence]).
  - destruct (Lr (stepDecay rnd) n e) as [-> X]. { auto. }
    destruct (loop (stepDecay rnd) n e) as [l2 e2]. cbn [fst snd] in *.
    unfold afterDecay. fields. destruct (Qle_bool _ _); fields; (split; [reflexivity|congruence]).
  - rewrite (Fr eq_refl). rewrite !andb_false_r. destruct (Lr (stepSustain rnd) n e) as [-> X]. { auto. } (split; [reflexivity|congruence]).
  - destruct (Lr (stepRelease rnd) n e) as [-> X]. { auto. }
    destruct (loop (stepRelease rnd) n e) as [l2 e2]. cbn [fst snd] in *.
    unfold afterRelease. fields. destruct (Qle_bool _ _); fields; (split; [reflexivity|congruence]).
  - destruct (Lr (stepFadeout rnd) n e) as [-> X]. { auto. }
    destruct (loop (stepFadeout rnd) n e) as [l2 e2]. cbn [fst snd] in *.
    unfold afterFadeout. fields. destruct (Qle_bool _ _); fields; (split; [reflexivity|congruence]).
  - auto.
Qed.
Lemma iteration_keeps_rel n e : e_rel e = true -> e_rel (snd (iteration rnd n e)) = true.
Proof.
  intros R. unfold iteration.
  assert (e_rel (snd (pending n e)) = true) as R1.
  { unfold pending. rewrite R. destruct (0 <? _)%Z; [assumption|].
    destruct (_ && _). { destruct (_ <? 0)%Z; fields; assumption. } destruct (_ && _ && _); fields; assumption. }
  destruct (pending n e) as [n1 e1]. pose proof (segment_control rnd n1 e1) as (_ & C & _).
  destruct (segment rnd n1 e1) as [l e2]. cbn [fst snd] in *. unfold countdown.
  assert (e_rel e2 = true) as R2 by (destruct C as [C|(C & _)]; congruence). now rewrite R2.
Qed.
Lemma run_keeps_rel f : forall n e l e', e_rel e = true -> run f n e = Some (l, e') -> e_rel e' = true.
Proof.
  induction f as [|f IH]; intros n e l e' R; cbn [getBlockInternal]; destruct n as [|n]; try discriminate;
    try (intros [= <- <-]; assumption).
  pose proof (iteration_keeps_rel (S n) e R) as R1.
  destruct (iteration rnd (S n) e) as [l1 e1]. cbn [snd] in R1.
  destruct (run f _ e1) as [[l2 e2]|] eqn:E; [|discriminate]. intros [= <- <-]. eapply IH; eassumption.
Qed.
(** C34: a release that is set [n + d] frames ahead is the same as one set [d] frames ahead after [n]
    frames. *)
Theorem C34_release_time f d : (0 <= d)%Z -> forall n e l e',
  e_rel e = false -> e_rel e' = false -> run f n e = Some (l, e') ->
  run f n (startRelease (Z.of_nat n + d) e) = Some (l, startRelease d e').
Proof.
  intros D. induction f as [|f IH]; intros n e l e' R R'; cbn [getBlockInternal]; destruct n as [|n]; try discriminate;
    try (intros [= <- <-]; reflexivity).
  destruct (match e_st e with SSustain => e_free e | _ => false end) eqn:Fs.
  { assert (e_rel (snd (iteration rnd (S n) e)) = true) as X.
    { unfold iteration, pending, segment. rewrite R. destruct (e_st e); try discriminate. rewrite Fs, R. reflexivity. }
    destruct (iteration rnd (S n) e) as [l1 e1]. cbn [snd] in X.
    destruct (run f _ e1) as [[l2 e2]|] eqn:E2; [|discriminate]. intros [= <- <-].
    rewrite (run_keeps_rel _ _ _ _ _ X E2) in R'. discriminate. }
  destruct (segment_rel (S n) (Z.of_nat (S n) + d) e) as [E1 E2]; [destruct (e_st e); congruence|assumption|].
  pose proof (segment_length rnd (S n) e) as Ln.
  assert (pending (S n) (startRelease (Z.of_nat (S n) + d) e) = (S n, set_rd (Z.of_nat (S n) + d) (set_rel true e))) as P1.
  { unfold pending, startRelease. fields. destruct (Z.ltb_spec 0 (Z.of_nat (S n) + d)); [|lia]. f_equal. lia. }
  unfold iteration. rewrite P1, E1. unfold pending. rewrite R.
  destruct (segment rnd (S n) e) as [l1 e1]. cbn [fst snd] in *. unfold countdown. fields. rewrite E2.
  destruct (run f (S n - length l1) e1) as [[l2 e2]|] eqn:E3; [|discriminate]. intros [= <- <-].
  specialize (IH _ _ _ _ E2 R' E3). unfold startRelease in IH.
  replace (set_rd _ (set_rd _ (set_rel true e1))) with (set_rd (Z.of_nat (S n - length l1) + d) (set_rel true e1)).
  { now rewrite IH. }
  replace (Z.max (-1) (Z.of_nat (S n) + d - Z.of_nat (length l1))) with (Z.of_nat (S n - length l1) + d)%Z by lia. reflexivity.
Qed.
End Split.
