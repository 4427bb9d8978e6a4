(** Dynamic blocks, concrete envelopes, and what fails (C33, C34). *)
From Coq Require Import QArith Qround ZArith List Lia Bool Lqa.
Import ListNotations.
From Verif Require Import AdsrModel AdsrBlocks AdsrRange AdsrEnd AdsrSplit.
Open Scope Q_scope.

Ltac fields := cbn [e_st e_v e_rel e_rd e_td e_delay e_hold e_astep e_drate e_rrate e_start e_sus e_thr e_free e_dyn e_rate
  set_v set_st set_rel set_rd set_td set_delay set_hold fst snd].

Section Dynamic.
Variable rnd : Q -> Q.
Hypothesis RN : rounding rnd.
Variable expo : Q -> Q.
Variable offTime : Q.

(** C33: an envelope that follows its controllers within the block writes every frame too. *)
Theorem C33_dynamic_fills_block d n e : desc_rep rnd d ->
  exists l e', getBlockDynamic rnd expo offTime d (32 * 16 + 32) n 0 n e = Some (l, e') /\ length l = n.
Proof.
  intros DR.
  assert (forall s p m e, (m <= s)%nat ->
    exists l e', getBlockDynamic rnd expo offTime d (32 * 16 + 32) s p m e = Some (l, e') /\ length l = m) as H.
  { induction s as [|s IH]; intros p m e0 L.
    - assert (m = O) as -> by lia. exists [], e0. auto.
    - destruct m as [|m]; [exists [], e0; auto|]. cbn [getBlockDynamic].
      set (c := Nat.min processChunkSize (S m)).
      assert (1 <= c <= 16)%nat as C by (unfold c, processChunkSize; lia).
      destruct (C33_fills_block rnd c (updateValues rnd expo offTime d (Z.of_nat p) e0)) as (l & e' & R & Ll).
      { unfold proper_thr, updateValues. fields. destruct (DR (Z.of_nat p)) as [D1 D2].
        assert (rep rnd (Qclamp (d_sustain d (Z.of_nat p)) 0 1)) as Rs by (apply Qclamp_rep; assumption).
        unfold rep in Rs. pose proof (rnd_mono _ RN (Qclamp (d_sustain d (Z.of_nat p)) 0 1) (Qclamp (d_sustain d (Z.of_nat p)) 0 1 + virtuallyZero)) as M.
        unfold virtuallyZero in *. lra. }
      rewrite (run_mono rnd (32 * c + 32) (32 * 16 + 32) c _ _ ltac:(lia) R).
      destruct (IH (p + c)%nat (S m - c)%nat e' ltac:(lia)) as (l2 & e2 & -> & L2).
      exists (l ++ l2), e2. split; [reflexivity|]. rewrite app_length. lia. }
  apply H. lia.
Qed.

(** A delay that is computed again for every chunk does not pass: with [ampeg_dynamic=1] and a delay
    of more than 16 frames the envelope keeps the start value for ever, whatever the release. *)
Definition waiting (e : env) : Prop := e_st e = SDelay.
Lemma delay_loop n : forall e, (Z.of_nat n < e_delay e)%Z ->
  loop stepDelay n e = (repeat (e_start e) n, match n with O => e | _ => set_v (e_start e) (set_delay (e_delay e - Z.of_nat n)%Z e) end).
Proof.
  induction n as [|n IH]; intros e L; [reflexivity|]. cbn [loop]. unfold stepDelay at 1.
  destruct (Z.ltb_spec 0 (e_delay e)); [|lia].
  rewrite IH by (fields; lia). destruct n; cbn [repeat]; fields; [reflexivity|].
  f_equal. unfold set_v, set_delay. fields. f_equal; lia.
Qed.
Lemma waiting_iteration n e : waiting e -> (Z.of_nat n < e_delay e)%Z -> (1 <= n)%nat -> (-1 <= e_rd e)%Z ->
  Forall (fun y => y = e_start e) (fst (iteration rnd n e)) /\ waiting (snd (iteration rnd n e)) /\
  (1 <= length (fst (iteration rnd n e)) <= n)%nat /\
  (Z.of_nat (n - length (fst (iteration rnd n e))) < e_delay (snd (iteration rnd n e)))%Z /\
  e_start (snd (iteration rnd n e)) = e_start e.
Proof.
  unfold waiting. intros W D N Rm. unfold iteration.
  assert (exists m, pending n e = (m, e) /\ 1 <= m <= n)%nat as (m & -> & M).
  { unfold pending. assert ((e_delay e <=? 0)%Z = false) as -> by (apply Z.leb_gt; lia). rewrite !andb_false_r.
    destruct (e_rel e); [|exists n; split; [reflexivity|lia]].
    destruct (Z.ltb_spec 0 (e_rd e)); [|exists n; split; [reflexivity|lia]].
    exists (Nat.min n (Z.to_nat (e_rd e))). split; [reflexivity|lia]. }
  unfold segment. rewrite W, delay_loop by lia. cbn [fst snd]. rewrite repeat_length.
  destruct m as [|m]; [lia|]. unfold afterDelay. fields.
  destruct (Z.leb_spec (e_delay e - Z.of_nat (S m)) 0); [lia|].
  unfold countdown. fields. split; [apply Forall_forall; intros x X; now apply repeat_spec in X|].
  destruct (e_rel e); unfold set_rd; fields; (split; [assumption|]); (split; [lia|]); (split; [lia|reflexivity]).
Qed.
Lemma waiting_run f : forall n e l e', waiting e -> (Z.of_nat n < e_delay e)%Z -> (-1 <= e_rd e)%Z ->
  getBlockInternal rnd f n e = Some (l, e') ->
  Forall (fun y => y = e_start e) l /\ waiting e' /\ e_start e' = e_start e /\ (-1 <= e_rd e')%Z.
Proof.
  induction f as [|f IH]; intros n e l e' W D Rm; cbn [getBlockInternal]; destruct n as [|n]; try discriminate;
    try (intros [= <- <-]; repeat split; try assumption; constructor).
  pose proof (waiting_iteration (S n) e W D ltac:(lia) Rm) as (F & W1 & L & D1 & S1).
  pose proof (iteration_rd rnd (S n) e Rm) as R1.
  destruct (iteration rnd (S n) e) as [l1 e1]. cbn [fst snd] in *.
  destruct (getBlockInternal rnd f _ e1) as [[l2 e2]|] eqn:E; [|discriminate]. intros [= <- <-].
  destruct (IH _ _ _ _ W1 D1 R1 E) as (F2 & W2 & S2 & R2). rewrite S1 in *.
  split; [apply Forall_app; now split|auto].
Qed.
Lemma run_params f : forall n e l e', getBlockInternal rnd f n e = Some (l, e') -> params e' = params e.
Proof.
  induction f as [|f IH]; intros n e l e'; cbn [getBlockInternal]; destruct n as [|n]; try discriminate;
    try (intros [= <- <-]; reflexivity).
  pose proof (iteration_params rnd (S n) e) as P.
  destruct (iteration rnd (S n) e) as [l1 e1]. cbn [snd] in P.
  destruct (getBlockInternal rnd f _ e1) as [[l2 e2]|] eqn:E; [|discriminate]. intros [= <- <-].
  rewrite <- P. eapply IH; eassumption.
Qed.
Theorem C33_dynamic_delay_refuted d f : (forall p, (0 <= p)%Z -> Qclamp (d_start d p) 0 1 = 0) ->
  forall s p m e l e',
  (forall p, (0 <= p)%Z -> (16 < secondsToSamples rnd (e_rate e) (d_delay d p))%Z) ->
  e_st e = SDelay -> (-1 <= e_rd e)%Z ->
  getBlockDynamic rnd expo offTime d f s p m e = Some (l, e') -> Forall (fun y => y = 0) l /\ e_st e' = SDelay.
Proof.
  intros St. induction s as [|s IH]; intros p m e l e' De W Rm; cbn [getBlockDynamic]; destruct m as [|m]; try discriminate;
    try (intros [= <- <-]; now split).
  set (c := Nat.min processChunkSize (S m)).
  assert (1 <= c <= 16)%nat as C by (unfold c, processChunkSize; lia).
  set (e0 := updateValues rnd expo offTime d (Z.of_nat p) e).
  destruct (getBlockInternal rnd f c e0) as [[l1 e1]|] eqn:R; [|discriminate].
  assert (e_start e0 = 0) as S0 by (unfold e0, updateValues; fields; apply St; lia).
  assert (e_rate e1 = e_rate e) as Ra.
  { pose proof (run_params f c e0 l1 e1 R) as P. unfold params in P. assert (e_rate e1 = e_rate e0) as -> by congruence. reflexivity. }
  destruct (waiting_run f c e0 l1 e1) as (F & W1 & S1 & R1); try assumption.
  { unfold e0, updateValues. fields. rewrite W. specialize (De (Z.of_nat p) ltac:(lia)). lia. }
  destruct (getBlockDynamic rnd expo offTime d f s (p + c) (S m - c) e1) as [[l2 e2]|] eqn:G; [|discriminate].
  intros [= <- <-]. rewrite S0 in F.
  destruct (IH _ _ _ _ _ ltac:(rewrite Ra; exact De) W1 R1 G) as [F2 W2]. split; [apply Forall_app; now split|assumption].
Qed.

(** A release that is cancelled before the delay is over leaves an envelope that no later release ends:
    after [cancelRelease] the stage is Sustain, the delay is still positive, and a release is only
    obeyed when it is not. *)
Fixpoint played (f : nat) (ops : list (option nat * nat)) (e : env) : option env :=
  match ops with
  | [] => Some e
  | (r, n) :: ops =>
      match getBlockInternal rnd f n (match r with Some d => startRelease (Z.of_nat d) e | None => e end) with
      | Some (_, e') => played f ops e'
      | None => None
      end
  end.
Theorem C33_stuck_refuted f ops : forall e e', e_st e = SDelay -> (0 < e_delay e)%Z ->
  played f ops (cancelRelease e) = Some e' -> e_st e' = SSustain.
Proof.
  intros e e' _ D.
  assert (forall e, e_st e = SSustain /\ (0 < e_delay e)%Z -> played f ops e = Some e' -> e_st e' = SSustain /\ (0 < e_delay e')%Z) as H.
  { clear e D. induction ops as [|[r n] ops IH]; intros e X; cbn [played]; [now intros [= <-]|].
    destruct (getBlockInternal rnd f n _) as [[l e1]|] eqn:R; [|discriminate].
    apply IH. clear IH.
    assert (forall f n e l e1, e_st e = SSustain /\ (0 < e_delay e)%Z -> getBlockInternal rnd f n e = Some (l, e1) -> e_st e1 = SSustain /\ (0 < e_delay e1)%Z) as G.
    { clear. induction f as [|f IH]; intros n e l e1 X; cbn [getBlockInternal]; destruct n as [|n]; try discriminate;
        try (intros [= <- <-]; assumption).
      assert (e_st (snd (iteration rnd (S n) e)) = SSustain /\ (0 < e_delay (snd (iteration rnd (S n) e)))%Z) as Y.
      { destruct X as [X1 X2]. unfold iteration, pending.
        assert ((e_delay e <=? 0)%Z = false) as -> by (apply Z.leb_gt; lia). rewrite !andb_false_r.
        set (m := if e_rel e then _ else _).
        assert (snd m = e) as M by (unfold m; destruct (e_rel e); [destruct (_ <? _)%Z|]; reflexivity).
        destruct m as [m e2]. cbn [snd] in M. subst e2. unfold segment. rewrite X1.
        destruct (_ && _). { unfold countdown. fields. now split. }
        pose proof (loop_inv (fun e2 => e_st e2 = e_st e /\ e_delay e2 = e_delay e) (stepSustain rnd)) as L.
        destruct (loop (stepSustain rnd) m e) as [l2 e2] eqn:E2. unfold countdown.
        assert (e_st e2 = e_st e /\ e_delay e2 = e_delay e) as [Z1 Z2].
        { specialize (L ltac:(intros e3 y e4 P Q; unfold stepSustain in Q; injection Q as _ <-; exact P) m e (conj eq_refl eq_refl)).
          now rewrite E2 in L. }
        destruct (e_rel e2); unfold set_rd; fields; split; congruence. }
      destruct (iteration rnd (S n) e) as [l2 e2]. cbn [snd] in Y.
      destruct (getBlockInternal rnd f _ e2) as [[l3 e3]|] eqn:E; [|discriminate]. intros [= <- <-]. eapply IH; eassumption. }
    eapply G; [|exact R]. destruct r; [|assumption]. unfold startRelease, set_rd, set_rel. fields. assumption. }
  intros P. eapply H; [|exact P]. unfold cancelRelease. fields. now split.
Qed.
End Dynamic.

(** ** Concrete envelopes *)
Lemma exact_rounding : rounding Qred.
Proof.
  split; intros; rewrite ?Qred_correct; try reflexivity. assumption.
Qed.
Definition flat (delay attack hold decay release sus : Q) (dyn : bool) : desc :=
  Desc (fun _ => delay) (fun _ => attack) (fun _ => hold) (fun _ => decay) (fun _ => release) (fun _ => sus) (fun _ => 0) dyn.
Definition blank : env := Env SDone 0 false 0 0 0 0 0 0 0 0 0 0 false false 0.
Definition off := 6 # 1000.
Definition fresh (rate factor : Q) (d : desc) (delay : Z) : env := reset Qred (fun _ => factor) off d false delay rate blank.
Definition play (n : nat) (e : env) := getBlockInternal Qred (32 * n + 32) n e.
Definition then_play (n : nat) (k : env -> env) (r : option (list Q * env)) :=
  match r with Some (l, e) => match play n (k e) with Some (l', e') => Some (l ++ l', e') | None => None end | None => None end.

(** 8000 Hz: attack of 4 frames, hold of 2, decay and release by halves, sustain level 1/4. *)
Definition small : env := fresh 8000 (1 # 2) (flat 0 (1 # 2000) (2 # 8000) (1 # 10) (1 # 10) (1 # 4) false) 2.
Example C33_ex :
  sound Qred small /\ settled small /\ falling Qred 0 small /\
  (exists e, play 12 small = Some ([0; 0; 1 # 4; 1 # 2; 3 # 4; 1; 1; 1 # 2; 1 # 4; 1 # 4; 1 # 4; 1 # 4], e) /\ e_st e = SSustain) /\
  (exists l e, then_play 500 (startRelease 2) (play 12 small) = Some (l, e) /\
     firstn 3 (skipn 13 l) = [1 # 4; 1 # 8; 1 # 16] /\ finished e /\ length l = 512%nat) /\
  (exists l e, play 40 (startRelease 4 small) = Some (l, e) /\ e_st e = SFadeout).
Proof.
  assert (rounding Qred) as R by exact exact_rounding.
  split; [|split; [now left|]].
  { unfold small, fresh. apply C33_reset_sound; try exact R; try (vm_compute; split; congruence); try (vm_compute; congruence). }
  split.
  { unfold small, fresh. apply C33_reset_falling; try exact R; try lra; try (vm_compute; split; congruence); try (vm_compute; congruence). }
  split; [eexists; split; vm_compute; reflexivity|].
  split.
  - eexists; eexists. split; [vm_compute; reflexivity|]. split; [reflexivity|]. split; [|reflexivity]. now vm_compute.
  - eexists; eexists. split; vm_compute; reflexivity.
Qed.

(** ** Refutations *)
(** C34: a block that ends in the decay, less than 0.001 above the sustain level, goes over to the
    sustain stage at once and takes a slope to the level; without the cut it jumps to it. *)
Theorem C34_decay_cut_refuted :
  let e := fresh 8000 (1 # 2) (flat 0 0 0 (1 # 10) (1 # 10) (499 # 2000) false) 0 in
  exists l e1 l' e1', play 4 e = Some (l, e1) /\ then_play 2 (fun e => e) (play 2 e) = Some (l', e1') /\
    l = [1 # 2; 1 # 4; 499 # 2000; 499 # 2000] /\ nth 2 l' 0 == (1 # 4) - (5 # 10000) / 400.
Proof. eexists _, _, _, _. split; [vm_compute; reflexivity|]. split; [vm_compute; reflexivity|]. split; reflexivity. Qed.
(** C34: a block that ends exactly with the delay keeps a delay of 0 and not -1, and the release then
    comes one frame later. *)
Theorem C34_delay_cut_refuted :
  let e := startRelease 6 (fresh 8000 (1 # 2) (flat (4 # 8000) (8 # 8000) 0 (1 # 10) (1 # 10) (1 # 4) false) 0) in
  exists l e1 l' e1', play 8 e = Some (l, e1) /\ then_play 4 (fun e => e) (play 4 e) = Some (l', e1') /\
    l = [0; 0; 0; 0; 1 # 8; 1 # 4; 1 # 8; 1 # 16] /\ l' = [0; 0; 0; 0; 1 # 8; 1 # 4; 3 # 8; 3 # 16].
Proof. eexists _, _, _, _. split; [vm_compute; reflexivity|]. split; [vm_compute; reflexivity|]. split; reflexivity. Qed.
(** Clean cuts: the same envelopes cut elsewhere. *)
Example C34_ex :
  let e := startRelease 6 (fresh 8000 (1 # 2) (flat (4 # 8000) (8 # 8000) 0 (1 # 10) (1 # 10) (1 # 4) false) 0) in
  (exists l e1, play 3 e = Some (l, e1) /\ clean e1) /\
  (exists l e1, play 5 e = Some (l, e1) /\ clean e1) /\
  (exists l e1 l' e1', play 8 e = Some (l, e1) /\ then_play 3 (fun e => e) (play 5 e) = Some (l', e1') /\ l = l' /\
     nth 6 l 0 = 1 # 8).
Proof.
  cbv zeta. split; [|split].
  - eexists _, _. split; [vm_compute; reflexivity|]. split; vm_compute; congruence.
  - eexists _, _. split; [vm_compute; reflexivity|]. split; vm_compute; congruence.
  - eexists _, _, _, _. split; [vm_compute; reflexivity|]. split; [vm_compute; reflexivity|]. split; reflexivity.
Qed.
(** A note that starts at frame 10 of a block, is let go at 20, and is caught by the pedal (with
    [sustain_cancels_release]) at 30 of the same block: [C33_stuck_refuted] applies. *)
Example C33_stuck_ex :
  let e := startRelease 20 (fresh 8000 (1 # 2) (flat 0 0 0 0 (1 # 10) 1 false) 10) in
  e_st e = SDelay /\ e_delay e = 10%Z /\
  exists e', played Qred 5000 [(None, 64%nat); (Some 5%nat, 64%nat)] (cancelRelease e) = Some e' /\
    e_st e' = SSustain /\ e_rel e' = true /\ e_v e' = 0.
Proof. split; [reflexivity|]. split; [reflexivity|]. eexists. split; [vm_compute; reflexivity|]. now repeat split. Qed.
(** An [ampeg_delay] of 32 frames with [ampeg_dynamic=1]: [C33_dynamic_delay_refuted] applies. *)
Example C33_dynamic_delay_ex :
  let d := flat (32 # 8000) 0 0 0 (1 # 10) 1 true in
  let e := fresh 8000 (1 # 2) d 0 in
  (forall p, Qclamp (d_start d p) 0 1 = 0) /\ (forall p, (16 < secondsToSamples Qred (e_rate e) (d_delay d p))%Z) /\
  e_st e = SDelay /\ e_rd e = 0%Z /\
  (exists e', getBlockDynamic Qred (fun _ => 1 # 2) off d 544 64 0 64 e = Some (repeat 0 64, e') /\ e_delay e' = 64%Z) /\
  (exists l e', play 34 (stopDynamicUpdates e) = Some (l, e') /\ skipn 32 l = [1; 1]).
Proof.
  cbv zeta. split; [reflexivity|]. split; [intros; reflexivity|]. split; [reflexivity|]. split; [reflexivity|].
  split; [eexists; split; [vm_compute; reflexivity|reflexivity]|].
  eexists _, _. split; [vm_compute; reflexivity|reflexivity].
Qed.
(** C33: a level that a controller lowers during the slope to the sustain level leaves the slope as it
    is, and the value runs below zero. *)
Theorem C33_dynamic_negative_refuted :
  let d s := flat 0 0 (15 # 1000) (1 # 10) (1 # 10) s true in
  let e := fresh 1000 (49 # 10000) (d (4 # 1000)) 0 in
  exists l e1 l' e2, getBlockDynamic Qred (fun _ => 49 # 10000) off (d (4 # 1000)) 544 16 0 16 e = Some (l, e1) /\
    getBlockDynamic Qred (fun _ => 49 # 10000) off (d 0) 544 300 0 300 e1 = Some (l', e2) /\ nth 299 l' 0 < 0.
Proof. eexists _, _, _, _. split; [vm_compute; reflexivity|]. split; [vm_compute; reflexivity|]. vm_compute. reflexivity. Qed.
(** C33: so does the slope of an envelope with sustain level 0 when the release is set further ahead
    than the slope is long (the envelope then does not release itself). *)
Theorem C33_scheduled_negative_refuted :
  let e := fresh 22050 (1 # 2000) (flat 0 0 0 (1 # 10) (1 # 10) 0 false) 0 in
  exists l e1, then_play 1200 (startRelease 2000) (play 1 e) = Some (l, e1) /\ nth 1200 l 0 < 0.
Proof. eexists _, _. split; [vm_compute; reflexivity|]. vm_compute. reflexivity. Qed.
