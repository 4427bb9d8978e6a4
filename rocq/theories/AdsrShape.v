(** The shape of the ADSR envelope (C77). *)
From Coq Require Import QArith Qround ZArith List Lia Bool Lqa.
Import ListNotations.
From Verif Require Import AdsrModel AdsrBlocks AdsrRange AdsrProps.
Open Scope nat_scope.

Ltac fields := cbn [e_st e_v e_rel e_rd e_td e_delay e_hold e_astep e_drate e_rrate e_start e_sus e_thr e_free e_dyn e_rate
  set_v set_st set_rel set_rd set_td set_delay set_hold fst snd].

(** * What is claimed *)
(** [walk f k x]: the [k] values that follow [x], each the image of the one before; [reach f k x] is the last. *)
Fixpoint walk (f : Q -> Q) (k : nat) (x : Q) : list Q := match k with O => [] | S k => f x :: walk f k (f x) end.
Fixpoint reach (f : Q -> Q) (k : nat) (x : Q) : Q := match k with O => x | S k => reach f k (f x) end.
(** The first [k] of them are in [ok], and the next is not. *)
Definition leaves (f : Q -> Q) (ok : Q -> Prop) (k : nat) (x : Q) : Prop :=
  Forall ok (walk f k x) /\ ~ ok (f (reach f k x)).
(** A signal that begins with the values [l] and goes on like [s]. *)
Definition after (l : list Q) (s : nat -> Q) : nat -> Q :=
  fun i => if i <? length l then nth i l 0%Q else s (i - length l).
Definition samples (s : nat -> Q) (n : nat) : list Q := map s (seq 0 n).
(** Times in frames, and rates. *)
Definition frames (rnd : Q -> Q) (rate t : Q) (k : nat) : Prop :=
  (t <= 0 -> k = 0%nat)%Q /\ (0 < t -> inject_Z (Z.of_nat k) <= rnd (t * rate) < inject_Z (Z.of_nat k + 1))%Q.
Definition linear_step (rnd : Q -> Q) (rate t r : Q) : Prop :=
  (t <= 0 -> r = 1)%Q /\ (0 < t -> r = rnd (1 / rnd (rate * t)))%Q.
Definition decay_factor (rnd expo : Q -> Q) (off rate t r : Q) : Prop :=
  (t <= 0 -> r = 0)%Q /\
  (0 < t -> exists m, (t < off -> m = off)%Q /\ (off <= t -> m = t)%Q /\ r = rnd (expo (rnd ((-9 # 1) / rnd (m * rate)))))%Q.

Section Shape.
Variable rnd : Q -> Q.
Notation run := (getBlockInternal rnd).
Definition emits (e : env) (s : nat -> Q) : Prop :=
  forall f n l e', run f n e = Some (l, e') -> l = samples s n.

Lemma samples_app s a b : samples s (a + b) = samples s a ++ samples (fun i => s (a + i)) b.
Proof.
  revert s. induction a as [|a IH]; intros s; [reflexivity|]. unfold samples in *. cbn [plus seq map app]. f_equal.
  rewrite <- !seq_shift, !map_map. exact (IH (fun i => s (S i))).
Qed.
Lemma samples_ext s s' n : (forall i, i < n -> s i = s' i) -> samples s n = samples s' n.
Proof. intros H. apply map_ext_in. intros i Hi. apply in_seq in Hi. apply H. lia. Qed.
Lemma samples_after_short l s n : n <= length l -> samples (after l s) n = firstn n l.
Proof.
  revert s n. induction l as [|x l IH]; intros s n H; cbn [length] in H.
  - replace n with 0 by lia. reflexivity.
  - destruct n as [|n]; [reflexivity|]. cbn [firstn]. rewrite <- (IH s n) by lia.
    change (S n) with (1 + n). rewrite samples_app. cbn [samples seq map app]. f_equal.
Qed.
Lemma samples_after l s n : length l <= n -> samples (after l s) n = l ++ samples s (n - length l).
Proof.
  intros H. replace n with (length l + (n - length l)) at 1 by lia. rewrite samples_app, samples_after_short, firstn_all by lia. f_equal.
  apply samples_ext. intros i _. unfold after. destruct (Nat.ltb_spec (length l + i) (length l)); [lia|]. f_equal. lia.
Qed.
Lemma emits_stage e c e2 s :
  (forall n, 0 < n <= length c -> fst (iteration rnd n e) = firstn n c) ->
  (forall n, length c < n -> iteration rnd n e = (c, e2)) -> emits e2 s -> emits e (after c s).
Proof.
  intros Short Long E2 f n l e' R. destruct n as [|n]; [destruct f; injection R as <- <-; reflexivity|].
  destruct f as [|f]; [discriminate|]. cbn [getBlockInternal] in R. destruct (Nat.le_gt_cases (S n) (length c)) as [L|L].
  - specialize (Short (S n) ltac:(lia)). destruct (iteration rnd (S n) e) as [l1 e1]. cbn [fst] in Short. subst l1.
    assert (Z : S n - length (firstn (S n) c) = 0) by (rewrite firstn_length; lia). rewrite Z in R.
    rewrite samples_after_short by exact L. destruct f; injection R as <- <-; apply app_nil_r.
  - rewrite (Long (S n) L) in R. destruct (run f (S n - length c) e2) as [[l2 e3]|] eqn:R2; [|discriminate].
    injection R as <- <-. rewrite samples_after by lia. f_equal. eapply E2. exact R2.
Qed.
Lemma emits_forever e s : (forall n, 0 < n -> fst (iteration rnd n e) = samples s n) -> emits e s.
Proof.
  intros H f n l e' R. destruct n as [|n]; [destruct f; injection R as <- <-; reflexivity|].
  destruct f as [|f]; [discriminate|]. cbn [getBlockInternal] in R. specialize (H (S n) ltac:(lia)).
  destruct (iteration rnd (S n) e) as [l1 e1]. cbn [fst] in H. subst l1.
  assert (Z : S n - length (samples s (S n)) = 0) by (unfold samples; rewrite map_length, seq_length; lia). rewrite Z in R.
  destruct f; cbn [getBlockInternal] in R; injection R as R _; rewrite app_nil_r in R; symmetry; exact R.
Qed.
Lemma emits_ext e s s' : (forall i, s i = s' i) -> emits e s -> emits e s'.
Proof. intros H E f n l e' R. rewrite (E _ _ _ _ R). apply samples_ext. intros i _. apply H. Qed.

(** ** Loops that walk *)
Lemma set_v_id e : set_v (e_v e) e = e. Proof. destruct e; reflexivity. Qed.
Lemma walk_length f k : forall x, length (walk f k x) = k.
Proof. induction k as [|k IH]; intros x; cbn [walk length]; [reflexivity|]. now rewrite IH. Qed.
Lemma walk_firstn f n k : n <= k -> forall x, firstn n (walk f k x) = walk f n x.
Proof.
  revert k. induction n as [|n IH]; intros k H x; [reflexivity|]. destruct k as [|k]; [lia|]. cbn [walk firstn]. rewrite IH by lia. reflexivity.
Qed.
Lemma walk_last f k x d : last (walk f k x) x = reach f k x /\ (k <> 0 -> last (walk f k x) d = reach f k x).
Proof.
  revert x d. induction k as [|k IH]; intros x d; [split; [reflexivity|lia]|]. cbn [reach].
  assert (forall d, last (walk f (S k) x) d = reach f k (f x)) as G.
  { intros d'. cbn [walk]. destruct k as [|k]; [reflexivity|]. destruct (IH (f x) d') as [_ H]. rewrite <- H by lia. reflexivity. }
  split; [apply G|intros _; apply G].
Qed.
Section Walk.
Variables (step : env -> option Q * env) (f : Q -> Q) (ok : Q -> bool) (okP : Q -> Prop) (e : env).
Hypothesis Hstep : forall v, step (set_v v e) = (if ok (f v) then Some (f v) else None, set_v (f v) e).
Hypothesis Hok : forall v, ok v = true <-> okP v.
Lemma loop_walk_short k : forall n x, Forall okP (walk f k x) -> n <= k ->
  loop step n (set_v x e) = (walk f n x, set_v (reach f n x) e).
Proof.
  induction k as [|k IH]; intros n x F H; destruct n as [|n]; try lia; try reflexivity.
  cbn [loop walk reach]. rewrite Hstep. cbn [walk] in F. inversion F; subst. rewrite (proj2 (Hok _)) by assumption.
  rewrite (IH n (f x)) by (assumption || lia). reflexivity.
Qed.
Lemma loop_walk_long k : forall n x, leaves f okP k x -> k < n ->
  loop step n (set_v x e) = (walk f k x, set_v (f (reach f k x)) e).
Proof.
  induction k as [|k IH]; intros n x [F N] H; destruct n as [|n]; try lia; cbn [loop walk reach]; rewrite Hstep.
  - cbn [reach] in N. destruct (ok (f x)) eqn:E; [apply Hok in E; contradiction|reflexivity].
  - cbn [walk] in F. inversion F; subst. rewrite (proj2 (Hok _)) by assumption. rewrite (IH n (f x)); [reflexivity|split; assumption|lia].
Qed.
End Walk.
Lemma Qltb_iff x y : Qltb x y = true <-> (x < y)%Q.
Proof.
  unfold Qltb. rewrite negb_true_iff. split; intros H.
  - apply Qnot_le_lt. intros L. apply Qle_bool_iff in L. congruence.
  - apply not_true_is_false. intros L. apply Qle_bool_iff in L. lra.
Qed.
Lemma Qle_bool_not x y : (x < y)%Q -> Qle_bool y x = false.
Proof. intros H. apply not_true_is_false. intros L. apply Qle_bool_iff in L. lra. Qed.

(** ** The stages before the release *)
Definition quiet (e : env) : Prop := e_rel e = false.
Lemma iteration_quiet n e : quiet e -> iteration rnd n e = (let '(l, e1) := segment rnd n e in (l, countdown (length l) e1)).
Proof. intros Q. unfold iteration, pending. rewrite Q. reflexivity. Qed.
Lemma countdown_quiet k e : quiet e -> countdown k e = e.
Proof. intros Q. unfold countdown. rewrite Q. reflexivity. Qed.

Lemma loop_delay : forall n e, (Z.of_nat n <= e_delay e)%Z -> 0 < n ->
  loop stepDelay n e = (repeat (e_start e) n, set_v (e_start e) (set_delay (e_delay e - Z.of_nat n) e)).
Proof.
  induction n as [|n IH]; intros e H H0; [lia|]. cbn [loop]. unfold stepDelay at 1.
  destruct (Z.ltb_spec 0 (e_delay e)) as [L|L]; [|lia]. destruct n as [|n].
  - cbn [loop repeat]. reflexivity.
  - rewrite IH by (fields; lia). fields. cbn [repeat]. f_equal. unfold set_v, set_delay. fields. f_equal. lia.
Qed.
Lemma loop_delay_long n e : (0 <= e_delay e)%Z -> Z.to_nat (e_delay e) < n ->
  loop stepDelay n e = (repeat (e_start e) (Z.to_nat (e_delay e)),
    set_v (if (e_delay e =? 0)%Z then e_v e else e_start e) (set_delay (-1) e)).
Proof.
  intros H L. destruct (Z.eqb_spec (e_delay e) 0) as [Z|Z].
  - rewrite Z. cbn [Z.to_nat repeat]. destruct n as [|n]; [lia|]. cbn [loop]. unfold stepDelay. rewrite Z. cbn [Z.ltb Z.compare].
    destruct e; reflexivity.
  - replace n with (Z.to_nat (e_delay e) + (n - Z.to_nat (e_delay e))) by lia.
    assert (E := loop_delay (Z.to_nat (e_delay e)) e ltac:(lia) ltac:(lia)).
    rewrite loop_full by (rewrite E; apply repeat_length). rewrite E. fields.
    destruct (n - Z.to_nat (e_delay e)) as [|m] eqn:Em; [lia|]. cbn [loop]. unfold stepDelay at 1. fields.
    replace (e_delay e - Z.of_nat (Z.to_nat (e_delay e)))%Z with 0%Z by lia. cbn [Z.ltb Z.compare fst snd].
    rewrite app_nil_r. unfold stepDelay at 1. fields. cbn [Z.ltb Z.compare fst snd]. reflexivity.
Qed.
Lemma emits_delay e s : quiet e -> e_st e = SDelay -> (0 <= e_delay e)%Z -> e_v e = e_start e ->
  emits (set_st SAttack (set_delay (-1) e)) s -> emits e (after (repeat (e_start e) (Z.to_nat (e_delay e))) s).
Proof.
  intros Qe St D V E2. eapply emits_stage; [| |exact E2]; rewrite repeat_length; intros n Hn; rewrite iteration_quiet by exact Qe;
    unfold segment; rewrite St.
  - rewrite loop_delay by lia. cbn [fst]. clear - Hn. revert Hn. generalize (Z.to_nat (e_delay e)). induction n as [|n IH]; intros k H; [reflexivity|].
    destruct k as [|k]; [lia|]. cbn [repeat firstn]. destruct n; [reflexivity|]. rewrite <- IH by lia. reflexivity.
  - rewrite loop_delay_long by lia. f_equal. unfold afterDelay. fields. cbn [Z.leb Z.compare].
    rewrite <- V. replace (if (e_delay e =? 0)%Z then e_v e else e_v e) with (e_v e) by (destruct (_ =? _)%Z; reflexivity).
    rewrite countdown_quiet by exact Qe. destruct e; reflexivity.
Qed.
Lemma emits_attack e k s : quiet e -> e_st e = SAttack ->
  leaves (fun v => rnd (v + e_astep e)) (fun v => v < 1)%Q k (e_v e) ->
  emits (set_st SHold (set_v 1 e)) s -> emits e (after (walk (fun v => rnd (v + e_astep e))%Q k (e_v e)) s).
Proof.
  intros Qe St L E2. set (f := fun v => rnd (v + e_astep e)%Q) in *.
  assert (Hs : forall v, stepAttack rnd (set_v v e) = (if Qltb (f v) 1 then Some (f v) else None, set_v (f v) e)) by reflexivity.
  assert (Ho : forall v, Qltb v 1 = true <-> (v < 1)%Q) by (intros v; apply Qltb_iff).
  eapply emits_stage; [| |exact E2]; rewrite walk_length; intros n Hn; rewrite iteration_quiet by exact Qe; unfold segment; rewrite St.
  - rewrite <- (set_v_id e) at 1. rewrite (loop_walk_short (stepAttack rnd) f _ _ e Hs Ho k) by (apply L || lia).
    cbn [fst]. rewrite walk_firstn by lia. reflexivity.
  - rewrite <- (set_v_id e) at 1. rewrite (loop_walk_long (stepAttack rnd) f _ _ e Hs Ho k) by (exact L || lia). unfold afterAttack. fields.
    replace (Qle_bool 1 (f (reach f k (e_v e)))) with true.
    + rewrite countdown_quiet by exact Qe. reflexivity.
    + symmetry. apply Qle_bool_iff. apply Qnot_lt_le. apply L.
Qed.
Lemma loop_hold : forall n e, (Z.of_nat n <= e_hold e)%Z ->
  loop stepHold n e = (repeat (e_v e) n, set_hold (e_hold e - Z.of_nat n) e).
Proof.
  induction n as [|n IH]; intros e H; [cbn [loop repeat]; f_equal; replace (e_hold e - Z.of_nat 0)%Z with (e_hold e) by lia; destruct e; reflexivity|].
  cbn [loop]. unfold stepHold at 1. destruct (Z.ltb_spec 0 (e_hold e)); [|lia]. rewrite IH by (fields; lia). fields. cbn [repeat].
  f_equal. unfold set_hold. fields. f_equal. lia.
Qed.
Lemma loop_hold_long n e : (0 <= e_hold e)%Z -> Z.to_nat (e_hold e) < n ->
  loop stepHold n e = (repeat (e_v e) (Z.to_nat (e_hold e)), set_hold (-1) e).
Proof.
  intros H L. replace n with (Z.to_nat (e_hold e) + (n - Z.to_nat (e_hold e))) by lia.
  assert (E := loop_hold (Z.to_nat (e_hold e)) e ltac:(lia)).
  rewrite loop_full by (rewrite E; apply repeat_length). rewrite E. fields.
  destruct (n - Z.to_nat (e_hold e)) as [|m] eqn:Em; [lia|]. cbn [loop]. unfold stepHold. fields.
  replace (e_hold e - Z.of_nat (Z.to_nat (e_hold e)))%Z with 0%Z by lia. cbn [Z.ltb Z.compare fst snd].
  rewrite app_nil_r. reflexivity.
Qed.
Lemma firstn_repeat {A} (x : A) n k : n <= k -> firstn n (repeat x k) = repeat x n.
Proof. revert k. induction n as [|n IH]; intros k H; [reflexivity|]. destruct k as [|k]; [lia|]. cbn [repeat firstn]. rewrite IH by lia. reflexivity. Qed.
Lemma emits_hold e s : quiet e -> e_st e = SHold -> (0 <= e_hold e)%Z ->
  emits (set_st SDecay (set_hold (-1) e)) s -> emits e (after (repeat (e_v e) (Z.to_nat (e_hold e))) s).
Proof.
  intros Qe St D E2. eapply emits_stage; [| |exact E2]; rewrite repeat_length; intros n Hn; rewrite iteration_quiet by exact Qe;
    unfold segment; rewrite St.
  - rewrite loop_hold by lia. cbn [fst]. rewrite firstn_repeat by lia. reflexivity.
  - rewrite loop_hold_long by lia. f_equal. unfold afterHold. fields. cbn [Z.leb Z.compare]. rewrite countdown_quiet by exact Qe. reflexivity.
Qed.
(** The value with which the sustain stage begins. *)
Definition sustained (e : env) (k : nat) : Q :=
  Qmaxf (e_sus e) ((fun v => rnd (v * e_drate e)) (reach (fun v => rnd (v * e_drate e)) k (e_v e)))%Q.
Definition at_sustain (e : env) (k : nat) : env :=
  set_td (rnd (rnd (e_sus e - sustained e k) / fade rnd e)) (set_v (sustained e k) (set_st SSustain e)).
Lemma emits_decay e k s : quiet e -> e_st e = SDecay -> (e_sus e <= e_thr e)%Q ->
  leaves (fun v => rnd (v * e_drate e)) (fun v => e_sus e < v)%Q k (e_v e) ->
  emits (at_sustain e k) s ->
  emits e (after (walk (fun v => rnd (v * e_drate e))%Q k (e_v e)) s).
Proof.
  intros Qe St Th L E2. unfold at_sustain, sustained in *. set (f := fun v => rnd (v * e_drate e)%Q) in *.
  assert (Hs : forall v, stepDecay rnd (set_v v e) = (if Qltb (e_sus e) (f v) then Some (f v) else None, set_v (f v) e)) by reflexivity.
  assert (Ho : forall v, Qltb (e_sus e) v = true <-> (e_sus e < v)%Q) by (intros v; apply Qltb_iff).
  assert (Le : (f (reach f k (e_v e)) <= e_sus e)%Q) by (apply Qnot_lt_le; apply L).
  eapply emits_stage; [| |exact E2]; rewrite walk_length; intros n Hn; rewrite iteration_quiet by exact Qe; unfold segment; rewrite St.
  - rewrite <- (set_v_id e) at 1. rewrite (loop_walk_short (stepDecay rnd) f _ _ e Hs Ho k) by (apply L || lia).
    cbn [fst]. rewrite walk_firstn by lia. reflexivity.
  - rewrite <- (set_v_id e) at 1. rewrite (loop_walk_long (stepDecay rnd) f _ _ e Hs Ho k) by (exact L || lia). unfold afterDecay. fields.
    replace (Qle_bool (f (reach f k (e_v e))) (e_thr e)) with true.
    + rewrite countdown_quiet by exact Qe. reflexivity.
    + symmetry. apply Qle_bool_iff. lra.
Qed.
Lemma sustained_is e k : leaves (fun v => rnd (v * e_drate e)) (fun v => e_sus e < v)%Q k (e_v e) -> (sustained e k == e_sus e)%Q.
Proof.
  intros [_ L]. apply Qnot_lt_le in L. unfold sustained, Qmaxf. destruct (Qltb _ _) eqn:E; [reflexivity|]. apply Qle_antisym; [exact L|].
  apply Qnot_lt_le. intros X. apply Qltb_iff in X. congruence.
Qed.
Lemma loop_sustain : forall n e, (e_v e <= e_sus e)%Q -> loop (stepSustain rnd) n e = (repeat (e_v e) n, e).
Proof.
  induction n as [|n IH]; intros e H; [reflexivity|]. cbn [loop]. unfold stepSustain at 1.
  assert (E : Qltb (e_sus e) (e_v e) = false) by (apply not_true_is_false; rewrite Qltb_iff; lra). rewrite E. rewrite set_v_id, IH by exact H. reflexivity.
Qed.
Lemma samples_const v n : samples (fun _ => v) n = repeat v n.
Proof. unfold samples. generalize 0. induction n as [|n IH]; intros k; [reflexivity|]. cbn [seq map repeat]. rewrite IH. reflexivity. Qed.
Lemma emits_sustain e : quiet e -> e_st e = SSustain -> e_free e = false -> (e_v e <= e_sus e)%Q -> emits e (fun _ => e_v e).
Proof.
  intros Qe St Fr V. apply emits_forever. intros n _. rewrite iteration_quiet by exact Qe. unfold segment. rewrite St, Fr, andb_false_r.
  rewrite loop_sustain by exact V. cbn [fst]. symmetry. apply samples_const.
Qed.

(** ** The release *)
Definition let_go (e : env) : Prop := e_rel e = true /\ e_rd e = (-1)%Z.
Lemma iteration_gone n e : let_go e -> beforeRelease (e_st e) = false ->
  iteration rnd n e = (let '(l, e1) := segment rnd n e in (l, countdown (length l) e1)).
Proof. intros [R D] B. unfold iteration, pending. rewrite R, D, B. reflexivity. Qed.
Lemma countdown_gone k e : let_go e -> countdown k e = e.
Proof. intros [R D]. unfold countdown. rewrite R, D. rewrite Z.max_l by lia. destruct e; cbn in *; subst; reflexivity. Qed.
Lemma emits_done e : let_go e -> e_st e = SDone -> emits e (fun _ => 0%Q).
Proof.
  intros G St. apply emits_forever. intros n _. rewrite iteration_gone by (exact G || (rewrite St; reflexivity)). unfold segment. rewrite St.
  cbn [fst]. symmetry. apply samples_const.
Qed.
Lemma emits_fadeout e k : let_go e -> e_st e = SFadeout ->
  leaves (fun v => rnd (v + e_td e)) (fun v => 0 < v)%Q k (e_v e) ->
  emits e (after (walk (fun v => rnd (v + e_td e))%Q k (e_v e)) (fun _ => 0%Q)).
Proof.
  intros G St L. set (f := fun v => rnd (v + e_td e)%Q) in *.
  assert (Hs : forall v, stepFadeout rnd (set_v v e) = (if Qltb 0 (f v) then Some (f v) else None, set_v (f v) e)) by reflexivity.
  assert (Ho : forall v, Qltb 0 v = true <-> (0 < v)%Q) by (intros v; apply Qltb_iff).
  eapply (emits_stage e _ (set_st SDone (set_v 0 e))); [| |apply emits_done; [exact G|reflexivity]]; rewrite walk_length; intros n Hn;
    (rewrite iteration_gone by (exact G || (rewrite St; reflexivity))); unfold segment; rewrite St.
  - rewrite <- (set_v_id e) at 1. rewrite (loop_walk_short (stepFadeout rnd) f _ _ e Hs Ho k) by (apply L || lia).
    cbn [fst]. rewrite walk_firstn by lia. reflexivity.
  - rewrite <- (set_v_id e) at 1. rewrite (loop_walk_long (stepFadeout rnd) f _ _ e Hs Ho k) by (exact L || lia). unfold afterFadeout. fields.
    replace (Qle_bool (f (reach f k (e_v e))) 0) with true.
    + rewrite countdown_gone by exact G. reflexivity.
    + symmetry. apply Qle_bool_iff. apply Qnot_lt_le. apply L.
Qed.
(** The release from the value [x]: multiplied by [r] at each frame while above 1/10000, then straight to zero in a
    twentieth of a second, then zero. *)
Definition release_shape (r rate x : Q) (s : nat -> Q) : Prop :=
  (exists kr kf td m, leaves (fun v => rnd (v * r)) (fun v => (1 # 10000) < v) kr x /\
    let y := reach (fun v => rnd (v * r)) kr x in
    ((1 # 10000) <= y -> m = y) /\ (y < (1 # 10000) -> m = (1 # 10000)) /\ td = rnd (- m / rnd (rate * (1 # 20))) /\
    leaves (fun v => rnd (v + td)) (fun v => 0 < v) kf y /\
    s = after (walk (fun v => rnd (v * r)) kr x) (after (walk (fun v => rnd (v + td)) kf y) (fun _ => 0)))%Q.
Lemma emits_release e s : let_go e -> e_st e = SRelease -> release_shape (e_rrate e) (e_rate e) (e_v e) s -> emits e s.
Proof.
  intros G St (kr & kf & td & m & L & M1 & M2 & Td & Lf & ->). set (f := fun v => rnd (v * e_rrate e)%Q) in *.
  assert (Hs : forall v, stepRelease rnd (set_v v e) = (if Qltb egReleaseThreshold (f v) then Some (f v) else None, set_v (f v) e)) by reflexivity.
  assert (Ho : forall v, Qltb egReleaseThreshold v = true <-> (1 # 10000 < v)%Q) by (intros v; apply Qltb_iff).
  assert (Em : Qmaxf egReleaseThreshold (reach f kr (e_v e)) = m).
  { unfold Qmaxf. destruct (Qltb (reach f kr (e_v e)) egReleaseThreshold) eqn:E.
    - apply Qltb_iff in E. symmetry. apply M2. exact E.
    - symmetry. apply M1. apply Qnot_lt_le. intros X. apply Qltb_iff in X. unfold egReleaseThreshold in E. congruence. }
  eapply (emits_stage e _ (set_td td (set_v (reach f kr (e_v e)) (set_st SFadeout e)))).
  3: { refine (emits_fadeout _ kf _ _ _); [exact G|reflexivity|exact Lf]. }
  all: rewrite walk_length; intros n Hn;
    (rewrite iteration_gone by (exact G || (rewrite St; reflexivity))); unfold segment; rewrite St.
  - rewrite <- (set_v_id e) at 1. rewrite (loop_walk_short (stepRelease rnd) f _ _ e Hs Ho kr) by (apply L || lia).
    cbn [fst]. rewrite walk_firstn by lia. reflexivity.
  - rewrite <- (set_v_id e) at 1. rewrite (loop_walk_long (stepRelease rnd) f _ _ e Hs Ho kr) by (exact L || lia). unfold afterRelease. fields.
    replace (Qle_bool (f (reach f kr (e_v e))) egReleaseThreshold) with true.
    + rewrite (proj1 (walk_last f kr (e_v e) 0%Q)). rewrite countdown_gone by exact G. rewrite Em, Td. reflexivity.
    + symmetry. apply Qle_bool_iff. apply Qnot_lt_le. apply L.
Qed.
Lemma emits_iter e e' s : (forall n, 0 < n -> iteration rnd n e = iteration rnd n e') -> emits e' s -> emits e s.
Proof.
  intros H E f n l x R. destruct n as [|n]; [destruct f; injection R as <- <-; reflexivity|].
  apply (E f (S n) l x). destruct f as [|f]; [discriminate|]. cbn [getBlockInternal] in *. rewrite <- H by lia. exact R.
Qed.
(** A release that is due. *)
Lemma emits_due e s : e_rel e = true -> e_rd e = 0%Z -> (e_delay e < 0)%Z ->
  release_shape (e_rrate e) (e_rate e) (e_v e) s -> emits e s.
Proof.
  intros R D Dl S. apply (emits_iter e (set_rd (-1) (set_st SRelease e))).
  - intros n _. unfold iteration, pending. fields. rewrite R, D. cbn [Z.ltb Z.eqb Z.compare andb].
    destruct (Z.leb_spec (e_delay e) 0); [|lia]. destruct (Z.ltb_spec (e_delay e) 0); [|lia]. reflexivity.
  - apply emits_release; [split; [exact R|reflexivity]|reflexivity|exact S].
Qed.

(** ** A release in the future *)
Definition pre (e : env) : Prop := e_rel e = false /\ e_free e = false /\ beforeRelease (e_st e) = true.
Lemma loop_sR step d : (forall e, step (startRelease d e) = (fst (step e), startRelease d (snd (step e)))) ->
  forall n e, loop step n (startRelease d e) = (fst (loop step n e), startRelease d (snd (loop step n e))).
Proof.
  intros H. induction n as [|n IH]; intros e; [reflexivity|]. cbn [loop]. rewrite H. destruct (step e) as [[y|] e1]; cbn [fst snd]; [|reflexivity].
  rewrite IH. destruct (loop step n e1). reflexivity.
Qed.
Lemma segment_sR n d e : pre e -> segment rnd n (startRelease d e) = (fst (segment rnd n e), startRelease d (snd (segment rnd n e))).
Proof.
  intros (R & F & B). unfold segment. change (e_st (startRelease d e)) with (e_st e). change (e_rel (startRelease d e)) with true.
  change (e_free (startRelease d e)) with (e_free e). rewrite F, andb_false_r, andb_false_r. unfold beforeRelease in B.
  assert (SD : forall e, stepDelay (startRelease d e) = (fst (stepDelay e), startRelease d (snd (stepDelay e)))).
  { intros e0. unfold stepDelay. change (e_delay (startRelease d e0)) with (e_delay e0). destruct (0 <? e_delay e0)%Z; reflexivity. }
  destruct (e_st e); try discriminate; rewrite loop_sR by (reflexivity || exact SD).
  - destruct (loop stepDelay n e) as [l e1]. cbn [fst snd]. f_equal. unfold afterDelay. change (e_delay (startRelease d e1)) with (e_delay e1). destruct (_ <=? _)%Z; reflexivity.
  - destruct (loop (stepAttack rnd) n e) as [l e1]. cbn [fst snd]. f_equal. unfold afterAttack. change (e_v (startRelease d e1)) with (e_v e1). destruct (Qle_bool _ _); reflexivity.
  - destruct (loop stepHold n e) as [l e1]. cbn [fst snd]. f_equal. unfold afterHold. change (e_hold (startRelease d e1)) with (e_hold e1). destruct (_ <=? _)%Z; reflexivity.
  - destruct (loop (stepDecay rnd) n e) as [l e1]. cbn [fst snd]. f_equal. unfold afterDecay. change (e_v (startRelease d e1)) with (e_v e1).
    change (e_thr (startRelease d e1)) with (e_thr e1). destruct (Qle_bool _ _); reflexivity.
  - destruct (loop (stepSustain rnd) n e) as [l e1]. reflexivity.
Qed.
Lemma segment_pre n e : pre e -> pre (snd (segment rnd n e)) /\ length (fst (segment rnd n e)) <= n.
Proof.
  intros (R & F & B). pose proof (segment_control rnd n e) as (_ & C & _ & C4). pose proof (segment_params rnd n e) as P.
  split; [|apply segment_length]. refine (conj _ (conj _ (C4 B))).
  - destruct C as [C|(_ & _ & S & _)]; [congruence|]. unfold segment. rewrite S, F, andb_false_r.
    apply (loop_inv (fun e => e_rel e = false)); [|exact R]. intros e0 y e1 X Y. unfold stepSustain in Y. injection Y as <- <-. exact X.
  - unfold params in P. congruence.
Qed.
Lemma iteration_sR n d e : pre e -> 0 < n -> (0 < d)%Z ->
  iteration rnd n (startRelease d e) =
    (let '(l, e1) := iteration rnd (Nat.min n (Z.to_nat d)) e in (l, startRelease (d - Z.of_nat (length l)) e1)) /\
  pre (snd (iteration rnd (Nat.min n (Z.to_nat d)) e)) /\ length (fst (iteration rnd (Nat.min n (Z.to_nat d)) e)) <= Nat.min n (Z.to_nat d).
Proof.
  intros P N D. rewrite (iteration_quiet (Nat.min n (Z.to_nat d)) e) by apply P. unfold iteration, pending.
  change (e_rel (startRelease d e)) with true. change (e_rd (startRelease d e)) with d. destruct (Z.ltb_spec 0 d); [|lia].
  rewrite segment_sR by exact P. pose proof (segment_pre (Nat.min n (Z.to_nat d)) e P) as [P1 L].
  destruct (segment rnd (Nat.min n (Z.to_nat d)) e) as [l e1]. cbn [fst snd] in *.
  rewrite (countdown_quiet (length l) e1) by apply P1. refine (conj _ (conj P1 L)). f_equal. unfold countdown.
  change (e_rel (startRelease d e1)) with true. change (e_rd (startRelease d e1)) with d. cbv iota. rewrite Z.max_r by lia. reflexivity.
Qed.
Lemma run_sR : forall f n d e l e', pre e -> (0 <= d)%Z -> run f n (startRelease d e) = Some (l, e') ->
  (Z.of_nat n <= d /\ exists e1, run f n e = Some (l, e1))%Z \/
  (d < Z.of_nat n /\ exists f' l1 e1 l2, run f (Z.to_nat d) e = Some (l1, e1) /\ run f' (n - Z.to_nat d) (startRelease 0 e1) = Some (l2, e') /\ l = l1 ++ l2)%Z.
Proof.
  induction f as [|f IH]; intros n d e l e' P D R.
  { destruct n as [|n]; [|discriminate]. left. injection R as <- <-. split; [lia|]. exists e. reflexivity. }
  destruct n as [|n]. { left. injection R as <- <-. split; [lia|]. exists e. reflexivity. }
  destruct (Z.eq_dec d 0) as [->|Nd].
  { right. split; [lia|]. exists (S f), [], e, l. refine (conj eq_refl (conj _ eq_refl)). rewrite Nat.sub_0_r. exact R. }
  cbn [getBlockInternal] in R. destruct (iteration_sR (S n) d e P ltac:(lia) ltac:(lia)) as (E & P1 & L). rewrite E in R. clear E.
  destruct (iteration rnd (Nat.min (S n) (Z.to_nat d)) e) as [l1 e1] eqn:It. cbn [fst snd] in *.
  destruct (run f (S n - length l1) (startRelease (d - Z.of_nat (length l1)) e1)) as [[l2 e2]|] eqn:R2; [|discriminate].
  injection R as <- <-. apply IH in R2; [|exact P1|lia]. destruct R2 as [[H (e3 & R3)]|[H (f' & l3 & e3 & l4 & R3 & R4 & ->)]].
  - left. split; [lia|]. exists e3. cbn [getBlockInternal]. rewrite Nat.min_l in It by lia. rewrite It, R3. reflexivity.
  - right. split; [lia|]. exists f', (l1 ++ l3), e3, l4. refine (conj _ (conj _ _)).
    + destruct (Z.to_nat d) as [|k] eqn:K; [lia|]. cbn [getBlockInternal]. rewrite Nat.min_r in It by lia. rewrite It.
      replace (S k - length l1) with (Z.to_nat (d - Z.of_nat (length l1))) by lia. rewrite R3. reflexivity.
    + rewrite <- R4. f_equal. lia.
    + apply app_assoc.
Qed.
Lemma emits_cut d e s r : pre e -> (0 <= d)%Z -> emits e s ->
  (forall f l e1, run f (Z.to_nat d) e = Some (l, e1) -> emits (startRelease 0 e1) r) ->
  emits (startRelease d e) (after (samples s (Z.to_nat d)) r).
Proof.
  intros P D Es Er f n l e' R. destruct (run_sR f n d e l e' P D R) as [[H (e1 & R1)]|[H (f' & l1 & e1 & l2 & R1 & R2 & ->)]].
  - apply Es in R1. subst l. rewrite samples_after_short by (unfold samples; rewrite map_length, seq_length; lia).
    replace (Z.to_nat d) with (n + (Z.to_nat d - n)) by lia. rewrite samples_app.
    assert (Ln : length (samples s n) = n) by (unfold samples; rewrite map_length, seq_length; reflexivity).
    rewrite <- Ln at 2. rewrite firstn_app, Nat.sub_diag, firstn_all. cbn [firstn]. symmetry. apply app_nil_r.
  - pose proof (Er _ _ _ R1 _ _ _ _ R2) as ->. apply Es in R1. subst l1.
    rewrite samples_after by (unfold samples; rewrite map_length, seq_length; lia). do 2 f_equal. unfold samples. rewrite map_length, seq_length. reflexivity.
Qed.
(** The value of the envelope is the last it gave. *)
Lemma last_cons {A} (l : list A) : forall y d, last (y :: l) d = last l y.
Proof. induction l as [|z l IH]; intros y d; [reflexivity|]. change (last (y :: z :: l) d) with (last (z :: l) d). rewrite !IH. reflexivity. Qed.
Lemma loop_last step : (forall e y, fst (step e) = Some y -> e_v (snd (step e)) = y) ->
  forall n e d, 0 < n -> length (fst (loop step n e)) = n -> e_v (snd (loop step n e)) = last (fst (loop step n e)) d.
Proof.
  intros H. induction n as [|n IH]; intros e d N L; [lia|]. cbn [loop] in *. specialize (H e). destruct (step e) as [[y|] e1]; [|discriminate].
  cbn [fst snd] in H. specialize (H y eq_refl). destruct (loop step n e1) as [l e2] eqn:E. cbn [fst snd length] in *. destruct n as [|n].
  - cbn [loop] in E. injection E as <- <-. exact H.
  - specialize (IH e1 y ltac:(lia)). rewrite E in IH. cbn [fst snd] in IH. rewrite IH by lia. symmetry. apply last_cons.
Qed.
Lemma segment_last n e d : pre e -> 0 < n -> length (fst (segment rnd n e)) = n ->
  e_v (snd (segment rnd n e)) = last (fst (segment rnd n e)) d.
Proof.
  intros (R & F & B) N. unfold segment. rewrite F, andb_false_r. unfold beforeRelease in B. destruct (e_st e); try discriminate.
  - pose proof (loop_last stepDelay) as H. assert (H' : forall e y, fst (stepDelay e) = Some y -> e_v (snd (stepDelay e)) = y).
    { intros e0 y. unfold stepDelay. destruct (0 <? e_delay e0)%Z; cbn [fst snd]; [intros [= <-]; reflexivity|discriminate]. }
    specialize (H H' n e d N). destruct (loop stepDelay n e) as [l e1]. cbn [fst snd] in *. intros L. rewrite <- (H L). unfold afterDelay. destruct (_ <=? _)%Z; reflexivity.
  - assert (H' : forall e y, fst (stepAttack rnd e) = Some y -> e_v (snd (stepAttack rnd e)) = y /\ (y < 1)%Q).
    { intros e0 y. unfold stepAttack. cbn [fst snd]. destruct (Qltb _ 1) eqn:E; [|discriminate]. intros [= <-]. split; [reflexivity|]. apply Qltb_iff. exact E. }
    pose proof (loop_last (stepAttack rnd) (fun e y X => proj1 (H' e y X)) n e d N) as H.
    assert (K : length (fst (loop (stepAttack rnd) n e)) = n -> (e_v (snd (loop (stepAttack rnd) n e)) < 1)%Q).
    { clear H R F. revert e N. induction n as [|n IH]; intros e0 N L; [lia|]. cbn [loop] in *. specialize (H' e0). destruct (stepAttack rnd e0) as [[y|] e1]; [|discriminate].
      destruct (H' y eq_refl) as [V Y]. cbn [snd] in V. specialize (IH e1). destruct (loop (stepAttack rnd) n e1) as [l e2] eqn:E. cbn [fst snd length] in *.
      destruct n as [|n]; [cbn [loop] in E; injection E as <- <-; rewrite V; exact Y|]. apply IH; lia. }
    destruct (loop (stepAttack rnd) n e) as [l e1]. cbn [fst snd] in *. intros L. rewrite <- (H L). unfold afterAttack.
    rewrite (Qle_bool_not _ _ (K L)). reflexivity.
  - assert (H' : forall e y, fst (stepHold e) = Some y -> e_v (snd (stepHold e)) = y).
    { intros e0 y. unfold stepHold. cbn [fst snd]. destruct (0 <? e_hold e0)%Z; [intros [= <-]; reflexivity|discriminate]. }
    pose proof (loop_last stepHold H' n e d N) as H. destruct (loop stepHold n e) as [l e1]. cbn [fst snd] in *. intros L. rewrite <- (H L). unfold afterHold. destruct (_ <=? _)%Z; reflexivity.
  - assert (H' : forall e y, fst (stepDecay rnd e) = Some y -> e_v (snd (stepDecay rnd e)) = y /\ (e_sus e < y)%Q /\ e_sus (snd (stepDecay rnd e)) = e_sus e).
    { intros e0 y. unfold stepDecay. cbn [fst snd]. destruct (Qltb (e_sus e0) _) eqn:E; [|discriminate]. intros [= <-]. refine (conj eq_refl (conj _ eq_refl)). apply Qltb_iff. exact E. }
    pose proof (loop_last (stepDecay rnd) (fun e y X => proj1 (H' e y X)) n e d N) as H.
    assert (K : length (fst (loop (stepDecay rnd) n e)) = n -> (e_sus (snd (loop (stepDecay rnd) n e)) < e_v (snd (loop (stepDecay rnd) n e)))%Q).
    { clear H R F. revert e N. induction n as [|n IH]; intros e0 N L; [lia|]. cbn [loop] in *. specialize (H' e0). destruct (stepDecay rnd e0) as [[y|] e1]; [|discriminate].
      destruct (H' y eq_refl) as (V & Y & U). cbn [snd] in V, U. specialize (IH e1). destruct (loop (stepDecay rnd) n e1) as [l e2] eqn:E. cbn [fst snd length] in *.
      destruct n as [|n]; [cbn [loop] in E; injection E as <- <-; rewrite V, U; exact Y|]. apply IH; lia. }
    destruct (loop (stepDecay rnd) n e) as [l e1]. cbn [fst snd] in *. intros L. specialize (K L). rewrite <- (H L). unfold afterDecay.
    destruct (Qle_bool _ _); [|reflexivity]. fields. unfold Qmaxf.
    replace (Qltb (e_v e1) (e_sus e1)) with false; [reflexivity|]. symmetry. apply not_true_is_false. rewrite Qltb_iff. lra.
  - apply loop_last; [|exact N]. intros e0 y. unfold stepSustain. cbn [fst snd]. intros [= <-]. reflexivity.
Qed.
Lemma last_app_ne {A} (a b : list A) d : b <> [] -> last (a ++ b) d = last b d.
Proof. intros H. destruct (exists_last H) as (b' & x & ->). rewrite app_assoc, !last_last. reflexivity. Qed.
Lemma run_last : forall f n e l e' d, pre e -> 0 < n -> run f n e = Some (l, e') -> e_v e' = last l d.
Proof.
  induction f as [|f IH]; intros n e l e' d P N R; (destruct n as [|n]; [lia|]); [discriminate|]. cbn [getBlockInternal] in R.
  rewrite iteration_quiet in R by apply P. pose proof (segment_pre (S n) e P) as [P1 L1]. pose proof (segment_last (S n) e d P N) as H.
  destruct (segment rnd (S n) e) as [l1 e1]. cbn [fst snd] in *. rewrite countdown_quiet in R by apply P1.
  destruct (run f (S n - length l1) e1) as [[l2 e2]|] eqn:R2; [|discriminate]. injection R as <- <-.
  destruct (Nat.eq_dec (length l1) (S n)) as [E|E].
  - rewrite E, Nat.sub_diag in R2. specialize (H E). destruct f; injection R2 as <- <-; rewrite app_nil_r; exact H.
  - assert (Ln := run_length rnd f _ _ _ _ R2). apply (IH _ _ _ _ d P1) in R2; [|lia]. rewrite last_app_ne; [exact R2|]. intros ->. change (length (@nil Q)) with 0 in Ln. lia.
Qed.
Lemma segment_delay n e : e_st e <> SDelay -> e_delay (snd (segment rnd n e)) = e_delay e.
Proof.
  intros S.
  assert (H : forall step, (forall e, e_delay (snd (step e)) = e_delay e) -> e_delay (snd (loop step n e)) = e_delay e).
  { intros step H. apply (loop_inv (fun x => e_delay x = e_delay e)); [|reflexivity]. intros a y b X Y. rewrite <- X, <- (H a), Y. reflexivity. }
  unfold segment. destruct (e_st e); try congruence.
  - specialize (H (stepAttack rnd) ltac:(reflexivity)). destruct (loop (stepAttack rnd) n e) as [l e1]. cbn [fst snd] in *. unfold afterAttack. destruct (Qle_bool _ _); exact H.
  - specialize (H stepHold ltac:(reflexivity)). destruct (loop stepHold n e) as [l e1]. cbn [fst snd] in *. unfold afterHold. destruct (_ <=? _)%Z; exact H.
  - specialize (H (stepDecay rnd) ltac:(reflexivity)). destruct (loop (stepDecay rnd) n e) as [l e1]. cbn [fst snd] in *. unfold afterDecay. destruct (Qle_bool _ _); exact H.
  - destruct (_ && _); [reflexivity|]. apply H. reflexivity.
  - specialize (H (stepRelease rnd) ltac:(reflexivity)). destruct (loop (stepRelease rnd) n e) as [l e1]. cbn [fst snd] in *. unfold afterRelease. destruct (Qle_bool _ _); exact H.
  - specialize (H (stepFadeout rnd) ltac:(reflexivity)). destruct (loop (stepFadeout rnd) n e) as [l e1]. cbn [fst snd] in *. unfold afterFadeout. destruct (Qle_bool _ _); exact H.
  - reflexivity.
Qed.
Lemma run_delay : forall f n e l e', pre e -> e_st e <> SDelay -> run f n e = Some (l, e') -> e_delay e' = e_delay e.
Proof.
  induction f as [|f IH]; intros n e l e' P S R; (destruct n as [|n]; [injection R as <- <-; reflexivity|]); [discriminate|]. cbn [getBlockInternal] in R.
  rewrite iteration_quiet in R by apply P. pose proof (segment_pre (Datatypes.S n) e P) as [P1 L1]. pose proof (segment_delay (Datatypes.S n) e S) as H.
  pose proof (segment_control rnd (Datatypes.S n) e) as (_ & _ & Rk & _).
  destruct (segment rnd (Datatypes.S n) e) as [l1 e1]. cbn [fst snd] in *. rewrite countdown_quiet in R by apply P1.
  destruct (run f (Datatypes.S n - length l1) e1) as [[l2 e2]|] eqn:R2; [|discriminate]. injection R as <- <-.
  rewrite (IH _ _ _ _ P1 ltac:(intros X; rewrite X in Rk; cbn in Rk; destruct (e_st e); cbn in Rk; try lia; congruence) R2). exact H.
Qed.
Lemma run_past_delay f n e l e' : pre e -> e_st e = SDelay -> (0 <= e_delay e)%Z -> (e_delay e < Z.of_nat n)%Z ->
  run f n e = Some (l, e') -> (e_delay e' < 0)%Z.
Proof.
  intros P S D N R. destruct n as [|n]; [lia|]. destruct f as [|f]; [discriminate|]. cbn [getBlockInternal] in R.
  rewrite iteration_quiet in R by apply P. pose proof (segment_pre (Datatypes.S n) e P) as [P1 _]. unfold segment in *. rewrite S in *.
  rewrite loop_delay_long in * by lia. unfold afterDelay in *. cbn [fst snd e_delay set_v set_delay] in *. cbn [Z.leb Z.compare] in *.
  rewrite countdown_quiet in R by apply P1.
  destruct (run f _ _) as [[l2 e2]|] eqn:R2; [|discriminate]. injection R as <- <-. apply run_delay in R2; [|exact P1|discriminate]. rewrite R2. fields. lia.
Qed.

(** * C77 *)
Variables (expo : Q -> Q) (off : Q).
Section Envelope.
Variables (d : desc) (osc : bool) (p : Z) (rate : Q) (e0 : env).
Notation env0 := (reset rnd expo off d osc p rate e0).
(** Delay and hold in frames, step of the attack, factors of decay and release, levels. *)
Variables (D H : nat) (st dr rr s0 u : Q).
Hypothesis Hp : (0 <= p)%Z.
Hypothesis HD : frames rnd rate (d_delay d p) D.
Hypothesis HH : frames rnd rate (d_hold d p) H.
Hypothesis HA : linear_step rnd rate (d_attack d p) st.
Hypothesis HC : decay_factor rnd expo off rate (d_decay d p) dr.
Hypothesis HR : decay_factor rnd expo off rate (d_release d p) rr.
Hypothesis Hs : d_start d p = s0 /\ (s0 = 0 \/ 0 < s0 <= 1)%Q.
Hypothesis Hu : d_sustain d p = u /\ (u = 0 \/ 0 < u <= 1)%Q.
(** The sustain level plus a thousandth is not rounded below the sustain level. *)
Hypothesis Hr : (u <= rnd (u + (1 # 1000)))%Q.

Lemma clamp_unit x : (x = 0 \/ 0 < x <= 1)%Q -> Qclamp x 0 1 = x.
Proof.
  intros [->|[A B]]; [reflexivity|]. unfold Qclamp, Qminf, Qmaxf.
  replace (Qltb 1 x) with false by (symmetry; apply not_true_is_false; rewrite Qltb_iff; lra).
  replace (Qltb 0 x) with true by (symmetry; apply Qltb_iff; exact A). reflexivity.
Qed.
Lemma frames_is t k : frames rnd rate t k -> secondsToSamples rnd rate t = Z.of_nat k.
Proof.
  intros [A B]. unfold secondsToSamples. destruct (Qle_bool t 0) eqn:E.
  - apply Qle_bool_iff in E. rewrite (A E). reflexivity.
  - assert (P : (0 < t)%Q) by (apply Qnot_le_lt; intros X; apply Qle_bool_iff in X; congruence). destruct (B P) as [B1 B2].
    apply Z.le_antisymm.
    + assert (X : (inject_Z (Qfloor (rnd (t * rate))) < inject_Z (Z.of_nat k + 1))%Q) by (pose proof (Qfloor_le (rnd (t * rate))); lra).
      rewrite <- Zlt_Qlt in X. lia.
    + rewrite <- (Qfloor_Z (Z.of_nat k)). apply Qfloor_resp_le. exact B1.
Qed.
Lemma linear_is t r : linear_step rnd rate t r -> secondsToLinRate rnd rate t = r.
Proof.
  intros [A B]. unfold secondsToLinRate. destruct (Qle_bool t 0) eqn:E.
  - apply Qle_bool_iff in E. rewrite (A E). reflexivity.
  - assert (P : (0 < t)%Q) by (apply Qnot_le_lt; intros X; apply Qle_bool_iff in X; congruence). rewrite (B P). reflexivity.
Qed.
Lemma factor_is t r : decay_factor rnd expo off rate t r -> secondsToExpRate rnd expo off rate t = r.
Proof.
  intros [A B]. unfold secondsToExpRate. destruct (Qle_bool t 0) eqn:E.
  - apply Qle_bool_iff in E. rewrite (A E). reflexivity.
  - assert (P : (0 < t)%Q) by (apply Qnot_le_lt; intros X; apply Qle_bool_iff in X; congruence). destruct (B P) as (m & M1 & M2 & ->).
    replace (Qmaxf off t) with m; [reflexivity|]. unfold Qmaxf. destruct (Qltb t off) eqn:X.
    + apply M1. apply Qltb_iff. exact X.
    + apply M2. apply Qnot_lt_le. intros Y. apply Qltb_iff in Y. congruence.
Qed.
Lemma env0_is : env0 =
  Env SDelay s0 false 0 (e_td e0) (p + Z.of_nat D) (Z.of_nat H) st dr rr s0 u (rnd (u + virtuallyZero))
    (Qle_bool u sustainFreeRunningThreshold || osc) (d_dynamic d) rate.
Proof.
  destruct Hs as [S1 S2], Hu as [U1 U2]. unfold reset, updateValues. fields.
  rewrite (frames_is _ _ HD), (frames_is _ _ HH), (linear_is _ _ HA), (factor_is _ _ HC), (factor_is _ _ HR), S1, U1, (clamp_unit _ S2), (clamp_unit _ U2). reflexivity.
Qed.
(** The signal up to the sustain stage. *)
Definition rising (ka kd : nat) (tail : nat -> Q) : nat -> Q :=
  after (repeat s0 (Z.to_nat p + D)) (after (walk (fun v => rnd (v + st)%Q) ka s0) (after (repeat 1%Q H)
    (after (walk (fun v => rnd (v * dr)%Q) kd 1%Q) tail))).
Variables ka kd : nat.
Hypothesis La : leaves (fun v => rnd (v + st)%Q) (fun v => v < 1)%Q ka s0.
Hypothesis Ld : leaves (fun v => rnd (v * dr)%Q) (fun v => u < v)%Q kd 1%Q.

Lemma emits_rising tail :
  (forall x td, (x == u)%Q -> emits (Env SSustain x false 0 td (-1) (-1) st dr rr s0 u (rnd (u + virtuallyZero))
    (Qle_bool u sustainFreeRunningThreshold || osc) (d_dynamic d) rate) (tail x)) ->
  exists x, (x == u)%Q /\ emits env0 (rising ka kd (tail x)).
Proof.
  intros T. rewrite env0_is. set (free := (Qle_bool u sustainFreeRunningThreshold || osc)%bool) in *.
  set (e4 := Env SDecay 1 false 0 (e_td e0) (-1) (-1) st dr rr s0 u (rnd (u + virtuallyZero)) free (d_dynamic d) rate).
  assert (X : (sustained e4 kd == u)%Q /\ emits e4 (after (walk (fun v => rnd (v * dr)%Q) kd 1%Q) (tail (sustained e4 kd)))).
  { pose proof (sustained_is e4 kd Ld) as X. split; [exact X|]. refine (emits_decay e4 kd _ eq_refl eq_refl Hr Ld _).
    exact (T (sustained e4 kd) _ X). }
  destruct X as [X1 X2]. exists (sustained e4 kd). split; [exact X1|]. unfold rising.
  replace (Z.to_nat p + D) with (Z.to_nat (p + Z.of_nat D)) by lia.
  match goal with |- emits ?e _ => refine (emits_delay e _ eq_refl eq_refl _ eq_refl _) end; [fields; lia|].
  match goal with |- emits ?e _ => refine (emits_attack e ka _ eq_refl eq_refl La _) end.
  rewrite <- (Nat2Z.id H) at 2.
  match goal with |- emits ?e _ => refine (emits_hold e _ eq_refl eq_refl _ _) end; [fields; lia|]. exact X2.
Qed.
(** C77: delay, attack, hold, decay, then the sustain level for ever. *)
Theorem C77_shape : (32 # 10000 < u)%Q -> osc = false ->
  exists x, (x == u)%Q /\ emits env0 (rising ka kd (fun _ => x)).
Proof.
  intros U O. destruct (emits_rising (fun x _ => x)) as (x & X & E).
  - intros x td X. apply (emits_sustain (Env SSustain x false 0 td (-1) (-1) st dr rr s0 u (rnd (u + virtuallyZero)) (Qle_bool u sustainFreeRunningThreshold || osc) (d_dynamic d) rate)); try reflexivity.
    + fields. rewrite O. unfold sustainFreeRunningThreshold. rewrite (Qle_bool_not _ _ U). reflexivity.
    + fields. lra.
  - exists x. split; [exact X|exact E].
Qed.
(** C77: with a low sustain level, or for a one-shot oscillator, the release follows the decay. *)
Theorem C77_free_running tail : (u <= 32 # 10000)%Q \/ osc = true -> (forall x, (x == u)%Q -> release_shape rr rate x (tail x)) ->
  exists x, (x == u)%Q /\ emits env0 (rising ka kd (tail x)).
Proof.
  intros U T. apply emits_rising. intros x td X.
  assert (F : (Qle_bool u sustainFreeRunningThreshold || osc)%bool = true).
  { destruct U as [U|U]; [apply Qle_bool_iff in U; unfold sustainFreeRunningThreshold; rewrite U; reflexivity|rewrite U; apply orb_true_r]. }
  rewrite F. set (e := Env SSustain x false 0 td (-1) (-1) st dr rr s0 u (rnd (u + virtuallyZero)) true (d_dynamic d) rate).
  assert (E : emits (set_rel true e) (tail x)).
  { apply emits_due; [reflexivity|reflexivity|reflexivity|]. apply T. exact X. }
  intros f n l e' R. destruct n as [|n]; [destruct f; injection R as <- <-; reflexivity|]. destruct f as [|f]; [discriminate|].
  cbn [getBlockInternal] in R. assert (It : iteration rnd (S n) e = ([], set_rel true e)) by reflexivity. rewrite It in R.
  change (S n - length (@nil Q)) with (S n) in R.
  destruct (run f (S n) (set_rel true e)) as [[l2 e2]|] eqn:R2; [|discriminate]. injection R as <- <-. exact (E _ _ _ _ R2).
Qed.
(** C77: a release in frame [k], after the delay, changes nothing before it, and goes on from the last value. *)
Theorem C77_release k tail : (32 # 10000 < u)%Q -> osc = false -> (p + Z.of_nat D < k)%Z ->
  exists x, (x == u)%Q /\
    (release_shape rr rate (rising ka kd (fun _ => x) (Z.to_nat k - 1)) tail ->
     emits (startRelease k env0) (after (samples (rising ka kd (fun _ => x)) (Z.to_nat k)) tail)).
Proof.
  intros U O K. destruct (C77_shape U O) as (x & X & E). exists x. split; [exact X|]. intros T.
  assert (P : pre env0). { rewrite env0_is. refine (conj eq_refl (conj _ eq_refl)). fields. rewrite O. unfold sustainFreeRunningThreshold. rewrite (Qle_bool_not _ _ U). reflexivity. }
  apply emits_cut; [exact P|lia|exact E|]. intros f l e1 R.
  assert (Kp : 0 < Z.to_nat k) by lia. pose proof (run_last f _ _ _ _ 0%Q P Kp R) as V.
  assert (Dl : (e_delay e1 < 0)%Z). { apply (run_past_delay f (Z.to_nat k) env0 l e1 P); [| | |exact R]; rewrite ?env0_is; fields; try reflexivity; lia. }
  pose proof (run_params rnd f _ _ _ _ R) as Pa.
  assert (V' : e_v e1 = rising ka kd (fun _ => x) (Z.to_nat k - 1)).
  { rewrite V, (E _ _ _ _ R). destruct (Z.to_nat k) as [|m] eqn:Em; [lia|]. replace (S m) with (m + 1) by lia. rewrite samples_app.
    cbn [samples seq map]. rewrite last_last. f_equal. lia. }
  apply emits_due; [reflexivity|reflexivity|exact Dl|]. change (e_v (startRelease 0 e1)) with (e_v e1).
  change (e_rrate (startRelease 0 e1)) with (e_rrate e1). change (e_rate (startRelease 0 e1)) with (e_rate e1).
  assert (Pr : e_rrate e1 = rr /\ e_rate e1 = rate). { rewrite env0_is in Pa. unfold params in Pa. cbn in Pa. split; congruence. }
  destruct Pr as [-> ->]. rewrite V'. exact T.
Qed.
End Envelope.
(** C77: taking a release back holds the value if it is not above the sustain level. *)
Theorem C77_cancel e : e_free e = false -> (e_v e <= e_sus e)%Q -> emits (cancelRelease e) (fun _ => e_v e).
Proof. intros F V. apply (emits_sustain (cancelRelease e)); [reflexivity|reflexivity|exact F|exact V]. Qed.
End Shape.

(** C77: without rounding the attack takes its time, less what the start level saves. *)
Theorem C77_attack_time rnd rate t s0 st ka : (forall x, rnd x == x)%Q -> (0 < rate)%Q -> (0 < t)%Q -> (s0 < 1)%Q ->
  linear_step rnd rate t st -> leaves (fun v => rnd (v + st)%Q) (fun v => v < 1)%Q ka s0 ->
  (inject_Z (Z.of_nat ka) < (1 - s0) * (rate * t) <= inject_Z (Z.of_nat ka + 1))%Q /\
  (forall i, reach (fun v => rnd (v + st)) i s0 == s0 + inject_Z (Z.of_nat i) / (rate * t))%Q.
Proof.
  intros Ex R T S1 [_ L] [F N]. specialize (L T). assert (RT : (0 < rate * t)%Q) by (apply Qmult_lt_0_compat; assumption).
  assert (St : (st == / (rate * t))%Q). { rewrite L, Ex, Ex. field. lra. }
  assert (Re : forall i x, (reach (fun v => rnd (v + st)) i x == x + inject_Z (Z.of_nat i) / (rate * t))%Q).
  { induction i as [|i IH]; intros x; cbn [reach]. { change (inject_Z (Z.of_nat 0)) with 0%Q. field. lra. }
    rewrite IH, Ex, St, Nat2Z.inj_succ, <- Z.add_1_r, inject_Z_plus. field. lra. }
  split; [|intros i; apply Re]. split.
  - assert (X : (reach (fun v => rnd (v + st)) ka s0 < 1)%Q).
    { destruct ka as [|k]; [exact S1|]. rewrite Forall_forall in F. apply F. destruct (walk_last (fun v => rnd (v + st)%Q) (S k) s0 0%Q) as [_ W].
      rewrite <- (W ltac:(lia)). cbn [walk]. clear. generalize (rnd (s0 + st)%Q). revert k.
      assert (forall (l : list Q) x, In (last (x :: l) 0%Q) (x :: l)) as H.
      { induction l as [|y l IH]; intros x; [left; reflexivity|]. right. apply IH. }
      intros k x. apply H. }
    rewrite Re in X.
    assert (Y : (inject_Z (Z.of_nat ka) / (rate * t) < 1 - s0)%Q) by lra.
    apply (Qmult_lt_r _ _ (rate * t) RT) in Y. assert (Z : (inject_Z (Z.of_nat ka) / (rate * t) * (rate * t) == inject_Z (Z.of_nat ka))%Q) by (field; lra). lra.
  - apply Qnot_lt_le in N. cbv beta in N. rewrite Ex, Re, St in N.
    assert (Y : (1 - s0 <= (inject_Z (Z.of_nat ka) + 1) / (rate * t))%Q).
    { assert (Z : ((inject_Z (Z.of_nat ka) + 1) / (rate * t) == inject_Z (Z.of_nat ka) / (rate * t) + / (rate * t))%Q) by (field; lra). lra. }
    apply (Qmult_le_r _ _ (rate * t) RT) in Y.
    assert (Z : ((inject_Z (Z.of_nat ka) + 1) / (rate * t) * (rate * t) == inject_Z (Z.of_nat ka) + 1)%Q) by (field; lra).
    rewrite inject_Z_plus. change (inject_Z 1) with 1%Q. lra.
Qed.

Lemma leaves_check f (ok : Q -> bool) okP k x : (forall v, ok v = true <-> okP v) ->
  forallb ok (walk f k x) && negb (ok (f (reach f k x))) = true -> leaves f okP k x.
Proof.
  intros H E. apply andb_true_iff in E. destruct E as [A B]. split.
  - apply Forall_forall. intros v V. rewrite forallb_forall in A. apply H, A, V.
  - intros X. apply H in X. rewrite X in B. discriminate.
Qed.
(** 8000 Hz: attack of 4 frames, hold of 2, decay and release by halves, sustain level 1/4, started in frame 2, released
    in frame 9. *)
Example C77_ex :
  (exists x, (x == 1 # 4)%Q /\ emits Qred small (rising Qred 2 0 2 (1 # 4) (1 # 2) 0 3 1 (fun _ => x))) /\
  samples (rising Qred 2 0 2 (1 # 4) (1 # 2) 0 3 1 (fun _ => 1 # 4)%Q) 12 = [0; 0; 1 # 4; 1 # 2; 3 # 4; 1; 1; 1 # 2; 1 # 4; 1 # 4; 1 # 4; 1 # 4]%Q /\
  (exists s, release_shape Qred (1 # 2) 8000 (1 # 4) s /\ samples s 3 = [1 # 8; 1 # 16; 1 # 32]%Q /\ s 409 <> 0%Q /\ s 410 = 0%Q) /\
  (2 + 0 < 9)%Z.
Proof.
  refine (conj _ (conj _ (conj _ _))); [|vm_compute; reflexivity| |lia].
  - unfold small, fresh. refine (C77_shape Qred (fun _ => 1 # 2)%Q off _ false 2 8000 blank 0 2 (1 # 4) (1 # 2) (1 # 2) 0 (1 # 4) _ _ _ _ _ _ _ _ _ 3 1 _ _ _ eq_refl).
    + lia.
    + split; [reflexivity|]. cbn. lra.
    + split; [cbn; lra|]. intros _. split; vm_compute; congruence.
    + split; [cbn; lra|]. intros _. vm_compute. reflexivity.
    + split; [cbn; lra|]. intros _. exists (1 # 10)%Q. refine (conj _ (conj _ _)); [vm_compute; congruence|reflexivity|vm_compute; reflexivity].
    + split; [cbn; lra|]. intros _. exists (1 # 10)%Q. refine (conj _ (conj _ _)); [vm_compute; congruence|reflexivity|vm_compute; reflexivity].
    + split; [reflexivity|left; reflexivity].
    + split; [reflexivity|right; lra].
    + vm_compute. congruence.
    + apply (leaves_check _ (fun v => Qltb v 1)); [intros v; apply Qltb_iff|vm_compute; reflexivity].
    + apply (leaves_check _ (fun v => Qltb (1 # 4) v)); [intros v; apply Qltb_iff|vm_compute; reflexivity].
    + vm_compute. reflexivity.
  - eexists. split; [exists 11, 399; eexists; eexists; split; [|cbv zeta; refine (conj _ (conj _ (conj eq_refl (conj _ eq_refl))))]|].
    + apply (leaves_check _ (fun v => Qltb (1 # 10000) v)); [intros v; apply Qltb_iff|vm_compute; reflexivity].
    + intros _. reflexivity.
    + vm_compute. congruence.
    + apply (leaves_check _ (fun v => Qltb 0 v)); [intros v; apply Qltb_iff|vm_compute; reflexivity].
    + refine (conj _ (conj _ _)); vm_compute; congruence.
Qed.
