(** The power follower (C42). *)
From Coq Require Import QArith ZArith List Lia Bool Lqa Setoid.
Import ListNotations.
From Verif Require Import AdsrModel AdsrRange Rounding FollowerModel.
From Verif Require Smoother.
Open Scope Q_scope.
Notation exact := Smoother.exact.

(** ** The specification: one sample after the other *)
(** The mixed signal. *)
Fixpoint sum2 (a b : list Q) : list Q := match a, b with x :: a, y :: b => x + y :: sum2 a b | _, _ => [] end.
Definition mix (b : list (list Q)) : list Q := match b with [] => [] | c :: r => fold_left (fun t c => sum2 c t) r c end.
(** A sample adds its square; each 512 samples their mean power is tracked. *)
Definition push (x : Q) (f : follower) : follower :=
  let sum := f_sum f + x * x in
  if Nat.eqb (f_count f + 1) 512 then
    let track k := f_power f * k + sum / 512 * (1 - k) in
    Follower (f_attack f) (f_release f) (if Qle_bool (track (f_release f)) (track (f_attack f)) then track (f_attack f) else track (f_release f)) 0 0
  else Follower (f_attack f) (f_release f) (f_power f) sum (f_count f + 1).
Definition pushAll (l : list Q) (f : follower) : follower := fold_left (fun f x => push x f) l f.
(** Equal states. *)
Definition same (f g : follower) : Prop :=
  f_attack f = f_attack g /\ f_release f = f_release g /\ f_power f == f_power g /\ f_sum f == f_sum g /\ f_count f = f_count g.
Lemma same_refl f : same f f. Proof. unfold same. repeat apply conj; reflexivity. Qed.
Lemma same_trans f g h : same f g -> same g h -> same f h.
Proof. unfold same. intros (A & B & C & D & E) (A' & B' & C' & D' & E'). repeat apply conj; try congruence; [now rewrite C|now rewrite D]. Qed.
Lemma same_sym f g : same f g -> same g f.
Proof. unfold same. intros (A & B & C & D & E). repeat apply conj; congruence || (now symmetry). Qed.

Definition larger (x y : Q) : Q := if Qle_bool y x then x else y.
Lemma larger_wd x y x' y' : x == x' -> y == y' -> larger x y == larger x' y'.
Proof.
  intros Hx Hy. unfold larger. destruct (Qle_bool y x) eqn:A; destruct (Qle_bool y' x') eqn:B; auto;
  [apply Qle_bool_iff in A; apply Qle_bool_nspec in B|apply Qle_bool_nspec in A; apply Qle_bool_iff in B]; lra.
Qed.
Lemma Qmaxf_larger x y : Qmaxf x y == larger x y.
Proof.
  unfold Qmaxf, larger. destruct (Qltb y x) eqn:A; destruct (Qle_bool y x) eqn:B; try reflexivity;
  [apply Qltb_spec in A; apply Qle_bool_nspec in B|apply Qltb_nspec in A; apply Qle_bool_iff in B]; lra.
Qed.
Lemma push_wd x f g : same f g -> same (push x f) (push x g).
Proof.
  intros (A & B & C & D & E). unfold push. rewrite E. destruct (Nat.eqb (f_count g + 1) 512); unfold same; cbn [f_attack f_release f_power f_sum f_count].
  - repeat apply conj; auto; try reflexivity. fold (larger (f_power f * f_attack f + (f_sum f + x * x) / 512 * (1 - f_attack f)) (f_power f * f_release f + (f_sum f + x * x) / 512 * (1 - f_release f))).
    fold (larger (f_power g * f_attack g + (f_sum g + x * x) / 512 * (1 - f_attack g)) (f_power g * f_release g + (f_sum g + x * x) / 512 * (1 - f_release g))).
    rewrite A, B. apply larger_wd; rewrite C, D; reflexivity.
  - repeat apply conj; auto. now rewrite D.
Qed.
Lemma pushAll_wd l : forall f g, same f g -> same (pushAll l f) (pushAll l g).
Proof. induction l as [|x l IH]; intros f g H; cbn [pushAll fold_left]; [assumption|]. apply IH. now apply push_wd. Qed.

(** ** The loop computes it *)
Lemma mixed_sub i n b : mixed exact i n b = firstn n (skipn i (mix b)).
Proof.
  destruct b as [|c r]; cbn [mixed mix]; [now destruct i, n|].
  assert (forall i a b, skipn i (sum2 a b) = sum2 (skipn i a) (skipn i b)) as Sk.
  { clear. induction i as [|i IH]; intros [|x a] [|y b]; cbn [skipn sum2]; auto. now destruct (skipn i a). }
  assert (forall n a b, firstn n (sum2 a b) = addSpan exact (firstn n a) (firstn n b)) as Fi.
  { clear. induction n as [|n IH]; intros [|x a] [|y b]; cbn [firstn sum2 addSpan]; auto. now rewrite IH. }
  revert c. induction r as [|d r IH]; intros c; cbn [fold_left]; [reflexivity|].
  rewrite <- IH. f_equal. unfold subspan. now rewrite Sk, Fi.
Qed.
Lemma mix_length b : (forall c, In c b -> length c = length (hd [] b)) -> length (mix b) = length (hd [] b).
Proof.
  destruct b as [|c r]; intros H; [reflexivity|]. cbn [hd mix] in *.
  assert (forall r t, (forall d, In d r -> length d = length t) -> length (fold_left (fun t c => sum2 c t) r t) = length t) as G.
  { clear. induction r as [|d r IH]; intros t H; cbn [fold_left]; [reflexivity|].
    assert (forall a b, length a = length b -> length (sum2 a b) = length b) as L2.
    { clear. induction a as [|x a IH]; intros [|y b] L; cbn [sum2 length] in *; try lia. rewrite IH; lia. }
    assert (length (sum2 d t) = length t) as L by (apply L2, H; now left). rewrite IH; [assumption|]. intros e He. rewrite L. apply H. now right. }
  apply G. intros d Hd. apply H. now right.
Qed.
Lemma sumSquares_add l : forall s, fold_left (fun s x => exact (s + exact (x * x))) l s == s + sumSquares exact l.
Proof.
  unfold sumSquares. induction l as [|x l IH]; intros s; cbn [fold_left]; [ring|]. rewrite IH. rewrite (IH (exact (0 + exact (x * x)))). unfold exact. ring.
Qed.
Lemma feed_push l : forall f, (0 < length l)%nat -> (f_count f + length l <= 512)%nat -> same (feed exact l f) (pushAll l f).
Proof.
  assert (forall l f, (f_count f + length l < 512)%nat -> same (pushAll l f) (Follower (f_attack f) (f_release f) (f_power f) (f_sum f + sumSquares exact l) (f_count f + length l))) as P.
  { clear. induction l as [|x l IH]; intros f L; cbn [length] in L.
    - cbn [pushAll fold_left length sumSquares]. unfold same. cbn. repeat apply conj; try reflexivity; try lia. ring.
    - cbn [pushAll fold_left]. unfold push at 2. destruct (Nat.eqb_spec (f_count f + 1) 512); [lia|].
      eapply same_trans; [apply IH; cbn [f_count]; lia|]. unfold same. cbn [f_attack f_release f_power f_sum f_count length].
      repeat apply conj; try reflexivity; try lia. rewrite <- (sumSquares_add l (f_sum f + x * x)).
      unfold sumSquares at 1. cbn [fold_left]. rewrite (sumSquares_add l (exact (0 + exact (x * x)))). rewrite sumSquares_add. unfold exact. ring. }
  intros f Lp L. unfold feed, followerStep. cbn [f_count].
  destruct (Nat.eqb_spec (f_count f + length l) 512) as [E|E].
  - destruct (exists_last (l := l)) as (l0 & x & ->); [intros ->; cbn in Lp; lia|]. rewrite app_length in *. cbn [length] in *.
    unfold pushAll. rewrite fold_left_app. cbn [fold_left]. fold (pushAll l0 f).
    eapply same_trans; [|apply push_wd; apply same_sym; apply P; lia].
    unfold push, follow. cbn [f_attack f_release f_power f_sum f_count]. replace (f_count f + length l0 + 1)%nat with (f_count f + (length l0 + 1))%nat by lia.
    rewrite E. cbn [Nat.eqb]. unfold same. cbn [f_attack f_release f_power f_sum f_count]. repeat apply conj; try reflexivity.
    assert (sumSquares exact (l0 ++ [x]) == sumSquares exact l0 + x * x) as Sq.
    { unfold sumSquares. rewrite fold_left_app. cbn [fold_left]. unfold exact. reflexivity. }
    rewrite Qmaxf_larger. remember (sumSquares exact (l0 ++ [x])) as a eqn:Ea. remember (sumSquares exact l0) as b eqn:Eb. clear Ea Eb.
    apply larger_wd; unfold exact, followerStep; change (inject_Z (Z.of_nat 512)) with 512; rewrite Sq; field.
  - eapply same_trans; [|apply same_sym, P; lia]. unfold same. cbn [f_attack f_release f_power f_sum f_count]. repeat apply conj; reflexivity.
Qed.
Lemma push_count x f : (f_count f < 512)%nat -> (f_count (push x f) < 512)%nat.
Proof. intros H. unfold push. destruct (Nat.eqb_spec (f_count f + 1) 512); cbn [f_count]; lia. Qed.
Lemma pushAll_count l : forall f, (f_count f < 512)%nat -> (f_count (pushAll l f) < 512)%nat.
Proof. induction l as [|x l IH]; intros f H; [exact H|]. apply IH. now apply push_count. Qed.
Lemma loop_push b frames : length (mix b) = frames -> forall fuel index f, (frames - index <= fuel)%nat -> (index <= frames)%nat -> (f_count f < 512)%nat ->
  same (loop exact fuel index frames b f) (pushAll (skipn index (mix b)) f).
Proof.
  intros Lm. induction fuel as [|fuel IH]; intros index f F I C; cbn [loop].
  - rewrite skipn_all2 by lia. apply same_refl.
  - destruct (Nat.ltb_spec index frames) as [L|L]; [|rewrite skipn_all2 by lia; apply same_refl].
    set (n := Nat.min (followerStep - f_count f) (frames - index)). rewrite mixed_sub.
    assert (0 < n /\ f_count f + n <= 512 /\ index + n <= frames)%nat as (N1 & N2 & N3) by (unfold n, followerStep; lia).
    assert (length (firstn n (skipn index (mix b))) = n) as Ln by (rewrite firstn_length, skipn_length; lia).
    pose proof (feed_push (firstn n (skipn index (mix b))) f ltac:(lia) ltac:(lia)) as S1.
    assert (f_count (feed exact (firstn n (skipn index (mix b))) f) < 512)%nat as C1.
    { destruct S1 as (_ & _ & _ & _ & ->). now apply pushAll_count. }
    eapply same_trans; [apply IH; [lia|lia|exact C1]|].
    rewrite <- (firstn_skipn n (skipn index (mix b))) at 2. unfold pushAll at 2. rewrite fold_left_app.
    assert (skipn n (skipn index (mix b)) = skipn (index + n) (mix b)) as ->.
    { generalize (mix b). generalize n. clear. intros n. induction index as [|i IH]; intros l; [reflexivity|]. destruct l; [now rewrite !skipn_nil|]. cbn [skipn plus]. apply IH. }
    apply pushAll_wd. exact S1.
Qed.
(** A buffer whose channels have the same length. *)
Definition buffer (b : list (list Q)) : Prop := forall c, In c b -> length c = length (hd [] b).
(** C42: the follower computes the tracked power of the mixed signal, sample by sample. *)
Theorem C42_tracks b f : buffer b -> (f_count f < 512)%nat -> same (process exact b f) (pushAll (mix b) f).
Proof.
  intros B C. unfold process. apply (loop_push b (length (hd [] b)) (mix_length b B) _ 0 f); lia || assumption.
Qed.
(** Two buffers one after the other. *)
Fixpoint append (a b : list (list Q)) : list (list Q) := match a, b with x :: a, y :: b => (x ++ y) :: append a b | _, _ => [] end.
Lemma mix_append a b : buffer a -> buffer b -> length a = length b -> mix (append a b) = mix a ++ mix b.
Proof.
  destruct a as [|c r]; destruct b as [|d q]; intros Ha Hb L; cbn [length] in L; try lia; [reflexivity|]. cbn [append mix].
  unfold buffer in Ha, Hb. cbn [hd In] in Ha, Hb.
  assert (forall x y x' y' : list Q, length x = length x' -> sum2 (x ++ y) (x' ++ y') = sum2 x x' ++ sum2 y y') as Sa.
  { clear. induction x as [|u x IH]; intros y [|v x'] y' L; cbn [length app sum2] in *; try lia; [reflexivity|]. rewrite IH by lia. reflexivity. }
  assert (forall x y : list Q, length x = length y -> length (sum2 x y) = length y) as Sl.
  { clear. induction x as [|u x IH]; intros [|v y] L; cbn [length sum2] in *; try lia. rewrite IH; lia. }
  assert (forall r q c d, length r = length q -> (forall e, In e r -> length e = length c) ->
    fold_left (fun t c => sum2 c t) (append r q) (c ++ d) = fold_left (fun t c => sum2 c t) r c ++ fold_left (fun t c => sum2 c t) q d) as G.
  { clear -Sa Sl. induction r as [|e r IH]; intros [|g q] c d L H; cbn [length append fold_left] in *; try lia; [reflexivity|].
    rewrite Sa by (apply H; now left). apply IH; [lia|]. intros h Hh. rewrite Sl by (apply H; now left). apply H. now right. }
  apply G; [lia|]. intros e He. apply Ha. now right.
Qed.
Lemma buffer_append a b : buffer a -> buffer b -> length a = length b -> buffer (append a b).
Proof.
  unfold buffer. destruct a as [|c r]; destruct b as [|d q]; intros Ha Hb L; cbn [length append hd] in *; try lia; [intros ? []|].
  intros x [<-|Hx]; [reflexivity|]. rewrite app_length.
  assert (forall r q, (forall e, In e r -> length e = length c) -> (forall e, In e q -> length e = length d) -> In x (append r q) -> length x = (length c + length d)%nat) as G.
  { clear. induction r as [|e r IH]; intros [|g q] A B H; cbn [append In] in *; try contradiction. destruct H as [<-|H].
    - rewrite app_length, (A e), (B g); auto.
    - apply (IH q); auto. }
  apply (G r q); [intros e He; apply Ha; now right|intros e He; apply Hb; now right|assumption].
Qed.

(** C42: the tracked power does not depend on how the signal is divided into blocks. *)
Theorem C42_blocks a b f : buffer a -> buffer b -> length a = length b -> (f_count f < 512)%nat ->
  same (process exact (append a b) f) (process exact b (process exact a f)).
Proof.
  intros Ha Hb L C. pose proof (buffer_append a b Ha Hb L) as Hc. pose proof (C42_tracks a f Ha C) as A.
  assert (f_count (process exact a f) < 512)%nat as C1. { destruct A as (_ & _ & _ & _ & ->). now apply pushAll_count. }
  eapply same_trans; [now apply C42_tracks|]. rewrite mix_append by assumption. unfold pushAll. rewrite fold_left_app.
  apply same_sym. eapply same_trans; [now apply C42_tracks|]. apply pushAll_wd. exact A.
Qed.
(** ** Not negative, with any monotone rounding *)
Section Rounded.
Variable rnd : Q -> Q.
Hypothesis rnd_mono : forall x y, x <= y -> rnd x <= rnd y.
Hypothesis rnd_0 : rnd 0 == 0.
Lemma rnd_pos x : 0 <= x -> 0 <= rnd x.
Proof. intros H. rewrite <- rnd_0. now apply rnd_mono. Qed.
Definition fine (f : follower) : Prop := 0 <= f_attack f <= 1 /\ 0 <= f_release f <= 1 /\ 0 <= f_power f /\ 0 <= f_sum f.
Lemma feed_fine l f : fine f -> fine (feed rnd l f).
Proof.
  intros (A & R & P & Sm). unfold feed.
  assert (forall l s, 0 <= s -> 0 <= fold_left (fun s x => rnd (s + rnd (x * x))) l s) as Q.
  { induction l0 as [|x l0 IH]; intros s Hs; cbn [fold_left]; [assumption|]. apply IH. apply rnd_pos. assert (0 <= rnd (x * x)) by (apply rnd_pos; nra). lra. }
  assert (0 <= rnd (f_sum f + sumSquares rnd l)) as S1. { apply rnd_pos. assert (0 <= sumSquares rnd l) by (apply Q; lra). lra. }
  cbn [f_count]. destruct (Nat.eqb (f_count f + length l) followerStep); [|unfold fine; cbn; auto].
  unfold follow, fine. cbn [f_attack f_release f_power f_sum f_count]. split; [assumption|]. split; [assumption|]. split; [|lra].
  set (mean := rnd (rnd (f_sum f + sumSquares rnd l) / _)).
  assert (0 <= mean) as M. { apply rnd_pos. apply Qle_shift_div_l; [reflexivity|]. lra. }
  assert (forall k, 0 <= k <= 1 -> 0 <= rnd (rnd (f_power f * k) + rnd (mean * rnd (1 - k)))) as T.
  { intros k K. apply rnd_pos. assert (0 <= rnd (f_power f * k)) by (apply rnd_pos; nra).
    assert (0 <= rnd (1 - k)) by (apply rnd_pos; lra). assert (0 <= rnd (mean * rnd (1 - k))) by (apply rnd_pos; nra). lra. }
  pose proof (T _ A). pose proof (T _ R). destruct (Smoother.Qmaxf_cases (rnd (rnd (f_power f * f_attack f) + rnd (mean * rnd (1 - f_attack f)))) (rnd (rnd (f_power f * f_release f) + rnd (mean * rnd (1 - f_release f))))) as [[-> _]|[-> _]]; assumption.
Qed.
(** C42: the tracked power is never negative. *)
Theorem C42_not_negative b f : fine f -> fine (process rnd b f) /\ 0 <= f_power (process rnd b f).
Proof.
  intros F. assert (forall fuel i n f, fine f -> fine (loop rnd fuel i n b f)) as H.
  { clear f F. induction fuel as [|fuel IH]; intros i n f F; cbn [loop]; [assumption|]. destruct (Nat.ltb i n); [|assumption]. apply IH. now apply feed_fine. }
  assert (fine (process rnd b f)) as G by (apply H; exact F). split; [exact G|]. apply G.
Qed.
End Rounded.
(** C42: nor is it larger than the largest power that went in. *)
Theorem C42_bounded b f m : buffer b -> fine f -> (f_count f < 512)%nat -> f_power f <= m -> f_sum f <= inject_Z (Z.of_nat (f_count f)) * m ->
  Forall (fun x => x * x <= m) (mix b) -> f_power (process exact b f) <= m.
Proof.
  intros B (A & R & P & Sm) C Pm Sm' F. destruct (C42_tracks b f B C) as (_ & _ & -> & _).
  assert (forall l f, fine f -> (f_count f < 512)%nat -> f_power f <= m -> f_sum f <= inject_Z (Z.of_nat (f_count f)) * m -> Forall (fun x => x * x <= m) l -> f_power (pushAll l f) <= m) as H.
  { clear. induction l as [|x l IH]; intros f F C P S X; [exact P|]. inversion X as [|? ? X1 X2]; subst. destruct F as (A & R & P0 & S0).
    change (pushAll (x :: l) f) with (pushAll l (push x f)).
    assert (0 <= m) as M by nra. assert (f_sum f + x * x <= inject_Z (Z.of_nat (f_count f + 1)) * m) as S1.
    { rewrite Nat2Z.inj_add, inject_Z_plus. change (inject_Z (Z.of_nat 1)) with 1. lra. }
    assert (0 <= f_sum f + x * x) as S2 by nra.
    apply IH; auto; try (apply push_count; assumption); unfold push, fine; destruct (Nat.eqb_spec (f_count f + 1) 512) as [E|E]; cbn [f_attack f_release f_power f_sum f_count]; auto; try lra; try (change (inject_Z (Z.of_nat 0)) with 0; lra);
    rewrite E in S1; change (inject_Z (Z.of_nat 512)) with 512 in S1; set (mean := (f_sum f + x * x) / 512);
    (assert (0 <= mean <= m) as Me by (unfold mean; split; [apply Qle_shift_div_l; lra|apply Qle_shift_div_r; lra]));
    (assert (forall k, 0 <= k <= 1 -> 0 <= f_power f * k + mean * (1 - k) <= m) as T by (intros k K; split; nra)); pose proof (T _ A); pose proof (T _ R).
    - repeat apply conj; try lra. destruct (Qle_bool _ _); lra.
    - destruct (Qle_bool _ _); lra. }
  apply H; auto. repeat apply conj; tauto.
Qed.
(** C42: after clear the follower knows nothing of the past: whatever it had followed, it stays at zero as long as the
    input is silent, and follows new input like a new one. *)
Theorem C42_clear b f : buffer b -> 0 <= f_attack f <= 1 -> 0 <= f_release f <= 1 ->
  (Forall (fun x => x == 0) (mix b) -> f_power (process exact b (clear f)) == 0) /\
  same (process exact b (clear f)) (pushAll (mix b) (Follower (f_attack f) (f_release f) 0 0 0)).
Proof.
  intros B A R. assert (fine (clear f)) as F by (unfold fine; cbn; lra).
  split; [|apply C42_tracks; [exact B|cbn; lia]].
  intros Z. apply Qle_antisym.
  - apply C42_bounded; try assumption; try (cbn; lia); try (cbn; lra).
    eapply Forall_impl; [|exact Z]. intros x X. cbn beta. rewrite X. lra.
  - apply C42_not_negative; [|reflexivity|exact F]. intros x y. exact (fun H => H).
Qed.
(** Two channels, 1000 frames in blocks of 700 and 300: one step is complete. *)
Example C42_ex :
  let f := Follower (1 # 2) (3 # 4) 0 0 0 in let b n := [repeat 1 n; repeat (-(1 # 2)) n] in
  process Qred (b 1000%nat) f = process Qred (b 300%nat) (process Qred (b 700%nat) f) /\
  f_power (process Qred (b 1000%nat) f) = (1 # 8) /\ f_count (process Qred (b 1000%nat) f) = 488%nat /\ fine f.
Proof. cbv zeta. split; [vm_compute; reflexivity|]. split; [vm_compute; reflexivity|]. split; [vm_compute; reflexivity|]. unfold fine. cbn. lra. Qed.
(** C42: the sum of squares is rounded differently in different blocks. *)
Theorem C42_rounding_refuted :
  let f := Follower (1 # 2) (3 # 4) 0 16777216 0 in
  f_sum (process float24 [[1; 1]] f) <> f_sum (process float24 [[1]] (process float24 [[1]] f)).
Proof. vm_compute. discriminate. Qed.
