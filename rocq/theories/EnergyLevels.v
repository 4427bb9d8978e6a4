(** What the effects gain, width and apan do to levels, and cases of the energy of effects. *)
From Coq Require Import QArith Qabs Qround ZArith List Bool Lia Lqa.
Import ListNotations.
From Verif Require Import EffectsModel Effects EffectBlocks EffectBus EnergyModel Energy.
Open Scope Q_scope.

Section Levels.
Variable r : rest.
Notation X := (exactly r).
Ltac q := change (w_V X) with Q in *.
(** C102: gain multiplies both channels by one factor. *)
Theorem C102_gain g i0 i1 o0 o1 n (m : @store X) i : apart i0 i1 o0 o1 -> (i < n)%nat ->
  let m' := snd (process (@EGain X g) i0 i1 o0 o1 n m) in m' o0 i == g * m i0 i /\ m' o1 i == g * m i1 i.
Proof.
  intros Ap L m'. destruct (lists_len (@EGain X g) i0 i1 o0 o1 n m (conj Ap Logic.I)) as [A B]. fold m' in A, B. cbn [lists fst snd] in A, B.
  assert (forall o b, block m' o n = map (w_mul X g) (block m b n) -> m' o i == g * m b i) as H; [|split; now apply H].
  intros o b E. rewrite <- (block_nth m' o n i (w_mul X g 0) L), E, map_nth, block_nth by exact L. cbn [w_mul exactly]. now rewrite Qred_correct.
Qed.
(** C102: width scales the sum of the channels and their difference, each by its factor. *)
Theorem C102_width c1 c2 i0 i1 o0 o1 n (m : @store X) i : apart i0 i1 o0 o1 -> (i < n)%nat ->
  let m' := snd (process (@EWidth X c1 c2) i0 i1 o0 o1 n m) in
  m' o0 i + m' o1 i == (c2 + c1) * (m i0 i + m i1 i) /\ m' o0 i - m' o1 i == (c2 - c1) * (m i0 i - m i1 i).
Proof.
  intros Ap L m'. destruct (lists_len (@EWidth X c1 c2) i0 i1 o0 o1 n m (conj Ap Logic.I)) as [A B]. fold m' in A, B. cbn [lists fst snd] in A, B.
  pose proof (block_nth m' o0 n i (fst (@widthOut X c1 c2 (w_zero X, w_zero X))) L) as E0. pose proof (block_nth m' o1 n i (snd (@widthOut X c1 c2 (w_zero X, w_zero X))) L) as E1.
  rewrite A in E0. rewrite B in E1. rewrite map_nth in E0, E1. rewrite (map_nth (@widthOut X c1 c2)) in E0, E1.
  assert (nth i (combine (@block X m i0 n) (@block X m i1 n)) (w_zero X, w_zero X) = (m i0 i, m i1 i)) as C.
  { rewrite combine_nth by (now rewrite !block_length). now rewrite !block_nth. }
  rewrite C in E0, E1. rewrite <- E0, <- E1. unfold widthOut. cbn [fst snd w_mul w_add exactly]. rewrite !Qred_correct. q. split; ring.
Qed.
(** C102: apan gives each channel a gain; the two add up to the same at all times, and neither turns negative or exceeds the dry level
    and twice the wet one. *)
Theorem C102_apan (e : @apan X) i0 i1 o0 o1 n (m : @store X) i : apart i0 i1 o0 o1 -> (i < n)%nat ->
  (forall x, -(1) <= a_wave e x <= 1) -> 0 <= a_depth e <= 1 -> 0 <= a_wet e -> 0 <= a_dry e ->
  let m' := snd (process (EApan e) i0 i1 o0 o1 n m) in
  exists g0 g1, g0 + g1 == 2 * (a_dry e + a_wet e) /\ a_dry e <= g0 /\ a_dry e <= g1 /\ m' o0 i == g0 * m i0 i /\ m' o1 i == g1 * m i1 i.
Proof.
  intros Ap L W [D1 D2] We Dr m'. destruct (lists_len (EApan e) i0 i1 o0 o1 n m (conj Ap Logic.I)) as [A B]. fold m' in A, B. cbn [lists] in A, B. unfold apanL in A, B.
  rewrite block_length in A, B.
  assert (forall l ph, Forall (fun a => -(1) <= fst a <= 1 /\ -(1) <= snd a <= 1) (snd (run (apanLfo e) ph l))) as R.
  { induction l as [|x l IH]; intros ph; cbn [run]; [constructor|]. unfold apanLfo at 1. specialize (IH (w_frac X (w_add X ph (a_inc e)))).
    destruct (run (apanLfo e) _ l) as [s o]. cbn [snd] in *. constructor; [|exact IH]. cbn [fst snd]. split; apply W. }
  specialize (R (repeat (w_zero X) n) (a_phase e)). pose proof (run_length _ _ _ (apanLfo e) (repeat (w_zero X) n) (a_phase e)) as Ln.
  destruct (run (apanLfo e) (a_phase e) (repeat (w_zero X) n)) as [ph mods]. cbn [fst snd] in A, B, R, Ln. rewrite repeat_length in Ln.
  pose (f := fun '(a, x) => apanOut e a x). pose (z := ((w_zero X, w_zero X), (w_zero X, w_zero X))).
  pose proof (block_nth m' o0 n i (fst (f z)) L) as E0. pose proof (block_nth m' o1 n i (snd (f z)) L) as E1.
  rewrite A in E0. rewrite B in E1. rewrite map_nth in E0, E1. fold f in E0, E1. rewrite (map_nth f) in E0, E1. unfold z in E0, E1.
  assert (length mods = length (combine (block m i0 n) (block m i1 n))) as Lc by (rewrite combine_length, !block_length; lia).
  rewrite combine_nth in E0, E1 by exact Lc. rewrite combine_nth in E0, E1 by (now rewrite !block_length). rewrite !block_nth in E0, E1 by exact L.
  destruct (nth i mods (w_zero X, w_zero X)) as [a b] eqn:Ea. assert (In (a, b) mods) as I by (rewrite <- Ea; apply nth_In; lia).
  rewrite Forall_forall in R. specialize (R _ I). cbn [fst snd] in R. destruct R as [[Ra1 Ra2] [Rb1 Rb2]].
  rewrite <- E0, <- E1. unfold f, apanOut. cbn [fst snd w_mul w_add w_sub w_one w_half exactly]. q.
  exists ((1 - a_depth e * (1 # 2) * (a - b)) * a_wet e + a_dry e), ((1 + a_depth e * (1 # 2) * (a - b)) * a_wet e + a_dry e).
  assert (-(1) <= a_depth e * (1 # 2) * (a - b) <= 1) as [G1 G2] by (split; nra). remember (a_depth e * (1 # 2) * (a - b)) as dd eqn:Ed.
  assert (0 <= (1 - dd) * a_wet e) by (apply Qmult_le_0_compat; lra). assert (0 <= (1 + dd) * a_wet e) by (apply Qmult_le_0_compat; lra).
  split; [ring|]. split; [lra|]. split; [lra|]. rewrite !Qred_correct. rewrite Ed. split; ring.
Qed.
End Levels.

(** ** Cases *)
(** Stages, strings and reverb that pass what they get; the poles of the limiter at about 62 kHz (twice the rate). *)
Definition plain : rest := Rest (9604 # 10000) (98 # 100) (9999 # 10000) unit tt (fun _ s x => (s, x)) unit unit tt (fun _ s x => (s, x)) unit unit tt (fun _ s x => (s, x)).
Definition given_ (l : list Q) : @store (exactly plain) := fun b i => match b with 0%nat => nth i l 0 | _ => 0 end.
Definition gate : kernel := Gate (1 # 2) (1 # 10) 3 (1 # 2) (3 # 4).
(** Ratio 4; an envelope above 1 is over the threshold by as much (in place of the logarithm), the power falls as 1/(1-x). *)
Definition comp : kernel := Comp (1 # 2) (-(3 # 4)) (1 # 2) (3 # 4) (fun x => if Qle_bool x 1 then 0 else x - 1) (fun x => if Qle_bool x 0 then / (1 - x) else 1).
Example C102_ex : apart 0 1 2 3 /\ sound gate /\ sound comp /\ pole (r_c1 plain) /\ pole (1 # 2).
Proof.
  split; [split; lia|]. split; [split; split; cbn; lra|]. split; [|split; split; cbn; lra]. cbn [sound comp]. split; [split; lra|]. split; [lra|]. split.
  - intros x. destruct (Qle_bool x 1) eqn:E; [lra|]. assert (~ x <= 1) by (rewrite <- Qle_bool_iff; congruence). lra.
  - intros x H. pose proof H as H'. apply Qle_bool_iff in H' as ->. split; [apply Qinv_le_0_compat; lra|apply Qle_shift_inv_r; lra].
Qed.
(** One frame on the left channel; what comes out is rounded down. *)
Definition blocks_ := [(1%nat, given_ [1000000000])].
Definition whole (l : list Q) : list Z := map Qfloor l.
Example C102_effects_ex : whole (fst (play (newRectify plain 1) 0 1 2 3 blocks_)) = [113004]%Z /\ Forall (fun x => x == 0) (taken (r := plain) 1 blocks_).
Proof. split; [vm_compute; reflexivity|]. repeat constructor. Qed.
Example C102_gain_ex : snd (process (@EGain (exactly plain) (1 # 2)) 0 1 2 3 1 (given_ [3])) 2%nat 0%nat == 3 # 2 /\
  (let m := snd (process (@EWidth (exactly plain) (1 # 4) (3 # 4)) 0 1 2 3 1 (given_ [4])) in m 2%nat 0%nat == 3 /\ m 3%nat 0%nat == 1) /\
  (let e := @Apan (exactly plain) (1 # 4) (1 # 2) (fun x => if Qle_bool x (1 # 2) then 1 else -(1)) 1 (1 # 4) (1 # 2) 0 in
   map (fun i => Qred (snd (process (EApan e) 0 1 2 3 4 (given_ [1; 1; 1; 1])) 2%nat i)) [0; 1; 2; 3]%nat = [3 # 4; 1 # 4; 3 # 4; 5 # 4]).
Proof. vm_compute. repeat split. Qed.

(** C102: the limiter does not keep samples within full scale: right after it is cleared, a sample above a level comes out of its
    kernel as 1 + c3, where c3 is a pole (gen/limiter.hxx 74-77: the one of the gain is its square). *)
Theorem C102_limiter_refuted c3 c5 x : 0 < c3 -> c3 < 1 -> pole c5 -> 1 < (1 - c3) * x ->
  let y := snd (limitStep (c3 * c3) c3 c5 (LChan 0 0 0) x) in 1 < y /\ y == 1 + c3.
Proof.
  intros A B [C5 C5'] H y. enough (y == 1 + c3) as E by (split; [|exact E]; rewrite E; lra). unfold y, limitStep. cbn [l_peak l_env l_gain snd]. cbv zeta.
  assert (0 < x) as Hx by nra. assert (Qabsq x = x) as ->. { unfold Qabsq. assert (0 <= x) as Hx' by lra. apply Qle_bool_iff in Hx'. now rewrite Hx'. }
  assert (above (follow c5 0 x) x = false) as ->. { apply above_false. unfold follow. rewrite Qred_correct. nra. }
  assert (follow c3 0 x == (1 - c3) * x) as E. { unfold follow. rewrite Qred_correct. ring. }
  assert (above (follow c3 0 x) 1 = true) as ->. { apply above_true. rewrite E. exact H. }
  unfold follow at 1. rewrite !Qred_correct. rewrite E. field. split; nra.
Qed.
Example C102_limiter_refuted_ex : snd (limitStep (9604 # 10000) (98 # 100) (9999 # 10000) (LChan 0 0 0) 60) == 198 # 100.
Proof. vm_compute. reflexivity. Qed.
