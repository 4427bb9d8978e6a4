(** C98: the tables of oscillators are free of partials that would be heard as aliases, and hold the others.
    Reference rate 44100 Hz; proofs over the real numbers with arrays within a tolerance of their formulas. *)
From Coq Require Import ZArith Reals List Lra Lia.
From Verif Require Import BandModel.
Import ListNotations.
Local Open Scope R_scope.

(** ** Logarithms *)
Lemma ln_below x : 0 < x -> ln x <= x - 1.
Proof. intros H. pose proof (exp_ineq1_le (ln x)) as E. rewrite exp_ln in E by exact H. lra. Qed.
Lemma ln_above x : 0 < x -> 1 - / x <= ln x.
Proof. intros H. pose proof (ln_below (/ x) (Rinv_0_lt_compat x H)) as E. rewrite ln_Rinv in E by exact H. lra. Qed.
Lemma ln_quot x y : 0 < x -> 0 < y -> ln (x / y) = ln x - ln y.
Proof. intros X Y. unfold Rdiv. rewrite ln_mult by (auto using Rinv_0_lt_compat). rewrite ln_Rinv by exact Y. lra. Qed.
(** A chord of the logarithm is below it, by no more than w^2/(4ab). *)
Lemma chord_below a b s : 0 < a -> a <= b -> 0 <= s <= 1 -> let f := (1 - s) * a + s * b in
  (1 - s) * ln a + s * ln b <= ln f.
Proof.
  intros A B Hs f. assert (0 < f) as F by (unfold f; nra).
  pose proof (ln_below (a / f) ltac:(apply Rdiv_lt_0_compat; lra)) as La. pose proof (ln_below (b / f) ltac:(apply Rdiv_lt_0_compat; lra)) as Lb.
  rewrite ln_quot in La, Lb by lra. assert ((1 - s) * (a / f - 1) + s * (b / f - 1) = 0) as Z0 by (unfold f; field; unfold f in F; lra). nra.
Qed.
Lemma chord_near a b s : 0 < a -> a <= b -> 0 <= s <= 1 -> let f := (1 - s) * a + s * b in
  ln f - (b - a) * (b - a) / (4 * a * b) <= (1 - s) * ln a + s * ln b.
Proof.
  intros A B Hs f. assert (0 < f) as F by (unfold f; nra).
  pose proof (ln_above (a / f) ltac:(apply Rdiv_lt_0_compat; lra)) as La. pose proof (ln_above (b / f) ltac:(apply Rdiv_lt_0_compat; lra)) as Lb.
  rewrite ln_quot in La, Lb by lra.
  assert ((1 - s) * (1 - / (a / f)) + s * (1 - / (b / f)) = - (s * (1 - s) * ((b - a) * (b - a) / (a * b)))) as Z0 by (unfold f; field; unfold f in F; lra).
  assert (0 <= (b - a) * (b - a) / (a * b)) as W. { apply Rmult_le_pos; [nra|]. left. apply Rinv_0_lt_compat. nra. }
  assert ((b - a) * (b - a) / (4 * a * b) = (b - a) * (b - a) / (a * b) / 4) as -> by (field; lra).
  remember ((b - a) * (b - a) / (a * b)) as W2. assert (s * (1 - s) <= 1 / 4) by (pose proof (Rle_0_sqr (s - 1 / 2)) as Sq; unfold Rsqr in Sq; lra). nra.
Qed.
Lemma logB_pos : 0 < logB.
Proof. unfold logB. assert (0 < ln 600) by (rewrite <- ln_1; apply ln_increasing; lra). lra. Qed.
Lemma exp_logB_23 : exp (23 * logB) = 600.
Proof. unfold logB. replace (23 * (ln 600 / 23)) with (ln 600) by field. apply exp_ln. lra. Qed.
Lemma logB_below : logB <= ln (13207 / 10000).
Proof.
  assert (ln 600 <= INR 23 * ln (13207 / 10000)) as H.
  { rewrite <- ln_pow by lra. left. apply ln_increasing; lra. }
  replace (INR 23) with 23 in H by (cbn; lra). unfold logB. lra.
Qed.
Lemma ratio_below : exp logB <= 13207 / 10000.
Proof. rewrite <- (exp_ln (13207 / 10000)) by lra. destruct logB_below as [H|H]; [left; now apply exp_increasing|right; now rewrite H]. Qed.
Lemma logB_one : logB <= 1 / 2.
Proof. pose proof logB_below as H. pose proof (ln_below (13207 / 10000) ltac:(lra)). lra. Qed.
Lemma exp_above x : 1 + x <= exp x.
Proof. apply exp_ineq1_le. Qed.
Lemma exp_below x : 0 <= x < 1 -> exp x <= / (1 - x).
Proof.
  intros H. pose proof (exp_ineq1_le (- x)) as E. rewrite exp_Ropp in E. pose proof (exp_pos x) as P.
  apply Rmult_le_reg_l with (1 - x); [lra|]. rewrite Rinv_r by lra.
  apply Rmult_le_reg_r with (/ exp x); [now apply Rinv_0_lt_compat|]. rewrite Rmult_assoc, Rinv_r by lra. lra.
Qed.
Lemma exact_index f : 20 <= f <= 12000 -> exactIndex f = ln (f / 20) / logB.
Proof.
  intros H. unfold exactIndex. destruct (Rlt_dec f 20) as [L|L]; [lra|]. pose proof logB_pos as P.
  assert (0 <= ln (f / 20)) as L0. { rewrite <- ln_1. destruct (Req_dec f 20) as [->|N]; [replace (20 / 20) with 1 by field; lra|left; apply ln_increasing; lra]. }
  assert (ln (f / 20) <= 23 * logB) as L1.
  { unfold logB. replace (23 * (ln 600 / 23)) with (ln 600) by field.
    destruct (Req_dec f 12000) as [->|N]; [replace (12000 / 20) with 600 by field; lra|left; apply ln_increasing; lra]. }
  unfold clampR. rewrite Rmin_left, Rmax_right; [reflexivity| |].
  - apply Rmult_le_pos; [exact L0|left; now apply Rinv_0_lt_compat].
  - apply Rmult_le_reg_r with logB; [exact P|]. unfold Rdiv. rewrite Rmult_assoc, Rinv_l by lra. lra.
Qed.
Lemma int_part r : IZR (Int_part r) <= r < IZR (Int_part r) + 1.
Proof. destruct (base_Int_part r). lra. Qed.

Lemma Rabs_le_inv x y : Rabs x <= y -> - y <= x <= y.
Proof. intros H. pose proof (Rle_abs x). pose proof (Rle_abs (- x)) as N. rewrite Rabs_Ropp in N. lra. Qed.

Section Tables.
Variable logs starts : Z -> R.
(** The arrays hold the values of their formulas within a tolerance (binary32 has 24 bits); their last cells are set. *)
Hypothesis logs_near : forall i, (0 <= i < 1023)%Z -> Rabs (logs i - exactIndex (cellFrequency i)) <= 1 / 10000.
Hypothesis logs_last : logs 1023%Z = 23.
Hypothesis starts_near : forall t, (0 <= t < 24)%Z -> Rabs (starts t - exactStart t) <= exactStart t * (1 / 1000000).
Hypothesis starts_last : starts 24%Z = 22050.

Lemma cell_range i : (0 <= i <= 1023)%Z -> 20 <= cellFrequency i <= 12000.
Proof. intros H. unfold cellFrequency. assert (0 <= IZR i <= 1023) by (split; apply IZR_le; lia). lra. Qed.
Lemma logs_close i : (0 <= i <= 1023)%Z -> Rabs (logs i - ln (cellFrequency i / 20) / logB) <= 1 / 10000.
Proof.
  intros H. rewrite <- exact_index by now apply cell_range. destruct (Z.eq_dec i 1023) as [->|N]; [|apply logs_near; lia].
  assert (exactIndex (cellFrequency 1023) = 23) as ->.
  { rewrite exact_index by (apply cell_range; lia). unfold cellFrequency, logB. replace ((20 + 1023 / 1023 * 11980) / 20) with 600 by field.
    assert (0 < ln 600) by (rewrite <- ln_1; apply ln_increasing; lra). field. lra. }
  rewrite logs_last. replace (23 - 23) with 0 by ring. rewrite Rabs_R0. lra.
Qed.
(** The position in a cell. *)
Lemma tableIndex_cell f : 20 <= f < 12000 -> exists i s, (0 <= i < 1023)%Z /\ 0 <= s < 1 /\
  IZR i = (f - 20) * (1023 / 11980) - s /\ f = (1 - s) * cellFrequency i + s * cellFrequency (i + 1) /\
  tableIndex logs f = (1 - s) * logs i + s * logs (i + 1)%Z.
Proof.
  intros H. unfold tableIndex, clampR. rewrite Rmin_left, Rmax_right by lra. remember ((f - 20) * (1023 / 11980)) as pos eqn:Ep.
  pose proof (int_part pos) as P. exists (Int_part pos), (pos - IZR (Int_part pos)).
  assert (0 <= Int_part pos < 1023)%Z as R.
  { split; [apply Z.lt_succ_r, lt_IZR; rewrite succ_IZR; lra|apply lt_IZR; lra]. }
  split; [exact R|]. split; [lra|]. split; [lra|]. rewrite Z.min_l by lia. split; [|reflexivity].
  unfold cellFrequency. rewrite plus_IZR. assert (f = 20 + pos / 1023 * 11980) as -> by (rewrite Ep; field). field.
Qed.
Lemma tableIndex_above f : 12000 <= f -> tableIndex logs f = 23.
Proof.
  intros H. unfold tableIndex, clampR. rewrite Rmin_right, Rmax_right by lra.
  replace (Int_part 1023) with 1023%Z. 2:{ pose proof (int_part 1023) as P. assert (1023 < Int_part 1023 + 1)%Z by (apply lt_IZR; rewrite plus_IZR; lra). assert (Int_part 1023 <= 1023)%Z by (apply le_IZR; lra). lia. }
  cbn [Z.min Z.add Z.compare]. rewrite logs_last. lra.
Qed.
Lemma tableIndex_below f : f <= 20 -> Rabs (tableIndex logs f) <= 1 / 10000.
Proof.
  intros H. unfold tableIndex, clampR. rewrite Rmin_left, Rmax_left by lra.
  replace (Int_part 0) with 0%Z. 2:{ pose proof (int_part 0) as P. assert (0 < Int_part 0 + 1)%Z by (apply lt_IZR; rewrite plus_IZR; lra). assert (Int_part 0 <= 0)%Z by (apply le_IZR; lra). lia. }
  pose proof (logs_close 0 ltac:(lia)) as L. unfold cellFrequency in L. replace ((20 + 0 / 1023 * 11980) / 20) with 1 in L by field. rewrite ln_1 in L.
  replace ((1 - (0 - 0)) * logs 0%Z + (0 - 0) * logs (Z.min (0 + 1) 1023)) with (logs 0%Z - 0 / logB) by (unfold Rdiv; ring). exact L.
Qed.
(** The chosen index is near the exact one: at most the tolerance above it, and below it by what a chord loses. *)
Lemma tableIndex_near f : 20 <= f -> f < 12000 -> exists a b, 20 <= a /\ a <= f /\ b = a + 11980 / 1023 /\ (forall k, (0 <= k)%Z -> IZR k <= (f - 20) * (1023 / 11980) -> cellFrequency k <= a) /\
  logB * tableIndex logs f <= ln (f / 20) + 1 / 20000 /\
  ln (f / 20) - (b - a) * (b - a) / (4 * a * b) - 1 / 20000 <= logB * tableIndex logs f.
Proof.
  intros H1 H2. destruct (tableIndex_cell f (conj H1 H2)) as (i & s & Ri & Rs & Ei & Ef & ->).
  pose proof (cell_range i ltac:(lia)) as Ca. pose proof (cell_range (i + 1) ltac:(lia)) as Cb.
  assert (cellFrequency (i + 1) = cellFrequency i + 11980 / 1023) as Cm by (unfold cellFrequency; rewrite plus_IZR; field).
  pose proof (logs_close i ltac:(lia)) as La. pose proof (logs_close (i + 1) ltac:(lia)) as Lb.
  assert (forall k, (0 <= k)%Z -> IZR k <= (f - 20) * (1023 / 11980) -> cellFrequency k <= cellFrequency i) as Ck.
  { intros k K Hk. assert (k < i + 1)%Z as L by (apply lt_IZR; rewrite plus_IZR; lra). assert (IZR k <= IZR i) by (apply IZR_le; lia). unfold cellFrequency. lra. }
  remember (cellFrequency i) as a eqn:Ea. remember (cellFrequency (i + 1)) as b eqn:Eb. clear Ea Eb.
  exists a, b. split; [lra|]. split; [nra|]. split; [lra|]. split; [exact Ck|].
  pose proof logB_pos as Pb. pose proof logB_one as Ub.
  rewrite ln_quot in La, Lb by lra. rewrite (ln_quot f 20) by lra.
  pose proof (chord_below a b s ltac:(lra) ltac:(lra) ltac:(lra)) as K1. pose proof (chord_near a b s ltac:(lra) ltac:(lra) ltac:(lra)) as K2. cbv zeta in K1, K2. rewrite <- Ef in K1, K2.
  apply Rabs_le_inv in La, Lb.
  assert (forall l x, - (1 / 10000) <= l - x / logB <= 1 / 10000 -> x - 1 / 20000 <= logB * l <= x + 1 / 20000) as Sc.
  { intros l x [L1 L2]. assert (x = logB * (x / logB)) as Ex by (field; lra). remember (x / logB) as y eqn:Ey. clear Ey. rewrite Ex. split; nra. }
  apply Sc in La, Lb. replace (logB * ((1 - s) * logs i + s * logs (i + 1)%Z)) with ((1 - s) * (logB * logs i) + s * (logB * logs (i + 1)%Z)) by ring.
  remember (logB * logs i) as x. remember (logB * logs (i + 1)%Z) as y. split; nra.
Qed.
Lemma start_pos t : 0 < exactStart t.
Proof. unfold exactStart. pose proof (exp_pos (IZR t * logB)). lra. Qed.
Lemma tableIndex_range f : Rabs (tableIndex logs f) <= 24.
Proof.
  destruct (Rle_or_lt f 20) as [L|L]; [pose proof (tableIndex_below f L); lra|]. destruct (Rle_or_lt 12000 f) as [U|U]; [rewrite tableIndex_above by exact U; rewrite Rabs_pos_eq; lra|].
  destruct (tableIndex_cell f ltac:(lra)) as (i & s & Ri & Rs & _ & _ & ->).
  assert (forall k, (0 <= k <= 1023)%Z -> - 1 <= logs k <= 24) as B.
  { intros k K. destruct (Z.eq_dec k 1023) as [->|N]; [rewrite logs_last; lra|]. pose proof (logs_near k ltac:(lia)) as L0. apply Rabs_le_inv in L0.
    assert (0 <= exactIndex (cellFrequency k) <= 23); [|lra]. unfold exactIndex. destruct (Rlt_dec _ _); [lra|]. unfold clampR, Rmax, Rmin. repeat destruct (Rle_dec _ _); lra. }
  pose proof (B i ltac:(lia)) as Bi. pose proof (B (i + 1)%Z ltac:(lia)) as Bj. apply Rabs_le. split; nra.
Qed.

(** C98: whatever the frequency, the table that is chosen has no partial above 24650 Hz, so that at 44100 Hz
    and above none is heard as an alias below 19450 Hz. *)
Theorem C98_partials f h : 0 <= f <= 22050 -> kept starts (row logs f) h -> IZR h * f <= 24650 /\ 44100 - IZR h * f >= 19450.
Proof.
  intros F [Hh K]. change (1024 / 2 + 1)%Z with 513%Z in Hh. assert (1 <= IZR h <= 512) as Bh by (split; apply IZR_le; lia).
  enough (IZR h * f <= 24650) by lra.
  destruct (Rlt_or_le f (87 / 2)) as [L|L]; [nra|].
  assert (IZR h * maxFrequency starts (row logs f) <= 24255 \/ maxFrequency starts (row logs f) <= 0) as Km.
  { destruct (Rle_or_lt (maxFrequency starts (row logs f)) 0) as [N|N]; [now right|left]. unfold cutoff in K.
    apply Rmult_le_compat_r with (r := 1024 * maxFrequency starts (row logs f)) in K; [|lra].
    replace (IZR h * (1 / 1024) * (1024 * maxFrequency starts (row logs f))) with (IZR h * maxFrequency starts (row logs f)) in K by field.
    replace (1 / 2 * (44100 * (11 / 10)) / 1024 / maxFrequency starts (row logs f) * (1024 * maxFrequency starts (row logs f))) with 24255 in K by (field; lra). exact K. }
  unfold row in *. pose proof (int_part (tableIndex logs f)) as P. remember (Int_part (tableIndex logs f)) as o eqn:Eo. clear Eo.
  enough (f <= maxFrequency starts o * (1015 / 1000)) by nra.
  destruct (Z_le_gt_dec 23 o) as [O|O].
  { unfold maxFrequency. rewrite Z.min_r, Z.max_r by lia. change (23 + 1)%Z with 24%Z. rewrite starts_last. lra. }
  assert (f < 12000) as F2. { destruct (Rlt_or_le f 12000) as [Q|Q]; [exact Q|]. rewrite tableIndex_above in P by exact Q. assert (IZR o <= 22) by (apply IZR_le; lia). lra. }
  destruct (tableIndex_near f ltac:(lra) F2) as (a & b & A1 & A2 & -> & A3 & _ & N).
  assert (434 / 10 <= a) as A. { pose proof (A3 2%Z ltac:(lia) ltac:(lra)) as Q. unfold cellFrequency in Q. lra. }
  assert ((a + 11980 / 1023 - a) * (a + 11980 / 1023 - a) / (4 * a * (a + 11980 / 1023)) <= 144 / 10000) as W.
  { apply Rmult_le_reg_r with (4 * a * (a + 11980 / 1023)); [nra|]. unfold Rdiv at 1. rewrite Rmult_assoc, Rinv_l by nra. nra. }
  assert (0 <= ln (f / 20)) as Lp by (rewrite <- ln_1; left; apply ln_increasing; lra).
  pose proof logB_pos as Pb.
  assert (0 <= o)%Z as O0. { assert (0 < o + 1)%Z; [|lia]. apply lt_IZR. rewrite plus_IZR.
    assert (2 / 10 <= ln (f / 20)). { pose proof (ln_above (f / 20) ltac:(lra)) as La. assert (/ (f / 20) <= 1 / 2); [|lra]. apply Rmult_le_reg_r with (f / 20); [lra|]. rewrite Rinv_l by lra. lra. }
    assert (0 < logB * tableIndex logs f) as T by lra. assert (0 < tableIndex logs f) by nra. lra. }
  assert (ln (f / 20) <= logB * (IZR o + 1) + 145 / 10000) as G by nra.
  assert (f <= exactStart (o + 1) * (10148 / 10000)) as G2.
  { assert (f = 20 * exp (ln (f / 20))) as -> by (rewrite exp_ln by lra; field). unfold exactStart. rewrite Rmult_assoc. apply Rmult_le_compat_l; [lra|].
    apply Rle_trans with (exp (logB * (IZR o + 1) + 145 / 10000)); [destruct G as [G|G]; [left; now apply exp_increasing|right; now rewrite G]|].
    rewrite exp_plus, plus_IZR, (Rmult_comm logB). apply Rmult_le_compat_l; [left; apply exp_pos|]. pose proof (exp_below (145 / 10000) ltac:(lra)) as X. lra. }
  unfold maxFrequency. rewrite Z.min_l, Z.max_r by lia. pose proof (starts_near (o + 1) ltac:(lia)) as Sn. apply Rabs_le_inv in Sn. pose proof (start_pos (o + 1)). lra.
Qed.

(** C98: and none of the partials up to 18300 Hz is missing, of the 512 of a table. *)
Theorem C98_bright f h : 0 <= f -> (1 <= h <= 512)%Z -> IZR h * f <= 18300 -> kept starts (row logs f) h.
Proof.
  intros F Hh K. assert (1 <= IZR h <= 512) as Bh by (split; apply IZR_le; lia). split; [change (1024 / 2 + 1)%Z with 513%Z; lia|].
  enough (0 < maxFrequency starts (row logs f) /\ IZR h * maxFrequency starts (row logs f) <= 24255) as [M0 M1].
  { unfold cutoff. apply Rmult_le_reg_r with (1024 * maxFrequency starts (row logs f)); [lra|].
    replace (IZR h * (1 / 1024) * (1024 * maxFrequency starts (row logs f))) with (IZR h * maxFrequency starts (row logs f)) by field.
    replace (1 / 2 * (44100 * (11 / 10)) / 1024 / maxFrequency starts (row logs f) * (1024 * maxFrequency starts (row logs f))) with 24255 by (field; lra). exact M1. }
  unfold row. pose proof (int_part (tableIndex logs f)) as P. remember (Int_part (tableIndex logs f)) as o eqn:Eo. clear Eo.
  pose proof ratio_below as Rb. pose proof (exp_pos logB) as Ep. pose proof logB_pos as Pb.
  assert (exactStart 1 <= 27) as S1. { unfold exactStart. rewrite Rmult_1_l. lra. }
  destruct (Rlt_or_le f 20) as [L|L].
  { pose proof (tableIndex_below f ltac:(lra)) as T. apply Rabs_le_inv in T.
    assert (o <= 0)%Z as O by (assert (o < 1)%Z by (apply lt_IZR; lra); lia).
    unfold maxFrequency. replace (Z.max 0 (Z.min o 23) + 1)%Z with 1%Z by lia. pose proof (starts_near 1 ltac:(lia)) as Sn. apply Rabs_le_inv in Sn. pose proof (start_pos 1). split; [lra|nra]. }
  destruct (Z_le_gt_dec 23 o) as [O|O].
  { unfold maxFrequency. rewrite Z.min_r, Z.max_r by lia. change (23 + 1)%Z with 24%Z. rewrite starts_last.
    assert (h = 1)%Z as ->; [|lra]. assert (h < 2)%Z; [|lia]. apply lt_IZR.
    assert (11990 <= f); [|nra]. destruct (Rlt_or_le f 12000) as [Q|Q]; [|lra].
    destruct (tableIndex_near f L Q) as (a & b & _ & _ & _ & _ & N & _).
    assert (23 <= tableIndex logs f) as T by (apply Rle_trans with (IZR o); [apply IZR_le; lia|lra]).
    assert (23 * logB - 1 / 20000 <= ln (f / 20)) as N2 by nra.
    assert (600 * (1 - 1 / 20000) <= f / 20); [|lra]. rewrite <- (exp_ln (f / 20)) by lra. rewrite <- exp_logB_23.
    apply Rle_trans with (exp (23 * logB) * exp (- (1 / 20000))); [apply Rmult_le_compat_l; [left; apply exp_pos|pose proof (exp_above (- (1 / 20000))); lra]|].
    rewrite <- exp_plus. destruct N2 as [N2|N2]; [left; apply exp_increasing; lra|right; f_equal; lra]. }
  assert (f < 12000) as F2. { destruct (Rlt_or_le f 12000) as [Q|Q]; [exact Q|]. rewrite tableIndex_above in P by exact Q. assert (IZR o <= 22) by (apply IZR_le; lia). lra. }
  destruct (Z_lt_le_dec o 0) as [On|O0].
  { unfold maxFrequency. replace (Z.max 0 (Z.min o 23) + 1)%Z with 1%Z by lia. pose proof (starts_near 1 ltac:(lia)) as Sn. apply Rabs_le_inv in Sn. pose proof (start_pos 1). split; [lra|nra]. }
  destruct (tableIndex_near f L F2) as (a & b & _ & _ & _ & _ & N & _).
  assert (logB * IZR o <= ln (f / 20) + 1 / 20000) as G by nra.
  assert (exactStart (o + 1) <= f * (13209 / 10000)) as G2.
  { unfold exactStart. rewrite plus_IZR, Rmult_plus_distr_r, exp_plus, Rmult_1_l, (Rmult_comm (IZR o)).
    assert (20 * exp (logB * IZR o) <= f * (1 + 1 / 10000)) as X.
    { replace (f * (1 + 1 / 10000)) with (20 * (f / 20 * (1 + 1 / 10000))) by field. apply Rmult_le_compat_l; [lra|].
      apply Rle_trans with (exp (ln (f / 20) + 1 / 20000)); [destruct G as [G|G]; [left; now apply exp_increasing|right; now rewrite G]|].
      rewrite exp_plus, exp_ln by lra. apply Rmult_le_compat_l; [lra|]. pose proof (exp_below (1 / 20000) ltac:(lra)). lra. }
    pose proof (exp_pos (logB * IZR o)). nra. }
  unfold maxFrequency. rewrite Z.min_l, Z.max_r by lia. pose proof (starts_near (o + 1) ltac:(lia)) as Sn. apply Rabs_le_inv in Sn. pose proof (start_pos (o + 1)). split; [lra|nra].
Qed.
(** C98: the 10 % that the reference rate allows are exceeded: the interpolated table of logarithms is too low between
    its cells, and a frequency just above the start of table 4 is played with table 3. *)
Theorem C98_permissivity_refuted : exists f h, 20 <= f <= 22050 /\ kept starts (row logs f) h /\ IZR h * f > 24255 /\
  exactStart 4 < f /\ row logs f = 3%Z.
Proof.
  remember (20 + 7 / 2 / 1023 * 11980) as f eqn:Ef. assert (60 < f < 61) as F by lra. exists f, 398%Z. split; [lra|].
  assert (exp (4 * logB) <= 3047 / 1000) as S4.
  { rewrite <- (exp_ln (3047 / 1000)) by lra. left. apply exp_increasing. unfold logB.
    assert (INR 4 * ln 600 < INR 23 * ln (3047 / 1000)) as Q by (rewrite <- !ln_pow by lra; apply ln_increasing; lra).
    replace (INR 4) with 4 in Q by (cbn; lra). replace (INR 23) with 23 in Q by (cbn; lra). lra. }
  pose proof logB_pos as Pb. pose proof logB_one as Ub.
  assert (row logs f = 3%Z) as Er.
  { destruct (tableIndex_cell f ltac:(lra)) as (i & s & Ri & Rs & Ei & _ & T).
    assert (i = 3)%Z as ->. { assert (3 < i + 1)%Z by (apply lt_IZR; rewrite plus_IZR; lra). assert (i < 4)%Z by (apply lt_IZR; lra). lia. }
    assert (s = 1 / 2) as -> by lra. change (3 + 1)%Z with 4%Z in T.
    pose proof (logs_close 3 ltac:(lia)) as La. pose proof (logs_close 4 ltac:(lia)) as Lb. apply Rabs_le_inv in La, Lb.
    assert (ln (cellFrequency 3 / 20) = ln (2820 / 1023)) as Q3 by (f_equal; unfold cellFrequency; field).
    assert (ln (cellFrequency 4 / 20) = ln (3419 / 1023)) as Q4 by (f_equal; unfold cellFrequency; field).
    rewrite Q3 in La. rewrite Q4 in Lb.
    assert (6 * ln 600 + 5 / 1000 <= 23 * (ln (2820 / 1023) + ln (3419 / 1023)) <= 8 * ln 600 - 5 / 1000) as Q.
    { rewrite <- ln_mult by lra. replace 23 with (INR 23) by (cbn; lra). rewrite <- ln_pow by lra.
      replace 6 with (INR 6) by (cbn; lra). replace 8 with (INR 8) by (cbn; lra). rewrite <- (ln_pow 600), <- (ln_pow 600) by lra.
      remember ((2820 / 1023 * (3419 / 1023)) ^ 23) as X eqn:EX.
      assert (600 ^ 6 * 2 <= X) as X1 by (subst X; lra). assert (X * 101 / 100 <= 600 ^ 8) as X2 by (subst X; lra). clear EX.
      assert (0 < X) as X0 by (assert (0 < 600 ^ 6) by lra; lra). split.
      - pose proof (ln_above (X / 600 ^ 6) ltac:(apply Rdiv_lt_0_compat; lra)) as L. rewrite ln_quot in L by lra.
        assert (/ (X / 600 ^ 6) <= 1 / 2); [|lra]. apply Rmult_le_reg_r with (X / 600 ^ 6); [apply Rdiv_lt_0_compat; lra|]. rewrite Rinv_l; [lra|]. apply Rgt_not_eq. apply Rdiv_lt_0_compat; lra.
      - pose proof (ln_above (600 ^ 8 / X) ltac:(apply Rdiv_lt_0_compat; lra)) as L. rewrite ln_quot in L by lra.
        assert (/ (600 ^ 8 / X) <= 100 / 101); [|lra]. replace (/ (600 ^ 8 / X)) with (X / 600 ^ 8) by (field; lra). lra. }
    assert (forall l x, - (1 / 10000) <= l - x / logB <= 1 / 10000 -> x - 1 / 20000 <= logB * l <= x + 1 / 20000) as Sc.
    { intros l x [L1 L2]. assert (x = logB * (x / logB)) as Ex by (field; lra). remember (x / logB) as y eqn:Ey. clear Ey. rewrite Ex. split; nra. }
    apply Sc in La, Lb. assert (ln 600 = 23 * logB) as E6 by (unfold logB; field). rewrite E6 in Q.
    assert (3 * logB < logB * tableIndex logs f < 4 * logB) as I by (rewrite T; lra).
    unfold row. pose proof (int_part (tableIndex logs f)) as P.
    assert (3 < tableIndex logs f < 4) as I2 by nra.
    assert (3 < Int_part (tableIndex logs f) + 1)%Z by (apply lt_IZR; rewrite plus_IZR; lra). assert (Int_part (tableIndex logs f) < 4)%Z by (apply lt_IZR; lra). lia. }
  rewrite Er. split; [|split; [lra|split; [unfold exactStart; lra|reflexivity]]].
  split; [change (1024 / 2 + 1)%Z with 513%Z; lia|].
  unfold cutoff, maxFrequency. change (Z.max 0 (Z.min 3 23) + 1)%Z with 4%Z.
  pose proof (starts_near 4 ltac:(lia)) as Sn. apply Rabs_le_inv in Sn. unfold exactStart in Sn. pose proof (exp_pos (4 * logB)) as E4.
  assert (0 < starts 4%Z <= 60941 / 1000) as Q by lra.
  apply Rmult_le_reg_r with (1024 * starts 4%Z); [lra|]. unfold Rdiv. replace (1 * / 2 * (44100 * (11 * / 10)) * / 1024 * / starts 4%Z * (1024 * starts 4%Z)) with 24255 by (field; lra). lra.
Qed.
(** C98: the table is chosen for the frequency without the ratio of the detune (Wavetables.cpp 91-99, 131-134): at an
    octave of detune every frequency from 36 to 3000 Hz has partials that are heard at 7500 to 13500 Hz at 44100 Hz. *)
Theorem C98_detune_refuted f : 36 <= f <= 3000 -> exists h, kept starts (row logs f) h /\ 7500 <= 44100 - IZR h * (f * 2) <= 13500.
Proof.
  intros F. pose proof (int_part (18300 / f)) as P. remember (Int_part (18300 / f)) as h eqn:Eh. clear Eh. exists h.
  assert (18300 = f * (18300 / f)) as E by (field; lra). remember (18300 / f) as q eqn:Eq. clear Eq.
  assert (6 <= q) by nra. assert (q <= 509) by nra.
  assert (h <= 512)%Z by (apply le_IZR; lra). assert (1 <= h)%Z by (apply le_IZR; lra).
  assert (15300 <= IZR h * f <= 18300) as B by (split; nra). split; [|lra].
  apply C98_bright; [lra|lia|lra].
Qed.
End Tables.

(** ** The waves *)
(** The partial sum of a series of sines at the angle x. *)
Definition series (c : nat -> R) (last : nat) (x : R) : R := fold_right Rplus 0 (map (fun k => c k * sin (INR k * x)) (seq 1 last)).
Definition angle (size n : Z) : R := 2 * PI * IZR n / IZR size.
Lemma sample_series p A size last n c : (0 < size)%Z ->
  (forall k, (1 <= k)%nat -> (snd (p (Z.of_nat k)) = 0 /\ c k = - (A * fst (p (Z.of_nat k)))) \/ (snd (p (Z.of_nat k)) = PI /\ c k = A * fst (p (Z.of_nat k)))) ->
  sample p A size last n = series c last (angle size n).
Proof.
  intros Sz H. unfold sample, series. f_equal. apply map_ext_in. intros k K. apply in_seq in K.
  assert (0 < IZR size) as S0 by now apply IZR_lt.
  replace (2 * PI * IZR (Z.of_nat k) * IZR n / IZR size) with (INR k * angle size n) by (rewrite INR_IZR_INZ; unfold angle; field; lra).
  remember (INR k * angle size n) as x eqn:Ex. clear Ex.
  destruct (H k ltac:(lia)) as [[-> ->]|[-> ->]].
  - replace (x + (PI / 2 + 0)) with (PI / 2 + x) by ring. rewrite (sin_cos x). field.
  - replace (x + (PI / 2 + PI)) with (PI / 2 + x + PI) by ring. rewrite neg_cos, (sin_cos x). field.
Qed.
Lemma parity k : (Z.odd (Z.of_nat k) = true /\ Z.even (Z.of_nat k) = false /\ Nat.odd k = true /\ (-1) ^ k = -1) \/
  (Z.odd (Z.of_nat k) = false /\ Z.even (Z.of_nat k) = true /\ Nat.odd k = false /\ (-1) ^ k = 1).
Proof.
  destruct (Nat.Even_or_Odd k) as [[j ->]|[j ->]].
  - right. rewrite Nat2Z.inj_mul, Z.odd_mul, Z.even_mul, Nat.odd_mul, pow_1_even. auto.
  - left. rewrite Nat2Z.inj_add, Nat2Z.inj_mul, Z.odd_add, Z.even_add, Z.odd_mul, Z.even_mul, Nat.odd_add, Nat.odd_mul. rewrite Nat.add_1_r, pow_1_odd. auto.
Qed.
(** C98: the tables of the four waves hold the partial sums of their Fourier series: the sine and the ramp fall at the start
    of the period, the triangle and the square rise. *)
Theorem C98_waves A size last n : (0 < size)%Z ->
  sample sine A size last n = series (fun k => if (k =? 1)%nat then - A else 0) last (angle size n) /\
  sample saw A size last n = series (fun k => A * (2 / PI) * ((-1) ^ k / INR k)) last (angle size n) /\
  sample square A size last n = series (fun k => if Nat.odd k then A * (4 / PI) / INR k else 0) last (angle size n) /\
  sample triangle A size last n = series (fun k => if Nat.odd k then A * (8 / (PI * PI)) * ((-1) ^ (k / 2) / (INR k * INR k)) else 0) last (angle size n).
Proof.
  intros Sz. pose proof PI_neq0 as Pn.
  split; [|split; [|split]]; apply sample_series; try exact Sz; intros k K; assert (INR k <> 0) as Kn by (apply not_0_INR; lia); rewrite ?INR_IZR_INZ in *.
  - unfold sine. left. destruct (Z.eqb_spec (Z.of_nat k) 1) as [E|E]; destruct (Nat.eqb_spec k 1) as [E2|E2]; try lia; cbn [fst snd]; split; [reflexivity|ring|reflexivity|ring].
  - unfold saw. destruct (Z.ltb_spec (Z.of_nat k) 1) as [L|L]; [lia|]. cbn [fst snd].
    destruct (parity k) as [(-> & _ & _ & ->)|(-> & _ & _ & ->)]; [left|right]; (split; [reflexivity|field; auto]).
  - unfold square. destruct (parity k) as [(_ & -> & -> & _)|(_ & -> & -> & _)]; cbn [fst snd]; [right|left]; (split; [reflexivity|try field; auto]).
  - unfold triangle. destruct (parity k) as [(_ & -> & -> & _)|(_ & -> & -> & _)]; cbn [fst snd]; [|left; split; [reflexivity|ring]].
    change 2%Z with (Z.of_nat 2). rewrite <- Nat2Z.inj_div.
    destruct (parity (k / 2)) as [(-> & _ & _ & ->)|(-> & _ & _ & ->)]; [left|right]; (split; [reflexivity|field; auto]).
Qed.
(** C98: such a wave is odd over its period and starts at 0, so that it has no constant part. *)
Theorem C98_odd c last size n : (0 < size)%Z -> series c last (angle size 0) = 0 /\ series c last (angle size (size - n)) = - series c last (angle size n).
Proof.
  intros Sz. assert (0 < IZR size) as S0 by now apply IZR_lt. split.
  - unfold series, angle. replace (2 * PI * 0 / IZR size) with 0 by (field; lra). induction (seq 1 last) as [|k l IH]; [reflexivity|]. cbn [map fold_right]. rewrite IH, Rmult_0_r, sin_0. ring.
  - unfold series. induction (seq 1 last) as [|k l IH]; [cbn; ring|]. cbn [map fold_right]. rewrite IH.
    replace (INR k * angle size (size - n)) with (- (INR k * angle size n) + 2 * INR k * PI) by (unfold angle; rewrite minus_IZR; field; lra).
    rewrite sin_period, sin_neg. ring.
Qed.

(** ** A case *)
(** The arrays of the formulas themselves. *)
Example C98_ex : exists logs starts, (forall i, (0 <= i < 1023)%Z -> Rabs (logs i - exactIndex (cellFrequency i)) <= 1 / 10000) /\ logs 1023%Z = 23 /\
  (forall t, (0 <= t < 24)%Z -> Rabs (starts t - exactStart t) <= exactStart t * (1 / 1000000)) /\ starts 24%Z = 22050 /\
  kept starts (row logs 440) 41 /\ ~ kept starts (row logs 440) 57.
Proof.
  exists (fun i => if (i =? 1023)%Z then 23 else exactIndex (cellFrequency i)), (fun t => if (t =? 24)%Z then 22050 else exactStart t).
  assert (forall i, (0 <= i < 1023)%Z -> Rabs ((if (i =? 1023)%Z then 23 else exactIndex (cellFrequency i)) - exactIndex (cellFrequency i)) <= 1 / 10000) as H1.
  { intros i Hi. destruct (Z.eqb_spec i 1023); [lia|]. replace (exactIndex (cellFrequency i) - exactIndex (cellFrequency i)) with 0 by ring. rewrite Rabs_R0. lra. }
  assert (forall t, (0 <= t < 24)%Z -> Rabs ((if (t =? 24)%Z then 22050 else exactStart t) - exactStart t) <= exactStart t * (1 / 1000000)) as H2.
  { intros t Ht. destruct (Z.eqb_spec t 24); [lia|]. replace (exactStart t - exactStart t) with 0 by ring. rewrite Rabs_R0. pose proof (start_pos t). lra. }
  split; [exact H1|]. split; [reflexivity|]. split; [exact H2|]. split; [reflexivity|]. split.
  - apply C98_bright; auto; [lra|lia|lra].
  - intros K. pose proof (C98_partials _ _ H1 eq_refl H2 eq_refl 440 57 ltac:(lra) K). lra.
Qed.
