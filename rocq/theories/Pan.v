(** C86: panning. *)
From Coq Require Import Reals ZArith List Lra Lia Psatz.
From Verif Require Import PanModel.
Import ListNotations.
Local Open Scope R_scope.

(** the integer part *)
Lemma part_spec x n : IZR n <= x -> x < IZR n + 1 -> Int_part x = n.
Proof.
  intros H1 H2. destruct (base_Int_part x) as [A B].
  assert (C : (Int_part x < n + 1)%Z) by (apply lt_IZR; rewrite plus_IZR; lra).
  assert (D : (n < Int_part x + 1)%Z) by (apply lt_IZR; rewrite plus_IZR; lra). lia.
Qed.
Lemma part_mono x y : x <= y -> (Int_part x <= Int_part y)%Z.
Proof.
  intros H. destruct (base_Int_part x) as [A B]. destruct (base_Int_part y) as [C D].
  apply Z.lt_succ_r, lt_IZR. unfold Z.succ. rewrite plus_IZR. lra.
Qed.
Lemma part_IZR n : Int_part (IZR n) = n.
Proof. apply part_spec; lra. Qed.

Lemma clamp_range x : 0 <= clamp01 x <= 1.
Proof.
  unfold clamp01. split; [apply Rmax_l|]. apply Rmax_lub; [lra|apply Rmin_r].
Qed.
Lemma clamp_mono x y : x <= y -> clamp01 x <= clamp01 y.
Proof.
  intros H. unfold clamp01, Rmax, Rmin. repeat destruct (Rle_dec _ _); lra.
Qed.
Lemma clamp_id x : 0 <= x -> x <= 1 -> clamp01 x = x.
Proof. intros H1 H2. unfold clamp01. rewrite Rmin_left by lra. apply Rmax_right. lra. Qed.

(** the angle of an entry *)
Definition angle (i : Z) : R := IZR i * (PI / 2 / 4094).
Lemma angle_range i : (0 <= i <= 4094)%Z -> 0 <= angle i <= PI / 2.
Proof.
  intros [H1 H2]. apply IZR_le in H1, H2. pose proof PI_RGT_0. unfold angle. split.
  - apply Rmult_le_pos; lra.
  - replace (PI / 2) with (4094 * (PI / 2 / 4094)) at 2 by field. apply Rmult_le_compat_r; lra.
Qed.
Lemma panData_cos i : (0 <= i <= 4094)%Z -> panData i = cos (angle i).
Proof.
  intros H. unfold panData, panSize, angle. change (4095 - 1)%Z with 4094%Z. destruct (Z.ltb_spec i 4095) as [_|X]; [reflexivity|lia].
Qed.
Lemma panData_range i : (0 <= i <= 4094)%Z -> 0 <= panData i <= 1.
Proof.
  intros H. rewrite (panData_cos i H). pose proof (angle_range i H) as [A B]. pose proof PI_RGT_0. split; [apply cos_ge_0; lra|]. apply COS_bound.
Qed.
Lemma panData_mono i j : (0 <= i)%Z -> (i <= j)%Z -> (j <= 4094)%Z -> panData j <= panData i.
Proof.
  intros H1 H2 H3. rewrite !panData_cos by lia. pose proof (angle_range i ltac:(lia)) as [A B]. pose proof (angle_range j ltac:(lia)) as [C D].
  pose proof PI_RGT_0. apply cos_decr_1; try lra. unfold angle. apply Rmult_le_compat_r; [lra|]. apply IZR_le, H2.
Qed.
Lemma panData_power i : (0 <= i <= 4094)%Z -> panData i * panData i + panData (4094 - i) * panData (4094 - i) = 1.
Proof.
  intros H. rewrite !panData_cos by lia. replace (angle (4094 - i)) with (PI / 2 - angle i).
  - rewrite cos_shift. pose proof (sin2_cos2 (angle i)) as X. unfold Rsqr in X. lra.
  - unfold angle. rewrite minus_IZR. field.
Qed.
Lemma panData_0 : panData 0 = 1.
Proof. rewrite panData_cos by lia. unfold angle. rewrite Rmult_0_l. apply cos_0. Qed.
Lemma panData_end : panData 4094 = 0.
Proof. rewrite panData_cos by lia. unfold angle. replace (4094 * (PI / 2 / 4094)) with (PI / 2) by field. apply cos_PI2. Qed.
Lemma panData_half : panData 2047 = sqrt 2 / 2.
Proof.
  rewrite panData_cos by lia. unfold angle. replace (2047 * (PI / 2 / 4094)) with (PI / 4) by field. rewrite cos_PI4.
  apply Rmult_eq_reg_l with (sqrt 2); [|apply sqrt2_neq_0]. pose proof sqrt2_neq_0. pose proof (sqrt_sqrt 2 ltac:(lra)). field_simplify; [|assumption].
  replace (sqrt 2 ^ 2) with 2 by (simpl; lra). field.
Qed.

(** ** Any rounding *)
Section Rounded.
Variable rnd : R -> R.
Hypothesis rnd_mono : forall x y, x <= y -> rnd x <= rnd y.
Hypothesis rnd_0 : rnd 0 = 0.
Hypothesis rnd_1 : rnd 1 = 1.
Hypothesis rnd_half : rnd (/ 2) = / 2.
Hypothesis rnd_max : rnd 4094 = 4094.
Hypothesis rnd_top : rnd (/ 2 + 4094) = / 2 + 4094.

Lemma index_range p : 0 <= p <= 1 -> (0 <= panIndex rnd p <= 4094)%Z.
Proof.
  intros [H0 H1]. unfold panIndex, panSize. change (4095 - 1)%Z with 4094%Z.
  assert (A : 0 <= rnd (p * 4094) <= 4094).
  { split; [rewrite <- rnd_0 at 1|rewrite <- rnd_max at 2]; apply rnd_mono; lra. }
  assert (B : / 2 <= rnd (/ 2 + rnd (p * 4094)) <= / 2 + 4094).
  { split; [rewrite <- rnd_half at 1|rewrite <- rnd_top]; apply rnd_mono; lra. }
  split.
  - rewrite <- (part_IZR 0). apply part_mono. lra.
  - assert (T : Int_part (/ 2 + 4094) = 4094%Z) by (apply part_spec; lra).
    apply Z.le_trans with (Int_part (/ 2 + 4094)); [apply part_mono; lra|lia].
Qed.
Lemma index_mono p q : p <= q -> (panIndex rnd p <= panIndex rnd q)%Z.
Proof.
  intros H. unfold panIndex, panSize. change (4095 - 1)%Z with 4094%Z. apply part_mono, rnd_mono, Rplus_le_compat_l, rnd_mono. lra.
Qed.
Lemma comp_range p : 0 <= p <= 1 -> 0 <= rnd (1 - p) <= 1.
Proof. intros H. split; [rewrite <- rnd_0 at 1|rewrite <- rnd_1 at 2]; apply rnd_mono; lra. Qed.
Lemma position_range x : 0 <= position rnd x <= 1.
Proof. apply clamp_range. Qed.
Lemma position_mono x y : x <= y -> position rnd x <= position rnd y.
Proof. intros H. apply clamp_mono, rnd_mono. apply Rmult_le_compat_r; [lra|]. apply rnd_mono. lra. Qed.
End Rounded.

(** C86: for any rounding that is monotone and exact on the few numbers of the table: every value, however far out, reads an entry of the
    table; the gains are between 0 and 1; further to the right the left channel is not louder and the right one not softer. *)
Theorem C86_gains : forall rnd, (forall x y, x <= y -> rnd x <= rnd y) -> rnd 0 = 0 -> rnd 1 = 1 -> rnd (/ 2) = / 2 ->
  rnd 4094 = 4094 -> rnd (/ 2 + 4094) = / 2 + 4094 ->
  forall x, (0 <= panIndex rnd (position rnd x) < panSize)%Z /\ (0 <= panIndex rnd (rnd (1 - position rnd x)%R) < panSize)%Z /\
    0 <= leftGain rnd x <= 1 /\ 0 <= rightGain rnd x <= 1 /\
    forall y, x <= y -> leftGain rnd y <= leftGain rnd x /\ rightGain rnd x <= rightGain rnd y.
Proof.
  intros rnd M R0 R1 RH RM RT x.
  pose proof (index_range rnd M R0 RH RM RT _ (position_range rnd x)) as IX.
  pose proof (index_range rnd M R0 RH RM RT _ (comp_range rnd M R0 R1 _ (position_range rnd x))) as IX2.
  unfold panSize. split; [lia|]. split; [lia|]. split; [apply panData_range, IX|]. split; [apply panData_range, IX2|].
  intros y H. pose proof (position_mono rnd M x y H) as PM. split.
  - apply panData_mono; [apply IX|apply (index_mono rnd M), PM|].
    apply (index_range rnd M R0 RH RM RT _ (position_range rnd y)).
  - apply panData_mono; [|apply (index_mono rnd M), M; lra|apply IX2].
    apply (index_range rnd M R0 RH RM RT _ (comp_range rnd M R0 R1 _ (position_range rnd y))).
Qed.

(** ** Exact arithmetic *)
Definition id (x : R) : R := x.
Lemma index_id p : panIndex id p = Int_part (/ 2 + p * 4094).
Proof. reflexivity. Qed.
Lemma id_range p : 0 <= p <= 1 -> (0 <= panIndex id p <= 4094)%Z.
Proof. apply index_range; unfold id; auto. Qed.

(** the index of the complement, unless the position is half way between two entries *)
Lemma index_complement p : 0 <= p <= 1 -> (forall k, p * 4094 <> IZR k + / 2) -> (panIndex id (1 - p) = 4094 - panIndex id p)%Z.
Proof.
  intros H N. rewrite !index_id. destruct (base_Int_part (/ 2 + p * 4094)) as [A B]. set (k := Int_part (/ 2 + p * 4094)) in *.
  apply part_spec; rewrite minus_IZR.
  - specialize (N k). assert (p * 4094 <= IZR k + / 2) by lra. lra.
  - specialize (N (k - 1)%Z). rewrite minus_IZR in N. destruct (Rle_lt_or_eq_dec _ _ A) as [L|E]; [lra|]. exfalso. apply N. lra.
Qed.

(** C86: at the left only the left channel sounds, at the right only the right one, in the middle both with the gain sqrt(1/2); mirroring
    the position exchanges the gains; and the sum of the squares of the gains is 1 unless the position is half way between two entries. *)
Theorem C86_law : forall x,
  (x <= -1 -> leftGain id x = 1 /\ rightGain id x = 0) /\ (1 <= x -> leftGain id x = 0 /\ rightGain id x = 1) /\
  (x = 0 -> leftGain id x = sqrt 2 / 2 /\ rightGain id x = sqrt 2 / 2) /\
  rightGain id x = leftGain id (- x) /\
  ((forall k, position id x * 4094 <> IZR k + / 2) -> leftGain id x * leftGain id x + rightGain id x * rightGain id x = 1).
Proof.
  intros x. unfold leftGain, rightGain, panLookup. change (id (1 - position id x)) with (1 - position id x).
  assert (P : position id x = clamp01 ((x + 1) * / 2)) by reflexivity.
  assert (I0 : panIndex id 0 = 0%Z) by (rewrite index_id; apply part_spec; lra).
  assert (I1 : panIndex id 1 = 4094%Z) by (rewrite index_id; apply part_spec; lra).
  split; [|split; [|split; [|split]]].
  - intros H. assert (E : position id x = 0).
    { rewrite P. unfold clamp01. rewrite Rmin_left by lra. apply Rmax_left. lra. }
    rewrite E, Rminus_0_r, I0, I1, panData_0, panData_end. auto.
  - intros H. assert (E : position id x = 1).
    { rewrite P. unfold clamp01. rewrite Rmin_right by lra. apply Rmax_right. lra. }
    rewrite E. replace (1 - 1) with 0 by ring. rewrite I0, I1, panData_0, panData_end. auto.
  - intros ->. assert (E : position id 0 = / 2) by (rewrite P; rewrite clamp_id; lra).
    rewrite E. replace (1 - / 2) with (/ 2) by field. assert (IH : panIndex id (/ 2) = 2047%Z) by (rewrite index_id; apply part_spec; lra).
    rewrite IH, panData_half. auto.
  - f_equal. f_equal. rewrite P. unfold position, clamp01, id, Rmax, Rmin. repeat destruct (Rle_dec _ _); lra.
  - intros N. pose proof (position_range id x) as PR. rewrite (index_complement _ PR N). apply panData_power, id_range, PR.
Qed.

(** C86: half way between two entries both channels are rounded the same way, and the sum is less than 1. *)
Theorem C86_power_refuted : exists x, leftGain id x * leftGain id x + rightGain id x * rightGain id x < 1.
Proof.
  exists (1 / 4094 - 1). unfold leftGain, rightGain, panLookup. change (id (1 - position id (1 / 4094 - 1))) with (1 - position id (1 / 4094 - 1)).
  assert (E : position id (1 / 4094 - 1) = / 2 * (1 / 4094)) by (unfold position, id; rewrite clamp_id; lra). rewrite E.
  assert (I0 : panIndex id (/ 2 * (1 / 4094)) = 1%Z) by (rewrite index_id; apply part_spec; lra).
  assert (I1 : panIndex id (1 - / 2 * (1 / 4094)) = 4094%Z) by (rewrite index_id; apply part_spec; lra).
  rewrite I0, I1, panData_end. rewrite panData_cos by lia. pose proof (sin2_cos2 (angle 1)) as X. unfold Rsqr in X.
  assert (S : 0 < sin (angle 1)). { pose proof PI_RGT_0. apply sin_gt_0; unfold angle; lra. }
  nra.
Qed.

(** C86: width: full width leaves the channels as they are, full negative width exchanges them, no width makes both equal; the sum of
    the channels is scaled by the sum of the two coefficients, their difference by the difference. *)
Theorem C86_width : forall x l r,
  (1 <= x -> tickWidth id x l r = (l, r)) /\ (x <= -1 -> tickWidth id x l r = (r, l)) /\
  (x = 0 -> tickWidth id x l r = ((l + r) * (sqrt 2 / 2), (l + r) * (sqrt 2 / 2))) /\
  (let '(l', r') := tickWidth id x l r in
     l' + r' = (l + r) * (leftGain id x + rightGain id x) /\ l' - r' = (l - r) * (rightGain id x - leftGain id x)).
Proof.
  intros x l r. destruct (C86_law x) as (A & B & C & _ & _). unfold tickWidth, leftGain, rightGain in *.
  set (p := panLookup id (position id x)) in *. set (q := panLookup id (id (1 - position id x))) in *.
  split; [|split; [|split]].
  - intros H. destruct (B H) as [-> ->]. f_equal; ring.
  - intros H. destruct (A H) as [-> ->]. f_equal; ring.
  - intros H. destruct (C H) as [-> ->]. f_equal; ring.
  - split; ring.
Qed.

(** C86: a block is panned frame by frame. *)
Theorem C86_block : forall rnd xs ls rs, length ls = length xs -> length rs = length xs ->
  length (pan rnd xs ls rs) = length xs /\
  forall i, (i < length xs)%nat -> nth i (pan rnd xs ls rs) (0, 0) = (nth i ls 0 * leftGain rnd (nth i xs 0), nth i rs 0 * rightGain rnd (nth i xs 0)).
Proof.
  intros rnd. induction xs as [|x xs IH]; intros [|l ls] [|r rs] L1 L2; try discriminate; cbn in L1, L2 |- *.
  - split; [reflexivity|]. intros i H. lia.
  - destruct (IH ls rs ltac:(lia) ltac:(lia)) as [A B]. split; [lia|]. intros [|i] H; [reflexivity|]. apply B. lia.
Qed.

(** C86: the vector code: it also reads inside the table and keeps the sum of the squares at 1 ... *)
Theorem C86_vector : forall x, (0 <= neonIndex x < panSize)%Z /\
  neonLeft x * neonLeft x + neonRight x * neonRight x = 1.
Proof.
  intros x. assert (R : (0 <= neonIndex x <= 4094)%Z) by (unfold neonIndex, panSize; lia).
  split; [unfold panSize; lia|]. unfold neonLeft, neonRight, panSize.
  replace (4095 - neonIndex x - 1)%Z with (4094 - neonIndex x)%Z by ring. apply panData_power, R.
Qed.

(** ... but it scales by the size of the table and not by the last index, so a sound in the middle is louder at the right. *)
Theorem C86_vector_centre_refuted : neonLeft 0 < neonRight 0 /\ leftGain id 0 = rightGain id 0.
Proof.
  assert (I : neonIndex 0 = 2048%Z).
  { unfold neonIndex, panSize. rewrite (part_spec _ 2048); [reflexivity| |]; lra. }
  split; [|destruct (C86_law 0) as (_ & _ & C & _); destruct (C eq_refl) as [-> ->]; reflexivity].
  unfold neonLeft, neonRight. rewrite I. change (panSize - 2048 - 1)%Z with 2046%Z. rewrite !panData_cos by lia.
  pose proof PI_RGT_0. apply cos_decreasing_1; unfold angle; lra.
Qed.

(** a quarter to the left: the entry 1024 of 4094 *)
Example C86_ex : leftGain id (- / 2) = cos (angle 1024) /\ rightGain id (- / 2) = cos (angle 3071).
Proof.
  unfold leftGain, rightGain, panLookup. change (id (1 - position id (- / 2))) with (1 - position id (- / 2)).
  assert (E : position id (- / 2) = / 4) by (unfold position, id; rewrite clamp_id; lra). rewrite E.
  assert (I0 : panIndex id (/ 4) = 1024%Z) by (rewrite index_id; apply part_spec; lra).
  assert (I1 : panIndex id (1 - / 4) = 3071%Z) by (rewrite index_id; apply part_spec; lra).
  rewrite I0, I1, !panData_cos by lia. auto.
Qed.
