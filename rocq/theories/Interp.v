(** C85: interpolation between frames. *)
From Coq Require Import ZArith QArith Qabs Qround Qminmax List Lia Lqa Psatz Bool.
From Verif Require Import Rounding.
From Verif Require Import InterpModel.
Import ListNotations.
Local Open Scope Q_scope.

Lemma ltb_true a b : ltb a b = true <-> a < b.
Proof.
  unfold ltb. rewrite negb_true_iff. split; intros H.
  - apply Qnot_le_lt. intros L. apply Qle_bool_iff in L. congruence.
  - destruct (Qle_bool b a) eqn:E; [|reflexivity]. apply Qle_bool_iff in E. lra.
Qed.
Lemma ltb_false a b : ltb a b = false <-> b <= a.
Proof. unfold ltb. rewrite negb_false_iff. apply Qle_bool_iff. Qed.
Lemma leb_false a b : Qle_bool a b = false <-> b < a.
Proof.
  split; intros H.
  - apply Qnot_le_lt. intros L. apply Qle_bool_iff in L. congruence.
  - destruct (Qle_bool a b) eqn:E; [|reflexivity]. apply Qle_bool_iff in E. lra.
Qed.

(** The weight of a frame at the distance x >= 0. *)
Lemma abs_case x : (0 <= x /\ Qabs x == x) \/ (x <= 0 /\ Qabs x == - x).
Proof.
  destruct (Qlt_le_dec x 0); [right|left]; split; try lra; [apply Qabs_neg; lra|apply Qabs_pos; lra].
Qed.
Ltac cases_lt :=
  repeat match goal with
  | |- context [if ltb ?a ?b then _ else _] => let E := fresh "E" in destruct (ltb a b) eqn:E; [apply ltb_true in E|apply ltb_false in E]
  | |- context [if Qle_bool ?a ?b then _ else _] => let E := fresh "E" in destruct (Qle_bool a b) eqn:E; [apply Qle_bool_iff in E|apply leb_false in E]
  end.

Definition near_h (x : Q) : Q := 1 - (5 # 2) * (x * x) + (3 # 2) * (x * x * x).
Definition far_h (x : Q) : Q := 2 - 4 * x + (5 # 2) * (x * x) - (1 # 2) * (x * x * x).
Definition near_b (x : Q) : Q := (2 # 3) - x * x + (1 # 2) * (x * x * x).
Definition far_b (x : Q) : Q := (4 # 3) - 2 * x + x * x - (1 # 6) * (x * x * x).

Global Instance near_h_comp : Proper (Qeq ==> Qeq) near_h. Proof. intros x y E. unfold near_h. rewrite E. reflexivity. Qed.
Global Instance far_h_comp : Proper (Qeq ==> Qeq) far_h. Proof. intros x y E. unfold far_h. rewrite E. reflexivity. Qed.
Global Instance near_b_comp : Proper (Qeq ==> Qeq) near_b. Proof. intros x y E. unfold near_b. rewrite E. reflexivity. Qed.
Global Instance far_b_comp : Proper (Qeq ==> Qeq) far_b. Proof. intros x y E. unfold far_b. rewrite E. reflexivity. Qed.

Lemma one_h a : a == 1 -> near_h a == far_h a. Proof. intros ->. reflexivity. Qed.
Lemma two_h a : a == 2 -> far_h a == 0. Proof. intros ->. reflexivity. Qed.
Lemma one_b a : a == 1 -> near_b a == far_b a. Proof. intros ->. reflexivity. Qed.
Lemma two_b a : a == 2 -> far_b a == 0. Proof. intros ->. reflexivity. Qed.

Lemma hermite_near x a : Qabs x == a -> a <= 1 -> hermite3 x == near_h a /\ hermite3x4 x == near_h a.
Proof.
  intros E H. unfold hermite3, hermite3x4. fold (near_h (Qabs x)) (far_h (Qabs x)). split; cases_lt; try lra.
  - rewrite E. reflexivity.
  - rewrite E. symmetry. apply one_h. lra.
  - rewrite E. reflexivity.
Qed.
Lemma hermite_far x a : Qabs x == a -> 1 <= a -> a <= 2 -> hermite3 x == far_h a /\ hermite3x4 x == far_h a.
Proof.
  intros E H1 H2. unfold hermite3, hermite3x4. fold (near_h (Qabs x)) (far_h (Qabs x)). split; cases_lt; try lra.
  - rewrite E. reflexivity.
  - symmetry. apply two_h. lra.
  - rewrite E. apply one_h. lra.
  - rewrite E. reflexivity.
Qed.
Lemma bspline_near x a : Qabs x == a -> a <= 1 -> bspline3 x == near_b a /\ bspline3x4 x == near_b a.
Proof.
  intros E H. unfold bspline3, bspline3x4. fold (near_b (Qabs x)) (far_b (Qabs x)). split; cases_lt; try lra.
  - rewrite E. reflexivity.
  - rewrite E. symmetry. apply one_b. lra.
  - rewrite E. reflexivity.
Qed.
Lemma bspline_far x a : Qabs x == a -> 1 <= a -> a <= 2 -> bspline3 x == far_b a /\ bspline3x4 x == far_b a.
Proof.
  intros E H1 H2. unfold bspline3, bspline3x4. fold (near_b (Qabs x)) (far_b (Qabs x)). split; cases_lt; try lra.
  - rewrite E. reflexivity.
  - symmetry. apply two_b. lra.
  - rewrite E. apply one_b. lra.
  - rewrite E. reflexivity.
Qed.

Lemma four_weights h near far : (forall x a, Qabs x == a -> a <= 1 -> h x == near a) -> (forall x a, Qabs x == a -> 1 <= a -> a <= 2 -> h x == far a) ->
  forall v c, 0 <= c -> c <= 1 ->
  overFour h v c == far (1 + c) * v (-1)%Z + near c * v 0%Z + near (1 - c) * v 1%Z + far (2 - c) * v 2%Z /\ lanes h v c == overFour h v c.
Proof.
  intros N F v c H0 H1.
  assert (A : Qabs (inject_Z (-1) - c) == 1 + c) by (rewrite Qabs_neg; unfold inject_Z; lra).
  assert (B : Qabs (inject_Z 0 - c) == c) by (rewrite Qabs_neg; unfold inject_Z; lra).
  assert (C : Qabs (inject_Z 1 - c) == 1 - c) by (rewrite Qabs_pos; unfold inject_Z; lra).
  assert (D : Qabs (inject_Z 2 - c) == 2 - c) by (rewrite Qabs_pos; unfold inject_Z; lra).
  unfold overFour, lanes. cbn [fold_left]. split; [|ring].
  rewrite (F _ _ A) by lra. rewrite (N _ _ B) by lra. rewrite (N _ _ C) by lra. rewrite (F _ _ D) by lra. ring.
Qed.

(** The cubic on [0, 1] with the given values and slopes at the ends. *)
Definition cubic (y0 y1 m0 m1 c : Q) : Q :=
  y0 * (2 * c * c * c - 3 * c * c + 1) + m0 * (c * c * c - 2 * c * c + c) + y1 * (3 * c * c - 2 * c * c * c) + m1 * (c * c * c - c * c).

(** C85: the third-order interpolation is the cubic through the two frames around the position, whose slope at a frame is that of the
    line through the two neighbours of the frame; with vectors as without. *)
Theorem C85_hermite : forall v c, 0 <= c -> c <= 1 ->
  overFour hermite3 v c == cubic (v 0%Z) (v 1%Z) ((v 1%Z - v (-1)%Z) / 2) ((v 2%Z - v 0%Z) / 2) c /\
  lanes hermite3x4 v c == overFour hermite3 v c.
Proof.
  intros v c H0 H1.
  destruct (four_weights hermite3 near_h far_h (fun x a H L => proj1 (hermite_near x a H L)) (fun x a H L M => proj1 (hermite_far x a H L M)) v c H0 H1) as [E _].
  destruct (four_weights hermite3x4 near_h far_h (fun x a H L => proj2 (hermite_near x a H L)) (fun x a H L M => proj2 (hermite_far x a H L M)) v c H0 H1) as [E2 E3].
  split; [|rewrite E3, E, E2; reflexivity]. rewrite E. unfold cubic, near_h, far_h. field.
Qed.

(** C85: so it passes through the frames, and gives back every parabola. *)
Theorem C85_hermite_exact : forall v c, 0 <= c -> c <= 1 ->
  overFour hermite3 v 0 == v 0%Z /\ overFour hermite3 v 1 == v 1%Z /\
  forall a b d, (forall i, (-1 <= i <= 2)%Z -> v i == a + b * inject_Z i + d * (inject_Z i * inject_Z i)) ->
    overFour hermite3 v c == a + b * c + d * (c * c).
Proof.
  intros v c H0 H1. split; [|split].
  - rewrite (proj1 (C85_hermite v 0 ltac:(lra) ltac:(lra))). unfold cubic. field.
  - rewrite (proj1 (C85_hermite v 1 ltac:(lra) ltac:(lra))). unfold cubic. field.
  - intros a b d V. rewrite (proj1 (C85_hermite v c H0 H1)). unfold cubic.
    rewrite (V (-1)%Z), (V 0%Z), (V 1%Z), (V 2%Z) by lia. unfold inject_Z. field.
Qed.

Lemma weighted w0 w1 w2 w3 a b c d lo hi : 0 <= w0 -> 0 <= w1 -> 0 <= w2 -> 0 <= w3 -> w0 + w1 + w2 + w3 == 1 ->
  lo <= a <= hi -> lo <= b <= hi -> lo <= c <= hi -> lo <= d <= hi -> lo <= w0 * a + w1 * b + w2 * c + w3 * d <= hi.
Proof.
  intros W0 W1 W2 W3 S A B C D.
  assert (L : lo == w0 * lo + w1 * lo + w2 * lo + w3 * lo) by (transitivity ((w0 + w1 + w2 + w3) * lo); [rewrite S; ring|ring]).
  assert (H : hi == w0 * hi + w1 * hi + w2 * hi + w3 * hi) by (transitivity ((w0 + w1 + w2 + w3) * hi); [rewrite S; ring|ring]).
  split.
  - rewrite L at 1. repeat apply Qplus_le_compat; rewrite (Qmult_comm _ lo), (Qmult_comm w0 a) || idtac; try (apply Qmult_le_compat_nonneg; lra); nra.
  - rewrite H. repeat apply Qplus_le_compat; nra.
Qed.

Lemma far_b_cube a : far_b a == (1 # 6) * ((2 - a) * (2 - a) * (2 - a)).
Proof. unfold far_b. ring. Qed.
Lemma cube_pos a : 0 <= a -> 0 <= a * a * a.
Proof. intros H. apply Qmult_le_0_compat; [apply Qmult_le_0_compat|]; assumption. Qed.

(** C85: the third-order spline never leaves the range of the four frames it reads, gives back every straight line, and goes on without a
    jump from one frame to the next; with vectors as without. *)
Theorem C85_bspline : forall v c, 0 <= c -> c <= 1 ->
  (forall lo hi, (forall i, (-1 <= i <= 2)%Z -> lo <= v i <= hi) -> lo <= overFour bspline3 v c <= hi) /\
  (forall a b, (forall i, (-1 <= i <= 2)%Z -> v i == a + b * inject_Z i) -> overFour bspline3 v c == a + b * c) /\
  overFour bspline3 v 1 == overFour bspline3 (fun i => v (i + 1)%Z) 0 /\
  lanes bspline3x4 v c == overFour bspline3 v c.
Proof.
  intros v c H0 H1.
  pose proof (four_weights bspline3 near_b far_b (fun x a H L => proj1 (bspline_near x a H L)) (fun x a H L M => proj1 (bspline_far x a H L M))) as FW.
  destruct (four_weights bspline3x4 near_b far_b (fun x a H L => proj2 (bspline_near x a H L)) (fun x a H L M => proj2 (bspline_far x a H L M)) v c H0 H1) as [E2 E3].
  destruct (FW v c H0 H1) as [E _]. split; [|split; [|split]].
  - intros lo hi V. rewrite E. apply weighted; try (apply V; lia).
    + rewrite far_b_cube. apply Qmult_le_0_compat; [lra|]. apply cube_pos. lra.
    + unfold near_b. nra.
    + unfold near_b. nra.
    + rewrite far_b_cube. apply Qmult_le_0_compat; [lra|]. apply cube_pos. lra.
    + unfold near_b, far_b. ring.
  - intros a b V. rewrite E, (V (-1)%Z), (V 0%Z), (V 1%Z), (V 2%Z) by lia. unfold near_b, far_b, inject_Z. ring.
  - rewrite (proj1 (FW v 1 ltac:(lra) ltac:(lra))), (proj1 (FW (fun i => v (i + 1)%Z) 0 ltac:(lra) ltac:(lra))). cbn [Z.add Z.opp Pos.add Z.pos_sub].
    unfold near_b, far_b. ring.
  - rewrite E3, E, E2. reflexivity.
Qed.

(** C85: linear interpolation is the straight line between the two frames and stays between them; the nearest frame is one at a distance
    of at most one half. *)
Theorem C85_linear : forall v c, 0 <= c -> c <= 1 ->
  linear v 0 == v 0%Z /\ linear v 1 == v 1%Z /\
  (forall lo hi, lo <= v 0%Z <= hi -> lo <= v 1%Z <= hi -> lo <= linear v c <= hi) /\
  (forall a b, (forall i, (0 <= i <= 1)%Z -> v i == a + b * inject_Z i) -> linear v c == a + b * c) /\
  exists i, nearest v c = v i /\ Qabs (inject_Z i - c) <= 1 # 2.
Proof.
  intros v c H0 H1. unfold linear. split; [ring|]. split; [ring|]. split; [|split].
  - intros lo hi A B. split; nra.
  - intros a b V. rewrite (V 0%Z), (V 1%Z) by lia. unfold inject_Z. ring.
  - unfold nearest. cases_lt.
    + exists 1%Z. split; [reflexivity|]. unfold inject_Z. rewrite Qabs_pos; lra.
    + exists 0%Z. split; [reflexivity|]. unfold inject_Z. rewrite Qabs_neg; lra.
Qed.

(** ** The sine cardinal *)
Definition sizes : list Z := [8; 12; 16; 24; 36; 48; 60; 72]%Z.
Lemma scale_fits p : In p sizes -> (0 <= p * (65535 / p) < 65535)%Z.
Proof. cbn. intros H. decompose [or] H; subst; try contradiction; vm_compute; split; congruence. Qed.

Section Sinc.
Variable rnd : Q -> Q.
Hypothesis rnd_mono : forall x y, x <= y -> rnd x <= rnd y.
Hypothesis rnd_Z : forall n, (Z.abs n < 2 ^ 24)%Z -> rnd (inject_Z n) == inject_Z n.
Variable points : Z.
Hypothesis SZ : In points sizes.

Lemma even_points : (points mod 2 = 0 /\ 8 <= points <= 72 /\ points mod 4 = 0)%Z.
Proof. cbn in SZ. intuition (subst; try reflexivity; lia). Qed.
Lemma rnd_between x a b : (Z.abs a < 2 ^ 24)%Z -> (Z.abs b < 2 ^ 24)%Z -> inject_Z a <= x <= inject_Z b -> inject_Z a <= rnd x <= inject_Z b.
Proof. intros A B [H1 H2]. split; [rewrite <- (rnd_Z a A)|rewrite <- (rnd_Z b B)]; apply rnd_mono; assumption. Qed.

Definition half : Z := points / 2.
Lemma half_eq : points = (2 * half)%Z /\ (4 <= half <= 36)%Z.
Proof. destruct even_points as (E & R & _). unfold half. pose proof (Z.div_mod points 2 ltac:(lia)). lia. Qed.

Lemma x0_range c : 0 <= c -> c <= 1 -> inject_Z (- half) <= rnd (inject_Z (j0 points) - c) <= inject_Z (1 - half).
Proof.
  intros H0 H1. destruct half_eq as [E R]. apply rnd_between; [lia|lia|]. unfold j0. fold half.
  rewrite inject_Z_opp. unfold Zminus. rewrite inject_Z_plus, inject_Z_opp. change (inject_Z 1) with 1. lra.
Qed.
Lemma plus_range x a b n : inject_Z a <= x <= inject_Z b -> (Z.abs (a + n) < 2 ^ 24)%Z -> (Z.abs (b + n) < 2 ^ 24)%Z ->
  inject_Z (a + n) <= rnd (x + inject_Z n) <= inject_Z (b + n).
Proof. intros [H1 H2] A B. apply rnd_between; [exact A|exact B|]. rewrite !inject_Z_plus. lra. Qed.

Lemma argument_range c i : 0 <= c -> c <= 1 -> (Z.of_nat i < points)%Z -> inject_Z (- half) <= argument rnd points c i <= inject_Z half.
Proof.
  intros H0 H1 HI. destruct half_eq as [E R]. unfold argument.
  pose proof (plus_range _ _ _ (Z.of_nat i) (x0_range c H0 H1) ltac:(lia) ltac:(lia)) as [A B]. split.
  - eapply Qle_trans; [|exact A]. rewrite <- Zle_Qle. lia.
  - eapply Qle_trans; [exact B|]. rewrite <- Zle_Qle. lia.
Qed.
Lemma argumentX4_range c i : 0 <= c -> c <= 1 -> (Z.of_nat i < points)%Z -> inject_Z (- half) <= argumentX4 rnd points c i <= inject_Z half.
Proof.
  intros H0 H1 HI. destruct half_eq as [E R]. unfold argumentX4.
  pose proof (Nat.div_mod i 4 ltac:(lia)) as DM. pose proof (Nat.mod_upper_bound i 4 ltac:(lia)) as MB.
  remember (i mod 4)%nat as l eqn:EL. remember (i / 4)%nat as k eqn:EK.
  assert (G : forall j, (j <= k)%nat -> inject_Z (- half + Z.of_nat l + 4 * Z.of_nat j) <=
     Nat.iter j (fun x => rnd (x + 4)) (rnd (rnd (inject_Z (j0 points) - c) + inject_Z (Z.of_nat l))) <= inject_Z (1 - half + Z.of_nat l + 4 * Z.of_nat j)).
  { induction j as [|j IH]; intros HJ.
    - cbn [Nat.iter nat_rect]. rewrite !Z.add_0_r.
      apply (plus_range _ _ _ (Z.of_nat l) (x0_range c H0 H1)); lia.
    - cbn [Nat.iter nat_rect]. specialize (IH ltac:(lia)). pose proof (plus_range _ _ _ 4 IH ltac:(lia) ltac:(lia)) as [A B].
      change (inject_Z 4) with 4 in A, B.
      replace (- half + Z.of_nat l + 4 * Z.of_nat (S j))%Z with (- half + Z.of_nat l + 4 * Z.of_nat j + 4)%Z by lia.
      replace (1 - half + Z.of_nat l + 4 * Z.of_nat (S j))%Z with (1 - half + Z.of_nat l + 4 * Z.of_nat j + 4)%Z by lia. split; assumption. }
  destruct (G k ltac:(lia)) as [A B]. split.
  - eapply Qle_trans; [|exact A]. rewrite <- Zle_Qle. lia.
  - eapply Qle_trans; [exact B|]. rewrite <- Zle_Qle. lia.
Qed.

Lemma index_range x : inject_Z (- half) <= x <= inject_Z half -> (0 <= index rnd points 65536 x < 65535)%Z.
Proof.
  intros [A B]. destruct half_eq as [E R].
  assert (HP : inject_Z points / 2 == inject_Z half) by (rewrite E, inject_Z_mult; change (inject_Z 2) with 2; field).
  assert (S1 : inject_Z 0 <= rnd (x + inject_Z points / 2) <= inject_Z points).
  { apply rnd_between; [lia|lia|]. split.
    - rewrite HP. rewrite inject_Z_opp in A. change (inject_Z 0) with 0. lra.
    - rewrite HP. rewrite E, inject_Z_mult. change (inject_Z 2) with 2. lra. }
  assert (SC : (0 <= points * scale points 65536 < 65535)%Z).
  { exact (scale_fits points SZ). }
  assert (SP : (0 <= scale points 65536)%Z) by (apply Z.div_pos; lia).
  assert (S2 : inject_Z 0 <= position rnd points 65536 x <= inject_Z (points * scale points 65536)).
  { unfold position. apply rnd_between; [lia|lia|]. rewrite inject_Z_mult. change (inject_Z 0) with 0 in *.
    assert (0 <= inject_Z (scale points 65536)) by (change 0 with (inject_Z 0); rewrite <- Zle_Qle; exact SP). split; nra. }
  destruct S2 as [L H]. unfold index. split.
  - change 0%Z with (Qfloor (inject_Z 0)). apply Qfloor_resp_le, L.
  - pose proof (Qfloor_resp_le _ _ H) as X. rewrite Qfloor_Z in X. lia.
Qed.
End Sinc.

(** C85: the sine cardinal interpolation reads the table only between its entries (never the extra ones at its end), for every number of
    points, every position between two frames and any rounding that is monotone and exact on small integers. *)
Theorem C85_sinc_reads : forall rnd, (forall x y, x <= y -> rnd x <= rnd y) -> (forall n, (Z.abs n < 2 ^ 24)%Z -> rnd (inject_Z n) == inject_Z n) ->
  forall points c i, In points sizes -> 0 <= c -> c <= 1 -> (Z.of_nat i < points)%Z ->
  (0 <= index rnd points 65536 (argument rnd points c i) /\ index rnd points 65536 (argument rnd points c i) + 1 < 65536)%Z /\
  (0 <= index rnd points 65536 (argumentX4 rnd points c i) /\ index rnd points 65536 (argumentX4 rnd points c i) + 1 < 65536)%Z.
Proof.
  intros rnd M Z0 points c i SZ H0 H1 HI. split.
  - pose proof (index_range rnd M Z0 points SZ _ (argument_range rnd M Z0 points SZ c i H0 H1 HI)). lia.
  - pose proof (index_range rnd M Z0 points SZ _ (argumentX4_range rnd M Z0 points SZ c i H0 H1 HI)). lia.
Qed.
Theorem C85_float_rounding : (forall x y, x <= y -> float24 x <= float24 y) /\ (forall n, (Z.abs n < 2 ^ 24)%Z -> float24 (inject_Z n) == inject_Z n).
Proof. split; [apply float24_mono|]. intros n H. apply float24_of_rep, rep24_Z, H. Qed.

(** C85: what the table holds at the place that is read for x is not the value for x: the quotient of the table size and the number of
    points is cut to an integer when reading, not when filling.  The point is off by less than 1/60 of a frame. *)
Theorem C85_sinc_offset : forall points x, In points sizes -> - (inject_Z points / 2) <= x -> x <= inject_Z points / 2 ->
  Qabs (tablePoint points 65536 (position (fun q => q) points 65536 x) - x) < 1 # 60.
Proof.
  intros points x SZ H0 H1. unfold tablePoint, position, scale. change (65536 - 1)%Z with 65535%Z.
  cbn in SZ. decompose [or] SZ; subst; try contradiction;
    match goal with |- context [(65535 / ?p)%Z] => let k := eval vm_compute in (65535 / p)%Z in change (65535 / p)%Z with k end;
    unfold inject_Z in *; (apply Qabs_case; intros _);
    repeat match goal with
    | H : context [?a / ?b] |- _ => let q := eval vm_compute in (a / b) in change (a / b) with q in H
    | |- context [?a / ?b] => let q := eval vm_compute in (a / b) in change (a / b) with q
    end; lra.
Qed.
Theorem C85_sinc_offset_refuted : forall points, In points sizes -> ~ tablePoint points 65536 (position (fun q => q) points 65536 0) == 0.
Proof. intros points SZ. cbn in SZ. decompose [or] SZ; subst; try contradiction; vm_compute; discriminate. Qed.

(** C85: filling the table writes the value for its end over the entries 4 to 7 instead of the extra entries, which stay as they were. *)
Theorem C85_sinc_table_refuted : exists (f mem : Z -> nat),
  calculateTable 65536 4 f mem 4 <> f 4%Z /\ calculateTable 65536 4 f mem 65536 = mem 65536%Z /\ mem 65536%Z <> f 65535%Z.
Proof. exists (fun k => if (k =? 4)%Z then 1%nat else 2%nat), (fun _ => 3%nat). vm_compute. repeat split; discriminate. Qed.
Theorem C85_sinc_table : forall (A : Type) (f mem : Z -> A) k, (0 <= k < 65536)%Z ->
  calculateTable 65536 4 f mem k = if ((4 <=? k) && (k <? 8))%Z then f 65535%Z else f k.
Proof.
  intros A f mem k H. unfold calculateTable. change (4 + 4)%Z with 8%Z. destruct ((4 <=? k) && (k <? 8))%Z; [reflexivity|].
  replace ((0 <=? k) && (k <? 65536))%Z with true; [reflexivity|]. symmetry. apply andb_true_iff. split; [apply Z.leb_le|apply Z.ltb_lt]; lia.
Qed.

Example C85_ex :
  let v i := inject_Z (i * i) in
  overFour hermite3 v (1 # 2) == 1 # 4 /\ overFour bspline3 v (1 # 2) == 7 # 12 /\ lanes bspline3x4 v (1 # 2) == 7 # 12.
Proof. split; [|split]; vm_compute; reflexivity. Qed.
