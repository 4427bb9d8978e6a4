(** Rounding to the nearest number of 24 significant bits, ties to even: the rounding of binary32 for numbers whose
    exponent is in range (no overflow, no subnormal result).  The theorems either hold for any rounding, or say which
    properties of it they use; [float24] has these properties, and serves for the witnesses that need rounding. *)
From Coq Require Import QArith Qround Qabs Qpower ZArith Lia Lqa.
Open Scope Q_scope.

(** To the nearest integer, ties to even. *)
Definition nearest (x : Q) : Z :=
  let f := Qfloor x in
  match Qcompare (x - inject_Z f) (1 # 2) with
  | Lt => f
  | Gt => (f + 1)%Z
  | Eq => if Z.even f then f else (f + 1)%Z
  end.
(** The exponent e with 2^23 <= |x| / 2^e < 2^24. *)
Definition ulpExp (x : Q) : Z :=
  let e := (Z.log2 (Z.abs (Qnum x)) - Z.log2 (Zpos (Qden x)) - 23)%Z in
  if Qle_bool (Qpower 2 23) (Qabs x / Qpower 2 e) then e else (e - 1)%Z.
Definition round24 (x : Q) : Q :=
  if Qeq_bool x 0 then 0
  else let e := ulpExp x in Qred (inject_Z (nearest (x / Qpower 2 e)) * Qpower 2 e).
Definition float24 (x : Q) : Q := round24 (Qred x).

Example float24_ex :
  float24 (1 # 10) = 13421773 # 134217728 /\ float24 (1 # 3) = 11184811 # 33554432 /\ float24 16777217 = 16777216 /\
  float24 (- (16777219)) = - (16777220) /\ float24 1 = 1 /\ float24 (- (1 # 1000000000) + 1) = 1.
Proof. vm_compute. auto 10. Qed.

(** The numbers of 24 significant bits. *)
Definition rep24 (x : Q) : Prop := exists m e, (Z.abs m < 2 ^ 24)%Z /\ x == inject_Z m * Qpower 2 e.

Lemma p2_pos e : 0 < Qpower 2 e. Proof. apply Qpower_0_lt. lra. Qed.
Lemma p2_add a b : Qpower 2 (a + b) == Qpower 2 a * Qpower 2 b. Proof. apply Qpower_plus. lra. Qed.
Lemma p2_Z n : (0 <= n)%Z -> Qpower 2 n == inject_Z (2 ^ n). Proof. intros H. rewrite Zpower_Qpower by assumption. reflexivity. Qed.
Lemma p2_succ e : Qpower 2 (e + 1) == 2 * Qpower 2 e. Proof. rewrite p2_add. change (Qpower 2 1) with 2. ring. Qed.

Lemma nearest_spec x k : Qabs (inject_Z (nearest x) - x) <= Qabs (inject_Z k - x).
Proof.
  pose proof (Qfloor_le x) as F1. pose proof (Qlt_floor x) as F2. rewrite inject_Z_plus in F2. change (inject_Z 1) with 1 in F2.
  unfold nearest. set (f := Qfloor x) in *.
  assert (inject_Z k <= inject_Z f \/ inject_Z f + 1 <= inject_Z k) as K.
  { change 1 with (inject_Z 1). rewrite <- inject_Z_plus, <- !Zle_Qle. lia. }
  assert (forall n, (inject_Z n == inject_Z f /\ x - inject_Z f <= 1 # 2) \/ (inject_Z n == inject_Z f + 1 /\ 1 # 2 <= x - inject_Z f) ->
    Qabs (inject_Z n - x) <= Qabs (inject_Z k - x)) as H.
  { intros n [[-> D]|[-> D]]; (apply Qabs_case; intros A; apply Qabs_case; intros B); destruct K; lra. }
  apply H. destruct (Qcompare (x - inject_Z f) (1 # 2)) eqn:C.
  - apply Qeq_alt in C. destruct (Z.even f); [left|right; rewrite inject_Z_plus]; split; try reflexivity; lra.
  - apply Qlt_alt in C. left. split; [reflexivity|lra].
  - apply Qgt_alt in C. right. rewrite inject_Z_plus. split; [reflexivity|lra].
Qed.
Lemma nearest_wd x y : x == y -> nearest x = nearest y.
Proof. intros H. unfold nearest. rewrite (Qfloor_comp x y H). now rewrite H. Qed.

Lemma ulp_spec x : ~ x == 0 -> Qpower 2 23 <= Qabs x / Qpower 2 (ulpExp x) < Qpower 2 24.
Proof.
  intros N. assert (0 < Z.abs (Qnum x))%Z as P.
  { destruct (Z.eq_dec (Qnum x) 0) as [E|]; [|lia]. exfalso. apply N. unfold Qeq. rewrite E. reflexivity. }
  pose proof (Z.log2_spec _ P) as [A1 A2]. pose proof (Z.log2_spec (Zpos (Qden x)) eq_refl) as [B1 B2].
  pose proof (Z.log2_nonneg (Z.abs (Qnum x))) as A0. pose proof (Z.log2_nonneg (Zpos (Qden x))) as B0.
  assert (Qabs x == inject_Z (Z.abs (Qnum x)) / inject_Z (Zpos (Qden x))) as Ex.
  { destruct x as [n d]. cbn [Qabs Qnum Qden]. apply Qmake_Qdiv. }
  unfold ulpExp. set (a := Z.log2 (Z.abs (Qnum x))) in *. set (b := Z.log2 (Zpos (Qden x))) in *.
  set (n := inject_Z (Z.abs (Qnum x))) in *. set (d := inject_Z (Zpos (Qden x))) in *. set (e := (a - b - 23)%Z).
  rewrite Zle_Qle in A1, B1. rewrite Zlt_Qlt in A2, B2. rewrite <- p2_Z in A1, A2, B1, B2 by lia. fold n in A1, A2. fold d in B1, B2.
  rewrite <- Z.add_1_r, p2_succ in A2, B2.
  assert (Qpower 2 a == Qpower 2 e * Qpower 2 b * Qpower 2 23) as Ea.
  { rewrite <- !p2_add. replace (e + b + 23)%Z with a by (unfold e; lia). reflexivity. }
  pose proof (p2_pos e) as Pe. pose proof (p2_pos b) as Pb. pose proof (p2_pos a) as Pa.
  change (Qpower 2 23) with (8388608 # 1) in *. change (Qpower 2 24) with (16777216 # 1).
  assert (0 < d) as Pd by lra.
  assert (forall q, 0 < q -> Qabs x / q == n / (d * q)) as Dv. { intros q Hq. rewrite Ex. field. split; lra. }
  assert (4194304 < Qabs x / Qpower 2 e < 16777216) as [L U].
  { rewrite Dv by assumption. split; [apply Qlt_shift_div_l|apply Qlt_shift_div_r]; nra. }
  destruct (Qle_bool (8388608 # 1) (Qabs x / Qpower 2 e)) eqn:C.
  - apply Qle_bool_iff in C. split; [exact C|exact U].
  - assert (Qabs x / Qpower 2 e < 8388608) as C'.
    { destruct (Qlt_le_dec (Qabs x / Qpower 2 e) (8388608 # 1)) as [H|H]; [exact H|]. apply Qle_bool_iff in H. congruence. }
    pose proof (p2_succ (e - 1)) as S1. replace (e - 1 + 1)%Z with e in S1 by lia. pose proof (p2_pos (e - 1)) as P1.
    assert (Qabs x / Qpower 2 (e - 1) == 2 * (Qabs x / Qpower 2 e)) as E2. { rewrite S1. field. lra. }
    rewrite E2. lra.
Qed.
Lemma Qabs_scale x q : 0 < q -> Qabs (x * q) == Qabs x * q.
Proof. intros H. rewrite Qabs_Qmult. rewrite (Qabs_pos q) by lra. reflexivity. Qed.
Lemma round24_nearest x y : rep24 y -> Qabs (round24 x - x) <= Qabs (y - x).
Proof.
  intros (m & e' & M & Y). unfold round24. destruct (Qeq_bool x 0) eqn:E0.
  { apply Qeq_bool_iff in E0. rewrite E0. setoid_replace (0 - 0) with 0 by ring. change (Qabs 0) with 0. apply Qabs_nonneg. }
  assert (~ x == 0) as N by (intros H; apply Qeq_bool_iff in H; congruence).
  pose proof (ulp_spec x N) as [U1 U2]. set (e := ulpExp x) in *. cbv zeta. rewrite Qred_correct.
  pose proof (p2_pos e) as Pe. set (q := x / Qpower 2 e) in *.
  assert (x == q * Qpower 2 e) as Xq by (unfold q; field; lra).
  assert (Qabs x / Qpower 2 e == Qabs q) as Aq. { rewrite Xq, Qabs_scale by assumption. unfold Qdiv. field. lra. }
  rewrite Aq in U1, U2. change (Qpower 2 23) with (8388608 # 1) in U1.
  assert (forall z, y == z * Qpower 2 e -> Qabs (inject_Z (nearest q) - q) <= Qabs (z - q) ->
    Qabs (inject_Z (nearest q) * Qpower 2 e - x) <= Qabs (y - x)) as Sc.
  { intros z Z1 Z2. rewrite Z1, Xq.
    setoid_replace (inject_Z (nearest q) * Qpower 2 e - q * Qpower 2 e) with ((inject_Z (nearest q) - q) * Qpower 2 e) by ring.
    setoid_replace (z * Qpower 2 e - q * Qpower 2 e) with ((z - q) * Qpower 2 e) by ring. rewrite !Qabs_scale by assumption.
    apply Qmult_le_compat_r; [assumption|lra]. }
  destruct (Z_le_gt_dec e e') as [L|L].
  - apply (Sc (inject_Z (m * 2 ^ (e' - e)))); [|apply nearest_spec].
    rewrite inject_Z_mult, <- p2_Z by lia. rewrite <- Qmult_assoc, <- p2_add. replace (e' - e + e)%Z with e' by lia. exact Y.
  - apply (Sc (inject_Z m * Qpower 2 (e' - e))).
    + rewrite <- Qmult_assoc, <- p2_add. replace (e' - e + e)%Z with e' by lia. exact Y.
    + assert (Qpower 2 (e' - e) <= 1 # 2) as Hh. { change (1 # 2) with (Qpower 2 (-1)). apply Qpower_le_compat_l; [lia|lra]. }
      pose proof (p2_pos (e' - e)) as P1.
      assert (- 16777216 < inject_Z m < 16777216) as [M1 M2].
      { change (- 16777216) with (inject_Z (- 16777216)). change 16777216 with (inject_Z 16777216). rewrite <- !Zlt_Qlt. change (2 ^ 24)%Z with 16777216%Z in M. lia. }
      set (z := inject_Z m * Qpower 2 (e' - e)) in *. assert (- 8388608 <= z <= 8388608) as Z1 by (unfold z; nra).
      revert U1. apply Qabs_case; intros Hq U1.
      * eapply Qle_trans; [apply (nearest_spec q 8388608)|]. change (inject_Z 8388608) with 8388608.
        apply Qabs_case; intros A; apply Qabs_case; intros B; lra.
      * eapply Qle_trans; [apply (nearest_spec q (- 8388608))|]. change (inject_Z (- 8388608)) with (- 8388608).
        apply Qabs_case; intros A; apply Qabs_case; intros B; lra.
Qed.
Lemma round24_rep x : rep24 (round24 x).
Proof.
  unfold round24. destruct (Qeq_bool x 0) eqn:E0; [exists 0%Z, 0%Z; split; [cbn; lia|reflexivity]|].
  assert (~ x == 0) as N by (intros H; apply Qeq_bool_iff in H; congruence).
  pose proof (ulp_spec x N) as [U1 U2]. set (e := ulpExp x) in *. cbv zeta.
  pose proof (p2_pos e) as Pe. set (q := x / Qpower 2 e) in *.
  assert (x == q * Qpower 2 e) as Xq by (unfold q; field; lra).
  assert (Qabs x / Qpower 2 e == Qabs q) as Aq. { rewrite Xq, Qabs_scale by assumption. unfold Qdiv. field. lra. }
  rewrite Aq in U2. change (Qpower 2 24) with (16777216 # 1) in U2. apply Qabs_Qlt_condition in U2.
  assert (- 16777216 <= nearest q <= 16777216)%Z as B.
  { pose proof (nearest_spec q 16777216) as H1. pose proof (nearest_spec q (- 16777216)) as H2.
    change (inject_Z 16777216) with 16777216 in H1. change (inject_Z (- 16777216)) with (- 16777216) in H2.
    rewrite (Qabs_pos (16777216 - q)) in H1 by lra. rewrite (Qabs_neg (- 16777216 - q)) in H2 by lra.
    pose proof (Qle_Qabs (inject_Z (nearest q) - q)) as H3. pose proof (Qle_Qabs (- (inject_Z (nearest q) - q))) as H4. rewrite Qabs_opp in H4.
    split; rewrite Zle_Qle; [change (inject_Z (- 16777216)) with (- 16777216)|change (inject_Z 16777216) with 16777216]; lra. }
  change (2 ^ 24)%Z with 16777216%Z in *.
  assert (nearest q = 16777216 \/ nearest q = -16777216 \/ Z.abs (nearest q) < 16777216)%Z as [H|[H|H]] by lia.
  - exists 8388608%Z, (e + 1)%Z. split; [reflexivity|]. rewrite Qred_correct, H, p2_succ.
    change (inject_Z 16777216) with 16777216. change (inject_Z 8388608) with 8388608. ring.
  - exists (- 8388608)%Z, (e + 1)%Z. split; [reflexivity|]. rewrite Qred_correct, H, p2_succ.
    change (inject_Z (- 16777216)) with (- 16777216). change (inject_Z (- 8388608)) with (- 8388608). ring.
  - exists (nearest q), e. split; [exact H|]. apply Qred_correct.
Qed.

(** The properties of a rounding to the nearest that the theorems use. *)
Lemma float24_wd x y : x == y -> float24 x = float24 y.
Proof. intros H. unfold float24. now rewrite (Qred_complete x y H). Qed.
Lemma float24_nearest x y : rep24 y -> Qabs (float24 x - x) <= Qabs (y - x).
Proof. intros H. unfold float24. pose proof (round24_nearest (Qred x) y H) as R. rewrite Qred_correct in R at 2 3. exact R. Qed.
Lemma float24_rep x : rep24 (float24 x). Proof. apply round24_rep. Qed.
Lemma float24_of_rep x : rep24 x -> float24 x == x.
Proof.
  intros H. pose proof (float24_nearest x x H) as A. setoid_replace (x - x) with 0 in A by ring. change (Qabs 0) with 0 in A.
  pose proof (Qle_Qabs (float24 x - x)). pose proof (Qle_Qabs (- (float24 x - x))) as B. rewrite Qabs_opp in B. lra.
Qed.
Lemma float24_mono x y : x <= y -> float24 x <= float24 y.
Proof.
  intros L. destruct (Qlt_le_dec (float24 y) (float24 x)) as [C|C]; [|exact C].
  pose proof (float24_nearest x (float24 y) (float24_rep y)) as A. pose proof (float24_nearest y (float24 x) (float24_rep x)) as B.
  assert (x == y) as E.
  { revert A B. apply Qabs_case; intros A1; apply Qabs_case; intros A2 A; apply Qabs_case; intros B1; apply Qabs_case; intros B2 B; lra. }
  rewrite (float24_wd x y E) in C. lra.
Qed.
Lemma rep24_0 : rep24 0. Proof. exists 0%Z, 0%Z. split; [cbn; lia|reflexivity]. Qed.
Lemma rep24_Z n : (Z.abs n < 2 ^ 24)%Z -> rep24 (inject_Z n).
Proof. intros H. exists n, 0%Z. split; [exact H|]. cbn [Qpower]. ring. Qed.
Lemma rep24_wd x y : x == y -> rep24 x -> rep24 y.
Proof. intros E (m & e & H & X). exists m, e. split; [exact H|]. now rewrite <- E. Qed.
Lemma rep24_opp x : rep24 x -> rep24 (- x).
Proof. intros (m & e & H & X). exists (- m)%Z, e. split; [lia|]. rewrite X, inject_Z_opp. ring. Qed.
(** The fractional part of a positive number of 24 bits has 24 bits. *)
Lemma rep24_frac x : 0 <= x -> rep24 x -> rep24 (x - inject_Z (Qfloor x)).
Proof.
  intros P (m & e & H & X). pose proof (p2_pos e) as Pe.
  assert (0 <= m)%Z as M. { rewrite Zle_Qle. change (inject_Z 0) with 0. nra. }
  destruct (Z_le_gt_dec 0 e) as [L|L].
  - assert (x == inject_Z (m * 2 ^ e)) as E by (rewrite inject_Z_mult, <- p2_Z by lia; exact X).
    rewrite (Qfloor_comp _ _ E), Qfloor_Z. eapply rep24_wd; [|exact rep24_0]. rewrite E. ring.
  - assert (0 < 2 ^ (- e))%Z as Pp by (apply Z.pow_pos_nonneg; lia).
    assert (x == inject_Z m / inject_Z (2 ^ (- e))) as E.
    { rewrite <- p2_Z by lia. rewrite X. pose proof (p2_add e (- e)) as A. replace (e + - e)%Z with 0%Z in A by lia. change (Qpower 2 0) with 1 in A.
      pose proof (p2_pos (- e)). apply (Qmult_inj_r _ _ (Qpower 2 (- e))); [lra|]. rewrite <- Qmult_assoc, <- A. field. lra. }
    assert (Qfloor x = m / 2 ^ (- e))%Z as Fl.
    { rewrite (Qfloor_comp _ _ E). destruct (2 ^ (- e))%Z as [|p|p] eqn:Ep; try lia. cbn [inject_Z].
      rewrite (Qfloor_comp _ (m # p)); [reflexivity|]. rewrite Qmake_Qdiv. reflexivity. }
    exists (m mod 2 ^ (- e))%Z, e. split.
    + pose proof (Z.mod_pos_bound m (2 ^ (- e)) Pp). pose proof (Z.mod_le m (2 ^ (- e)) M Pp). lia.
    + rewrite Fl, Z.mod_eq by lia. unfold Z.sub. rewrite inject_Z_plus, inject_Z_opp, inject_Z_mult, X, <- (p2_Z (- e)) by lia.
      pose proof (p2_add e (- e)) as A. replace (e + - e)%Z with 0%Z in A by lia. change (Qpower 2 0) with 1 in A.
      setoid_replace ((inject_Z m + - (Qpower 2 (- e) * inject_Z (m / 2 ^ (- e)))) * Qpower 2 e) with (inject_Z m * Qpower 2 e - (Qpower 2 e * Qpower 2 (- e)) * inject_Z (m / 2 ^ (- e))) by ring.
      rewrite <- A. ring.
Qed.
(** The largest number below 1. *)
Lemma rep24_below_1 x : rep24 x -> x < 1 -> x <= 1 - (1 # 16777216).
Proof.
  intros (m & e & H & X) L. pose proof (p2_pos e) as Pe. change (2 ^ 24)%Z with 16777216%Z in H.
  destruct (Z_le_gt_dec m 0) as [M|M].
  { assert (inject_Z m <= 0) by (change 0 with (inject_Z 0); now rewrite <- Zle_Qle). nra. }
  destruct (Z_le_gt_dec (-24) e) as [G|G].
  - (* a multiple of 2^-24 *)
    assert (exists k, x == inject_Z k * (1 # 16777216)) as (k & K).
    { exists (m * 2 ^ (e + 24))%Z. rewrite inject_Z_mult, <- p2_Z by lia. change (1 # 16777216) with (Qpower 2 (-24)).
      rewrite <- Qmult_assoc, <- p2_add. replace (e + 24 + -24)%Z with e by lia. exact X. }
    assert (k < 16777216)%Z as Lk. { rewrite Zlt_Qlt. change (inject_Z 16777216) with 16777216. lra. }
    assert (inject_Z k <= 16777215) as Lk2. { change 16777215 with (inject_Z 16777215). rewrite <- Zle_Qle. lia. } lra.
  - assert (Qpower 2 e <= 1 # 33554432). { change (1 # 33554432) with (Qpower 2 (-25)). apply Qpower_le_compat_l; [lia|lra]. }
    assert (inject_Z m < 16777216). { change 16777216 with (inject_Z 16777216). rewrite <- Zlt_Qlt. lia. } nra.
Qed.
