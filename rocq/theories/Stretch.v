(** Stretch tuning (C91). *)
From Coq Require Import ZArith List Bool QArith Qround Lia Lqa.
From Verif Require Import AdsrModel AdsrRange CcEnvModel TuningModel.
Import ListNotations.
Local Open Scope Q_scope.

Definition entry (t : list Q) (i : Z) : Q := nth (Z.to_nat i) t 0.
Definition nondecreasing (t : list Q) : Prop := forall i, (0 <= i)%Z -> (i + 1 < Z.of_nat (length t))%Z -> entry t i <= entry t (i + 1).
Lemma ratioAt_entry t i : (0 <= i < Z.of_nat (length t))%Z -> ratioAt t i = Some (entry t i).
Proof. intros I. unfold ratioAt, entry. destruct (Z.ltb_spec i 0); [lia|]. apply nth_error_nth'. lia. Qed.
Lemma nondecreasing_le t : nondecreasing t -> forall n i, (0 <= i)%Z -> (i + Z.of_nat n < Z.of_nat (length t))%Z -> entry t i <= entry t (i + Z.of_nat n).
Proof.
  intros M. induction n as [|n IH]; intros i A B; [rewrite Z.add_0_r; lra|].
  replace (i + Z.of_nat (S n))%Z with (i + Z.of_nat n + 1)%Z by lia. pose proof (IH i A ltac:(lia)). pose proof (M (i + Z.of_nat n)%Z ltac:(lia) ltac:(lia)). lra.
Qed.

(** The cast of a number that is not negative. *)
Lemma trunc_nonneg x : 0 <= x -> (0 <= Qtrunc x)%Z /\ 0 <= x - inject_Z (Qtrunc x) < 1.
Proof.
  intros P. unfold Qtrunc. assert (Qle_bool 0 x = true) as -> by (apply Qle_bool_iff; exact P).
  pose proof (Qfloor_le x). pose proof (Qlt_floor x). rewrite inject_Z_plus in H0. change (inject_Z 1) with 1 in H0. split; [|lra].
  destruct (Z.le_gt_cases 0 (Qfloor x)) as [|L]; [assumption|]. assert (Qfloor x + 1 <= 0)%Z as L' by lia. rewrite Zle_Qle, inject_Z_plus in L'. change (inject_Z 1) with 1 in L'. change (inject_Z 0) with 0 in L'. lra.
Qed.
Definition lower (key : Z) : Z := Z.max 0 (Z.min 127 key).
Lemma fractional_value t x : length t = 128%nat -> 0 <= x -> exists r, getRatioForFractionalKey t x = Some r /\
  r == entry t (lower (Qtrunc x)) + (x - inject_Z (Qtrunc x)) * (entry t (Z.min 127 (lower (Qtrunc x) + 1)) - entry t (lower (Qtrunc x))).
Proof.
  intros L P. destruct (trunc_nonneg x P) as [A _]. unfold getRatioForFractionalKey. rewrite !ratioAt_entry by (rewrite L; lia).
  eexists. split; [reflexivity|]. unfold lower. ring.
Qed.
(** C91: at the keys themselves both queries give the entry of the table (the first or the last for keys outside), and between two keys a value between
    their entries, in proportion. *)
Theorem C91_keys t : length t = 128%nat ->
  (forall k, getRatioForIntegralKey t k = Some (entry t (lower k))) /\
  (forall k, (0 <= k)%Z -> exists r, getRatioForFractionalKey t (inject_Z k) = Some r /\ r == entry t (lower k)) /\
  (forall k mu, (0 <= k < 127)%Z -> 0 <= mu < 1 -> exists r, getRatioForFractionalKey t (inject_Z k + mu) = Some r /\
     r == entry t k + mu * (entry t (k + 1) - entry t k)).
Proof.
  intros L. split; [|split].
  - intros k. unfold getRatioForIntegralKey. apply ratioAt_entry. rewrite L. unfold lower. lia.
  - intros k K. assert (0 <= inject_Z k) as P by (change 0 with (inject_Z 0); now rewrite <- Zle_Qle).
    destruct (fractional_value t (inject_Z k) L P) as (r & -> & E). exists r. split; [reflexivity|].
    assert (Qtrunc (inject_Z k) = k) as T. { unfold Qtrunc. assert (Qle_bool 0 (inject_Z k) = true) as -> by (apply Qle_bool_iff; exact P). apply Qfloor_Z. }
    rewrite T in E. rewrite E. ring.
  - intros k mu K M. assert (0 <= inject_Z k) as P by (change 0 with (inject_Z 0); rewrite <- Zle_Qle; lia).
    destruct (fractional_value t (inject_Z k + mu) L ltac:(lra)) as (r & -> & E). exists r. split; [reflexivity|].
    assert (Qtrunc (inject_Z k + mu) = k) as T.
    { destruct (trunc_nonneg (inject_Z k + mu) ltac:(lra)) as [_ B]. revert B. generalize (Qtrunc (inject_Z k + mu)). intros q B.
      assert (inject_Z q < inject_Z (k + 1)) as B1 by (rewrite inject_Z_plus; change (inject_Z 1) with 1; lra).
      assert (inject_Z k < inject_Z (q + 1)) as B2 by (rewrite inject_Z_plus; change (inject_Z 1) with 1; lra).
      rewrite <- Zlt_Qlt in B1, B2. lia. }
    rewrite T in E. unfold lower in E. rewrite Z.min_r, Z.max_r, Z.min_r in E by lia. rewrite E. ring.
Qed.
(** C91: if the ratios rise with the keys, so do those between keys, on all keys that are not negative. *)
Theorem C91_monotone t x y a b : length t = 128%nat -> nondecreasing t -> 0 <= x -> x <= y ->
  getRatioForFractionalKey t x = Some a -> getRatioForFractionalKey t y = Some b -> a <= b.
Proof.
  intros L M X Y A B.
  destruct (fractional_value t x L X) as (a' & A' & Ea). destruct (fractional_value t y L ltac:(lra)) as (b' & B' & Eb).
  rewrite A in A'. injection A' as <-. rewrite B in B'. injection B' as <-.
  destruct (trunc_nonneg x X) as [Nx Fx]. destruct (trunc_nonneg y ltac:(lra)) as [Ny Fy].
  set (i := Qtrunc x) in *. set (j := Qtrunc y) in *. clearbody i j. set (mx := x - inject_Z i) in *. set (my := y - inject_Z j) in *.
  assert (forall u v, (0 <= u <= v)%Z -> (v <= 127)%Z -> entry t u <= entry t v) as Mo.
  { intros u v U V. pose proof (nondecreasing_le t M (Z.to_nat (v - u)) u ltac:(lia) ltac:(rewrite L; lia)) as H.
    replace (u + Z.of_nat (Z.to_nat (v - u)))%Z with v in H by lia. exact H. }
  destruct (Z.lt_trichotomy i j) as [C|[C|C]].
  - pose proof (Mo (lower i) (Z.min 127 (lower i + 1)) ltac:(unfold lower; lia) ltac:(lia)).
    pose proof (Mo (Z.min 127 (lower i + 1)) (lower j) ltac:(unfold lower; lia) ltac:(unfold lower; lia)).
    pose proof (Mo (lower j) (Z.min 127 (lower j + 1)) ltac:(unfold lower; lia) ltac:(lia)). rewrite Ea, Eb. nra.
  - subst j. pose proof (Mo (lower i) (Z.min 127 (lower i + 1)) ltac:(unfold lower; lia) ltac:(lia)). assert (mx <= my) by (unfold mx, my; lra). rewrite Ea, Eb. nra.
  - assert (inject_Z (j + 1) <= inject_Z i) as C' by (rewrite <- Zle_Qle; lia). rewrite inject_Z_plus in C'. change (inject_Z 1) with 1 in C'. unfold mx, my in *. lra.
Qed.

(** *** The curves *)
Definition sortedb (t : list Q) : bool := forallb (fun '(a, b) => Qle_bool a b) (combine t (tl t)).
Lemma sortedb_spec t : sortedb t = true -> nondecreasing t.
Proof.
  unfold sortedb, nondecreasing. intros H i A B. rewrite forallb_forall in H.
  assert (In (entry t i, entry t (i + 1)) (combine t (tl t))) as P.
  { unfold entry. replace (Z.to_nat (i + 1)) with (S (Z.to_nat i)) by lia. assert (S (Z.to_nat i) < length t)%nat as Lt by lia. revert Lt. generalize (Z.to_nat i). clear.
    induction t as [|x [|y t] IH]; intros n Lt; [cbn in Lt; lia..|]. cbn [tl combine]. destruct n as [|n]; [left; reflexivity|]. right.
    destruct t as [|z t]; [cbn in Lt; lia|]. apply (IH n). cbn [length] in *. lia. }
  apply H in P. now apply Qle_bool_iff in P.
Qed.
Definition withinb (lo hi : Q) (t : list Q) : bool := forallb (fun a => Qle_bool lo a && Qle_bool a hi) t.
Lemma withinb_spec lo hi t i : withinb lo hi t = true -> (0 <= i < Z.of_nat (length t))%Z -> lo <= entry t i <= hi.
Proof.
  unfold withinb. intros H I. rewrite forallb_forall in H. assert (In (entry t i) t) as P by (apply nth_In; lia). apply H in P. apply andb_true_iff in P.
  destruct P as [A B]. apply Qle_bool_iff in A, B. lra.
Qed.
Definition lowest : Q := 939286 # 1000000.
Definition highest : Q := 1074656 # 1000000.
Lemma tables : Forall (fun t => length t = 128%nat /\ sortedb t = true /\ withinb lowest highest t = true) [railsback21; railsback41; railsback42].
Proof. repeat constructor; vm_compute; reflexivity. Qed.
Lemma mix_entry mu b a i : length a = 128%nat -> length b = 128%nat -> (0 <= i < 128)%Z -> entry (mix mu b a) i = mu * entry b i + (1 - mu) * entry a i.
Proof.
  intros A B I. unfold entry, mix. set (f := fun '(b, a) => mu * b + (1 - mu) * a).
  rewrite (nth_indep _ 0 (f (0, 0))) by (rewrite map_length, combine_length; lia). rewrite map_nth, combine_nth by lia. reflexivity.
Qed.
Lemma mix_ok mu b a : 0 <= mu <= 1 -> length a = 128%nat /\ sortedb a = true /\ withinb lowest highest a = true ->
  length b = 128%nat /\ sortedb b = true /\ withinb lowest highest b = true ->
  length (mix mu b a) = 128%nat /\ nondecreasing (mix mu b a) /\ forall i, (0 <= i < 128)%Z -> lowest <= entry (mix mu b a) i <= highest.
Proof.
  intros M (La & Sa & Wa) (Lb & Sb & Wb). apply sortedb_spec in Sa, Sb.
  assert (length (mix mu b a) = 128%nat) as L by (unfold mix; rewrite map_length, combine_length; lia). split; [exact L|]. split.
  - intros i A B. rewrite L in B. rewrite !mix_entry by lia. pose proof (Sa i A ltac:(lia)). pose proof (Sb i A ltac:(lia)). nra.
  - intros i I. rewrite mix_entry by lia. pose proof (withinb_spec _ _ _ i Wa ltac:(lia)). pose proof (withinb_spec _ _ _ i Wb ltac:(lia)). split; nra.
Qed.
(** C91: whatever amount is asked for, the curve has a ratio for each key, rises with the keys and stays between the lowest and highest ratio of the three
    measured curves (about a semitone and a quarter either way). *)
Theorem C91_curve s : let t := createRailsback s in
  length t = 128%nat /\ nondecreasing t /\ forall i, (0 <= i < 128)%Z -> lowest <= entry t i <= highest.
Proof.
  intros t. unfold t, createRailsback.
  pose proof tables as T. inversion T as [|? ? T1 T']; subst. inversion T' as [|? ? T2 T'']; subst. inversion T'' as [|? ? T3 _]; subst. clear T T' T''.
  destruct (Qle_bool (1 # 4) s) eqn:E1; [apply Qle_bool_iff in E1|apply Qle_bool_nspec in E1].
  - destruct (Qle_bool (1 # 2) s) eqn:E2; [apply Qle_bool_iff in E2|apply Qle_bool_nspec in E2].
    + destruct (Qle_bool 1 s) eqn:E3; [|apply Qle_bool_nspec in E3].
      * destruct T3 as (L & S & W). split; [exact L|]. split; [now apply sortedb_spec|]. intros i I. apply withinb_spec; [exact W|]. rewrite L. exact I.
      * apply mix_ok; [|assumption..]. split; [apply Qle_shift_div_l; lra|apply Qle_shift_div_r; lra].
    + apply mix_ok; [|assumption..]. split; [apply Qle_shift_div_l; lra|apply Qle_shift_div_r; lra].
  - destruct T1 as (L & S & W). set (mu := Qmaxf 0 (s / (1 # 4))).
    assert (0 <= mu <= 1) as M.
    { unfold mu, Qmaxf. assert (s / (1 # 4) <= 1) by (apply Qle_shift_div_r; lra). destruct (Qltb _ _) eqn:E; [lra|]. apply Qltb_nspec in E. lra. }
    assert (forall i, (0 <= i < 128)%Z -> entry (map (fun c => mu * c + (1 - mu)) railsback21) i = mu * entry railsback21 i + (1 - mu)) as En.
    { intros i I. unfold entry. set (f := fun c => mu * c + (1 - mu)). rewrite (nth_indep _ 0 (f 0)) by (rewrite map_length; lia). now rewrite map_nth. }
    split; [rewrite map_length; exact L|]. split.
    + intros i A B. rewrite map_length, L in B. rewrite !En by lia. pose proof (sortedb_spec _ S i A ltac:(lia)). nra.
    + intros i I. rewrite En by lia. pose proof (withinb_spec _ _ _ i W ltac:(lia)). unfold lowest, highest in *. split; nra.
Qed.
(** C91: nothing below 0 is stretched, the three positions of the knob give the measured curves, and everything from 1 on gives the last. *)
Theorem C91_positions : (forall s i, s <= 0 -> (0 <= i < 128)%Z -> entry (createRailsback s) i == 1) /\
  Forall2 Qeq (createRailsback (1 # 4)) railsback21 /\ Forall2 Qeq (createRailsback (1 # 2)) railsback41 /\ (forall s, 1 <= s -> createRailsback s = railsback42).
Proof.
  split; [|split; [|split]].
  - intros s i S I. unfold createRailsback. assert (Qle_bool (1 # 4) s = false) as -> by (apply Qle_bool_nspec; lra).
    assert (Qmaxf 0 (s / (1 # 4)) == 0) as M.
    { unfold Qmaxf. destruct (Qltb _ _) eqn:E; [lra|]. apply Qltb_nspec in E. assert (s / (1 # 4) <= 0) by (apply Qle_shift_div_r; lra). lra. }
    unfold entry. set (f := fun c => _). rewrite (nth_indep _ 0 (f 0)) by (rewrite map_length; change (length railsback21) with 128%nat; lia). rewrite map_nth. unfold f. rewrite M. ring.
  - repeat (apply Forall2_cons; [vm_compute; reflexivity|]). apply Forall2_nil.
  - repeat (apply Forall2_cons; [vm_compute; reflexivity|]). apply Forall2_nil.
  - intros s S. unfold createRailsback. assert (Qle_bool (1 # 4) s = true) as -> by (apply Qle_bool_iff; lra). assert (Qle_bool (1 # 2) s = true) as -> by (apply Qle_bool_iff; lra).
    assert (Qle_bool 1 s = true) as -> by (apply Qle_bool_iff; lra). reflexivity.
Qed.
(** C91: the amount given to the synthesizer: none at 0 and below, and not more than 1. *)
Theorem C91_load r : (r <= 0 -> loadStretch r = None) /\ (0 < r -> r < 1 -> loadStretch r = Some (createRailsback r)) /\ (1 <= r -> loadStretch r = Some railsback42).
Proof.
  unfold loadStretch. split; [|split].
  - intros H. assert (Qclamp r 0 1 = 0) as ->; [|reflexivity]. unfold Qclamp, Qmaxf, Qminf. assert (Qltb 1 r = false) as -> by (apply Qltb_nspec; lra). assert (Qltb 0 r = false) as -> by (apply Qltb_nspec; lra). reflexivity.
  - intros A B. assert (Qclamp r 0 1 = r) as ->. { unfold Qclamp, Qmaxf, Qminf. assert (Qltb 1 r = false) as -> by (apply Qltb_nspec; lra). assert (Qltb 0 r = true) as -> by (apply Qltb_spec; lra). reflexivity. }
    assert (Qltb 0 r = true) as -> by (apply Qltb_spec; lra). reflexivity.
  - intros H. assert (Qltb 0 (Qclamp r 0 1) = true /\ 1 <= Qclamp r 0 1) as [-> B].
    { unfold Qclamp, Qmaxf, Qminf. destruct (Qltb 1 r) eqn:E.
      - assert (Qltb 0 1 = true) as -> by reflexivity. split; [reflexivity|lra].
      - assert (Qltb 0 r = true) as E2 by (apply Qltb_spec; lra). rewrite E2. split; [exact E2|exact H]. }
    f_equal. destruct C91_positions as (_ & _ & _ & P). now apply P.
Qed.
(** C91: more is not more: at the lowest key half of the amount stretches further than all of it. *)
Theorem C91_amount_refuted : entry (createRailsback (1 # 2)) 0 < entry (createRailsback 1) 0 /\ entry (createRailsback 1) 0 < 1 /\
  entry (createRailsback 1) 127 < entry (createRailsback (1 # 2)) 127 /\ 1 < entry (createRailsback 1) 127.
Proof. vm_compute. repeat split; reflexivity. Qed.
(** C91: below key 0 (a scale may put keys there) the ratio is extrapolated from the cut off part of the number: it falls below the first entry towards
    each whole number and jumps back there. *)
Theorem C91_negative_refuted : exists a b c, getRatioForFractionalKey railsback42 (- (2)) = Some a /\ getRatioForFractionalKey railsback42 (- (3 # 2)) = Some b /\
  getRatioForFractionalKey railsback42 (- (1)) = Some c /\ a == entry railsback42 0 /\ b < a /\ c == a.
Proof. do 3 eexists. repeat split; vm_compute; reflexivity. Qed.
Example C91_ex : exists r, getRatioForFractionalKey (createRailsback (3 # 4)) (121 # 2) = Some r /\ r == (1000525 + 1000582 + 1000860 + 1000983) # 4000000.
Proof. eexists. split; vm_compute; reflexivity. Qed.
