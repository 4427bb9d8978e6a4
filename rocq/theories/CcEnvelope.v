(** The control signal made from events (C36). *)
From Coq Require Import QArith Qround Qabs ZArith List Lia Bool Lqa Setoid.
Import ListNotations.
From Verif Require Import AdsrModel AdsrRange CcEnvModel.
Open Scope Q_scope.
Local Notation nQ k := (inject_Z (Z.of_nat k)).

(** Writes that follow one another without gap or overlap from frame [a] up to frame [b]. *)
Fixpoint contiguous (a : nat) (ws : list write) (b : nat) : Prop :=
  match ws with
  | [] => a = b
  | (o, l) :: ws => o = a /\ contiguous (a + length l) ws b
  end.
(** The piecewise linear curve through points: straight lines between them, constant after the last. *)
Fixpoint follow (pts : list (nat * Q)) (d0 : nat) (v0 : Q) (k : nat) : Q :=
  match pts with
  | [] => v0
  | (d, v) :: pts => if Nat.ltb k d then v0 + (nQ k - nQ d0) * (v - v0) / (nQ d - nQ d0) else follow pts d v k
  end.
(** Delays increase. *)
Fixpoint increasing (d0 : nat) (evs : list event) : Prop :=
  match evs with [] => True | e :: evs => (d0 < delay e)%nat /\ increasing (delay e) evs end.

Lemma contiguous_app a ws b ws' c : contiguous a ws b -> contiguous b ws' c -> contiguous a (ws ++ ws') c.
Proof. revert a. induction ws as [|[o l] ws IH]; intros a; cbn; [now intros ->|]. intros [-> H] H'. auto. Qed.
Lemma contiguous_le a ws b : contiguous a ws b -> (a <= b)%nat.
Proof. revert a. induction ws as [|[o l] ws IH]; intros a; cbn; [lia|]. intros [_ H]. apply IH in H. lia. Qed.
Lemma contiguous_samples a ws b : contiguous a ws b -> length (samples ws) = (b - a)%nat.
Proof.
  revert a. induction ws as [|[o l] ws IH]; intros a; cbn; [intros ->; lia|]. intros [_ H].
  unfold samples in *. cbn. rewrite app_length, (IH _ H). apply contiguous_le in H. lia.
Qed.
Lemma ramp_spec n : forall s st, length (fst (linearRamp n s st)) = n /\
  snd (linearRamp n s st) == s + nQ n * st /\
  (forall k, (k < n)%nat -> nth k (fst (linearRamp n s st)) 0 == s + nQ k * st).
Proof.
  induction n as [|n IH]; intros s st; cbn [linearRamp].
  - cbn. repeat split; [|intros; lia]. unfold inject_Z. ring.
  - destruct (IH (s + st) st) as (A & B & C). destruct (linearRamp n (s + st) st) as [l r]. cbn [fst snd] in *.
    cbn [length]. split; [now rewrite A|]. split.
    + rewrite B, Nat2Z.inj_succ, <- Z.add_1_r, inject_Z_plus. ring.
    + intros [|k] K; cbn [nth]. { unfold inject_Z. cbn. ring. }
      rewrite C by lia. rewrite Nat2Z.inj_succ, <- Z.add_1_r, inject_Z_plus. ring.
Qed.
Lemma nQ_pos n : (0 < n)%nat -> 0 < nQ n.
Proof. intros H. unfold Qlt, inject_Z. cbn. lia. Qed.
Lemma nQ_nz n : (0 < n)%nat -> ~ nQ n == 0.
Proof. intros H X. apply nQ_pos in H. rewrite X in H. apply (Qlt_irrefl 0 H). Qed.
Lemma nQ_sub a b : (b <= a)%nat -> nQ (a - b) == nQ a - nQ b.
Proof. intros H. rewrite Nat2Z.inj_sub by lia. unfold Zminus. rewrite inject_Z_plus, inject_Z_opp. ring. Qed.
Lemma nQ_le a b : (a <= b)%nat -> nQ a <= nQ b.
Proof. intros H. rewrite <- Zle_Qle. lia. Qed.
Lemma follow_ext pts d0 v0 v0' k : v0 == v0' -> follow pts d0 v0 k == follow pts d0 v0' k.
Proof.
  intros E. destruct pts as [|[d v] pts]; cbn [follow]; [assumption|]. destruct (Nat.ltb k d); [|reflexivity].
  now rewrite E.
Qed.
Lemma app_samples o l ws : samples ((o, l) :: ws) = l ++ samples ws.
Proof. reflexivity. Qed.
Lemma nth_app {A} k (l l' : list A) x : nth k (l ++ l') x = if Nat.ltb k (length l) then nth k l x else nth (k - length l) l' x.
Proof. destruct (Nat.ltb_spec k (length l)); [now apply app_nth1|now apply app_nth2]. Qed.
Lemma nth_repeat {A} (v x : A) n k : (k < n)%nat -> nth k (repeat v n) x = v.
Proof. revert k. induction n; intros [|k] L; cbn; [lia|lia|reflexivity|apply IHn; lia]. Qed.

Section Envelope.
Variable lam : Q -> Q.
Definition points (evs : list event) : list (nat * Q) := map (fun e => (delay e, lam (value e))) evs.

Lemma linear_loop_spec m : forall evs d0 v0, increasing d0 evs -> (d0 <= m)%nat ->
  let '(ws, (d, v)) := linear_loop lam m evs d0 v0 in
  contiguous d0 ws d /\ (d <= m)%nat /\
  (Forall (fun e => delay e <= m)%nat evs -> forall k, (d0 <= k <= m)%nat ->
     nth (k - d0) (samples ws ++ repeat v (S m - d)) 0 == follow (points evs) d0 v0 k).
Proof.
  induction evs as [|e evs IH]; intros d0 v0 Inc D; cbn [linear_loop].
  - split; [reflexivity|]. split; [assumption|]. intros _ k K. change (samples [] ++ repeat v0 (S m - d0)) with (repeat v0 (S m - d0)).
    rewrite nth_repeat by lia. reflexivity.
  - destruct Inc as [I1 I2]. destruct (Nat.ltb_spec d0 m) as [L|L].
    + remember (Nat.min (delay e) m - d0)%nat as n eqn:Hn. assert (0 < n)%nat as N by lia.
      set (st := (lam (value e) - v0) / nQ n).
      destruct (ramp_spec n v0 st) as (R1 & R2 & R3). destruct (linearRamp n v0 st) as [l v]. cbn [fst snd] in *.
      assert (v == lam (value e)) as V. { rewrite R2. unfold st. field. now apply nQ_nz. }
      destruct (Nat.le_gt_cases (delay e) m) as [Le|Gt].
      * assert (d0 + n = delay e)%nat as En by lia. rewrite En in *.
        specialize (IH (delay e) v I2 Le).
        destruct (linear_loop lam m evs (delay e) v) as [ws [d v']]. destruct IH as (A & B & C).
        cbn [contiguous]. rewrite R1, En. split; [now split|]. split; [assumption|].
        intros F k K. rewrite app_samples, <- app_assoc, nth_app, R1. cbn [points map follow].
        destruct (Nat.ltb_spec k (delay e)) as [Lk|Lk].
        { assert (k - d0 <? n = true)%nat as -> by (apply Nat.ltb_lt; lia). rewrite R3 by lia. unfold st.
          replace n with (delay e - d0)%nat by lia. rewrite !nQ_sub by lia. field.
          rewrite <- nQ_sub by lia. apply nQ_nz. lia. }
        { assert (k - d0 <? n = false)%nat as -> by (apply Nat.ltb_ge; lia).
          replace (k - d0 - n)%nat with (k - delay e)%nat by lia. rewrite C; [|now inversion F|lia]. now apply follow_ext. }
      * assert (d0 + n = m)%nat as En by lia. rewrite En.
        assert (linear_loop lam m evs m v = ([], (m, v))) as ->.
        { destruct evs; cbn [linear_loop]; [reflexivity|]. now rewrite Nat.ltb_irrefl. }
        cbn [contiguous]. rewrite R1, En. split; [now split|]. split; [lia|].
        intros F. inversion F. lia.
    + assert (d0 = m) as -> by lia. split; [reflexivity|]. split; [lia|]. intros F. inversion F. lia.
Qed.

(** C36: every frame of the block is written exactly once, in order. *)
Theorem C36_written_once e evs size :
  delay e = 0%nat -> increasing 0 evs -> contiguous 0 (linearEnvelope lam (e :: evs) size) size.
Proof.
  intros E Inc. destruct size as [|m]; [reflexivity|]. cbn [linearEnvelope]. rewrite E.
  pose proof (linear_loop_spec m evs 0%nat (lam (value e)) Inc ltac:(lia)) as H.
  destruct (linear_loop lam m evs 0 (lam (value e))) as [ws [d v]]. destruct H as (A & B & _).
  eapply contiguous_app; [exact A|]. cbn [contiguous]. rewrite repeat_length. split; [reflexivity|lia].
Qed.
(** C36: the signal is the piecewise linear curve through the events. *)
Theorem C36_linear e evs size k :
  delay e = 0%nat -> increasing 0 evs -> Forall (fun e => delay e < size)%nat evs -> (k < size)%nat ->
  nth k (samples (linearEnvelope lam (e :: evs) size)) 0 == follow (points evs) 0 (lam (value e)) k.
Proof.
  intros E Inc F K. destruct size as [|m]; [lia|]. cbn [linearEnvelope]. rewrite E.
  pose proof (linear_loop_spec m evs 0%nat (lam (value e)) Inc ltac:(lia)) as H.
  destruct (linear_loop lam m evs 0 (lam (value e))) as [ws [d v]]. destruct H as (A & B & C).
  specialize (C ltac:(eapply Forall_impl; [|exact F]; cbn; lia) k ltac:(lia)). rewrite Nat.sub_0_r in C.
  unfold samples in *. rewrite map_app, concat_app. cbn [map snd concat]. now rewrite app_nil_r.
Qed.
Lemma follow_at : forall evs d0 v0 x, increasing d0 evs -> In x evs -> follow (points evs) d0 v0 (delay x) == lam (value x).
Proof.
  induction evs as [|e evs IH]; intros d0 v0 x Inc Hi; [destruct Hi|]. destruct Inc as [I1 I2]. cbn [points map follow].
  assert (forall y, In y evs -> delay e < delay y)%nat as Lt.
  { clear -I2. revert e I2. induction evs as [|a evs IH]; intros e I2 y Hy; [destruct Hy|]. destruct I2 as [A B].
    destruct Hy as [->|Hy]; [assumption|]. specialize (IH a B y Hy). lia. }
  destruct Hi as [->|Hi].
  - rewrite Nat.ltb_irrefl. destruct evs as [|a evs]; cbn [follow]; [reflexivity|].
    cbn [map follow]. destruct (Nat.ltb_spec (delay x) (delay a)) as [L|L].
    + field. rewrite <- nQ_sub by lia. apply nQ_nz. lia.
    + specialize (Lt a (or_introl eq_refl)). lia.
  - specialize (Lt x Hi). destruct (Nat.ltb_spec (delay x) (delay e)); [lia|]. apply IH; assumption.
Qed.
(** C36: at its delay, each event has its value. *)
Theorem C36_reaches e evs size x :
  delay e = 0%nat -> increasing 0 evs -> Forall (fun e => delay e < size)%nat evs -> (0 < size)%nat -> In x (e :: evs) ->
  nth (delay x) (samples (linearEnvelope lam (e :: evs) size)) 0 == lam (value x).
Proof.
  intros E Inc F S0 Hi. rewrite C36_linear; try assumption.
  - destruct Hi as [<-|Hi]; [|now apply follow_at]. rewrite E. destruct evs as [|a evs]; cbn [points map follow]; [reflexivity|].
    destruct Inc as [I1 I2]. destruct (Nat.ltb_spec 0 (delay a)); [|lia].
    field. now apply nQ_nz.
  - destruct Hi as [<-|Hi]; [lia|]. rewrite Forall_forall in F. now apply F.
Qed.

Lemma ramp_between lo hi n v0 v1 : (0 < n)%nat -> lo <= v0 <= hi -> lo <= v1 <= hi ->
  Forall (fun y => lo <= y <= hi) (fst (linearRamp n v0 ((v1 - v0) / nQ n))) /\
  lo <= snd (linearRamp n v0 ((v1 - v0) / nQ n)) <= hi.
Proof.
  intros N B0 B1. destruct (ramp_spec n v0 ((v1 - v0) / nQ n)) as (R1 & R2 & R3). pose proof (nQ_pos n N) as P. split.
  - apply Forall_forall. intros y Y. apply (In_nth _ _ 0) in Y as (k & K & <-). rewrite R1 in K. rewrite R3 by assumption.
    pose proof (nQ_le 0 k ltac:(lia)) as K0. change (nQ 0) with 0 in K0. pose proof (nQ_le k n ltac:(lia)) as K1.
    set (t := nQ k / nQ n).
    assert (v0 + nQ k * ((v1 - v0) / nQ n) == v0 + t * (v1 - v0)) as -> by (unfold t; field; now apply nQ_nz).
    assert (0 <= t <= 1) as T.
    { unfold t. split; [apply Qle_shift_div_l; lra|apply Qle_shift_div_r; lra]. }
    clearbody t. split; nra.
  - rewrite R2. assert (v0 + nQ n * ((v1 - v0) / nQ n) == v1) as -> by (field; now apply nQ_nz). assumption.
Qed.
(** C36: the signal stays between the smallest and the largest event value, also when events lie beyond
    the block. *)
Theorem C36_between lo hi evs size :
  Forall (fun e => lo <= lam (value e) <= hi) evs ->
  match evs with [] => True | e :: evs => delay e = 0%nat /\ increasing 0 evs end ->
  Forall (fun y => lo <= y <= hi) (samples (linearEnvelope lam evs size)).
Proof.
  intros F Inc. destruct size as [|m]; [constructor|]. destruct evs as [|e evs]; [constructor|].
  destruct Inc as [E Inc]. cbn [linearEnvelope]. rewrite E. inversion F as [|? ? F1 F2]; subst.
  assert (forall evs d0 v0, Forall (fun e => lo <= lam (value e) <= hi) evs -> increasing d0 evs -> (d0 <= m)%nat -> lo <= v0 <= hi ->
    let '(ws, (d, v)) := linear_loop lam m evs d0 v0 in Forall (fun y => lo <= y <= hi) (samples ws) /\ lo <= v <= hi) as H.
  { clear. induction evs as [|e evs IH]; intros d0 v0 F Inc D B; cbn [linear_loop]; [split; [constructor|assumption]|].
    inversion F as [|? ? F1 F2]; subst. destruct Inc as [I1 I2].
    destruct (Nat.ltb_spec d0 m) as [L|L]; [|split; [constructor|assumption]].
    remember (Nat.min (delay e) m - d0)%nat as n eqn:Hn. assert (0 < n)%nat as N by lia.
    destruct (ramp_between lo hi n v0 (lam (value e)) N B F1) as [Ra Rb].
    destruct (linearRamp n v0 _) as [l v]. cbn [fst snd] in *.
    destruct (Nat.le_gt_cases (delay e) m) as [Le|Gt].
    - replace (d0 + n)%nat with (delay e) by lia. specialize (IH (delay e) v F2 I2 Le Rb).
      destruct (linear_loop lam m evs (delay e) v) as [ws [d v']]. destruct IH as [A C].
      split; [|assumption]. rewrite app_samples. apply Forall_app. now split.
    - replace (d0 + n)%nat with m by lia.
      assert (linear_loop lam m evs m v = ([], (m, v))) as ->.
      { destruct evs; cbn [linear_loop]; [reflexivity|]. now rewrite Nat.ltb_irrefl. }
      split; [|assumption]. unfold samples. cbn. now rewrite app_nil_r. }
  specialize (H evs 0%nat (lam (value e)) F2 Inc ltac:(lia) F1).
  destruct (linear_loop lam m evs 0 (lam (value e))) as [ws [d v]]. destruct H as [A B].
  unfold samples. rewrite map_app, concat_app. apply Forall_app. split; [exact A|]. cbn [map snd concat].
  rewrite app_nil_r. apply Forall_forall. intros y Y. apply repeat_spec in Y. now subst.
Qed.
End Envelope.

(** ** The quantised form *)
Lemma Qfloor_mult z step : 0 < step -> Qfloor (inject_Z z * step / step) = z.
Proof.
  intros S. assert (inject_Z z * step / step == inject_Z z) as E by (field; lra).
  rewrite (Qfloor_comp _ _ E). apply Qfloor_Z.
Qed.
Section Quantised.
Variable lam : Q -> Q.
Variable step : Q.
Hypothesis S0 : 0 < step.
Definition grid (k : Z) : Q := inject_Z k * step.
Lemma grid_le a b : grid a <= grid b <-> (a <= b)%Z.
Proof.
  unfold grid. rewrite Zle_Qle. split; intros H.
  - apply Qmult_le_r in H; assumption.
  - apply Qmult_le_r; assumption.
Qed.
Lemma quantize_grid v : exists k, quantize step v = grid k.
Proof. eexists. reflexivity. Qed.
Lemma grid_step a : grid a + step == grid (a + 1).
Proof. unfold grid. rewrite inject_Z_plus. change (inject_Z 1) with 1. ring. Qed.
Lemma grid_step' a : grid a + - step == grid (a - 1).
Proof. unfold grid, Zminus. rewrite inject_Z_plus. change (inject_Z (-(1))) with (-(1)). ring. Qed.
Lemma Qle_bool_grid v w a b : v == grid a -> w == grid b -> Qle_bool v w = (a <=? b)%Z.
Proof.
  intros V W. apply eq_true_iff_eq. rewrite Qle_bool_iff, Z.leb_le, V, W. apply grid_le.
Qed.
Lemma stairs_spec sl b w : w == grid b -> forall n d v a, v == grid a -> Z.of_nat n = Z.abs (b - a) ->
  let '(ws, (d', v')) := stairs n sl step w d v in
  contiguous d ws (d + n * sl) /\ d' = (d + n * sl)%nat /\ v' == grid b /\
  Forall (fun y => exists k, y == grid k /\ (Z.min a b <= k <= Z.max a b)%Z) (samples ws).
Proof.
  intros W. induction n as [|n IH]; intros d v a V N; cbn [stairs].
  - rewrite Nat.mul_0_l, Nat.add_0_r. assert (a = b) as <- by lia. repeat split; auto. constructor.
  - assert (a <> b) as Ne by lia.
    set (v1 := v + (if Qle_bool v w then step else - step)).
    assert (exists a1, v1 == grid a1 /\ Z.of_nat n = Z.abs (b - a1) /\ (Z.min a b <= a1 <= Z.max a b)%Z) as (a1 & V1 & N1 & B1).
    { unfold v1. rewrite (Qle_bool_grid v w a b V W). destruct (Z.leb_spec a b).
      - exists (a + 1)%Z. split; [rewrite V; apply grid_step|]. lia.
      - exists (a - 1)%Z. split; [rewrite V; apply grid_step'|]. lia. }
    specialize (IH (d + sl)%nat v1 a1 V1 N1). destruct (stairs n sl step w (d + sl) v1) as [ws [d' v']].
    destruct IH as (A & B & C & D). cbn [contiguous]. rewrite repeat_length.
    replace (d + S n * sl)%nat with (d + sl + n * sl)%nat by lia. split; [now split|]. split; [assumption|]. split; [assumption|].
    rewrite app_samples. apply Forall_app. split.
    + apply Forall_forall. intros y Y. apply repeat_spec in Y. subst. exists a. split; [assumption|lia].
    + eapply Forall_impl; [|exact D]. cbn. intros y (k & K & B'). exists k. split; [assumption|lia].
Qed.
Lemma Qabsf_spec x : Qabsf x == Qabs.Qabs x.
Proof.
  unfold Qabsf. destruct (Qle_bool 0 x) eqn:L.
  - apply Qle_bool_iff in L. now rewrite Qabs.Qabs_pos.
  - apply Qle_bool_nspec in L. rewrite Qabs.Qabs_neg; [reflexivity|lra].
Qed.
Lemma difference_spec v w a b : v == grid a -> w == grid b -> Qabsf (w - v) == grid (Z.abs (b - a)).
Proof.
  intros V W. rewrite Qabsf_spec, V, W. unfold grid.
  assert (inject_Z b * step - inject_Z a * step == inject_Z (b - a) * step) as ->.
  { unfold Zminus. rewrite inject_Z_plus, inject_Z_opp. ring. }
  rewrite Qabs.Qabs_Qmult. rewrite (Qabs.Qabs_pos step) by lra. reflexivity.
Qed.
(** Every value is one of the levels between those of two successive events. *)
Definition level (lo hi : Z) (y : Q) : Prop := exists k, y == grid k /\ (lo <= k <= hi)%Z.
Lemma quantised_loop_spec lo hi m : forall evs d0 v0, increasing d0 evs -> (d0 <= m)%nat -> level lo hi v0 ->
  Forall (fun e => level lo hi (quantize step (lam (value e)))) evs ->
  let '(ws, (d, v)) := quantised_loop lam step m evs d0 v0 in
  contiguous d0 ws d /\ (d <= m)%nat /\ level lo hi v /\ Forall (level lo hi) (samples ws).
Proof.
  assert (forall evs d0 d1 v0, increasing d1 evs -> (d0 <= d1)%nat -> (d0 <= m)%nat -> level lo hi v0 ->
    Forall (fun e => level lo hi (quantize step (lam (value e)))) evs ->
    let '(ws, (d, v)) := quantised_loop lam step m evs d0 v0 in
    contiguous d0 ws d /\ (d <= m)%nat /\ level lo hi v /\ Forall (level lo hi) (samples ws)) as H.
  { induction evs as [|e evs IH]; intros d0 d1 v0 Inc D01 D V F; cbn [quantised_loop].
    - cbn. repeat split; try assumption. constructor.
    - destruct Inc as [I1 I2]. inversion F as [|? ? F1 F2]; subst.
      destruct (Nat.ltb_spec d0 m) as [L|L]; [|repeat split; try assumption; constructor].
      remember (Nat.min (delay e) m - d0)%nat as n eqn:Hn. set (w := quantize step (lam (value e))) in *.
      destruct V as (a & Va & Ba). destruct F1 as (b & Wb & Bb).
      pose proof (difference_spec v0 w a b Va Wb) as Df.
      destruct (Qltb (Qabsf (w - v0)) step) eqn:Lt.
      + specialize (IH (d0 + n)%nat (delay e) w I2 ltac:(lia) ltac:(lia)).
        destruct (quantised_loop lam step m evs (d0 + n) w) as [ws [d v]].
        destruct IH as (A & B & C & E). { exists b. now split. } { assumption. }
        cbn [contiguous]. rewrite repeat_length. split; [now split|]. split; [assumption|]. split; [assumption|].
        rewrite app_samples. apply Forall_app. split; [|assumption].
        apply Forall_forall. intros y Y. apply repeat_spec in Y. subst. exists a. now split.
      + assert (Z.to_nat (Qfloor (Qabsf (w - v0) / step)) = Z.to_nat (Z.abs (b - a))) as ->.
        { f_equal. rewrite <- (Qfloor_mult (Z.abs (b - a)) step S0). apply Qfloor_comp. now rewrite Df. }
        remember (Z.to_nat (Z.abs (b - a))) as ns eqn:Hns.
        assert (0 < ns)%nat as Ns.
        { apply Qltb_nspec in Lt. rewrite Df in Lt. assert (grid 1 <= grid (Z.abs (b - a))) as G.
          { unfold grid at 1. change (inject_Z 1) with 1. lra. } apply (proj1 (grid_le 1 (Z.abs (b - a)))) in G. lia. }
        pose proof (stairs_spec (n / ns) b w Wb ns d0 v0 a Va ltac:(lia)) as St.
        destruct (stairs ns (n / ns) step w d0 v0) as [ws [d v]]. destruct St as (A & -> & C & E).
        assert (ns * (n / ns) <= n)%nat as Mul by (apply Nat.mul_div_le; lia).
        specialize (IH (d0 + ns * (n / ns))%nat (delay e) v I2 ltac:(lia) ltac:(lia)).
        destruct (quantised_loop lam step m evs (d0 + ns * (n / ns)) v) as [ws' [d' v']].
        destruct IH as (A' & B' & C' & E'). { exists b. now split. } { assumption. }
        split; [eapply contiguous_app; eassumption|]. split; [assumption|]. split; [assumption|].
        unfold samples in *. rewrite map_app, concat_app. apply Forall_app. split; [|assumption].
        eapply Forall_impl; [|exact E]. cbn. intros y (k & K & Bk). exists k. split; [assumption|lia]. }
  intros evs d0 v0 Inc. apply (H evs d0 d0 v0 Inc). lia.
Qed.
(** C36: the quantised signal is written completely and once, and takes only levels between those of the
    events. *)
Theorem C36_quantised lo hi e evs size :
  delay e = 0%nat -> increasing 0 evs ->
  Forall (fun e => exists k, quantize step (lam (value e)) == grid k /\ (lo <= k <= hi)%Z) (e :: evs) ->
  contiguous 0 (quantisedEnvelope lam step (e :: evs) size) size /\
  Forall (fun y => exists k, y == grid k /\ (lo <= k <= hi)%Z) (samples (quantisedEnvelope lam step (e :: evs) size)).
Proof.
  intros E Inc F. unfold quantisedEnvelope.
  assert (Qeq_bool step 0 = false) as ->. { apply not_true_is_false. rewrite Qeq_bool_iff. lra. }
  destruct size as [|m]; [split; [reflexivity|constructor]|]. inversion F as [|? ? F1 F2]; subst. rewrite E.
  pose proof (quantised_loop_spec lo hi m evs 0%nat _ Inc ltac:(lia) F1 F2) as H.
  destruct (quantised_loop lam step m evs 0 _) as [ws [d v]]. destruct H as (A & B & C & D). split.
  - eapply contiguous_app; [exact A|]. cbn [contiguous]. rewrite repeat_length. split; [reflexivity|lia].
  - unfold samples. rewrite map_app, concat_app. apply Forall_app. split; [exact D|]. cbn [map snd concat].
    rewrite app_nil_r. apply Forall_forall. intros y Y. apply repeat_spec in Y. now subst.
Qed.
End Quantised.

(** A block of 12 frames with events at 0, 4 and 9. *)
Example C36_ex :
  let evs := [Event 0 (1 # 4); Event 4 (1 # 2); Event 9 0] in
  let out := samples (linearEnvelope (fun x => x) evs 12) in
  increasing 0 (tl evs) /\ length out = 12%nat /\ nth 2 out 0 == 3 # 8 /\ nth 4 out 0 == 1 # 2 /\ nth 6 out 0 == 3 # 10 /\ nth 11 out 0 == 0 /\
  map Qred (samples (quantisedEnvelope (fun x => x) (1 # 8) evs 12)) =
    [1 # 4; 1 # 4; 3 # 8; 3 # 8; 1 # 2; 3 # 8; 1 # 4; 1 # 8; 0; 0; 0; 0].
Proof. cbn. repeat split; lia. Qed.
(** C36: a quantised signal can leave the level of an event before its delay: the frames that are left over
    from the division of one ramp are added to the next. *)
Theorem C36_quantised_early_refuted :
  let evs := [Event 0 0; Event 3 2; Event 4 4] in
  let out := samples (quantisedEnvelope (fun x => x) 1 evs 6) in
  increasing 0 (tl evs) /\ map Qred out = [0; 1; 2; 3; 4; 4] /\ ~ nth 3 out 0 == 2.
Proof. cbv zeta. split; [cbn; repeat split; lia|]. split; [vm_compute; reflexivity|]. vm_compute. discriminate. Qed.
