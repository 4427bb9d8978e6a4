(** The ranges of controllers, velocities and aftertouch: what their bounds become (C75). *)
From Coq Require Import String ZArith QArith Qabs Qpower List Bool Lia Lqa.
From Verif Require Import ParserModel OpcodeModel OpcodeNumbers Rounding ValueModel ValueNumbers.
Import ListNotations.
Local Open Scope Q_scope.

(** * The number below a number *)
Lemma inject_le a b : (a <= b)%Z <-> inject_Z a <= inject_Z b. Proof. rewrite Zle_Qle. reflexivity. Qed.
Lemma inject_lt a b : (a < b)%Z <-> inject_Z a < inject_Z b. Proof. rewrite Zlt_Qlt. reflexivity. Qed.
Lemma le_Q a b : (a <= b)%Z -> inject_Z a <= inject_Z b. Proof. apply inject_le. Qed.
Lemma lt_Q a b : (a < b)%Z -> inject_Z a < inject_Z b. Proof. apply inject_lt. Qed.
Lemma Q_le a b : inject_Z a <= inject_Z b -> (a <= b)%Z. Proof. apply inject_le. Qed.
Lemma Q_lt a b : inject_Z a < inject_Z b -> (a < b)%Z. Proof. apply inject_lt. Qed.
Lemma div_mul x e : x / Qpower 2 e * Qpower 2 e == x.
Proof. pose proof (p2_pos e). field. lra. Qed.
Lemma p2_split a b : Qpower 2 a == Qpower 2 (a - b) * Qpower 2 b.
Proof. rewrite <- p2_add. replace (a - b + b)%Z with a by lia. reflexivity. Qed.
Lemma p2_le1 n : (n <= 0)%Z -> Qpower 2 n <= 1.
Proof.
  intros H. pose proof (p2_pos n) as P. pose proof (p2_split 0 n) as E. change (Qpower 2 0) with 1 in E.
  rewrite p2_Z in E by lia. assert (1 <= inject_Z (2 ^ (0 - n))).
  { apply (le_Q 1). assert (0 < 2 ^ (0 - n))%Z by (apply Z.pow_pos_nonneg; lia). lia. }
  assert (1 * Qpower 2 n <= inject_Z (2 ^ (0 - n)) * Qpower 2 n) by (apply Qmult_le_compat_r; lra). lra.
Qed.
Lemma nearest_Z m : nearest (inject_Z m) = m.
Proof.
  pose proof (nearest_spec (inject_Z m) m) as H. setoid_replace (inject_Z m - inject_Z m) with 0 in H by ring.
  change (Qabs 0) with 0 in H. apply Qabs_Qle_condition in H. destruct H as [H1 H2].
  apply Z.le_antisymm; apply Q_le; lra.
Qed.
Lemma rep_mantissa x : 0 < x -> rep24 x ->
  exists m, x == inject_Z m * Qpower 2 (ulpExp (Qred x)) /\ (2 ^ 23 <= m < 2 ^ 24)%Z /\ nearest (Qred x / Qpower 2 (ulpExp (Qred x))) = m.
Proof.
  intros Px (k & f & Hk & Hx). set (e := ulpExp (Qred x)).
  assert (Nz : ~ Qred x == 0) by (rewrite Qred_correct; lra).
  destruct (ulp_spec (Qred x) Nz) as [U1 U2]. fold e in U1, U2. rewrite Qred_correct in U1, U2. rewrite Qabs_pos in U1, U2 by lra.
  pose proof (p2_pos e) as Pe. pose proof (p2_pos f) as Pf.
  assert (Kp : (0 < k)%Z). { apply Q_lt. change (inject_Z 0) with 0. apply Qnot_le_lt. intros L.
    assert (inject_Z k * Qpower 2 f <= 0 * Qpower 2 f) by (apply Qmult_le_compat_r; lra). lra. }
  assert (Fe : (e <= f)%Z).
  { destruct (Z.le_gt_cases e f) as [|L]; [assumption|exfalso].
    assert (x < Qpower 2 24 * Qpower 2 f).
    { rewrite Hx. apply Qmult_lt_compat_r; [exact Pf|]. change (Qpower 2 24) with (inject_Z (2 ^ 24)). apply lt_Q. lia. }
    assert (Qpower 2 23 * Qpower 2 e <= x).
    { rewrite <- (div_mul x e). apply Qmult_le_compat_r; [exact U1|lra]. }
    assert (Qpower 2 f <= Qpower 2 (e - 1)).
    { rewrite (p2_split f (e - 1)). setoid_replace (Qpower 2 (e - 1)) with (1 * Qpower 2 (e - 1)) at 2 by ring.
      apply Qmult_le_compat_r; [apply p2_le1; lia|]. pose proof (p2_pos (e - 1)). lra. }
    pose proof (p2_succ (e - 1)) as E1. replace (e - 1 + 1)%Z with e in E1 by lia.
    change (Qpower 2 24) with (16777216 # 1) in *. change (Qpower 2 23) with (8388608 # 1) in *. lra. }
  assert (Hm : x / Qpower 2 e == inject_Z (k * 2 ^ (f - e))).
  { rewrite Hx, (p2_split f e), inject_Z_mult, (p2_Z (f - e)) by lia. field. lra. }
  exists (k * 2 ^ (f - e))%Z. refine (conj _ (conj _ _)).
  - rewrite <- Hm. symmetry. apply div_mul.
  - rewrite Hm in U1, U2. change (Qpower 2 23) with (inject_Z (2 ^ 23)) in U1. change (Qpower 2 24) with (inject_Z (2 ^ 24)) in U2.
    apply Q_le in U1. apply Q_lt in U2. lia.
  - rewrite (nearest_wd _ (inject_Z (k * 2 ^ (f - e)))); [apply nearest_Z|]. rewrite Qred_correct. exact Hm.
Qed.
(** [below24 x] is the largest number of 24 bits below [x]. *)
Lemma below24_spec x : 0 < x -> rep24 x ->
  below24 x < x /\ rep24 (below24 x) /\ forall y, rep24 y -> (y <= below24 x <-> y < x).
Proof.
  intros Px Rx. destruct (rep_mantissa x Px Rx) as (m & Hx & [M1 M2] & Hn). unfold below24. rewrite Hn. clear Hn.
  set (e := ulpExp (Qred x)) in *. pose proof (p2_pos e) as Pe. pose proof (p2_pos (e - 1)) as Pe'.
  pose proof (p2_succ (e - 1)) as E1. replace (e - 1 + 1)%Z with e in E1 by lia.
  set (b := if (m =? 2 ^ 23)%Z then inject_Z (2 ^ 24 - 1) * Qpower 2 (e - 1) else inject_Z (m - 1) * Qpower 2 e).
  assert (Hb : b < x /\ rep24 b).
  { unfold b. destruct (Z.eqb_spec m (2 ^ 23)) as [->|N].
    - split; [|exists (2 ^ 24 - 1)%Z, (e - 1)%Z; split; [lia|reflexivity]]. rewrite Hx, E1.
      change (inject_Z (2 ^ 24 - 1)) with (16777215 # 1). change (inject_Z (2 ^ 23)) with (8388608 # 1). lra.
    - split; [|exists (m - 1)%Z, e; split; [lia|reflexivity]]. rewrite Hx. apply Qmult_lt_compat_r; [exact Pe|]. apply lt_Q. lia. }
  destruct Hb as [B1 B2]. refine (conj B1 (conj B2 _)). intros y Ry. split; [lra|]. intros Ly.
  destruct (Qlt_le_dec 0 y) as [Py|Ny].
  2: { assert (0 <= b); [|lra]. unfold b. destruct (Z.eqb_spec m (2 ^ 23)); apply Qmult_le_0_compat; try lra; apply (le_Q 0); lia. }
  destruct (rep_mantissa y Py Ry) as (k & Hy & [K1 K2] & _). set (f := ulpExp (Qred y)) in *. pose proof (p2_pos f) as Pf.
  destruct (Z.le_gt_cases e f) as [L|L].
  - assert (Hy' : y == inject_Z (k * 2 ^ (f - e)) * Qpower 2 e).
    { rewrite Hy, (p2_split f e), inject_Z_mult, (p2_Z (f - e)) by lia. ring. }
    assert (Km : (k * 2 ^ (f - e) < m)%Z).
    { apply Q_lt. apply Qnot_le_lt. intros Z. assert (x <= y); [|lra]. rewrite Hx, Hy'. apply Qmult_le_compat_r; [exact Z|lra]. }
    assert (P1 : (1 <= 2 ^ (f - e))%Z) by (assert (0 < 2 ^ (f - e))%Z by (apply Z.pow_pos_nonneg; lia); lia).
    assert (2 ^ 23 <= k * 2 ^ (f - e))%Z by nia.
    unfold b. destruct (Z.eqb_spec m (2 ^ 23)) as [->|N]; [lia|]. rewrite Hy'. apply Qmult_le_compat_r; [apply le_Q; lia|lra].
  - assert (F1 : Qpower 2 f <= Qpower 2 (e - 1)).
    { rewrite (p2_split f (e - 1)). setoid_replace (Qpower 2 (e - 1)) with (1 * Qpower 2 (e - 1)) at 2 by ring.
      apply Qmult_le_compat_r; [apply p2_le1; lia|lra]. }
    assert (Y1 : y <= inject_Z (2 ^ 24 - 1) * Qpower 2 (e - 1)).
    { rewrite Hy. apply Qle_trans with (inject_Z (2 ^ 24 - 1) * Qpower 2 f).
      - apply Qmult_le_compat_r; [apply le_Q; lia|lra].
      - rewrite !(Qmult_comm (inject_Z _)). apply Qmult_le_compat_r; [exact F1|]. apply (le_Q 0). lia. }
    unfold b. destruct (Z.eqb_spec m (2 ^ 23)) as [->|N]; [exact Y1|].
    apply Qle_trans with (1 := Y1). apply Qle_trans with (inject_Z (2 ^ 23) * Qpower 2 e).
    + rewrite E1. change (inject_Z (2 ^ 24 - 1)) with (16777215 # 1). change (inject_Z (2 ^ 23)) with (8388608 # 1). lra.
    + apply Qmult_le_compat_r; [apply le_Q; lia|lra].
Qed.

(** * C75 *)
Definition lo_names : list string := ["loCC"; "loVel"; "loChannelAftertouch"; "loPolyAftertouch"; "xfinLo"; "xfoutLo"]%string.
Definition hi_names : list string := ["hiCC"; "hiVel"; "hiChannelAftertouch"; "hiPolyAftertouch"; "xfinHi"; "xfoutHi"]%string.
Definition lower (n : string) (s : fspec) : Prop := In n lo_names /\ spec_named n = Some s.
Definition upper (n : string) (s : fspec) : Prop := In n hi_names /\ spec_named n = Some s.
Definition read (s : fspec) (t : text) : Q := readFloatOr float24 below24 (fun x => x) (fun x => x) s t.

Lemma lower_is n s : lower n s -> exists d, s = FSpec d 0 127 false false true true false Midi false.
Proof.
  intros [I E]. repeat (destruct I as [<-|I]; [vm_compute in E; injection E as <-; eexists; reflexivity|]). destruct I.
Qed.
Lemma upper_is n s : upper n s -> exists d, s = FSpec d 0 127 false false true true false Midi true.
Proof.
  intros [I E]. repeat (destruct I as [<-|I]; [vm_compute in E; injection E as <-; eexists; reflexivity|]). destruct I.
Qed.
Definition at7 (v : Z) : Q := float24 (inject_Z v / 127).
Lemma at7_mono a b : (a <= b)%Z -> at7 a <= at7 b.
Proof. intros H. apply float24_mono. apply le_Q in H. apply Qmult_le_compat_r; [exact H|]. apply Qinv_le_0_compat. lra. Qed.
Lemma at7_steps : forallb (fun k => negb (Qle_bool (at7 (Z.of_nat k + 1)) (at7 (Z.of_nat k)))) (seq 0 127) = true.
Proof. vm_compute. reflexivity. Qed.
Lemma at7_strict a b : (0 <= a <= 126)%Z -> (a < b)%Z -> at7 a < at7 b.
Proof.
  intros Ha Hb. pose proof at7_steps as H. rewrite forallb_forall in H. specialize (H (Z.to_nat a)).
  rewrite Z2Nat.id in H by lia. apply Qlt_le_trans with (at7 (a + 1)).
  - apply negb_le. apply H. apply in_seq. lia.
  - apply at7_mono. lia.
Qed.
Lemma int_rep q v : q == inject_Z v -> (0 <= v <= 127)%Z -> float24 q == inject_Z v.
Proof. intros H V. rewrite (float24_wd q (inject_Z v) H). apply float24_of_rep, rep24_Z. cbn. lia. Qed.
Lemma read_lower n s t q rest v : lower n s -> number t q rest -> q == inject_Z v -> (0 <= v <= 127)%Z -> read s t = at7 v.
Proof.
  intros L N Q V. destruct (lower_is n s L) as [d ->]. unfold read, readFloatOr. rewrite (C76_number _ _ _ _ _ _ _ N).
  pose proof (int_rep q v Q V) as E. unfold transformFloat. cbn [f_wrap f_hi f_lo f_enforceHi f_permHi f_enforceLo f_permLo].
  assert (Hh : Qle_bool (float24 q) 127 = true) by (apply Qle_bool_iff; rewrite E; apply (le_Q v 127); lia).
  assert (Hl : Qle_bool 0 (float24 q) = true) by (apply Qle_bool_iff; rewrite E; apply (le_Q 0 v); lia).
  rewrite Hh, Hl. cbn [negb]. unfold normalizeInput. cbn [f_norm f_fill andb]. apply float24_wd. rewrite E. reflexivity.
Qed.
Lemma read_upper n s t q rest v : upper n s -> number t q rest -> q == inject_Z v -> (0 <= v <= 127)%Z ->
  read s t = if (v =? 127)%Z then at7 v else below24 (at7 (v + 1)).
Proof.
  intros L N Q V. destruct (upper_is n s L) as [d ->]. unfold read, readFloatOr. rewrite (C76_number _ _ _ _ _ _ _ N).
  pose proof (int_rep q v Q V) as E. unfold transformFloat. cbn [f_wrap f_hi f_lo f_enforceHi f_permHi f_enforceLo f_permLo].
  assert (Hh : Qle_bool (float24 q) 127 = true) by (apply Qle_bool_iff; rewrite E; apply (le_Q v 127); lia).
  assert (Hl : Qle_bool 0 (float24 q) = true) by (apply Qle_bool_iff; rewrite E; apply (le_Q 0 v); lia).
  rewrite Hh, Hl. cbn [negb]. unfold normalizeInput. cbn [f_norm f_fill andb]. rewrite Hl, andb_true_r.
  destruct (Z.eqb_spec v 127) as [->|Nv].
  - replace (Qle_bool (float24 q) 126) with false; [apply float24_wd; rewrite E; reflexivity|].
    symmetry. apply not_true_is_false. intros X. apply Qle_bool_iff in X. rewrite E in X. apply (Q_le 127 126) in X. lia.
  - replace (Qle_bool (float24 q) 126) with true.
    + f_equal. apply float24_wd.
      rewrite (float24_wd (float24 q + 1) (inject_Z (v + 1))) by (rewrite E, inject_Z_plus; reflexivity).
      rewrite (float24_of_rep (inject_Z (v + 1))) by (apply rep24_Z; cbn; lia). reflexivity.
    + symmetry. apply Qle_bool_iff. rewrite E. apply (le_Q v 126). lia.
Qed.
Lemma at7_pos v : (0 < v)%Z -> 0 < at7 v.
Proof. intros H. apply Qle_lt_trans with (at7 0); [vm_compute; discriminate|]. apply at7_strict; lia. Qed.

(** C75: a range with integer bounds holds exactly the MIDI values between its bounds. *)
Theorem C75_values nl sl tl ql rl nh sh th qh rh a b v :
  lower nl sl -> upper nh sh -> number tl ql rl -> number th qh rh -> ql == inject_Z a -> qh == inject_Z b ->
  (0 <= a <= 127)%Z -> (0 <= b <= 127)%Z -> (0 <= v <= 127)%Z ->
  (read sl tl <= normalize7Bits v <= read sh th <-> (a <= v <= b)%Z).
Proof.
  intros L U Nl Nh Ql Qh Ha Hb Hv. rewrite (read_lower _ _ _ _ _ _ L Nl Ql Ha), (read_upper _ _ _ _ _ _ U Nh Qh Hb).
  unfold normalize7Bits. rewrite Z.max_l, Z.min_l by lia. fold (at7 v).
  assert (A1 : at7 a <= at7 v <-> (a <= v)%Z).
  { split; [|apply at7_mono]. intros X. destruct (Z.le_gt_cases a v) as [|Y]; [assumption|]. assert (at7 v < at7 a) by (apply at7_strict; lia). lra. }
  rewrite A1. clear A1. enough (B1 : at7 v <= (if (b =? 127)%Z then at7 b else below24 (at7 (b + 1))) <-> (v <= b)%Z) by (rewrite B1; lia).
  destruct (Z.eqb_spec b 127) as [->|N].
  - split; [lia|apply at7_mono].
  - destruct (below24_spec (at7 (b + 1))) as (_ & _ & B); [apply at7_pos; lia|apply float24_rep|]. rewrite B by apply float24_rep.
    split; intros X.
    + destruct (Z.le_gt_cases v b) as [|Y]; [assumption|]. assert (at7 (b + 1) <= at7 v) by (apply at7_mono; lia). lra.
    + apply at7_strict; lia.
Qed.
(** C75: between the range that ends at [b] and the range that starts at [b + 1] no value, of any precision a float can
    have, belongs to both or to none. *)
Theorem C75_adjacent nl sl tl ql rl nh sh th qh rh b x :
  lower nl sl -> upper nh sh -> number tl ql rl -> number th qh rh -> ql == inject_Z (b + 1) -> qh == inject_Z b ->
  (0 <= b <= 126)%Z -> rep24 x ->
  (x <= read sh th <-> ~ read sl tl <= x).
Proof.
  intros L U Nl Nh Ql Qh Hb Rx. rewrite (read_lower _ _ _ _ _ _ L Nl Ql), (read_upper _ _ _ _ _ _ U Nh Qh) by lia.
  destruct (Z.eqb_spec b 127); [lia|].
  destruct (below24_spec (at7 (b + 1))) as (_ & _ & B); [apply at7_pos; lia|apply float24_rep|]. rewrite B by exact Rx.
  split; [lra|apply Qnot_le_lt].
Qed.
Definition bend_lo : fspec := FSpec (-8191) (-8192) 8191 false false true true false Bend false.
Definition bend_hi : fspec := FSpec 8191 (-8192) 8191 false false true true false Bend true.
(** C75, false for the pitch wheel: the flag is set for hibend but does nothing there. *)
Theorem C75_bend_gap_refuted :
  spec_named "loBend" = Some bend_lo /\ spec_named "hiBend" = Some bend_hi /\ f_fill bend_hi = true /\
  exists x, rep24 x /\ 0 < x /\ ~ x <= read bend_hi (str "0") /\ ~ read bend_lo (str "1") <= x.
Proof.
  refine (conj eq_refl (conj eq_refl (conj eq_refl _))). exists (1 # 16384). split.
  - exists 1%Z, (-14)%Z. split; [cbn; lia|reflexivity].
  - refine (conj _ (conj _ _)); vm_compute; congruence.
Qed.
Definition atBend (v : Z) : Q := float24 (inject_Z v / 8191).
Lemma atBend_mono a b : (a <= b)%Z -> atBend a <= atBend b.
Proof. intros H. apply float24_mono. apply le_Q in H. apply Qmult_le_compat_r; [exact H|]. apply Qinv_le_0_compat. lra. Qed.
(** between two positions of the wheel there are two numbers of 15 binary places *)
Lemma atBend_strict a b : (-8192 <= a <= 8191)%Z -> (a < b)%Z -> atBend a < atBend b.
Proof.
  intros Ha Hb. apply Qlt_le_trans with (atBend (a + 1)); [|apply atBend_mono; lia].
  set (k := (- ((- (a * 32768)) / 8191))%Z).
  assert (K : (a * 32768 <= k * 8191 < a * 32768 + 8191)%Z).
  { unfold k. pose proof (Z.div_mod (- (a * 32768)) 8191 ltac:(lia)). pose proof (Z.mod_pos_bound (- (a * 32768)) 8191 ltac:(lia)). lia. }
  assert (Rk : forall j, (Z.abs j < 2 ^ 24)%Z -> rep24 (inject_Z j * Qpower 2 (-15))).
  { intros j J. exists j, (-15)%Z. split; [exact J|reflexivity]. }
  assert (Kb : (Z.abs k < 2 ^ 24)%Z /\ (Z.abs (k + 1) < 2 ^ 24)%Z) by (cbn; lia).
  assert (A1 : inject_Z a / 8191 <= inject_Z k * Qpower 2 (-15)).
  { change (Qpower 2 (-15)) with (/ 32768). apply Qle_shift_div_r; [lra|]. destruct K as [K _]. apply le_Q in K. rewrite !inject_Z_mult in K.
    change (inject_Z 32768) with 32768 in K. change (inject_Z 8191) with 8191 in K. setoid_replace (inject_Z k * / 32768 * 8191) with (inject_Z k * 8191 / 32768) by (field).
    apply Qle_shift_div_l; [lra|exact K]. }
  assert (A2 : inject_Z (k + 1) * Qpower 2 (-15) <= inject_Z (a + 1) / 8191).
  { change (Qpower 2 (-15)) with (/ 32768). apply Qle_shift_div_l; [lra|]. assert (K2 : ((k + 1) * 8191 <= (a + 1) * 32768)%Z) by lia. apply le_Q in K2. rewrite !inject_Z_mult in K2.
    change (inject_Z 32768) with 32768 in K2. change (inject_Z 8191) with 8191 in K2. setoid_replace (inject_Z (k + 1) * / 32768 * 8191) with (inject_Z (k + 1) * 8191 / 32768) by (field).
    apply Qle_shift_div_r; [lra|exact K2]. }
  apply float24_mono in A1. apply float24_mono in A2. rewrite (float24_of_rep (inject_Z k * _)) in A1 by (apply Rk; apply Kb). rewrite (float24_of_rep (inject_Z (k + 1) * _)) in A2 by (apply Rk; apply Kb).
  unfold atBend. assert (inject_Z k * Qpower 2 (-15) < inject_Z (k + 1) * Qpower 2 (-15)) by (apply Qmult_lt_compat_r; [apply p2_pos|apply lt_Q; lia]). lra.
Qed.
Lemma bend_rep q v : q == inject_Z v -> (-8192 <= v <= 8191)%Z -> float24 q == inject_Z v.
Proof. intros H V. rewrite (float24_wd q (inject_Z v) H). apply float24_of_rep, rep24_Z. cbn. lia. Qed.
Lemma read_bend d f t q rest v : number t q rest -> q == inject_Z v -> (-8192 <= v <= 8191)%Z -> read (FSpec d (-8192) 8191 false false true true false Bend f) t = atBend v.
Proof.
  intros N Q V. unfold read, readFloatOr. rewrite (C76_number _ _ _ _ _ _ _ N).
  pose proof (bend_rep q v Q V) as E. unfold transformFloat. cbn [f_wrap f_hi f_lo f_enforceHi f_permHi f_enforceLo f_permLo].
  assert (Hh : Qle_bool (float24 q) 8191 = true) by (apply Qle_bool_iff; rewrite E; apply (le_Q v 8191); lia).
  assert (Hl : Qle_bool (-8192) (float24 q) = true) by (apply Qle_bool_iff; rewrite E; apply (le_Q (-8192) v); lia).
  rewrite Hh, Hl. cbn [negb]. unfold normalizeInput. cbn [f_norm]. apply float24_wd. rewrite E. reflexivity.
Qed.
(** C75: lobend and hibend hold exactly the positions of the pitch wheel between them; the lowest position, -8192, counts as -8191. *)
Theorem C75_bend tl ql rl th qh rh a b v : number tl ql rl -> number th qh rh -> ql == inject_Z a -> qh == inject_Z b ->
  (-8192 <= a <= 8191)%Z -> (-8192 <= b <= 8191)%Z -> (-8192 <= v <= 8191)%Z ->
  exists sl sh, spec_named "loBend" = Some sl /\ spec_named "hiBend" = Some sh /\
  (read sl tl <= normalizeBend v <= read sh th <-> (a <= Z.max (-8191) v <= b)%Z).
Proof.
  intros Nl Nh Ql Qh Ha Hb Hv. exists bend_lo, bend_hi. split; [reflexivity|]. split; [reflexivity|]. unfold bend_lo, bend_hi.
  rewrite (read_bend _ _ _ _ _ _ Nl Ql Ha), (read_bend _ _ _ _ _ _ Nh Qh Hb). unfold normalizeBend. rewrite (Z.min_l v) by lia. fold (atBend (Z.max (-8191) v)). set (w := Z.max (-8191) v).
  assert (L : forall x y, (-8192 <= x <= 8191)%Z -> (-8192 <= y <= 8191)%Z -> (atBend x <= atBend y <-> (x <= y)%Z)).
  { intros x y X Y. split; [|apply atBend_mono]. intros H. destruct (Z.le_gt_cases x y) as [|G]; [assumption|]. assert (atBend y < atBend x) by (apply atBend_strict; lia). lra. }
  rewrite !L by lia. reflexivity.
Qed.
Example C75_bend_ex : number (str "100") 100 [] /\ normalizeBend (-8192) == -1 /\ read bend_lo (str "100") <= normalizeBend 100 /\ ~ read bend_lo (str "100") <= normalizeBend 99 /\
  ~ normalizeBend 101 <= read bend_hi (str "100").
Proof.
  split; [apply (number_int (str "100") []); [split; [discriminate|]; repeat constructor; cbn; lia|exact Logic.I]|].
  refine (conj _ (conj _ (conj _ _))); vm_compute; congruence.
Qed.
Example C75_ex : exists sl sh, lower "loVel" sl /\ upper "hiVel" sh /\ number (str "64") 64 [] /\ number (str "63") 63 [] /\
  read sh (str "63") < read sl (str "64") /\ read sl (str "64") == normalize7Bits 64 /\ normalize7Bits 63 < read sh (str "63").
Proof.
  eexists _, _. refine (conj (conj _ eq_refl) (conj (conj _ eq_refl) (conj _ (conj _ _)))).
  - cbn; tauto.
  - cbn; tauto.
  - apply (number_int (str "64") []); [split; [discriminate|]; repeat constructor; cbn; lia|exact Logic.I].
  - apply (number_int (str "63") []); [split; [discriminate|]; repeat constructor; cbn; lia|exact Logic.I].
  - refine (conj _ (conj _ _)); vm_compute; congruence.
Qed.
