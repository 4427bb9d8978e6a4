(** Scala scales (C90). *)
From Coq Require Import ZArith List Bool Lia Reals Lra.
From Coq Require String.
From Verif Require Import ParserModel TuningModel.
Import ListNotations.
Local Open Scope Z_scope.

(** *** The pitch of a degree of a scale *)
(** What the format says: degree 0 is the base, degree [j] up to the number of tones is the tone [j], and the last tone is the period after which the
    scale starts again. *)
Definition degree (s : list R) (j : Z) : R := if j =? 0 then 0%R else (nth (Z.to_nat (j - 1)) s 1 - 1)%R.
Definition period (s : list R) : R := (last s 1 - 1)%R.
Definition octaves (s : list R) (d : Z) : R := (degree s (d mod Z.of_nat (length s)) + IZR (d / Z.of_nat (length s)) * period s)%R.

Lemma toneAt_nth s i : 0 <= i < Z.of_nat (length s) -> toneAt s i = Some (nth (Z.to_nat i) s 1%R).
Proof. intros I. unfold toneAt. destruct (Z.ltb_spec i 0); [lia|]. apply nth_error_nth'. lia. Qed.
Lemma last_nth (s : list R) : s <> [] -> nth (Z.to_nat (Z.of_nat (length s) - 1)) s 1%R = last s 1%R.
Proof.
  intros N. replace (Z.to_nat (Z.of_nat (length s) - 1)) with (length s - 1)%nat by lia.
  induction s as [|a [|b l] IH]; [congruence|reflexivity|].
  cbn [length] in *. replace (S (S (length l)) - 1)%nat with (S (S (length l) - 1)) by lia. exact (IH ltac:(discriminate)).
Qed.
Lemma degree_last s : s <> [] -> degree s (Z.of_nat (length s)) = period s.
Proof.
  intros N. unfold degree, period. destruct (Z.eqb_spec (Z.of_nat (length s)) 0) as [E|E]; [destruct s; [congruence|cbn in E; lia]|].
  now rewrite last_nth.
Qed.
Lemma octaves_form s d m k : s <> [] -> d = m + Z.of_nat (length s) * k -> 0 <= m <= Z.of_nat (length s) -> octaves s d = (degree s m + IZR k * period s)%R.
Proof.
  intros N E M. unfold octaves. remember (Z.of_nat (length s)) as c eqn:C. assert (0 < c) as P by (destruct s; [congruence|cbn in C; lia]).
  destruct (Z.eq_dec m c) as [->|D].
  - assert (d / c = k + 1) as -> by (symmetry; apply Z.div_unique with 0; lia). assert (d mod c = 0) as -> by (symmetry; apply Z.mod_unique with (k + 1); lia).
    rewrite C, degree_last by assumption. unfold degree. cbn [Z.eqb]. rewrite plus_IZR. ring.
  - assert (d / c = k) as -> by (symmetry; apply Z.div_unique with m; lia). assert (d mod c = m) as -> by (symmetry; apply Z.mod_unique with k; lia). reflexivity.
Qed.

Lemma bringUp_spec c dt : 0 < c -> forall fuel pos shift, (Z.to_nat (- pos) < fuel)%nat -> pos <= c -> exists k,
  bringUp fuel c dt pos shift = (pos + c * k, (shift + IZR k * dt)%R) /\ 0 <= pos + c * k <= c.
Proof.
  intros C. induction fuel as [|f IH]; intros pos shift F B; [lia|]. cbn [bringUp]. destruct (Z.ltb_spec pos 0).
  - destruct (IH (pos + c) (shift + dt)%R) as (k & -> & K); [lia..|]. exists (k + 1). split; [|lia]. f_equal; [lia|]. rewrite plus_IZR. ring.
  - exists 0. split; [|lia]. f_equal; [lia|]. ring.
Qed.
Lemma bringUp_id fuel c dt pos shift : 0 <= pos -> bringUp fuel c dt pos shift = (pos, shift).
Proof. intros P. destruct fuel; [reflexivity|]. cbn [bringUp]. now destruct (Z.ltb_spec pos 0); [lia|]. Qed.
Lemma bringDown_spec c dt : 0 < c -> forall fuel pos shift, (Z.to_nat pos < fuel)%nat -> 0 <= pos -> exists k,
  bringDown fuel c dt pos shift = (pos - c * k, (shift - IZR k * dt)%R) /\ 0 <= pos - c * k <= c.
Proof.
  intros C. induction fuel as [|f IH]; intros pos shift F B; [lia|]. cbn [bringDown]. destruct (Z.ltb_spec c pos).
  - destruct (IH (pos - c) (shift - dt)%R) as (k & -> & K); [lia..|]. exists (k + 1). split; [|lia]. f_equal; [lia|]. rewrite plus_IZR. ring.
  - exists 0. split; [|lia]. f_equal; [lia|]. ring.
Qed.
(** Both loops end within the given number of rounds. *)
Lemma bring_spec (s : list R) pos : s <> [] -> forall dt, exists k,
  (let '(p, shift) := bringUp (S (Z.to_nat (- pos))) (Z.of_nat (length s)) dt pos 0 in bringDown (S (Z.to_nat p)) (Z.of_nat (length s)) dt p shift)
    = (pos - Z.of_nat (length s) * k, (- (IZR k * dt))%R) /\ 0 <= pos - Z.of_nat (length s) * k <= Z.of_nat (length s).
Proof.
  intros N dt. assert (0 < Z.of_nat (length s)) as P by (destruct s; [congruence|cbn [length]; lia]). set (c := Z.of_nat (length s)) in *. clearbody c.
  destruct (Z.le_gt_cases 0 pos) as [Q|Q].
  - rewrite bringUp_id by assumption. destruct (bringDown_spec c dt P (S (Z.to_nat pos)) pos 0%R) as (k & -> & K); [lia..|].
    exists k. split; [|exact K]. f_equal. ring.
  - destruct (bringUp_spec c dt P (S (Z.to_nat (- pos))) pos 0%R) as (k & -> & K); [lia..|].
    destruct (bringDown_spec c dt P (S (Z.to_nat (pos + c * k))) (pos + c * k) (0 + IZR k * dt)%R) as (j & -> & J); [lia..|].
    exists (j - k). split; [|lia]. f_equal; [lia|]. rewrite minus_IZR. ring.
Qed.
Lemma centre_spec s root note : s <> [] -> exists pos, tuningCentre s root note = Some (pos, octaves s (note - root)) /\
  0 <= pos <= Z.of_nat (length s) /\ pos mod Z.of_nat (length s) = (note - root) mod Z.of_nat (length s).
Proof.
  intros N. unfold tuningCentre. assert (0 < Z.of_nat (length s)) as P by (destruct s; [congruence|cbn [length]; lia]).
  destruct (Z.eqb_spec (note - root) 0) as [E|E].
  { exists 0. split; [|split; [lia|now rewrite E]]. f_equal. f_equal. rewrite E. unfold octaves. rewrite Z.mod_0_l, Z.div_0_l by lia. unfold degree. cbn [Z.eqb]. ring. }
  rewrite toneAt_nth by lia. rewrite last_nth by assumption.
  destruct (bring_spec s (note - root) N (last s 1 - 1)%R) as (k & B & K).
  destruct (bringUp _ _ _ _ _) as [p shift]. rewrite B.
  set (pos := note - root - Z.of_nat (length s) * k) in *. exists pos.
  assert (octaves s (note - root) = degree s pos + IZR k * period s)%R as O by (apply octaves_form; [assumption|unfold pos; lia|exact K]).
  split; [|split; [exact K|]].
  - rewrite O. unfold degree, period. destruct (Z.eqb_spec pos 0) as [Z0|Z0].
    + f_equal. f_equal. ring.
    + rewrite toneAt_nth by lia. f_equal. f_equal. ring.
  - unfold pos. replace (note - root - Z.of_nat (length s) * k) with (note - root + (- k) * Z.of_nat (length s)) by ring. now apply Z_mod_plus_full.
Qed.
Lemma cut_floor a c : 0 < c -> (let '(t, r) := (if Z.rem a c <? 0 then (Z.rem a c + c, Z.quot a c - 1) else (Z.rem a c, Z.quot a c)) in (t, r)) = (a mod c, a / c).
Proof.
  intros C. pose proof (Z.quot_rem' a c) as E. pose proof (Z.rem_bound_abs a c ltac:(lia)) as B.
  destruct (Z.ltb_spec (Z.rem a c) 0); f_equal.
  - apply Z.mod_unique with (Z.quot a c - 1); lia.
  - apply Z.div_unique with (Z.rem a c + c); lia.
  - apply Z.mod_unique with (Z.quot a c); lia.
  - apply Z.div_unique with (Z.rem a c); lia.
Qed.
(** C90: for every scale that is not empty, every root key and tuning key, the pitch in the table is that of the degree of the key counted from the root,
    relative to the degree of the tuning key; no tone outside of the scale is read, and the place recorded is the degree within the period. *)
Theorem C90_pitch s root note key : s <> [] ->
  keyPitch s root note key = Some ((1 + octaves s (key - root) - octaves s (note - root))%R, (key - root) mod Z.of_nat (length s)).
Proof.
  intros N. unfold keyPitch. destruct (centre_spec s root note N) as (pos & -> & B & M).
  assert (0 < Z.of_nat (length s)) as P by (destruct s; [congruence|cbn [length]; lia]).
  destruct (Z.eqb_spec key note) as [->|D].
  - f_equal. f_equal; [ring|]. rewrite Z.rem_mod_nonneg by lia. exact M.
  - pose proof (cut_floor (key - root - 1) (Z.of_nat (length s)) P) as C.
    destruct (if Z.rem (key - root - 1) (Z.of_nat (length s)) <? 0 then _ else _) as [this rounds]. injection C as -> ->.
    pose proof (Z.mod_pos_bound (key - root - 1) (Z.of_nat (length s)) P) as R1. pose proof (Z.div_mod (key - root - 1) (Z.of_nat (length s)) ltac:(lia)) as R2.
    set (m := (key - root - 1) mod Z.of_nat (length s)) in *. set (q := (key - root - 1) / Z.of_nat (length s)) in *.
    rewrite !toneAt_nth by lia. rewrite last_nth by assumption.
    assert (octaves s (key - root) = degree s (m + 1) + IZR q * period s)%R as -> by (apply octaves_form; [assumption|lia|lia]).
    f_equal. f_equal.
    + unfold degree, period. destruct (Z.eqb_spec (m + 1) 0); [lia|]. replace (m + 1 - 1) with m by lia. ring.
    + rewrite Z.rem_mod_nonneg by lia. replace (key - root) with (m + 1 + q * Z.of_nat (length s)) by lia. now rewrite Z_mod_plus_full.
Qed.

(** *** Frequencies *)
Lemma ln2_pos : (0 < ln 2)%R.
Proof. pose proof ln_lt_2. lra. Qed.
Lemma power_log2 x : (0 < x)%R -> Rpower 2 (log2 x) = x.
Proof. intros P. unfold Rpower, log2. pose proof ln2_pos. replace (ln x / ln 2 * ln 2)%R with (ln x) by (field; lra). now apply exp_ln. Qed.
Lemma log2_power x : log2 (Rpower 2 x) = x.
Proof. unfold Rpower, log2. rewrite ln_exp. pose proof ln2_pos. field. lra. Qed.
Lemma log2_mult x y : (0 < x)%R -> (0 < y)%R -> log2 (x * y) = (log2 x + log2 y)%R.
Proof. intros. unfold log2. rewrite ln_mult by assumption. pose proof ln2_pos. field. lra. Qed.
Lemma log2_1 : log2 1 = 0%R.
Proof. unfold log2. rewrite ln_1. pose proof ln2_pos. field. lra. Qed.

(** The key whose table entry is used: keys from -256 to 255 have one. *)
Definition nearestKey (key : Z) : Z := Z.max (-256) (Z.min 255 key).
(** C90: the frequency of a key, for every scale, root and tuning frequency. *)
Theorem C90_frequency s root f key : s <> [] -> (0 < f)%R ->
  frequencyForMidiNote s root f key = Some (f * Rpower 2 (octaves s (nearestKey key - root) - octaves s (69 - root)))%R.
Proof.
  intros N F. unfold frequencyForMidiNote, ptable. replace (clampIndex key - keyOffset) with (nearestKey key) by (unfold clampIndex, nearestKey, keyOffset, tableSize; lia).
  rewrite C90_pitch by assumption. f_equal.
  set (a := octaves s (nearestKey key - root)). set (b := octaves s (69 - root)).
  replace (1 + a - b + (log2 (f / midi0) - 1))%R with (a - b + log2 (f / midi0))%R by ring.
  assert (0 < midi0)%R as M by (unfold midi0; lra).
  rewrite Rpower_plus, power_log2 by (apply Rdiv_lt_0_compat; assumption). field. lra.
Qed.
(** C90: key 69 has the tuning frequency, whatever the scale and its root. *)
Theorem C90_tuning_key s root f : s <> [] -> (0 < f)%R -> frequencyForMidiNote s root f 69 = Some f.
Proof. intros N F. rewrite C90_frequency by assumption. change (nearestKey 69) with 69. rewrite Rminus_diag_eq by reflexivity. rewrite Rpower_O by lra. f_equal. ring. Qed.
(** C90: as many keys higher as the scale has tones, the frequency is higher by the last tone of the scale. *)
Theorem C90_period s root f key a b : s <> [] -> (0 < f)%R -> -256 <= key -> key + Z.of_nat (length s) <= 255 ->
  frequencyForMidiNote s root f key = Some a -> frequencyForMidiNote s root f (key + Z.of_nat (length s)) = Some b -> b = (a * Rpower 2 (period s))%R.
Proof.
  intros N F K1 K2. rewrite !C90_frequency by assumption. intros A B. injection A as <-. injection B as <-.
  unfold nearestKey. replace (Z.max (-256) (Z.min 255 key)) with key by lia.
  replace (Z.max (-256) (Z.min 255 (key + Z.of_nat (length s)))) with (key + Z.of_nat (length s)) by lia.
  rewrite Rmult_assoc, <- Rpower_plus. do 2 f_equal.
  assert (0 < Z.of_nat (length s)) as P by (destruct s; [congruence|cbn [length]; lia]).
  assert (octaves s (key + Z.of_nat (length s) - root) = octaves s (key - root) + period s)%R as ->; [|ring].
  unfold octaves. replace (key + Z.of_nat (length s) - root) with (key - root + 1 * Z.of_nat (length s)) by lia.
  rewrite Z_mod_plus_full, Z.div_add by lia. rewrite plus_IZR. ring.
Qed.
(** C90: if the tones of the scale rise, so do the keys. *)
Definition rising (s : list R) : Prop := forall i, 0 <= i < Z.of_nat (length s) -> (degree s i < degree s (i + 1))%R.
Lemma rising_octaves s : s <> [] -> rising s -> forall d, (octaves s d < octaves s (d + 1))%R.
Proof.
  intros N R d. assert (0 < Z.of_nat (length s)) as P by (destruct s; [congruence|cbn [length]; lia]).
  pose proof (Z.mod_pos_bound d (Z.of_nat (length s)) P). pose proof (Z.div_mod d (Z.of_nat (length s)) ltac:(lia)).
  rewrite (octaves_form s (d + 1) (d mod Z.of_nat (length s) + 1) (d / Z.of_nat (length s))) by (assumption || lia).
  unfold octaves. pose proof (R (d mod Z.of_nat (length s)) ltac:(lia)). lra.
Qed.
Theorem C90_rising s root f k k' a b : s <> [] -> (0 < f)%R -> rising s -> -256 <= k -> k < k' -> k' <= 255 ->
  frequencyForMidiNote s root f k = Some a -> frequencyForMidiNote s root f k' = Some b -> (a < b)%R.
Proof.
  intros N F R K1 K2 K3. rewrite !C90_frequency by assumption. intros A B. injection A as <-. injection B as <-.
  unfold nearestKey. replace (Z.max (-256) (Z.min 255 k)) with k by lia. replace (Z.max (-256) (Z.min 255 k')) with k' by lia.
  apply Rmult_lt_compat_l; [assumption|]. apply Rpower_lt; [lra|].
  assert (forall n d, (octaves s d < octaves s (d + 1 + Z.of_nat n))%R) as M.
  { induction n as [|n IH]; intros d; [rewrite Z.add_0_r; now apply rising_octaves|].
    replace (d + 1 + Z.of_nat (S n)) with (d + 1 + Z.of_nat n + 1) by lia. pose proof (rising_octaves s N R (d + 1 + Z.of_nat n)). pose proof (IH d). lra. }
  pose proof (M (Z.to_nat (k' - k - 1)) (k - root)) as L. replace (k - root + 1 + Z.of_nat (Z.to_nat (k' - k - 1))) with (k' - root) in L by lia. lra.
Qed.

(** *** Equal temperament *)
Lemma even_octaves d : octaves evenScale d = (IZR d / 12)%R.
Proof.
  unfold octaves. assert (length evenScale = 12%nat) as -> by reflexivity. change (Z.of_nat 12) with 12.
  pose proof (Z.mod_pos_bound d 12 ltac:(lia)) as B. pose proof (Z.div_mod d 12 ltac:(lia)) as E.
  assert (period evenScale = 1%R) as -> by (unfold period, evenScale; cbn; lra).
  assert (degree evenScale (d mod 12) = IZR (d mod 12) / 12)%R as ->.
  { set (m := d mod 12) in *. clearbody m. clear E.
    unfold degree. destruct (Z.eqb_spec m 0) as [->|N0]; [lra|]. unfold evenScale.
    set (f := fun i : nat => (IZR (100 * (Z.of_nat i + 1)) / 1200 + 1)%R). rewrite (nth_indep _ 1%R (f 0%nat)) by (rewrite map_length, seq_length; lia).
    rewrite map_nth, seq_nth by lia. unfold f. replace (Z.of_nat (0 + Z.to_nat (m - 1)) + 1) with m by lia. rewrite mult_IZR. field. }
  rewrite E at 3. rewrite plus_IZR, mult_IZR. field.
Qed.
(** C90: with the equal temperament the root key has no effect and every key is itself, moved by what the tuning frequency is above 440 Hz; at 440 Hz it
    is the key. *)
Theorem C90_equal root f : (0 < f)%R -> forall i, (i < 512)%nat ->
  nth_error (keysOf evenScale root f) i = Some (Some (IZR (Z.of_nat i - 256) + 12 * log2 (f / 440)))%R.
Proof.
  intros F i I. unfold keysOf. rewrite nth_error_map. change (Z.to_nat tableSize) with 512%nat.
  rewrite (nth_error_nth' (seq 0 512) 0%nat) by (rewrite seq_length; lia). rewrite seq_nth by lia. cbn [option_map]. f_equal. cbn [plus].
  rewrite C90_frequency by (discriminate || assumption). cbn [option_map]. f_equal.
  unfold nearestKey, keyOffset. replace (Z.max (-256) (Z.min 255 (Z.of_nat i - 256))) with (Z.of_nat i - 256) by lia.
  rewrite !even_octaves, !minus_IZR.
  set (e := (_ / 12 - _ / 12)%R). replace (f * Rpower 2 e / 440)%R with (Rpower 2 e * (f / 440))%R by (field; lra).
  rewrite log2_mult, log2_power; [|apply exp_pos|apply Rdiv_lt_0_compat; lra]. unfold e. field.
Qed.

(** *** Tones *)
(** What a tone denotes: how many times the frequency of the root its frequency is *)
Definition toneFactor (atof : text -> R) (t : tone) : R :=
  match t with ToneCents line => Rpower 2 (atof line / 1200) | ToneRatio n d => IZR n / IZR d end.
(** C90: the i-th key above the root is as many times higher as the i-th tone of the scale says. *)
Theorem C90_tones atof tones root f i t : (0 < f)%R -> nth_error tones i = Some t -> (0 < toneFactor atof t)%R -> -256 <= root -> root + Z.of_nat i + 1 <= 255 ->
  exists a b, frequencyForMidiNote (map (floatValue atof) tones) root f root = Some a /\ frequencyForMidiNote (map (floatValue atof) tones) root f (root + Z.of_nat i + 1) = Some b /\ b = (a * toneFactor atof t)%R.
Proof.
  intros F E P B1 B2. assert (N : map (floatValue atof) tones <> []) by (destruct tones; [destruct i; discriminate|discriminate]).
  assert (L : (i < length tones)%nat) by (apply nth_error_Some; congruence).
  do 2 eexists. split; [apply C90_frequency; assumption|]. split; [apply C90_frequency; assumption|].
  unfold nearestKey. replace (Z.max (-256) (Z.min 255 root)) with root by lia. replace (Z.max (-256) (Z.min 255 (root + Z.of_nat i + 1))) with (root + Z.of_nat i + 1) by lia.
  set (s := map (floatValue atof) tones) in *. assert (Ls : length s = length tones) by (unfold s; apply map_length).
  rewrite (octaves_form s (root + Z.of_nat i + 1 - root) (Z.of_nat i + 1) 0 N) by lia. rewrite (octaves_form s (root - root) 0 0 N) by lia.
  assert (D : degree s (Z.of_nat i + 1) = log2 (toneFactor atof t)).
  { unfold degree. destruct (Z.eqb_spec (Z.of_nat i + 1) 0); [lia|]. replace (Z.to_nat (Z.of_nat i + 1 - 1)) with i by lia. unfold s.
    rewrite (nth_error_nth _ i 1%R (map_nth_error (floatValue atof) _ _ E)). destruct t as [l|n' d']; cbn [floatValue toneFactor]; [rewrite log2_power; field|field]. }
  rewrite D. change (degree s 0) with 0%R. set (x := octaves s (69 - root)).
  replace (log2 (toneFactor atof t) + 0 * period s - x)%R with (log2 (toneFactor atof t) + (0 + 0 * period s - x))%R by ring.
  rewrite Rpower_plus, power_log2 by exact P. ring.
Qed.
Example C90_tones_ex : (0 < toneFactor (fun _ => 702%R) (ToneRatio 3 2))%R /\ nth_error [ToneCents [55; 48; 50; 46]; ToneRatio 3 2; ToneRatio 2 1] 1 = Some (ToneRatio 3 2).
Proof. split; [cbn; lra|reflexivity]. Qed.

(** *** The settings *)
(** The table is that of the scale, the root key and the tuning frequency that are set. *)
Definition consistent (t : tuning) : Prop :=
  tu_mapRoot t = tu_root t /\ tu_mapFrequency t = tu_frequency t /\ tu_keys t = keysOf (tu_scale t) (tu_root t) (tu_frequency t).
Lemma consistent_step atof t o : consistent t -> consistent (tuningStep atof t o).
Proof.
  intros (A & B & C). destruct o as [name c|k|f| |]; cbn [tuningStep].
  - unfold loadScala. destruct (readSCL c) as [[|x l]|]; cbn [fst]; unfold consistent, updateScale, updateKeys; cbn; rewrite A, B; auto.
  - unfold updateRootKey. destruct (Z.eqb_spec (tu_root t) (Z.max 0 k)); [now split|]. unfold consistent, updateKeys. cbn. auto.
  - unfold updateTuningFrequency. destruct (Req_EM_T _ _); [now split|]. unfold consistent, updateKeys. cbn. auto.
  - unfold consistent, updateScale, updateKeys. cbn. rewrite A, B. auto.
  - unfold consistent, resetTuning, updateKeys. cbn. auto.
Qed.
(** What was set last, read from the history alone. *)
Definition scaleStep (atof : text -> R) (s : list R) (o : tuningOp) : list R :=
  match o with
  | OpScala _ c => match readSCL c with Some (x :: l) => map (floatValue atof) (x :: l) | _ => evenScale end
  | OpEqual | OpReset => evenScale
  | _ => s
  end.
Definition rootStep (r : Z) (o : tuningOp) : Z := match o with OpRoot k => Z.max 0 k | OpReset => 60 | _ => r end.
Definition frequencyStep (f : R) (o : tuningOp) : R := match o with OpFrequency x => Rmax 0 x | OpReset => 440%R | _ => f end.
Definition lastScale (atof : text -> R) (ops : list tuningOp) : list R := fold_left (scaleStep atof) ops evenScale.
Definition lastRoot (ops : list tuningOp) : Z := fold_left rootStep ops 60.
Definition lastFrequency (ops : list tuningOp) : R := fold_left frequencyStep ops 440%R.
Definition fileStep (x : option text) (o : tuningOp) : option text :=
  match o with OpScala name c => match readSCL c with Some (_ :: _) => name | _ => None end | OpEqual | OpReset => None | _ => x end.
(** the file of the scale that is in use, if it is from a file *)
Definition lastFile (ops : list tuningOp) : option text := fold_left fileStep ops None.
(** C90: the file remembered is that of the scale in use. *)
Theorem C90_file atof ops : tu_file (fold_left (tuningStep atof) ops freshTuning) = lastFile ops.
Proof.
  unfold lastFile. assert (G : forall t x, tu_file t = x -> tu_file (fold_left (tuningStep atof) ops t) = fold_left fileStep ops x); [|now apply G].
  induction ops as [|o ops IH]; intros t x E; [exact E|]. cbn [fold_left]. apply IH. destruct o as [name c|k|g| |]; cbn [tuningStep fileStep]; try reflexivity.
  - unfold loadScala. destruct (readSCL c) as [[|y l]|]; reflexivity.
  - unfold updateRootKey. destruct (tu_root t =? _); exact E.
  - unfold updateTuningFrequency. destruct (Req_EM_T _ _); exact E.
Qed.
Lemma settings_steps atof ops : forall t0 s0 r0 f0, consistent t0 -> tu_scale t0 = s0 -> tu_root t0 = r0 -> tu_frequency t0 = f0 -> s0 <> [] ->
  let t := fold_left (tuningStep atof) ops t0 in
  consistent t /\ tu_scale t = fold_left (scaleStep atof) ops s0 /\ tu_root t = fold_left rootStep ops r0 /\
  tu_frequency t = fold_left frequencyStep ops f0 /\ fold_left (scaleStep atof) ops s0 <> [].
Proof.
  induction ops as [|o ops IH]; intros t0 s0 r0 f0 C0 E1 E2 E3 N0; cbn [fold_left]; [exact (conj C0 (conj E1 (conj E2 (conj E3 N0))))|].
  apply IH; [now apply consistent_step|..].
  - destruct o as [name c|k|g| |]; cbn [tuningStep scaleStep]; try reflexivity.
    + unfold loadScala. destruct (readSCL c) as [[|x l]|]; reflexivity.
    + unfold updateRootKey. destruct (tu_root t0 =? _); exact E1.
    + unfold updateTuningFrequency. destruct (Req_EM_T _ _); exact E1.
  - destruct o as [name c|k|g| |]; cbn [tuningStep].
    + unfold loadScala. destruct (readSCL c) as [[|x l]|]; exact E2.
    + unfold updateRootKey. destruct (Z.eqb_spec (tu_root t0) (Z.max 0 k)); [assumption|reflexivity].
    + unfold updateTuningFrequency. destruct (Req_EM_T _ _); exact E2.
    + exact E2.
    + reflexivity.
  - destruct o as [name c|k|g| |]; cbn [tuningStep].
    + unfold loadScala. destruct (readSCL c) as [[|x l]|]; exact E3.
    + unfold updateRootKey. destruct (tu_root t0 =? _); exact E3.
    + unfold updateTuningFrequency. destruct (Req_EM_T _ _) as [E|]; [exact E|reflexivity].
    + exact E3.
    + reflexivity.
  - destruct o as [name c|k|g| |]; try assumption; try discriminate. cbn [scaleStep]. destruct (readSCL c) as [[|x l]|]; discriminate.
Qed.
(** C90: after any sequence of operations the keys are those of the scale, root and frequency set last, in whatever order they were set; the two
    queries of a key agree with them. *)
Theorem C90_settings atof ops : let t := fold_left (tuningStep atof) ops freshTuning in
  let s := lastScale atof ops in let r := lastRoot ops in let f := lastFrequency ops in
  tu_root t = r /\ tu_frequency t = f /\ s <> [] /\
  (forall key, getFrequencyOfKey t key = frequencyForMidiNote s r f key) /\
  (forall key, getKeyFractional12TET t key = option_map (fun x => 12 * log2 (x / 440) + 69)%R (frequencyForMidiNote s r f key)).
Proof.
  intros t s r f.
  assert (consistent t /\ tu_scale t = s /\ tu_root t = r /\ tu_frequency t = f /\ s <> []) as (C & S0 & R0 & F0 & N).
  { apply (settings_steps atof ops freshTuning evenScale 60 440%R); try reflexivity; [|discriminate]. unfold consistent, freshTuning, updateKeys. cbn. auto. }
  destruct C as (A & B & K). split; [exact R0|]. split; [exact F0|]. split; [exact N|]. split.
  - intros key. unfold getFrequencyOfKey. now rewrite A, B, S0, R0, F0.
  - intros key. unfold getKeyFractional12TET. rewrite K, S0, R0, F0. unfold keysOf. rewrite nth_error_map. change (Z.to_nat tableSize) with 512%nat.
    set (i := Z.to_nat _). assert (i < 512)%nat as I by (unfold i, tableSize, keyOffset; lia).
    rewrite (nth_error_nth' (seq 0 512) 0%nat) by (rewrite seq_length; lia). rewrite seq_nth by lia. cbn [option_map plus]. f_equal.
    unfold frequencyForMidiNote. replace (clampIndex (Z.of_nat i - keyOffset)) with (clampIndex key); [reflexivity|]. unfold i, clampIndex, tableSize, keyOffset. lia.
Qed.
(** C90: two settings made in either order give the same keys. *)
Theorem C90_order atof ops name c k f key : let run l := fold_left (tuningStep atof) l freshTuning in
  getFrequencyOfKey (run (ops ++ [OpScala name c; OpRoot k; OpFrequency f])) key = getFrequencyOfKey (run (ops ++ [OpFrequency f; OpRoot k; OpScala name c])) key.
Proof.
  intros run. unfold run. destruct (C90_settings atof (ops ++ [OpScala name c; OpRoot k; OpFrequency f])) as (_ & _ & _ & -> & _).
  destruct (C90_settings atof (ops ++ [OpFrequency f; OpRoot k; OpScala name c])) as (_ & _ & _ & -> & _).
  unfold lastScale, lastRoot, lastFrequency. rewrite !fold_left_app. reflexivity.
Qed.
Example C90_ex : let just := map (fun n => log2 n + 1)%R [9/8; 5/4; 4/3; 3/2; 5/3; 15/8; 2]%R in
  just <> [] /\ keyPitch just 60 69 67 = Some ((1 + octaves just 7 - octaves just 9)%R, 0) /\
  octaves just 7 = (0 + 1 * (log2 2 + 1 - 1))%R /\ octaves just (-1) = ((log2 (15 / 8) + 1 - 1) + -1 * (log2 2 + 1 - 1))%R /\ rising [2%R].
Proof.
  cbv zeta. split; [discriminate|]. split; [rewrite C90_pitch by discriminate; reflexivity|]. split; [reflexivity|]. split; [reflexivity|].
  intros i I. cbn [length] in I. assert (i = 0) as -> by lia. unfold degree. cbn. lra.
Qed.
