(** The level and the pitch a note starts with (C89). *)
From Coq Require Import QArith Qround ZArith List Bool Lia Reals Lra Qreals Lqa.
Import ListNotations.
From Verif Require Import AdsrModel AdsrRange CcEnvModel Crossfade CurveModel Curve NoteStartModel.
Local Open Scope Q_scope.

(** *** What controllers add *)
(** With curves of 128 points, whatever the controllers. *)
Lemma track_some cs cc mods : (forall i, length (cs i) = 128%nat) -> forall base, exists t, track cs cc base mods = Some t.
Proof.
  intros C. induction mods as [|[[n c] a] l IH]; intros base; cbn [track]; [now exists base|].
  destruct (C35_never_outside Datatypes.id (cs c) (C c)) as (_ & _ & N). destruct (N (cc n)) as [y ->]. apply IH.
Qed.
(** The sum of the amounts, each times the value [f] of its curve. *)
Fixpoint amounts (f : Z -> nat -> Q) (mods : list (Z * nat * Q)) : Q :=
  match mods with [] => 0 | (n, c, a) :: l => f n c * a + amounts f l end.
Lemma track_amounts cs cc f mods : (forall n c, exists y, evalNormalized Datatypes.id (cs c) (cc n) = Some y /\ y == f n c) ->
  forall base, exists t, track cs cc base mods = Some t /\ t == base + amounts f mods.
Proof.
  intros F. induction mods as [|[[n c] a] l IH]; intros base; cbn [track amounts].
  - exists base. split; [reflexivity|lra].
  - destruct (F n c) as (y & -> & Y). destruct (IH (base + y * a)) as (t & T & Et). exists t. split; [exact T|]. rewrite Et, Y. ring.
Qed.

(** *** Velocity *)
Lemma vc_value r cs cc v g0 t : match nr_velCurve r with Some c => evalNormalized Datatypes.id c v | None => Some (v * v) end = Some g0 ->
  track cs cc (nr_veltrack r) (nr_veltrackCC r) = Some t ->
  exists g, velocityCurve r cs cc v = Some g /\ (0 <= t -> g == 1 - t * (1 - g0)) /\ (t < 0 -> g == - t * (1 - g0)).
Proof.
  intros G T. unfold velocityCurve. rewrite G, T. eexists. split; [reflexivity|]. unfold Qabsf. split; intros S.
  - assert (Qltb t 0 = false) as -> by (apply Qltb_nspec; lra). assert (Qle_bool 0 t = true) as -> by (apply Qle_bool_iff; lra). reflexivity.
  - assert (Qltb t 0 = true) as -> by (apply Qltb_spec; lra). assert (Qle_bool 0 t = false) as -> by (apply Qle_bool_nspec; lra). reflexivity.
Qed.
(** C89: the gain of the velocity [v] for a region without amp_velcurve points, [t] being amp_veltrack with its controllers: the square of the
    velocity at 100 %, constant at 0 %, the complement of the square at -100 %; in between never above 1, never below what is left of 1, and full
    at full velocity. *)
Theorem C89_velocity r cs cc v t : nr_velCurve r = None -> 0 <= v <= 1 -> track cs cc (nr_veltrack r) (nr_veltrackCC r) = Some t ->
  exists g, velocityCurve r cs cc v = Some g /\
    (t == 1 -> g == v * v) /\ (t == 0 -> g == 1) /\ (t == - (1) -> g == 1 - v * v) /\
    (0 <= t <= 1 -> 1 - t <= g <= 1) /\ (0 <= t -> v == 1 -> g == 1) /\ (0 <= t -> v == 0 -> g == 1 - t) /\
    (- (1) <= t < 0 -> 0 <= g <= - t).
Proof.
  intros N V T. destruct (vc_value r cs cc v (v * v) t) as (g & E & P & M); [now rewrite N|exact T|]. exists g. split; [exact E|].
  assert (0 <= v * v <= 1) as V2 by (split; nra).
  repeat split; intros.
  - rewrite P by lra. rewrite H. ring.
  - rewrite P by lra. rewrite H. ring.
  - rewrite M by lra. rewrite H. ring.
  - rewrite P by lra. nra.
  - rewrite P by lra. nra.
  - rewrite P by lra. rewrite H0. ring.
  - rewrite P by lra. rewrite H0. ring.
  - rewrite M by lra. nra.
  - rewrite M by lra. nra.
Qed.
(** C89: a harder note is never softer for a tracking of 0 or more, and never louder for a negative one. *)
Theorem C89_velocity_monotone r cs cc v v' t g g' : nr_velCurve r = None -> 0 <= v -> v <= v' -> track cs cc (nr_veltrack r) (nr_veltrackCC r) = Some t ->
  velocityCurve r cs cc v = Some g -> velocityCurve r cs cc v' = Some g' -> (0 <= t -> g <= g') /\ (t < 0 -> g' <= g).
Proof.
  intros N A B T G G'.
  destruct (vc_value r cs cc v (v * v) t) as (h & E & P & M); [now rewrite N|exact T|].
  destruct (vc_value r cs cc v' (v' * v') t) as (h' & E' & P' & M'); [now rewrite N|exact T|].
  rewrite G in E. injection E as ->. rewrite G' in E'. injection E' as ->.
  assert (v * v <= v' * v') by nra. split; intros S.
  - rewrite P, P' by lra. nra.
  - rewrite M, M' by lra. nra.
Qed.
(** C89: with points, at 100 % and a velocity of 7 bits the gain is the point that was written for it, whatever the other points. *)
Lemma eval_at_point c i a : (i <= 127)%nat -> evalCC7i c (Z.of_nat i) = Some a -> length c = 128%nat ->
  exists y, evalNormalized Datatypes.id c (inject_Z (Z.of_nat i) / 127) = Some y /\ y == a.
Proof.
  intros I P L. unfold evalNormalized, evalCC7, Datatypes.id.
  set (x := Qclamp _ 0 127). assert (x == inject_Z (Z.of_nat i)) as X.
  { unfold x. assert (inject_Z (Z.of_nat i) / 127 * 127 == inject_Z (Z.of_nat i)) as Q0 by field.
    assert (0 <= inject_Z (Z.of_nat i) <= 127) as R0.
    { change 0 with (inject_Z 0). change 127 with (inject_Z 127). rewrite <- !Zle_Qle. lia. }
    destruct (clamp_cases (inject_Z (Z.of_nat i) / 127 * 127) 0 127) as [_ C]; [lra|]. rewrite C; [exact Q0|rewrite Q0; exact R0]. }
  assert (Qtrunc x = Z.of_nat i) as Tr.
  { unfold Qtrunc. assert (Qle_bool 0 x = true) as ->.
    { apply Qle_bool_iff. rewrite X. change 0 with (inject_Z 0). rewrite <- Zle_Qle. lia. }
    rewrite X. apply Qfloor_Z. }
  rewrite Tr, Nat2Z.id. unfold evalCC7i in P. rewrite Z.min_l, Z.max_l, Nat2Z.id in P by lia. rewrite P.
  destruct (nth_error c (Nat.min 127 (i + 1))) eqn:E2; [|apply nth_error_None in E2; lia].
  eexists. split; [reflexivity|]. rewrite X. ring.
Qed.
Theorem C89_velocity_points r cs cc l i a : (i <= 127)%nat -> lastOf i l = Some a ->
  nr_velCurve r = buildFromVelcurvePoints Datatypes.id (velcurvePoints l) false -> nr_veltrackCC r = [] -> nr_veltrack r == 1 ->
  exists g, velocityCurve r cs cc (inject_Z (Z.of_nat i) / 127) = Some g /\ g == a.
Proof.
  intros I A C M T. destruct (C35_velocity_curve Datatypes.id l false) as (c & B & L & P & _).
  rewrite B in C. destruct (eval_at_point c i a I (P i a I A) L) as (y & Y & Ya).
  destruct (vc_value r cs cc (inject_Z (Z.of_nat i) / 127) y (nr_veltrack r)) as (g & E & Pg & _).
  { now rewrite C. } { rewrite M. reflexivity. }
  exists g. split; [exact E|]. rewrite Pg by lra. rewrite T, Ya. ring.
Qed.

(** C89: the step of amp_veltrack at 0. Just above, the gain is almost 1 for every velocity; just below it is almost 0. *)
Theorem C89_veltrack_jump_refuted r cs cc v e : nr_velCurve r = None -> nr_veltrackCC r = [] -> 0 <= v <= 1 -> 0 < e <= 1 ->
  (nr_veltrack r == e -> exists g, velocityCurve r cs cc v = Some g /\ 1 - e <= g) /\
  (nr_veltrack r == - e -> exists g, velocityCurve r cs cc v = Some g /\ g <= e).
Proof.
  intros N M V E. destruct (C89_velocity r cs cc v (nr_veltrack r)) as (g & G & _ & _ & _ & P1 & _ & _ & P2); try assumption; [now rewrite M|].
  split; intros T; exists g; (split; [exact G|]).
  - destruct P1; lra.
  - destruct P2; lra.
Qed.
(** C89: beyond 100 % the gain is negative for soft notes: they sound with the opposite sign.  No bound keeps amp_veltrack (its bounds are
    permissive) or the sum of it and its controllers below. *)
Theorem C89_veltrack_inverts_refuted r cs cc v t : nr_velCurve r = None -> track cs cc (nr_veltrack r) (nr_veltrackCC r) = Some t ->
  1 < t -> v == 0 -> exists g, velocityCurve r cs cc v = Some g /\ g < 0.
Proof.
  intros N T P V. destruct (vc_value r cs cc v (v * v) t) as (g & E & H & _); [now rewrite N|exact T|].
  exists g. split; [exact E|]. rewrite H by lra. rewrite V. lra.
Qed.
Definition veltrack200 := NoteRegion 0 0 0 0 0 false 0 1 1 1 1 0 60 (0, 0)%Z (127, 127)%Z XPower (0, 0) (1, 1) XPower None 1 [(1%Z, 0%nat, 1)] 100 60 0 0 0 [] 0 false.
Definition linear : curve := map (fun i => inject_Z (Z.of_nat i) / 127) (seq 0 128).
Example C89_velocity_ex :
  (exists t, track (fun _ => linear) (fun _ => 1) (nr_veltrack veltrack200) (nr_veltrackCC veltrack200) = Some t /\ t == 2) /\
  (exists g, velocityCurve veltrack200 (fun _ => linear) (fun _ => 1) (1 # 2) = Some g /\ g == - (1 # 2)) /\
  (exists g, velocityCurve freshNote (fun _ => linear) (fun _ => 0) (1 # 2) = Some g /\ g == 1 # 4).
Proof. repeat split; eexists; (split; [vm_compute; reflexivity|vm_compute; reflexivity]). Qed.

(** *** The gain of a note *)
Lemma db2mag_pos x : (0 < db2mag x)%R.
Proof. apply exp_pos. Qed.
Lemma db2mag_0 : db2mag 0 = 1%R.
Proof. unfold db2mag. rewrite Rmult_0_l. apply Rpower_O. Lra.lra. Qed.
Lemma db2mag_plus x y : db2mag (x + y) = (db2mag x * db2mag y)%R.
Proof. unfold db2mag. rewrite Rmult_plus_distr_r. apply Rpower_plus. Qed.
Lemma Q2R_unit x : 0 <= x <= 1 -> (0 <= Q2R x <= 1)%R.
Proof. intros [A B]. apply Qle_Rle in A, B. unfold Q2R in A at 1. unfold Q2R in B at 2. cbn in A, B. Lra.lra. Qed.

Section Gain.
Variable sq : Q -> Q.
Hypothesis sq_mono : forall x y, 0 <= x -> x <= y -> sq x <= sq y.
Hypothesis sq_zero : sq 0 == 0.
Hypothesis sq_one : sq 1 == 1.

Definition keyRange (p : Z * Z) : Prop := (0 <= fst p < 256)%Z /\ (0 <= snd p < 256)%Z.
(** C89: as long as the tracking stays within 100 % and the velocity is not in the gap of its crossfade (C39), the gain lies between 0 and what
    amp_keytrack gives for the key. *)
Theorem C89_note_gain r cs cc note v t : keyRange (nr_kin r) -> keyRange (nr_kout r) -> nr_velCurve r = None -> 0 <= v <= 1 ->
  track cs cc (nr_veltrack r) (nr_veltrackCC r) = Some t -> - (1) <= t <= 1 -> (v <= snd (nr_vin r) - (1 # 127) \/ snd (nr_vin r) <= v) ->
  exists g, noteGain sq r cs cc note v = Some g /\ (0 <= g <= db2mag (Q2R (nr_keytrack r * inject_Z (note - nr_keycenter r))))%R.
Proof.
  intros [K1 K2] [K3 K4] N V T B W. unfold noteGain.
  destruct (C89_velocity r cs cc v t N V T) as (g & -> & _ & _ & _ & P1 & _ & _ & P2).
  assert (0 <= g <= 1) as G by (destruct (Qlt_le_dec t 0); [destruct P2|destruct P1]; lra).
  eexists. split; [reflexivity|].
  set (d := db2mag _). assert (0 < d)%R as D by apply db2mag_pos.
  destruct (C39_keys sq sq_mono sq_zero sq_one _ _ note (nr_kcurve r) K1 K2) as [A1 _].
  destruct (C39_keys sq sq_mono sq_zero sq_one _ _ note (nr_kcurve r) K3 K4) as [_ A2].
  pose proof (C39_in_range_partial sq sq_mono sq_zero sq_one (fst (nr_vin r)) (snd (nr_vin r)) v (nr_vcurve r) W) as A3.
  pose proof (C39_out_range sq sq_mono sq_zero sq_one (fst (nr_vout r)) (snd (nr_vout r)) v (nr_vcurve r)) as A4.
  apply Q2R_unit in A1, A2, A3, A4, G. revert A1 A2 A3 A4 G.
  generalize (Q2R (xinK sq (fst (nr_kin r)) (snd (nr_kin r)) note (nr_kcurve r))) (Q2R (xoutK sq (fst (nr_kout r)) (snd (nr_kout r)) note (nr_kcurve r)))
    (Q2R (xinF sq (fst (nr_vin r)) (snd (nr_vin r)) v (nr_vcurve r))) (Q2R (xoutF sq (fst (nr_vout r)) (snd (nr_vout r)) v (nr_vcurve r))) (Q2R g).
  assert (forall x a : R, 0 <= x <= d -> 0 <= a <= 1 -> 0 <= x * a <= d)%R as M.
  { intros x a X A. split; [apply Rmult_le_pos; Lra.lra|]. apply Rle_trans with (x * 1)%R; [|Lra.lra]. apply Rmult_le_compat_l; Lra.lra. }
  intros a b c e f A1 A2 A3 A4 G. rewrite Rmult_1_l. repeat apply M; Lra.lra.
Qed.

(** No key crossfade, as in a region without these opcodes. *)
Definition noKeyFade (r : noteRegion) : Prop := nr_kin r = (0, 0)%Z /\ nr_kout r = (127, 127)%Z.
Lemma no_key_fade r note : noKeyFade r -> (0 <= note)%Z ->
  xinK sq (fst (nr_kin r)) (snd (nr_kin r)) note (nr_kcurve r) = 1 /\ xoutK sq (fst (nr_kout r)) (snd (nr_kout r)) note (nr_kcurve r) = 1.
Proof.
  intros [-> ->] N. cbn [fst snd]. unfold xinK, xoutK, crossfadeIn, crossfadeOut. cbv zeta. change ((0 - 0) mod 256)%Z with 0%Z. change ((127 - 127) mod 256)%Z with 0%Z.
  assert (Qle_bool (inject_Z 0 - 0) 0 = true) as -> by reflexivity. split; [|reflexivity].
  assert (Qltb (inject_Z note) (inject_Z 0) = false) as ->; [|reflexivity]. apply Qltb_nspec. rewrite <- Zle_Qle. lia.
Qed.
(** C89: amp_keytrack.  At the key of amp_keycenter it has no effect; [n] keys further on the gain is that many times amp_keytrack decibels
    higher. *)
Theorem C89_keytrack r cs cc note n v g g' : noKeyFade r -> (0 <= note)%Z -> (0 <= note + n)%Z ->
  noteGain sq r cs cc note v = Some g -> noteGain sq r cs cc (note + n) v = Some g' ->
  (g' = g * db2mag (Q2R (nr_keytrack r) * IZR n))%R.
Proof.
  intros F N N'. unfold noteGain. destruct (velocityCurve r cs cc v) as [q|]; [|discriminate].
  destruct (no_key_fade r note F N) as [-> ->]. destruct (no_key_fade r (note + n)%Z F N') as [-> ->].
  intros G G'. injection G as <-. injection G' as <-.
  assert (Q2R (nr_keytrack r * inject_Z (note + n - nr_keycenter r)) = Q2R (nr_keytrack r * inject_Z (note - nr_keycenter r)) + Q2R (nr_keytrack r) * IZR n)%R as ->.
  { rewrite !Q2R_mult. replace (note + n - nr_keycenter r)%Z with (note - nr_keycenter r + n)%Z by lia. rewrite inject_Z_plus, Q2R_plus.
    assert (Q2R (inject_Z n) = IZR n) as -> by (unfold Q2R; cbn; Lra.lra). ring. }
  rewrite db2mag_plus. ring.
Qed.
(** C89: decibels: keys that are 20 dB apart by amp_keytrack are ten times as loud. *)
Theorem C89_decibels r cs cc note n v g g' : noKeyFade r -> (0 <= note)%Z -> (0 <= note + n)%Z ->
  noteGain sq r cs cc note v = Some g -> noteGain sq r cs cc (note + n) v = Some g' -> (Q2R (nr_keytrack r) * IZR n = 20)%R -> (g' = 10 * g)%R.
Proof.
  intros A B C D E K. rewrite (C89_keytrack r cs cc note n v g g' A B C D E), K. unfold db2mag. replace (20 * (5 / 100))%R with 1%R by Lra.lra.
  rewrite Rpower_1 by Lra.lra. ring.
Qed.
(** C89: what reaches the voice.  A note, or a controller for a region with sfz_previous velocity, gets the gain of the key and the velocity; another
    start by a controller only the amplitudes, whatever the value of the controller. *)
Theorem C89_start r cs cc last t : startGain sq r cs cc last t =
  match t, nr_previous r with
  | ByCC _ _, false => Some (Q2R (nr_amplitude r * nr_globalAmplitude r * nr_masterAmplitude r * nr_groupAmplitude r))
  | ByCC _ _, true => option_map (fun g => Q2R (getBaseGain r) * g)%R (noteGain sq r cs cc (nr_pitchKeycenter r) last)
  | ByNote n v, true => option_map (fun g => Q2R (getBaseGain r) * g)%R (noteGain sq r cs cc n last)
  | ByNote n v, false => option_map (fun g => Q2R (getBaseGain r) * g)%R (noteGain sq r cs cc n v)
  end.
Proof. unfold startGain, startKey, startVelocity. destruct t, (nr_previous r); reflexivity. Qed.
(** C89: a note of full velocity at the key of amp_keycenter sounds with the amplitude of the region if nothing but amplitudes is set. *)
Theorem C89_full cs cc last v : v == 1 -> startGain sq freshNote cs cc last (ByNote 60 v) = Some 1%R.
Proof.
  intros V. rewrite C89_start. cbn [freshNote nr_previous]. unfold noteGain, velocityCurve. cbn [freshNote nr_velCurve nr_veltrack nr_veltrackCC track].
  cbn [freshNote option_map nr_kin nr_kout nr_vin nr_vout nr_kcurve nr_vcurve nr_keytrack nr_keycenter fst snd]. f_equal.
  assert (Qltb 1 0 = false) as -> by reflexivity.
  destruct (no_key_fade freshNote 60 ltac:(split; reflexivity) ltac:(lia)) as [A B]. cbn [freshNote nr_kin nr_kout nr_kcurve fst snd] in A, B. rewrite A, B.
  assert (xinF sq 0 0 v XPower = 1) as ->.
  { unfold xinF, crossfadeIn. cbv zeta. assert (Qltb v 0 = false) as -> by (apply Qltb_nspec; lra). reflexivity. }
  assert (xoutF sq 1 1 v XPower = 1) as -> by reflexivity.
  assert (Q2R (1 - Qabsf 1 * (1 - v * v)) = 1%R) as ->.
  { assert (1 - Qabsf 1 * (1 - v * v) == 1) as E by (rewrite V; reflexivity). apply Qeq_eqR in E. rewrite E. unfold Q2R. cbn. Lra.lra. }
  assert (Q2R 1 = 1%R) as -> by (unfold Q2R; cbn; Lra.lra).
  assert (Q2R (getBaseGain freshNote) = 1%R) as -> by (unfold Q2R; cbn; Lra.lra).
  assert (Q2R (0 * inject_Z (60 - 60)) = 0%R) as -> by (unfold Q2R; cbn; Lra.lra).
  rewrite db2mag_0. Lra.lra.
Qed.
End Gain.
Example C89_gain_ex : let sq := fun x : Q => x in
  (forall x y, 0 <= x -> x <= y -> sq x <= sq y) /\ sq 0 == 0 /\ sq 1 == 1 /\ keyRange (nr_kin freshNote) /\ keyRange (nr_kout freshNote) /\
  noKeyFade freshNote /\ track (fun _ => linear) (fun _ => 0) (nr_veltrack freshNote) (nr_veltrackCC freshNote) = Some 1 /\
  snd (nr_vin freshNote) <= 1 # 3.
Proof. unfold keyRange, noKeyFade. cbn. repeat split; try lia; try lra; try reflexivity. intros; assumption. Qed.

(** *** Volume *)
(** C89: the volume is the sum of the four volumes, up to amp_random decibels away from it; a release region is quieter by rt_decay for every second
    the note was held, any other region is not. *)
Theorem C89_volume r u held : 0 <= u <= 1 ->
  let sum := nr_volume r + nr_globalVolume r + nr_masterVolume r + nr_groupVolume r - (if nr_release r then nr_rtDecay r * held else 0) in
  (0 <= nr_ampRandom r -> sum <= baseVolumedB r u held <= sum + nr_ampRandom r) /\
  (nr_ampRandom r <= 0 -> sum + nr_ampRandom r <= baseVolumedB r u held <= sum).
Proof. intros U sum. unfold sum, baseVolumedB, draw. destruct (nr_release r); split; intros A; split; nra. Qed.
Example C89_volume_ex :
  let r := NoteRegion (- (6)) 0 1 0 3 true 2 1 1 1 1 0 60 (0, 0)%Z (127, 127)%Z XPower (0, 0) (1, 1) XPower None 1 [] 100 60 0 0 0 [] 0 false in
  baseVolumedB r (1 # 3) (3 # 2) == - (7).
Proof. vm_compute. reflexivity. Qed.

(** *** Pitch *)
Lemma cents_plus x y : centsFactor (x + y) = (centsFactor x * centsFactor y)%R.
Proof. unfold centsFactor. rewrite <- Rpower_plus. f_equal. field. Qed.
Lemma cents_0 : centsFactor 0 = 1%R.
Proof. unfold centsFactor. replace (0 / 1200)%R with 0%R by field. apply Rpower_O. Lra.lra. Qed.
Lemma cents_octaves n : centsFactor (1200 * INR n) = (2 ^ n)%R.
Proof. unfold centsFactor. replace (1200 * INR n / 1200)%R with (INR n) by field. apply Rpower_pow. Lra.lra. Qed.

(** C89: [d] keys more change the ratio by pitch_keytrack cents each, whatever else is set; with the usual 100 cents twelve keys double it. *)
Theorem C89_pitch_keytrack r cs cc note d v u p p' : basePitchVariation r cs cc note v u = Some p -> basePitchVariation r cs cc (note + d) v u = Some p' ->
  (p' = p * centsFactor (Q2R (nr_pitchKeytrack r * d)))%R /\
  (forall n, nr_pitchKeytrack r == 100 -> d == inject_Z (12 * Z.of_nat n) -> (p' = p * 2 ^ n)%R).
Proof.
  unfold basePitchVariation, baseCents. destruct (track _ _ _ _) as [t|]; [|discriminate].
  intros P P'. injection P as <-. injection P' as <-.
  set (k := nr_pitchKeytrack r). set (b := _ + draw 0 (nr_pitchRandom r) u). set (a := _ + draw 0 (nr_pitchRandom r) u).
  assert (b == a + k * d) as E by (unfold a, b; ring). apply Qeq_eqR in E. rewrite E, Q2R_plus, cents_plus. split; [reflexivity|].
  intros n K D. f_equal. assert (k * d == 1200 * inject_Z (Z.of_nat n)) as F.
  { rewrite K, D, inject_Z_mult. change (inject_Z 12) with 12. ring. }
  apply Qeq_eqR in F. rewrite F, Q2R_mult, <- cents_octaves. f_equal.
  assert (Q2R 1200 = 1200%R) as -> by (unfold Q2R; cbn; Lra.lra). f_equal. unfold Q2R. cbn. rewrite INR_IZR_INZ. Lra.lra.
Qed.
(** C89: the ratio at the key of pitch_keycenter with no velocity and no random part: tune cents and transpose semitones; one semitone of the one
    is 100 of the other, and without both the sample is played as it is. *)
Theorem C89_pitch_centre r cs cc u t : track cs cc (nr_pitchVeltrack r) (nr_pitchVeltrackCC r) = Some t -> nr_pitchRandom r == 0 ->
  basePitchVariation r cs cc (inject_Z (nr_pitchKeycenter r)) 0 u = Some (centsFactor (Q2R (nr_tune r + 100 * nr_transpose r))) /\
  (nr_tune r == - (100 * nr_transpose r) -> basePitchVariation r cs cc (inject_Z (nr_pitchKeycenter r)) 0 u = Some 1%R).
Proof.
  intros T Hz. unfold basePitchVariation, baseCents. rewrite T. unfold draw.
  match goal with |- Some (centsFactor (Q2R ?c)) = _ /\ _ => assert (c == nr_tune r + 100 * nr_transpose r) as E by (rewrite Hz; ring) end.
  apply Qeq_eqR in E. rewrite E. split; [reflexivity|].
  intros N. f_equal. rewrite <- cents_0. f_equal. assert (nr_tune r + 100 * nr_transpose r == 0) as F by (rewrite N; ring).
  apply Qeq_eqR in F. rewrite F. unfold Q2R. cbn. Lra.lra.
Qed.
(** C89: velocity and chance.  The velocity adds its share of pitch_veltrack (with its controllers), chance at most pitch_random. *)
Theorem C89_pitch_velocity r cs cc note v u t c : track cs cc (nr_pitchVeltrack r) (nr_pitchVeltrackCC r) = Some t -> 0 <= u <= 1 ->
  baseCents r cs cc note v u = Some c -> exists c0, baseCents r cs cc note 0 0 = Some c0 /\
  (0 <= nr_pitchRandom r -> c0 + v * t <= c <= c0 + v * t + nr_pitchRandom r) /\
  (nr_pitchRandom r <= 0 -> c0 + v * t + nr_pitchRandom r <= c <= c0 + v * t).
Proof.
  intros T U. unfold baseCents. rewrite T. intros C. injection C as <-. eexists. split; [reflexivity|]. unfold draw.
  assert (forall x, 0 * x == 0) as H0 by (intros; ring). rewrite !H0. split; intros R0; split; nra.
Qed.
(** C89: controllers.  With linear curves, the tracking is the opcode plus each amount times its controller; at rest it is the opcode, fully up the
    opcode plus all amounts. *)
Theorem C89_controllers cs cc f base mods : (forall n c, exists y, evalNormalized Datatypes.id (cs c) (cc n) = Some y /\ y == f n c) ->
  exists t, track cs cc base mods = Some t /\
    ((forall n c, f n c == 0) -> t == base) /\
    ((forall n c, f n c == 1) -> t == base + fold_right Qplus 0 (map snd mods)) /\
    (forall n c a rest, mods = (n, c, a) :: rest -> exists t', track cs cc base rest = Some t' /\ t == t' + f n c * a).
Proof.
  intros F. destruct (track_amounts cs cc f mods F base) as (t & T & E). exists t. split; [exact T|]. rewrite E. split; [|split].
  - intros Hz. assert (amounts f mods == 0) as ->; [|ring]. induction mods as [|[[n c] a] l IH]; cbn [amounts]; [reflexivity|].
    rewrite Hz. destruct (track_amounts cs cc f l F base) as (t' & T' & E'). assert (amounts f l == 0) as ->; [|ring].
    clear -Hz. induction l as [|[[n c] a] l IH]; cbn [amounts]; [reflexivity|]. rewrite Hz, IH. ring.
  - intros O. assert (amounts f mods == fold_right Qplus 0 (map snd mods)) as ->; [|reflexivity].
    clear -O. induction mods as [|[[n c] a] l IH]; cbn [amounts map fold_right snd]; [reflexivity|]. rewrite O, IH. ring.
  - intros n c a rest ->. destruct (track_amounts cs cc f rest F base) as (t' & T' & E'). exists t'. split; [exact T'|]. rewrite E', E. cbn [amounts]. ring.
Qed.
Example C89_pitch_ex :
  let r := NoteRegion 0 0 0 0 0 false 0 1 1 1 1 0 60 (0, 0)%Z (127, 127)%Z XPower (0, 0) (1, 1) XPower None 1 [] 100 48 (- (50)) 2 1200 [(1%Z, 0%nat, 100)] 7 false in
  (exists c, baseCents r (fun _ => linear) (fun _ => 1 # 2) 60 (1 # 2) (1 # 7) = Some c /\ c == 1200 - 50 + 200 + 625 + 1) /\
  (forall i : nat, length linear = 128%nat) /\
  (exists y, evalNormalized Datatypes.id linear (1 # 2) = Some y /\ y == 1 # 2).
Proof. cbv zeta. split; [|split]; [eexists; split; vm_compute; reflexivity|intros; reflexivity|eexists; split; vm_compute; reflexivity]. Qed.
