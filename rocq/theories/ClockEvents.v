(** The beat clock (C37): what the events do, and the frames of a clock that stands. *)
From Coq Require Import QArith Qround ZArith List Lia Bool Lqa.
Import ListNotations.
From Verif Require Import AdsrModel AdsrRange CcEnvModel ClockModel Clock.
Open Scope Q_scope.

(** While the clock stands, every frame of the cycle is at the position of the host if that was set since, and
    otherwise where the clock stood. *)
Theorem C37_stopped rnd toFloat c n : c_playing c = false ->
  let p := if c_must c then c_host c else c_client c in
  let b := rnd (beat p + inject_Z (bar p * perBar (c_sig c))) in
  let c' := endCycle rnd toFloat (beginCycle n c) in
  c_out c' = repeat (Frame (dequantize (quantizeBeats rnd b)) (toFloat b) (perBar (c_sig c))) n /\
  c_client c' = p /\ c_must c' = false.
Proof.
  intros P. unfold endCycle, fillUpTo. cbn [c_playing beginCycle c_frames c_fill]. rewrite P. cf.
  rewrite Nat.sub_0_r. unfold frame_at, toBeats. cbn [c_must beginCycle c_host c_client c_sig app]. repeat split.
Qed.
Example C37_stopped_ex :
  let c := snd (block Qred Qred [(0%nat, Position (BBT 2 (1 # 2)))] 4 demo) in
  c_playing c = false /\ map f_number (fst (block Qred Qred [] 2 c)) = [8; 8]%Z /\
  positions (fst (block Qred Qred [] 2 c)) = [17 # 2; 17 # 2] /\ map f_perBar (fst (block Qred Qred [] 2 c)) = [4; 4]%Z.
Proof. vm_compute. repeat split. Qed.

(** The number of the beats in a bar is that of the signature, and the number of the beat is that of the position. *)
Theorem C37_bar rnd toFloat c n : Forall (fun f => f_perBar f = perBar (c_sig c) /\
    exists b, f_number f = dequantize (quantizeBeats rnd b) /\ f_position f = toFloat b)
  (c_out (endCycle rnd toFloat (beginCycle n c))).
Proof.
  assert (F : forall s p, f_perBar (frame_at rnd toFloat s p) = perBar s /\ exists b,
    f_number (frame_at rnd toFloat s p) = dequantize (quantizeBeats rnd b) /\ f_position (frame_at rnd toFloat s p) = toFloat b).
  { intros s p. split; [reflexivity|]. exists (toBeats rnd s p). split; reflexivity. }
  assert (T : forall m c1, c_sig c1 = c_sig c ->
    Forall (fun f => f_perBar f = perBar (c_sig c) /\ exists b, f_number f = dequantize (quantizeBeats rnd b) /\ f_position f = toFloat b) (c_out c1) ->
    Forall (fun f => f_perBar f = perBar (c_sig c) /\ exists b, f_number f = dequantize (quantizeBeats rnd b) /\ f_position f = toFloat b) (c_out (ticks rnd toFloat m c1))).
  { induction m as [|m IH]; intros c1 S H; [exact H|]. cbn [ticks]. apply IH; [exact S|]. unfold tick. cf.
    apply Forall_app. split; [exact H|]. constructor; [|constructor]. rewrite S. apply F. }
  unfold endCycle, fillUpTo. cbn [c_playing beginCycle c_frames c_fill]. destruct (c_playing c).
  - apply T; [reflexivity|constructor].
  - cf. cbn [app]. apply Forall_forall. intros f I. apply repeat_spec in I. subst f. apply F.
Qed.
Example C37_bar_ex :
  let c := set Qred Qred 0 (Signature (Sig 7 8)) (set Qred Qred 0 (Playing true) demo) in
  map f_perBar (c_out (endCycle Qred Qred (beginCycle 3 c))) = [7; 7; 7]%Z.
Proof. vm_compute. reflexivity. Qed.

(** Before the first bar the numbers are those of the mirrored position. *)
Theorem C37_beat_number_negative b : b < 0 ->
  dequantize (quantizeBeats id b) = (- dequantize (quantizeBeats id (- b)))%Z.
Proof.
  intros B. unfold quantizeBeats, dequantize, id.
  destruct (Qle_bool 0 (b * 65536)) eqn:L; [apply Qle_bool_iff in L; exfalso; lra|].
  assert (Qle_bool 0 (- b * 65536) = true) as -> by (apply Qle_bool_iff; lra).
  rewrite <- Z.quot_opp_l by lia. f_equal.
  set (x := (1 # 2) + - (b * 65536)).
  assert (E : (1 # 2) + - b * 65536 == x) by (unfold x; ring).
  assert (X : 0 < x) by (unfold x; lra).
  unfold Qtrunc. assert (Qle_bool 0 (- x) = false) as -> .
  { destruct (Qle_bool 0 (- x)) eqn:M; [apply Qle_bool_iff in M; lra|reflexivity]. }
  assert (Qle_bool 0 ((1 # 2) + - b * 65536) = true) as -> by (apply Qle_bool_iff; rewrite E; lra).
  rewrite (Qfloor_comp _ _ E). unfold Qceiling. f_equal. apply Qfloor_comp. ring.
Qed.
Example C37_beat_number_negative_ex : dequantize (quantizeBeats id (- (5 # 2))) = (-2)%Z /\ dequantize (quantizeBeats id (-(1 # 1000000))) = 0%Z.
Proof. vm_compute. split; reflexivity. Qed.

(** A tempo moves the following frames by the period over the seconds per beat, each. *)
Theorem C37_tempo toFloat c t n k : (forall x y, x == y -> toFloat x == toFloat y) -> 0 < t -> c_playing c = true ->
  (k < n)%nat -> let c1 := set id toFloat 0 (Tempo t) c in
  f_position (nth k (c_out (endCycle id toFloat (beginCycle n c1))) (Frame 0 0 0)) ==
  toFloat (inject_Z (Z.of_nat (if c_must c then k else k + 1)) * (c_period c / t) +
           (let p := if c_must c then c_host c else c_client c in beat p + inject_Z (bar p * perBar (c_sig c)))).
Proof.
  intros TF T P K c1.
  assert (C : c1 = apply id (Tempo t) c).
  { unfold c1, set, fillUpTo. rewrite P. destruct c; reflexivity. }
  rewrite (C37_running toFloat c1 n k TF); [|rewrite C; exact P|exact K].
  apply TF. rewrite C. unfold start, perFrame, toBeats, apply, id. cf.
  assert (D : 1 / t * c_period c == c_period c / t) by (field; lra).
  destruct (c_must c).
  - rewrite D. replace (Z.of_nat (k + 1)) with (Z.of_nat k + 1)%Z by lia. rewrite inject_Z_plus. change (inject_Z 1) with 1. ring.
  - rewrite D. ring.
Qed.
Example C37_tempo_ex :
  positions (c_out (endCycle Qred Qred (beginCycle 3 (set Qred Qred 0 (Tempo (1 # 4)) (set Qred Qred 0 (Playing true) demo))))) = [1 # 2; 1; 3 # 2].
Proof. vm_compute. reflexivity. Qed.

(** A signature whose numbers are not both positive changes nothing; any other becomes that of the clock, and leaves
    the rest but the positions as it was. *)
Theorem C37_signature rnd toFloat d s c : let c1 := fillUpTo rnd toFloat d c in let c2 := set rnd toFloat d (Signature s) c in
  ((perBar s <= 0 \/ unit_ s <= 0)%Z -> c2 = c1) /\
  ((0 < perBar s)%Z -> (0 < unit_ s)%Z -> c_sig c2 = s /\ c_out c2 = c_out c1 /\ c_bps c2 = c_bps c1 /\ c_must c2 = c_must c1 /\ c_playing c2 = c_playing c1).
Proof.
  cbv zeta. unfold set, apply, valid. split.
  - intros H. destruct (Z.ltb_spec 0 (perBar s)); destruct (Z.ltb_spec 0 (unit_ s)); cbn [andb negb orb]; try reflexivity. lia.
  - intros A B. apply Z.ltb_lt in A, B. rewrite A, B. cbn [andb negb orb].
    destruct (sig_eqb (c_sig (fillUpTo rnd toFloat d c)) s) eqn:E.
    + unfold sig_eqb in E. apply andb_prop in E. destruct E as [E1 E2]. apply Z.eqb_eq in E1, E2.
      refine (conj _ (conj eq_refl (conj eq_refl (conj eq_refl eq_refl)))). destruct (c_sig (fillUpTo rnd toFloat d c)) as [x y], s as [z w].
      cbn [perBar unit_] in E1, E2. congruence.
    + cf. repeat split.
Qed.
Example C37_signature_ex : set Qred Qred 0 (Signature (Sig 3 0)) demo = demo /\ c_sig (set Qred Qred 0 (Signature (Sig 6 8)) demo) = Sig 6 8.
Proof. vm_compute. split; reflexivity. Qed.
