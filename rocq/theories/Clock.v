(** The beat clock (C37). *)
From Coq Require Import QArith Qround ZArith List Lia Bool Lqa Setoid.
Import ListNotations.
From Verif Require Import AdsrModel AdsrRange CcEnvModel ClockModel.
Open Scope Q_scope.

Ltac cf := cbn [c_period c_frames c_fill c_bps c_sig c_playing c_host c_must c_client c_out].

Section Any.
Variables rnd toFloat : Q -> Q.
Notation tick := (tick rnd toFloat). Notation ticks := (ticks rnd toFloat). Notation fillUpTo := (fillUpTo rnd toFloat).
Notation set := (set rnd toFloat). Notation acts := (acts rnd toFloat).

Lemma ticks_add n m c : ticks (n + m) c = ticks m (ticks n c).
Proof. revert c. induction n as [|n IH]; intros c; cbn [ClockModel.ticks plus]; [reflexivity|]. apply IH. Qed.
Lemma ticks_fields n c : c_fill (ticks n c) = (c_fill c + n)%nat /\ c_playing (ticks n c) = c_playing c /\
  c_frames (ticks n c) = c_frames c /\ length (c_out (ticks n c)) = (length (c_out c) + n)%nat /\
  (c_must (ticks n c) = if n then c_must c else false) /\ c_host (ticks n c) = c_host c /\
  exists l, c_out (ticks n c) = c_out c ++ l.
Proof.
  revert c. induction n as [|n IH]; intros c; cbn [ClockModel.ticks].
  - rewrite !Nat.add_0_r. repeat split. exists []. now rewrite app_nil_r.
  - destruct (IH (tick c)) as (A & B & C & D & E & G & (l & F)). rewrite A, B, C, D, E, G, F. unfold ClockModel.tick. cf.
    rewrite app_length. cbn [length]. repeat split; try lia.
    + now destruct n.
    + eexists. now rewrite <- app_assoc.
Qed.
Lemma fill_fields d c : c_fill (fillUpTo d c) = Nat.max (c_fill c) d /\ c_playing (fillUpTo d c) = c_playing c /\
  c_frames (fillUpTo d c) = c_frames c /\ length (c_out (fillUpTo d c)) = (length (c_out c) + (d - c_fill c))%nat.
Proof.
  unfold ClockModel.fillUpTo. destruct (c_playing c) eqn:P.
  - destruct (ticks_fields (d - c_fill c) c) as (A & B & C & D & _). rewrite A, B, C, D. repeat split; auto. lia.
  - cf. rewrite app_length, repeat_length. repeat split; auto.
Qed.
Lemma repeat_add {A} (x : A) n m : repeat x (n + m) = repeat x n ++ repeat x m.
Proof. induction n; cbn; congruence. Qed.
(** Filling in two steps is filling at once. *)
Lemma fill_fill a b c : (a <= b)%nat -> fillUpTo b (fillUpTo a c) = fillUpTo b c.
Proof.
  intros L. destruct (fill_fields a c) as (A & B & _). unfold ClockModel.fillUpTo at 1. rewrite A, B.
  unfold ClockModel.fillUpTo. destruct (c_playing c) eqn:P.
  - rewrite <- ticks_add. f_equal. lia.
  - cf. f_equal; [lia|]. rewrite <- app_assoc. f_equal. rewrite <- repeat_add. f_equal. lia.
Qed.
Fixpoint increasing (d0 : nat) (l : list act) : Prop :=
  match l with [] => True | a :: l => (d0 <= act_delay a)%nat /\ increasing (act_delay a) l end.
Fixpoint without_fills (l : list act) : list act :=
  match l with [] => [] | Fill _ :: l => without_fills l | a :: l => a :: without_fills l end.
Lemma do_fill x b c : (b <= act_delay x)%nat -> do rnd toFloat x (fillUpTo b c) = do rnd toFloat x c.
Proof. intros L. destruct x as [d|d e]; cbn [do act_delay] in *; unfold ClockModel.set; now rewrite fill_fill. Qed.
Lemma absorb l b d c : increasing b l -> (b <= d)%nat -> fillUpTo d (acts l (fillUpTo b c)) = fillUpTo d (acts l c).
Proof.
  destruct l as [|x l]; cbn [ClockModel.acts fold_left increasing].
  - intros _ L. now apply fill_fill.
  - intros [L _] _. now rewrite do_fill.
Qed.
(** C37: filling the clock at any frames between the events does not change the running time of the block. *)
Theorem C37_query_independent l : forall d0 d c, increasing d0 l -> Forall (fun a => act_delay a <= d)%nat l ->
  fillUpTo d (acts l c) = fillUpTo d (acts (without_fills l) c).
Proof.
  induction l as [|x l IH]; intros d0 d c Inc F; [reflexivity|]. destruct Inc as [I1 I2].
  inversion F as [|? ? F1 F2]; subst. destruct x as [b|b e]; cbn [without_fills act_delay] in *.
  - change (acts (Fill b :: l) c) with (acts l (fillUpTo b c)). rewrite absorb by assumption. eapply IH; eassumption.
  - change (acts (Set_ b e :: l) c) with (acts l (set b e c)).
    change (acts (Set_ b e :: without_fills l) c) with (acts (without_fills l) (set b e c)). eapply IH; eassumption.
Qed.
(** C37: each cycle has as many frames as asked for. *)
Theorem C37_cycle_length n c : length (c_out (endCycle rnd toFloat (beginCycle n c))) = n.
Proof. unfold endCycle. destruct (fill_fields (c_frames (beginCycle n c)) (beginCycle n c)) as (_ & _ & _ & ->). cbn. lia. Qed.
(** Filling again does nothing. *)
Theorem C37_query_again c :
  running rnd toFloat (snd (running rnd toFloat c)) = running rnd toFloat c.
Proof.
  unfold running. cbn [fst snd].
  destruct (fill_fields (c_frames c) c) as (_ & _ & F & _). rewrite F, fill_fill by lia. now rewrite F.
Qed.
End Any.

(** ** Musical time, with exact arithmetic *)
Definition id (x : Q) : Q := x.
Section Exact.
Variable toFloat : Q -> Q.
Lemma beats_round_trip s b : toBeats id s (fromBeats id s b) == b.
Proof. unfold toBeats, fromBeats, id. cbn [beat bar]. ring. Qed.
Lemma toBeats_wd s p q : p = q -> toBeats id s p == toBeats id s q.
Proof. now intros ->. Qed.
Lemma Qtrunc_pos x : 0 <= x -> inject_Z (Qtrunc x) <= x < inject_Z (Qtrunc x) + 1.
Proof.
  intros H. unfold Qtrunc. apply Qle_bool_iff in H. rewrite H. split; [apply Qfloor_le|].
  pose proof (Qlt_floor x) as L. rewrite inject_Z_plus in L. exact L.
Qed.
(** The position within the bar is that: between 0 and the number of beats. *)
Theorem C37_beat_in_bar s b : (0 < perBar s)%Z -> 0 <= b ->
  0 <= beat (fromBeats id s b) < inject_Z (perBar s) /\ (0 <= bar (fromBeats id s b))%Z.
Proof.
  intros P B. unfold fromBeats, id. cbn [beat bar]. rewrite Zlt_Qlt in P. change (inject_Z 0) with 0 in P.
  assert (0 <= b / inject_Z (perBar s)) as D by (apply Qle_shift_div_l; lra).
  pose proof (Qtrunc_pos _ D) as [T1 T2]. set (q := b / inject_Z (perBar s)) in *.
  assert (b == q * inject_Z (perBar s)) as E by (unfold q; field; lra).
  rewrite inject_Z_mult. split.
  - split; nra.
  - unfold Qtrunc. apply Qle_bool_iff in D. rewrite D. rewrite <- (Qfloor_Z 0). apply Qfloor_resp_le. now apply Qle_bool_iff.
Qed.
(** A change of the signature keeps the time: in beats of the new unit it is the old one times the quotient. *)
Theorem C37_signature_keeps_time o n p : (0 < unit_ o)%Z -> (0 < unit_ n)%Z ->
  toBeats id n (toSignature id o n p) / inject_Z (unit_ n) == toBeats id o p / inject_Z (unit_ o).
Proof.
  intros O N. unfold toSignature. rewrite beats_round_trip. unfold id. rewrite Zlt_Qlt in O, N. change (inject_Z 0) with 0 in *.
  field. split; lra.
Qed.
(** C37: while the clock runs, frame [k] of the cycle is at the start position plus [k + 1] times the beats per
    frame; after a position has been set, it is at that position plus [k] times. *)
Definition start (c : clock) : Q := if c_must c then toBeats id (c_sig c) (c_host c) - perFrame id c else toBeats id (c_sig c) (c_client c).
Theorem C37_running c n k : (forall x y, x == y -> toFloat x == toFloat y) ->
  c_playing c = true -> (k < n)%nat ->
  f_position (nth k (c_out (endCycle id toFloat (beginCycle n c))) (Frame 0 0 0)) ==
  toFloat (start c + inject_Z (Z.of_nat (k + 1)) * perFrame id c).
Proof.
  intros TF P K. unfold endCycle, fillUpTo. cbn [c_playing beginCycle c_frames c_fill]. rewrite P, Nat.sub_0_r.
  set (c0 := beginCycle n c).
  assert (forall m c1 j, (j < m)%nat -> c_sig c1 = c_sig c -> perFrame id c1 = perFrame id c ->
    f_position (nth (length (c_out c1) + j) (c_out (ticks id toFloat m c1)) (Frame 0 0 0)) == toFloat (start c1 + inject_Z (Z.of_nat (j + 1)) * perFrame id c)) as H.
  { clear K. induction m as [|m IH]; intros c1 j J Sg Pf; [lia|]. cbn [ticks].
    assert (start (tick id toFloat c1) == start c1 + perFrame id c1) as St.
    { unfold start at 1, tick. cbv zeta. cf. unfold start. destruct (c_must c1); [unfold perFrame, id; ring|].
      rewrite beats_round_trip. reflexivity. }
    destruct j as [|j].
    - destruct (ticks_fields id toFloat m (tick id toFloat c1)) as (_ & _ & _ & _ & _ & _ & (l & ->)).
      unfold tick at 1. cf. rewrite <- app_assoc, app_nth2 by lia. rewrite Nat.add_0_r, Nat.sub_diag. cbn [app nth frame_at f_position].
      apply TF. change (inject_Z (Z.of_nat (0 + 1))) with 1. rewrite <- Pf. unfold start. destruct (c_must c1).
      + ring.
      + rewrite beats_round_trip. unfold id at 1. ring.
    - pose proof (IH (tick id toFloat c1) j ltac:(lia) Sg Pf) as E.
      assert (length (c_out (tick id toFloat c1)) = S (length (c_out c1))) as L.
      { unfold tick. cf. rewrite app_length. cbn. lia. }
      rewrite L in E. replace (length (c_out c1) + S j)%nat with (S (length (c_out c1)) + j)%nat by lia. rewrite E.
      apply TF. rewrite St, Pf. replace (Z.of_nat (S j + 1)) with (Z.of_nat (j + 1) + 1)%Z by lia. rewrite inject_Z_plus. change (inject_Z 1) with 1. ring. }
  exact (H n c0 k K eq_refl eq_refl).
Qed.
(** The beat number is the integer part of the position, up to 2^-17 beats. *)
Theorem C37_beat_number b : 0 <= b ->
  inject_Z (dequantize (quantizeBeats id b)) <= b + (1 # 131072) /\ b + (1 # 131072) < inject_Z (dequantize (quantizeBeats id b)) + 1.
Proof.
  intros B. unfold dequantize, quantizeBeats, id.
  assert (Qle_bool 0 (b * 65536) = true) as -> by (apply Qle_bool_iff; lra).
  assert (0 <= (1 # 2) + b * 65536) as P by lra. pose proof (Qtrunc_pos _ P) as [T1 T2].
  set (q := Qtrunc ((1 # 2) + b * 65536)) in *.
  assert (0 <= q)%Z as Q0. { unfold q, Qtrunc. apply Qle_bool_iff in P. rewrite P. rewrite <- (Qfloor_Z 0). apply Qfloor_resp_le. now apply Qle_bool_iff. }
  rewrite Z.quot_div_nonneg by lia. pose proof (Z.div_mod q 65536 ltac:(lia)) as D. pose proof (Z.mod_pos_bound q 65536 ltac:(lia)) as M.
  set (n := (q / 65536)%Z) in *.
  assert (inject_Z n * 65536 <= inject_Z q) as L1. { change 65536 with (inject_Z 65536). rewrite <- inject_Z_mult, <- Zle_Qle. lia. }
  assert (inject_Z q + 1 <= (inject_Z n + 1) * 65536) as L2.
  { change 65536 with (inject_Z 65536). change 1 with (inject_Z 1). rewrite <- !inject_Z_plus, <- inject_Z_mult, <- Zle_Qle. lia. }
  split; lra.
Qed.
(** C37: the phase of a synchronised oscillator lies in [0,1). *)
Theorem C37_phase period pos : 0 <= phase period pos < 1.
Proof.
  unfold phase. destruct (Qle_bool period 0) eqn:L; [lra|]. apply Qle_bool_nspec in L.
  assert (0 <= Qmaxf 0 pos) as P. { unfold Qmaxf. destruct (Qltb pos 0) eqn:L1; [lra|]. now apply Qltb_nspec in L1. }
  assert (0 <= 1 / period) as I by (apply Qle_shift_div_l; lra).
  assert (0 <= Qmaxf 0 pos * (1 / period)) as H by nra. pose proof (Qtrunc_pos _ H). cbv zeta. lra.
Qed.
End Exact.

(** 4 frames per beat: a clock at 8 frames per second with the tempo at 2 beats per second. *)
Definition demo : clock := fresh 8.
Definition positions (l : list frame) : list Q := map (fun f => Qred (f_position f)) l.
Example C37_ex :
  let c := acts Qred Qred [Set_ 0 (Playing true); Set_ 0 (Position (BBT 1 (1 # 2))); Fill 2; Set_ 3 (Tempo 1); Fill 4; Set_ 5 (Signature (Sig 3 8))] (beginCycle 8 demo) in
  positions (c_out (endCycle Qred Qred c)) = [9 # 2; 19 # 4; 5; 41 # 8; 21 # 4; 85 # 8; 43 # 4; 87 # 8] /\
  map f_number (c_out (endCycle Qred Qred c)) = [4; 4; 5; 5; 5; 10; 10; 10]%Z.
Proof. split; vm_compute; reflexivity. Qed.

(** C37: an event that comes after a query of the same cycle has no effect before the next cycle. *)
Theorem C37_query_mid_cycle_refuted :
  let c := acts Qred Qred [Set_ 0 (Playing true)] (beginCycle 4 demo) in
  positions (fst (running Qred Qred (set Qred Qred 2 (Tempo 1) c))) = [1 # 4; 1 # 2; 5 # 8; 3 # 4] /\
  positions (fst (running Qred Qred (set Qred Qred 2 (Tempo 1) (snd (running Qred Qred c))))) = [1 # 4; 1 # 2; 3 # 4; 1].
Proof. split; vm_compute; reflexivity. Qed.
(** C37: through the interface of the library the events come before the cycle begins, and count from its first
    frame whatever their delay ... *)
Theorem C37_event_delay_refuted :
  let c := snd (block Qred Qred [(0%nat, Playing true)] 4 demo) in
  positions (fst (block Qred Qred [(2%nat, Tempo 1)] 4 c)) = positions (fst (block Qred Qred [(0%nat, Tempo 1)] 4 c)) /\
  positions (fst (block Qred Qred [(2%nat, Tempo 1)] 4 c)) <> positions (fst (running Qred Qred (set Qred Qred 2 (Tempo 1) (beginCycle 4 c)))).
Proof. split; vm_compute; [reflexivity|discriminate]. Qed.
(** ... and when the delay is larger than the previous block was long, the clock runs on by the difference; the
    running buffers, of the size of the block, are written at that index. *)
Theorem C37_clock_runs_ahead_refuted :
  let c := snd (block Qred Qred [(0%nat, Playing true)] 4 demo) in
  positions (fst (block Qred Qred [] 8 c)) = [5 # 4; 3 # 2; 7 # 4; 2; 9 # 4; 5 # 2; 11 # 4; 3] /\
  positions (fst (block Qred Qred [(6%nat, Playing true)] 8 c)) = [7 # 4; 2; 9 # 4; 5 # 2; 11 # 4; 3; 13 # 4; 7 # 2] /\
  forall d, (4 <= d)%nat -> length (c_out (set Qred Qred d (Playing true) c)) = d.
Proof.
  cbv zeta. split; [vm_compute; reflexivity|]. split; [vm_compute; reflexivity|]. intros d D. unfold set.
  set (c := snd (block Qred Qred [(0%nat, Playing true)] 4 demo)).
  destruct (fill_fields Qred Qred d c) as (_ & _ & _ & L).
  change (length (c_out (fillUpTo Qred Qred d c)) = d). rewrite L.
  assert (length (c_out c) = 4%nat /\ c_fill c = 4%nat) as [-> ->] by (vm_compute; auto). lia.
Qed.
