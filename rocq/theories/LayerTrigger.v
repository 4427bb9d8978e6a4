(** Regions started by controllers (C78). *)
From Coq Require Import ZArith QArith List Bool Lia.
From Verif Require Import MidiModel MidiProps LayerModel LayerProofs LayerSteps LayerProps LayerPedals.
Import ListNotations.
Local Open Scope Z_scope.

(** * Specification *)

(** Starts of layer [k] caused by controllers. *)
Definition is_cc_start (k : nat) (x : start) : bool :=
  Nat.eqb (st_layer x) k && match st_type x with ECC => true | _ => false end.
Definition by_cc (k : nat) (o : list start) : list start := filter (is_cc_start k) o.
(** lorand and hirand: the upper end is excluded, except that 1 belongs to a range that ends at 1. *)
Definition rand_within (r : region) (x : Q) : Prop :=
  (randLo r <= x /\ x < randHi r)%Q \/ (1 <= x /\ 1 <= randHi r /\ randLo r <= randHi r)%Q.
(** Everything that a controller event must meet to start the region: [before] is the value of the
    controller before the event, [l'] holds the switches after it, [vals] the controllers after it,
    [count] how many events have counted for the sequence before. *)
Definition cc_meets (r : region) (op : op) (cc : Z) (v rnd before : Q) (l' : layer) (vals : Z -> Q)
  (count : Z) (timer : bool) : Prop :=
  triggerOnCC r = true /\
  (exists lo hi, cc_get (ccTriggers r) cc = Some (lo, hi) /\ (lo <= v)%Q /\ (v <= hi)%Q) /\
  rand_within r rnd /\
  match op with OPolyAT _ n _ => 0 <= n -> keyLo r <= n <= keyHi r | _ => True end /\
  (cc = 130 \/ ~ (v == before)%Q) /\
  (l_key l' = true /\ l_prev l' = true /\ l_pitch l' = true /\ l_prog l' = true /\ l_bpm l' = true /\
   l_aft l' = true) /\
  conditions_hold r vals /\
  count mod seqLength r = seqPosition r - 1 /\
  (useTimerRange r = true -> timer = true).

(** * The dispatch *)
Lemma by_cc_app k a b : by_cc k (a ++ b) = by_cc k a ++ by_cc k b.
Proof. apply filter_app. Qed.
Lemma by_cc_offs k i d : by_cc k (map (off_start i) d) = [].
Proof.
  induction d as [|x d IH]; [reflexivity|]. cbn [map by_cc filter]. unfold is_cc_start at 1. cbn.
  rewrite andb_false_r. exact IH.
Qed.
Definition cc_bool (r : region) (m : midi) (cc : Z) (v rnd : Q) (ext : Z) (tim : bool) (l : layer) : bool :=
  in_cc_list r cc && snd (registerCC r m cc v rnd ext (cc_pedals r cc v l)) && negb (useTimerRange r && negb tim).

Lemma cc_layer_by cc v rnd ext att1 att2 tim s k :
  exists o, s_out (cc_layer cc v rnd ext att1 att2 tim s k) = s_out s ++ o /\
    forall j, by_cc j o = match lay s k with
      | Some (r, l) => if Nat.eqb j k && cc_bool r (s_midi s) cc v rnd ext (tim k) l
                       then [Start k ECC cc v] else []
      | None => [] end.
Proof.
  unfold cc_layer. fold (lay s k). destruct (lay s k) as [[r l]|] eqn:Ek.
  2:{ exists []. rewrite app_nil_r. auto. }
  unfold cc_bool. destruct (in_cc_list r cc) eqn:Ei.
  2:{ exists []. rewrite app_nil_r. split; auto. intros j. cbn [andb]. now rewrite andb_false_r. }
  cbn [andb].
  assert (O1 : exists o, s_out (cc_sustain_part cc v att1 s k) = s_out s ++ o /\ forall j, by_cc j o = []).
  { unfold cc_sustain_part. fold (lay s k). rewrite Ek.
    destruct (checkSustain r && _ && _); [|exists []; now rewrite app_nil_r].
    unfold startDelayedSustain. cbn [on_layer s_out with_layers].
    destruct (negb (rtDead r) && _); [exists []; now rewrite app_nil_r|].
    exists (map (off_start k) (l_dsus l)). split; [apply emit_all_other|]. intros j. apply by_cc_offs. }
  destruct O1 as (o1 & O1 & F1).
  destruct (sustain_part_other cc v att1 s k) as (M1 & _ & _ & L1).
  set (s1 := cc_sustain_part cc v att1 s k) in *.
  destruct (sostenuto_part_other cc v att2 s1 k) as (M2 & _ & _ & L2).
  assert (O2 : exists o, s_out (cc_sostenuto_part cc v att2 s1 k) = s_out s1 ++ o /\ forall j, by_cc j o = []).
  { unfold cc_sostenuto_part. destruct (nth_error (s_layers s1) k) as [[r1 l1]|]; [|exists []; now rewrite app_nil_r].
    destruct (checkSostenuto r1 && _ && _); [|exists []; now rewrite app_nil_r].
    destruct (l_sustain l1); [exists []; now rewrite app_nil_r|].
    unfold startDelayedSostenuto. cbn [on_layer s_out with_layers].
    destruct (negb (rtDead r1) && _); [exists []; now rewrite app_nil_r|].
    exists (map (off_start k) (l_dsos l1)). split; [apply emit_all_other|]. intros j. apply by_cc_offs. }
  destruct O2 as (o2 & O2 & F2).
  set (s2 := cc_sostenuto_part cc v att2 s1 k) in *.
  assert (K : lay s2 k = Some (r, cc_pedals r cc v l)).
  { rewrite L2, L1, Ek, Nat.eqb_refl. reflexivity. }
  unfold cc_register_part. fold (lay s2 k). rewrite K, M2, M1.
  destruct (registerCC r (s_midi s) cc v rnd ext (cc_pedals r cc v l)) as [l' t] eqn:ER. cbn [snd].
  destruct (t && negb (useTimerRange r && negb (tim k))) eqn:Et.
  - exists (o1 ++ o2 ++ [Start k ECC cc v]). split.
    + cbn [emit s_out on_layer with_layers]. rewrite O2, O1, <- !app_assoc. reflexivity.
    + intros j. rewrite !by_cc_app, F1, F2, andb_true_r. cbn. unfold is_cc_start. cbn.
      rewrite (Nat.eqb_sym k j). destruct (Nat.eqb j k); reflexivity.
  - exists (o1 ++ o2). split.
    + cbn [s_out on_layer with_layers]. rewrite O2, O1, <- !app_assoc. reflexivity.
    + intros j. now rewrite by_cc_app, F1, F2, andb_false_r.
Qed.

Lemma ccDispatch_by cc v rnd ext att1 att2 tim s :
  exists o, s_out (ccDispatch cc v rnd ext att1 att2 tim s) = s_out s ++ o /\
  forall j r l, lay s j = Some (r, l) ->
    by_cc j o = if cc_bool r (s_midi s) cc v rnd ext (tim j) l then [Start j ECC cc v] else [].
Proof.
  unfold ccDispatch.
  assert (Loop : forall len st s3, exists o,
    s_out (fold_left (cc_layer cc v rnd ext att1 att2 tim) (seq st len) s3) = s_out s3 ++ o /\
    forall j r l, lay s3 j = Some (r, l) ->
      by_cc j o = if (st <=? j)%nat && (j <? st + len)%nat && cc_bool r (s_midi s3) cc v rnd ext (tim j) l
                 then [Start j ECC cc v] else []).
  { induction len as [|len IH]; intros st s3; cbn [seq fold_left].
    - exists []. rewrite app_nil_r. split; auto. intros j r l _.
      destruct (Nat.leb_spec st j), (Nat.ltb_spec j (st + 0)); try lia; reflexivity.
    - destruct (cc_layer_by cc v rnd ext att1 att2 tim s3 st) as (o1 & A1 & A2).
      destruct (cc_layer_other cc v rnd ext att1 att2 tim s3 st) as (M & _ & _ & L).
      destruct (IH (S st) (cc_layer cc v rnd ext att1 att2 tim s3 st)) as (o2 & B1 & B2).
      exists (o1 ++ o2). split; [now rewrite B1, A1, app_assoc|].
      intros j r l Ej. rewrite by_cc_app, A2.
      specialize (L j). rewrite Ej in L. rewrite (B2 j r _ L), M.
      destruct (Nat.eqb_spec j st) as [Hj|Hj].
      + subst j. rewrite Ej. destruct (Nat.leb_spec st st), (Nat.leb_spec (S st) st),
          (Nat.ltb_spec st (st + S len)); try lia. cbn [andb]. now rewrite app_nil_r.
      + assert (Z : match lay s3 st with Some (r0, l0) => if false && cc_bool r0 (s_midi s3) cc v rnd ext (tim st) l0
           then [Start st ECC cc v] else [] | None => [] end = [])
          by (destruct (lay s3 st) as [[]|]; reflexivity).
        rewrite Z. cbn [app].
        destruct (Nat.leb_spec st j), (Nat.leb_spec (S st) j),
        (Nat.ltb_spec j (S st + len)), (Nat.ltb_spec j (st + S len)); try lia; reflexivity. }
  destruct (Loop (length (s_layers s)) O s) as (o & A & B). exists o. split; [exact A|].
  intros j r l Ej. rewrite (B j r l Ej).
  assert (j < length (s_layers s))%nat by (apply nth_error_Some; unfold lay in Ej; congruence).
  destruct (Nat.leb_spec 0 j), (Nat.ltb_spec j (0 + length (s_layers s))); try lia. reflexivity.
Qed.

Lemma randOk_iff r x : randOk r x = true <-> rand_within r x.
Proof.
  unfold randOk, inQ_open, rand_within. rewrite orb_true_iff, !andb_true_iff, negb_true_iff, !Qle_bool_iff.
  assert (H : Qle_bool (randHi r) x = false <-> (x < randHi r)%Q).
  { rewrite <- not_true_iff_false, Qle_bool_iff. split; [apply Qnot_le_lt|apply Qlt_not_le]. }
  rewrite H. tauto.
Qed.

(** What [cc_bool] means, in terms of the layer after the event. *)
Lemma cc_bool_iff r m cc v rnd ext tim l :
  let l' := cc_layer_effect r m cc v rnd ext l in
  cc_bool r m cc v rnd ext tim l = true <->
  reaches_cc r cc v rnd ext = true /\ (cc = 130 \/ ~ (v == ccValue m cc)%Q) /\ isSwitchedOn l' = true /\
  (useTimerRange r = true -> tim = true).
Proof.
  cbv zeta. unfold cc_bool, cc_layer_effect, reaches_cc, registerCC.
  assert (IL : forall x, cc_get (ccTriggers r) cc = Some x -> in_cc_list r cc = true).
  { intros x E. unfold in_cc_list. now rewrite E. }
  set (l2 := updateCCState r m cc v (cc_pedals r cc v l)).
  destruct (cc_get (ccTriggers r) cc) as [[lo hi]|].
  2:{ split; [|intros (X & _); discriminate]. rewrite !andb_true_iff. intros [[_ X] _].
      destruct (negb (triggerOnCC r)); [discriminate|]. destruct (negb (randOk r rnd)); discriminate. }
  rewrite (IL _ eq_refl). cbn [andb].
  destruct (triggerOnCC r); cbn [negb andb snd]; [|split; [discriminate|intros (X & _); discriminate]].
  destruct (randOk r rnd); cbn [negb andb snd]; [|split; [discriminate|intros (X & _); discriminate]].
  destruct (inQ lo hi v); cbn [negb andb snd]; [|split; [discriminate|intros (X & _); discriminate]].
  change cc_polyphonicAftertouch with 130.
  destruct ((cc =? 130) && (0 <=? ext) && negb (inZ (keyLo r) (keyHi r) ext)); cbn [negb andb snd fst];
    [split; [discriminate|intros (X & _); discriminate]|].
  rewrite !andb_true_iff, orb_true_iff, negb_true_iff, Z.eqb_eq.
  rewrite <- (not_true_iff_false (Qeq_bool _ _)), Qeq_bool_iff.
  destruct (useTimerRange r), tim; cbn; intuition congruence.
Qed.

Definition ext_of (o : op) : Z := match o with OPolyAT _ n _ => n | _ => -1 end.
(** What one call with a controller does. *)
Lemma cc_step defaults s op o s' cc v k r l :
  cc_sent op = Some (cc, v) -> sstep defaults s (op, o) = Some s' -> lay s k = Some (r, l) ->
  exists s0 l0 out, lay s0 k = Some (r, l0) /\ s_out s' = s_out s ++ out /\ l_cc l0 = l_cc l /\ l_counter l0 = l_counter l /\
    ccValue (s_midi s0) cc = ccValue (s_midi s) cc /\
    lay s' k = Some (r, cc_layer_effect r (s_midi s0) cc v (o_rnd o) (ext_of op) l0) /\
    by_cc k out = if cc_bool r (s_midi s0) cc v (o_rnd o) (ext_of op) (o_tim o k) l0 then [Start k ECC cc v] else [].
Proof.
  assert (G : forall s0 l0 d ext, perform_cc d cc v ext o s0 = Some s' -> s_out s0 = s_out s -> lay s0 k = Some (r, l0) ->
    l_cc l0 = l_cc l -> l_counter l0 = l_counter l -> ccValue (s_midi s0) cc = ccValue (s_midi s) cc ->
    exists s0 l0 out, lay s0 k = Some (r, l0) /\ s_out s' = s_out s ++ out /\ l_cc l0 = l_cc l /\ l_counter l0 = l_counter l /\
    ccValue (s_midi s0) cc = ccValue (s_midi s) cc /\
    lay s' k = Some (r, cc_layer_effect r (s_midi s0) cc v (o_rnd o) ext l0) /\
    by_cc k out = if cc_bool r (s_midi s0) cc v (o_rnd o) ext (o_tim o k) l0 then [Start k ECC cc v] else []).
  { intros s0 l0 d ext E O L B C V. unfold perform_cc, opt_sys in E.
    destruct (ccDispatch_by cc v (o_rnd o) ext (o_att o) (o_att2 o) (o_tim o) s0) as (out & D1 & D2).
    destruct (ccDispatch_lay cc v (o_rnd o) ext (o_att o) (o_att2 o) (o_tim o) s0) as (_ & _ & _ & D3).
    destruct (ccEvent _ _ _ _) as [m'|]; [|discriminate]. apply some_inj in E. subst s'.
    exists s0, l0, out. split; [exact L|]. split; [cbn [with_midi s_out]; now rewrite D1, O|].
    split; [exact B|]. split; [exact C|]. split; [exact V|]. split; [|now apply D2].
    specialize (D3 k). rewrite L in D3. exact D3. }
  intros CS Es L. destruct op; cbn [cc_sent] in CS; try discriminate CS; cbn [sstep] in Es; cbn [ext_of].
  - destruct (cc0 =? 121); [discriminate CS|]. cbn [orb] in CS.
    destruct ((cc0 =? 123) || (cc0 =? 120)); [discriminate CS|]. injection CS as -> ->. now apply (G s l d).
  - injection CS as -> ->. now apply (G s l d).
  - injection CS as <- <-. apply (G _ (registerPitchWheel r v0 l) d (-1) Es); auto.
    apply (lay_all_some (fun r => registerPitchWheel r v0)). exact L.
  - injection CS as <- <-. apply (G _ (registerAftertouch r v0 l) d (-1) Es); auto.
    apply (lay_all_some (fun r => registerAftertouch r v0)). exact L.
  - injection CS as <- <-. apply (G _ l d n Es); auto.
    unfold polyAftertouchEvent. cbn. destruct ((n <? 0) || (128 <=? n)); reflexivity.
Qed.

(** * C78 *)

(** After any history, a controller, pitch wheel or aftertouch event starts a region by its controller trigger exactly
    once when all its conditions are met, and not at all otherwise. *)
Theorem C78_cc_starts defaults m sw bps rs os s k r op o s' cc v :
  srun defaults (load m sw bps rs) os = Some s -> nth_error rs k = Some r -> cc_numbers_ok r ->
  1 <= seqLength r -> reached r os < 2 ^ 31 - 1 ->
  cc_sent op = Some (cc, v) -> sstep defaults s (op, o) = Some s' ->
  exists l' out, lay s' k = Some (r, l') /\ s_out s' = s_out s ++ out /\
    let meets := cc_meets r op cc v (o_rnd o) (ccValue (s_midi s) cc) l'
      (sent defaults (ccValue m) (os ++ [(op, o)])) (reached r os) (o_tim o k) in
    (meets /\ by_cc k out = [Start k ECC cc v] \/ ~ meets /\ by_cc k out = []).
Proof.
  intros E Hk W HL HB CS Es.
  destruct (counter_run _ _ _ _ _ _ _ _ _ E Hk HL ltac:(lia)) as (l & L & C1 & _).
  assert (E' : srun defaults (load m sw bps rs) (os ++ [(op, o)]) = Some s').
  { clear - E Es. revert E. generalize (load m sw bps rs). induction os as [|x os IH]; intros s0; cbn [srun app].
    - intros [= ->]. now rewrite Es.
    - destruct (sstep defaults s0 x); [apply IH|discriminate]. }
  destruct (C16_cc_switch_exact _ _ _ _ _ _ _ _ _ E' Hk W) as (l' & L' & BI).
  destruct (cc_step _ _ _ _ _ _ _ _ _ _ CS Es L) as (s0 & l0 & out & L0 & Ho & B0 & C0 & V0 & LE & BY).
  rewrite LE in L'. injection L' as L'. exists l', out. rewrite LE, L'. split; [reflexivity|]. split; [exact Ho|].
  pose proof (cc_bool_iff r (s_midi s0) cc v (o_rnd o) (ext_of op) (o_tim o k) l0) as I. cbv zeta in I.
  pose proof (counted_cc r (s_midi s0) cc v (o_rnd o) (ext_of op) l0) as CC. unfold counted in CC.
  rewrite L' in I, CC. cbv zeta.
  assert (M : cc_bool r (s_midi s0) cc v (o_rnd o) (ext_of op) (o_tim o k) l0 = true <->
    cc_meets r op cc v (o_rnd o) (ccValue (s_midi s) cc) l'
      (sent defaults (ccValue m) (os ++ [(op, o)])) (reached r os) (o_tim o k)).
  { rewrite I. clear I BY. unfold cc_meets. rewrite <- BI, <- randOk_iff, V0.
    unfold reaches_cc in *. unfold isSwitchedOn. rewrite !andb_true_iff.
    pose proof (reached_nonneg r os) as Hc.
    assert (PO : negb ((cc =? 130) && (0 <=? ext_of op) && negb (inZ (keyLo r) (keyHi r) (ext_of op))) = true <->
      match op with OPolyAT _ n _ => 0 <= n -> keyLo r <= n <= keyHi r | _ => True end).
    { destruct op; cbn [cc_sent] in CS; try discriminate CS; cbn [ext_of];
        try (change (0 <=? -1) with false; rewrite andb_false_r; cbn [andb negb]; clear; tauto).
      injection CS as <- <-. cbn [Z.eqb Pos.eqb andb]. unfold inZ.
      destruct (Z.leb_spec 0 n); cbn [andb negb]; [|split; [lia|trivial]].
      rewrite negb_involutive, andb_true_iff, !Z.leb_le. tauto. }
    destruct (cc_get (ccTriggers r) cc) as [[lo hi]|].
    2:{ split; [intros (X & _); discriminate|intros (_ & (lo & hi & X & _) & _); discriminate]. }
    assert (TR : (exists lo0 hi0 : Q, Some (lo, hi) = Some (lo0, hi0) /\ (lo0 <= v)%Q /\ (v <= hi0)%Q) <-> inQ lo hi v = true).
    { rewrite inQ_iff. split; [intros (a & b & [= <- <-] & X); exact X|intros X; now exists lo, hi]. }
    rewrite TR, <- PO, !andb_true_iff.
    destruct (triggerOnCC r && randOk r (o_rnd o) && inQ lo hi v &&
      negb ((cc =? 130) && (0 <=? ext_of op) && negb (inZ (keyLo r) (keyHi r) (ext_of op)))) eqn:RC.
    - injection CC as _ SQ. rewrite SQ, C0, C1, Z.rem_mod_nonneg, Z.eqb_eq by lia. rewrite !andb_true_iff in RC. tauto.
    - assert (~ (triggerOnCC r = true /\ randOk r (o_rnd o) = true /\ inQ lo hi v = true /\
        negb ((cc =? 130) && (0 <=? ext_of op) && negb (inZ (keyLo r) (keyHi r) (ext_of op))) = true)).
      { intros X. apply not_true_iff_false in RC. apply RC. rewrite !andb_true_iff. tauto. }
      tauto. }
  destruct (cc_bool _ _ _ _ _ _ _ _) eqn:Eb; [left|right]; split; try exact BY; rewrite <- M; [reflexivity|discriminate].
Qed.

(** A region for values of controller 20 of one half and more: the repeated value and the value below start nothing. *)
Definition cc_region : region :=
  Region 0 127 0%Q 1%Q (-1)%Q 1%Q 0 127 [] None None None None None false false false false
    true true 64 66 (1#127)%Q (1#127)%Q 0%Q 1%Q 0%Q 1%Q 0%Q 500%Q 0%Q 1%Q 1 1 TAttack [(20, (1#2, 1)%Q)]
    true true false false.
Example C78_ex :
  run_outs [cc_region] None [OCC 0 20 (3#4); OCC 0 20 (3#4); OCC 0 20 (1#4); OCC 0 20 (3#4); ONoteOn 0 60 1]%Q
  = Some [Start 0 ECC 20 (3#4)%Q; Start 0 ECC 20 (3#4)%Q; Start 0 ENoteOn 60 1%Q].
Proof. vm_compute. reflexivity. Qed.
