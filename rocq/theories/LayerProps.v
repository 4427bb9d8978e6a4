(** C16 (controller conditions), C17 (round robin), C44 (keyswitches), C50 (other switches),
    C51 (tempo conditions). *)
From Coq Require Import ZArith QArith List Bool Lia.
From Verif Require Import MidiModel MidiProps LayerModel LayerProofs LayerSteps.
Import ListNotations.
Local Open Scope Z_scope.

(** * Runs *)
Lemma srun_snoc defaults os : forall s o,
  srun defaults s (os ++ [o])
  = match srun defaults s os with Some s' => sstep defaults s' o | None => None end.
Proof.
  induction os as [|x os IH]; intros s o; cbn [srun app].
  - destruct (sstep defaults s o); reflexivity.
  - destruct (sstep defaults s x); auto.
Qed.
(** An invariant of one layer along a run. *)
Lemma run_layer_inv defaults s0 os s k r (I : list (op * oracle) -> sys -> layer -> Prop) :
  srun defaults s0 os = Some s ->
  (exists l0, lay s0 k = Some (r, l0) /\ I [] s0 l0) ->
  (forall os1 o s1 s2 l, srun defaults s0 os1 = Some s1 -> lay s1 k = Some (r, l) ->
     I os1 s1 l -> sstep defaults s1 o = Some s2 ->
     exists l', lay s2 k = Some (r, l') /\ I (os1 ++ [o]) s2 l') ->
  exists l, lay s k = Some (r, l) /\ I os s l.
Proof.
  intros E H0 Hs. revert s E. induction os as [|o os IH] using rev_ind; intros s E.
  - injection E as <-. exact H0.
  - rewrite srun_snoc in E. destruct (srun defaults s0 os) as [s1|] eqn:E1; [|discriminate].
    destruct (IH s1 eq_refl) as (l & L & HI). eapply Hs; eauto.
Qed.

Lemma lay_load m sw bps rs k r : nth_error rs k = Some r ->
  lay (load m sw bps rs) k = Some (r, finish_layer m sw bps r).
Proof. intros H. unfold lay, load. cbn [s_layers]. rewrite nth_error_map, H. reflexivity. Qed.
Lemma load_switch m sw bps rs : s_switch (load m sw bps rs) = sw.
Proof. reflexivity. Qed.

Lemma finish_layer_eq m sw bps r : exists l,
  finish_layer m sw bps r
  = registerProgramChange r (currentProgram m)
    (registerTempo r (60 / bps)
       (registerAftertouch r (last_value (channelAftertouchEvents m))
          (registerPitchWheel r (last_value (pitchEvents m)) (update_all m (ccValue m) r l)))) /\
  l_key l = (match lastKeyswitchRange r, sw with
             | Some (lo, hi), Some c => inZ lo hi c
             | _, _ => match lastKeyswitch r, sw with
                       | Some k, Some c => c =? k | _, _ => negb (usesKeySwitches r) end
             end) /\
  l_prev l = negb (usesPreviousKeySwitches r) /\ l_seq l = negb (usesSequenceSwitches r) /\
  l_cc l = (fun _ => true) /\ l_counter l = 0 /\ l_dsus l = [] /\ l_dsos l = [] /\
  l_sustain l = false /\ l_sosten l = false.
Proof.
  unfold finish_layer. eexists. split; [reflexivity|].
  destruct (lastKeyswitch r), sw, (lastKeyswitchRange r) as [[]|]; cbn; auto 20.
Qed.

(** * C16 *)

(** The value last sent to each controller: [init] at load, the defaults after a reset. *)
Definition sent_step (defaults : Z -> Q) (f : Z -> Q) (o : op) : Z -> Q :=
  match o with
  | OCC _ cc v => if cc =? 121 then (fun c => if inZ 0 511 c then defaults c else f c)
                  else if (cc =? 120) || (cc =? 123) then f else upd f cc v
  | OAutomate _ cc v => upd f cc v
  | OPitch _ v => upd f 128 v
  | OChanAT _ v => upd f 129 v
  | OPolyAT _ _ v => upd f 130 v
  | _ => f
  end.
Definition sent (defaults init : Z -> Q) (os : list (op * oracle)) : Z -> Q :=
  fold_left (fun f oo => sent_step defaults f (fst oo)) os init.

(** Every locc/hicc pair of the region holds of these values. *)
Definition conditions_hold (r : region) (vals : Z -> Q) : Prop :=
  forall cc lo hi, cc_get (ccConditions r) cc = Some (lo, hi) ->
    (lo <= vals cc)%Q /\ (vals cc <= hi)%Q.
(** The parser only accepts controllers below 512 for locc/hicc. *)
Definition cc_numbers_ok (r : region) : Prop :=
  forall cc lo hi, cc_get (ccConditions r) cc = Some (lo, hi) -> 0 <= cc <= 511.

Lemma inQ_iff lo hi v : inQ lo hi v = true <-> (lo <= v)%Q /\ (v <= hi)%Q.
Proof. unfold inQ. rewrite andb_true_iff, !Qle_bool_iff. tauto. Qed.
Lemma bits_all_iff f : bits_all f = true <-> forall cc, 0 <= cc <= 511 -> f cc = true.
Proof.
  unfold bits_all. rewrite forallb_forall. split.
  - intros H cc Hc. specialize (H (Z.to_nat cc)). rewrite Z2Nat.id in H by lia. apply H.
    apply in_seq. lia.
  - intros H k Hk. apply in_seq in Hk. apply H. lia.
Qed.

Definition bits_are (r : region) (vals : Z -> Q) (l : layer) : Prop :=
  forall cc, l_cc l cc = match cc_get (ccConditions r) cc with
                         | Some (lo, hi) => inQ lo hi (vals cc) | None => true end.

Lemma bits_frame : off_frame (fun _ l l' => l_cc l' = l_cc l).
Proof.
  apply same_field_frame.
  - intros. apply switch_off_fields.
  - intros. apply registerNoteOff_fields.
Qed.

Lemma bits_cc r vals l cc v m rnd ext : bits_are r vals l ->
  bits_are r (upd vals cc v) (cc_layer_effect r m cc v rnd ext l).
Proof.
  intros H c. rewrite cc_effect_bits. specialize (H c). unfold upd.
  destruct (cc_get (ccConditions r) cc) as [[lo hi]|] eqn:E.
  - destruct (Z.eqb_spec c cc) as [->|]; [now rewrite E|exact H].
  - rewrite H. destruct (Z.eqb_spec c cc) as [->|]; [now rewrite E|reflexivity].
Qed.

Lemma bits_step r defaults s oo l l' vals :
  cc_numbers_ok r -> bits_are r vals l ->
  layer_step (fun _ l l' => l_cc l' = l_cc l) defaults s oo r l l' ->
  bits_are r (sent_step defaults vals (fst oo)) l'.
Proof.
  intros W H HS. destruct oo as [op o]. cbn [layer_step fst sent_step] in *. destruct op; cbn [sent_step].
  - destruct HS as (m & l1 & l2 & H1 & H2 & ->). intros cc.
    destruct (register_prev_fields n r l2) as (_ & _ & _ & _ & _ & _ & _ & _ & _ & _ & K & _).
    rewrite K, H2. rewrite registerNoteOn_fields.
    destruct (switch_on_fields (s_switch s) (is_last_switch s n) r n l)
      as (_ & _ & _ & _ & _ & _ & _ & _ & _ & _ & K2 & _).
    destruct (inZ _ _ _); cbn; rewrite H1, K2; apply H.
  - intros cc. rewrite HS. apply H.
  - destruct (cc =? 121).
    + destruct HS as (m & ->). intros c.
      destruct (update_all_fields m defaults r l) as (_ & _ & _ & _ & K). rewrite K.
      destruct (cc_get (ccConditions r) c) as [[lo hi]|] eqn:E.
      * destruct (inZ 0 511 c) eqn:Ei; auto. rewrite H, E. reflexivity.
      * rewrite H, E. reflexivity.
    + rewrite orb_comm. destruct ((cc =? 123) || (cc =? 120)).
      * subst. exact H.
      * subst. now apply bits_cc.
  - subst. now apply bits_cc.
  - destruct HS as (m & ->). apply bits_cc. exact H.
  - destruct HS as (m & ->). apply bits_cc. exact H.
  - destruct HS as (m & ->). apply bits_cc. exact H.
  - subst. exact H.
  - subst. exact H.
  - subst. exact H.
Qed.

Lemma bits_run defaults m sw bps rs os s k r :
  srun defaults (load m sw bps rs) os = Some s -> nth_error rs k = Some r -> cc_numbers_ok r ->
  exists l, lay s k = Some (r, l) /\ bits_are r (sent defaults (ccValue m) os) l.
Proof.
  intros E Hk W.
  apply (run_layer_inv defaults (load m sw bps rs) os s k r
           (fun os s l => bits_are r (sent defaults (ccValue m) os) l)); auto.
  - eexists. split; [now apply lay_load|]. intros cc. cbn [sent fold_left].
    destruct (finish_layer_eq m sw bps r) as (l & -> & _ & _ & _ & C & _). cbn -[update_all].
    destruct (update_all_fields m (ccValue m) r l) as (_ & _ & _ & _ & K). rewrite K, C.
    destruct (cc_get (ccConditions r) cc) as [[lo hi]|] eqn:Ec; auto.
    apply W in Ec. unfold inZ. destruct (Z.leb_spec 0 cc), (Z.leb_spec cc 511); try lia. reflexivity.
  - intros os1 o s1 s2 l _ L HI Es.
    destruct (sstep_lay _ _ _ _ _ bits_frame Es) as (_ & _ & G).
    destruct (G k r l L) as (l' & L' & HS). exists l'. split; auto.
    unfold sent. rewrite fold_left_app. cbn [fold_left]. eapply bits_step; eauto.
Qed.

(** After any history, the controller conditions of a region are met in the engine's eyes
    exactly when they hold of the values last sent. *)
Theorem C16_cc_switch_exact defaults m sw bps rs os s k r :
  srun defaults (load m sw bps rs) os = Some s -> nth_error rs k = Some r -> cc_numbers_ok r ->
  exists l, lay s k = Some (r, l) /\
    (bits_all (l_cc l) = true <-> conditions_hold r (sent defaults (ccValue m) os)).
Proof.
  intros E Hk W. destruct (bits_run _ _ _ _ _ _ _ _ _ E Hk W) as (l & L & B).
  exists l. split; auto. rewrite bits_all_iff. split.
  - intros H cc lo hi Hc. apply inQ_iff. specialize (B cc). rewrite Hc in B. rewrite <- B.
    apply H. eapply W; eauto.
  - intros H cc _. rewrite B. destruct (cc_get (ccConditions r) cc) as [[lo hi]|] eqn:Ec; auto.
    apply inQ_iff. now apply H.
Qed.

(** Consequence at the API: a note starts a region only if its conditions hold. *)
Theorem C16_no_start_outside defaults m sw bps rs os s k r d n vel o s' x :
  srun defaults (load m sw bps rs) os = Some s -> nth_error rs k = Some r -> cc_numbers_ok r ->
  sstep defaults s (ONoteOn d n vel, o) = Some s' ->
  (exists out, s_out s' = s_out s ++ out /\ In x (ons k out)) ->
  conditions_hold r (sent defaults (ccValue m) os).
Proof.
  intros E Hk W Es (out & Ho & Hin).
  destruct (bits_run _ _ _ _ _ _ _ _ _ E Hk W) as (l & L & B).
  assert (G : forall s0, s_layers s0 = s_layers s -> s_switch s0 = s_switch s -> s_out s0 = s_out s ->
     s' = noteOnDispatch n vel (o_rnd o) (o_tim o) (o_chk o) s0 ->
     conditions_hold r (sent defaults (ccValue m) os)).
  { intros s0 HL HS HO ->.
    destruct (noteOn_out _ n vel (o_rnd o) (o_tim o) (o_chk o) s0 bits_frame) as (out' & Ho' & G).
    rewrite HO in Ho'. rewrite Ho in Ho'. apply app_inv_head in Ho' as <-.
    destruct (G k r l) as (l1 & HR & Hons); [unfold lay in *; now rewrite HL|].
    rewrite Hons in Hin. destruct (inZ _ _ _); [|contradiction].
    destruct (snd (registerNoteOn r (s_midi s0) n vel (o_rnd o) l1)) eqn:Et; [|contradiction].
    unfold registerNoteOn in Et. cbv zeta in Et.
    destruct (inZ (keyLo r) (keyHi r) n) eqn:Ei.
    2:{ destruct (_ || _); [discriminate|]. destruct (negb _); discriminate. }
    destruct (isSwitchedOn (count_sequence r l1)) eqn:Esw; [|discriminate].
    unfold isSwitchedOn in Esw. apply andb_true_iff in Esw as [_ Esw]. cbn [count_sequence l_cc set_seq] in Esw.
    destruct (switch_on_fields (s_switch s0) (is_last_switch s0 n) r n l)
      as (_ & _ & _ & _ & _ & _ & _ & _ & _ & _ & K2 & _).
    rewrite HR, K2, bits_all_iff in Esw.
    intros cc lo hi Hc. apply inQ_iff. specialize (B cc). rewrite Hc in B. rewrite <- B.
    apply Esw. eapply W; eauto. }
  cbn [sstep] in Es. destruct (is_last_switch s n).
  - apply some_inj in Es. apply (G s); auto.
  - unfold opt_sys in Es. destruct (noteOnEvent _ _ _ _ _ _) as [m'|]; [|discriminate].
    apply some_inj in Es. apply (G (with_midi s m')); auto.
Qed.

(** A region with nothing special, used in the examples. *)
Definition base_region : region :=
  Region 0 127 0%Q 1%Q (-1)%Q 1%Q 0 127 [] None None None None None false false false false
    true true 64 66 (1#127)%Q (1#127)%Q 0%Q 1%Q 0%Q 1%Q 0%Q 500%Q 0%Q 1%Q 1 1 TAttack []
    false true false false.
Definition quiet : oracle :=
  Oracle 0%Q 0%Q 0%Q (fun _ => (0%Q, 0%Q)) (fun _ => true) (fun _ => true) (fun _ => true)
    (fun _ => []) [].
Definition with_conditions (c : list (Z * (Q * Q))) : region :=
  Region 0 127 0%Q 1%Q (-1)%Q 1%Q 0 127 c None None None None None false false false false
    true true 64 66 (1#127)%Q (1#127)%Q 0%Q 1%Q 0%Q 1%Q 0%Q 500%Q 0%Q 1%Q 1 1 TAttack []
    false true false false.
Definition zeros : Z -> Q := fun _ => 0%Q.
Definition run_outs (rs : list region) (sw : option Z) (os : list op) : option (list start) :=
  option_map s_out (srun zeros (load midi_init sw 2 rs) (map (fun o => (o, quiet)) os)).

Example C16_ex :
  run_outs [with_conditions [(7, (1#2, 1)%Q)]] None
    [ONoteOn 0 60 1; OCC 0 7 (3#4); ONoteOn 0 61 1; OCC 0 121 0; ONoteOn 0 62 1]%Q
  = Some [Start 0 ENoteOn 61 1].
Proof. vm_compute. reflexivity. Qed.

(** Controllers that notes set by themselves (here 131, the note-on velocity) are recorded
    without telling the regions: the condition holds in the engine's eyes although the
    current value of the controller is outside. *)
Theorem C16_note_controllers_refuted :
  exists r os s l, cc_numbers_ok r /\ srun zeros (load midi_init None 2 [r]) os = Some s /\
    lay s 0 = Some (r, l) /\ bits_all (l_cc l) = true /\
    ~ conditions_hold r (ccValue (s_midi s)).
Proof.
  set (r := with_conditions [(131, (0, 1#2)%Q)]).
  assert (Hn : cc_numbers_ok r).
  { intros cc lo hi. unfold r, cc_get. cbn [with_conditions ccConditions find fst].
    destruct (Z.eqb_spec 131 cc); [lia|discriminate]. }
  assert (Hr : ccConditions r = [(131, (0, 1#2)%Q)]) by reflexivity.
  pose (os := [(ONoteOn 0 60 1%Q, quiet)]).
  destruct (omap_some (fun s => (option_map (fun p => bits_all (l_cc (snd p))) (lay s 0),
                                 ccValue (s_midi s) 131))
              (srun zeros (load midi_init None 2 [r]) os) _ ltac:(vm_compute; reflexivity))
    as (s & E & F). injection F as F1 F2. clearbody r os.
  destruct (bits_run zeros midi_init None 2%Q [r] os s 0%nat r E eq_refl Hn) as (l & L & _).
  exists r, os, s, l. split; auto. split; [exact E|]. split; [exact L|].
  rewrite L in F1. cbn [option_map snd] in F1. injection F1 as F1. split; [exact F1|].
  intros H. specialize (H 131 0%Q (1#2)%Q). rewrite Hr in H. specialize (H eq_refl). rewrite F2 in H. destruct H as [_ H].
  revert H. unfold Qle. cbn. lia.
Qed.

(** * C17 *)

(** Does this call reach the region's sequence counter? *)
Definition reaches_cc (r : region) (cc : Z) (v rnd : Q) (ext : Z) : bool :=
  match cc_get (ccTriggers r) cc with
  | Some (lo, hi) =>
    triggerOnCC r && randOk r rnd && inQ lo hi v &&
    negb ((cc =? 130) && (0 <=? ext) && negb (inZ (keyLo r) (keyHi r) ext))
  | None => false
  end.
Definition reaches (r : region) (oo : op * oracle) : bool :=
  let '(op, o) := oo in
  match op with
  | ONoteOn _ n _ => inZ (keyLo r) (keyHi r) n
  | OCC _ cc v => if (cc =? 121) || (cc =? 120) || (cc =? 123) then false
                  else reaches_cc r cc v (o_rnd o) (-1)
  | OAutomate _ cc v => reaches_cc r cc v (o_rnd o) (-1)
  | OPitch _ v => reaches_cc r 128 v (o_rnd o) (-1)
  | OChanAT _ v => reaches_cc r 129 v (o_rnd o) (-1)
  | OPolyAT _ n v => reaches_cc r 130 v (o_rnd o) n
  | _ => false
  end.
Definition reached (r : region) (os : list (op * oracle)) : Z :=
  Z.of_nat (length (filter (reaches r) os)).

Definition counter_frame : off_frame (fun _ l l' => (l_counter l', l_seq l') = (l_counter l, l_seq l)).
Proof.
  apply (same_field_frame (fun l => (l_counter l, l_seq l))).
  - intros. destruct (switch_off_fields r n l) as (_ & _ & _ & _ & _ & A & _ & _ & _ & _ & _ & B).
    now rewrite A, B.
  - intros. destruct (registerNoteOff_fields r m n vel rnd l) as (_ & _ & _ & _ & A & _ & _ & _ & _ & _ & B).
    now rewrite A, B.
Qed.

Definition counted (r : region) (b : bool) (l l' : layer) : Prop :=
  (l_counter l', l_seq l')
  = if b then (incr32 (l_counter l), Z.rem (l_counter l) (seqLength r) =? seqPosition r - 1)
    else (l_counter l, l_seq l).

Lemma counted_cc r m cc v rnd ext l :
  counted r (reaches_cc r cc v rnd ext) l (cc_layer_effect r m cc v rnd ext l).
Proof.
  unfold counted, cc_layer_effect, reaches_cc.
  destruct (in_cc_list r cc) eqn:Ei.
  2:{ unfold in_cc_list in Ei. apply orb_false_iff in Ei as [Ei _]. apply orb_false_iff in Ei as [Ei _].
      destruct (cc_get (ccTriggers r) cc); [discriminate|reflexivity]. }
  destruct (cc_pedals_fields r cc v l) as (_ & _ & _ & P1 & P2 & _).
  destruct (updateCC_fields r m cc v (cc_pedals r cc v l)) as (_ & _ & _ & U1 & U2 & _).
  set (l1 := cc_pedals r cc v l) in *. unfold registerCC.
  set (l2 := updateCCState r m cc v l1) in *.
  assert (C : l_counter l2 = l_counter l) by congruence.
  assert (S : l_seq l2 = l_seq l) by congruence.
  assert (N : (l_counter l2, l_seq l2) = (l_counter l, l_seq l)) by congruence.
  destruct (cc_get (ccTriggers r) cc) as [[lo hi]|].
  2:{ destruct (negb (triggerOnCC r)); [exact N|]. destruct (negb (randOk r rnd)); exact N. }
  destruct (triggerOnCC r); cbn [negb andb]; [|exact N].
  destruct (randOk r rnd); cbn [negb andb]; [|exact N].
  destruct (inQ lo hi v); cbn [negb andb]; [|exact N].
  change cc_polyphonicAftertouch with 130.
  destruct ((cc =? 130) && (0 <=? ext) && negb (inZ (keyLo r) (keyHi r) ext)); cbn [negb fst].
  - exact N.
  - cbn [count_sequence set_seq l_counter l_seq]. now rewrite C.
Qed.

Lemma counted_step r defaults s oo l l' :
  layer_step (fun _ l l' => (l_counter l', l_seq l') = (l_counter l, l_seq l)) defaults s oo r l l' ->
  counted r (reaches r oo) l l'.
Proof.
  destruct oo as [op o]. cbn [layer_step reaches]. destruct op; intros HS.
  - destruct HS as (m & l1 & l2 & H1 & H2 & ->).
    destruct (register_prev_fields n r l2) as (_ & _ & _ & _ & _ & K1 & _ & _ & _ & _ & _ & K2).
    destruct (switch_on_fields (s_switch s) (is_last_switch s n) r n l)
      as (_ & _ & _ & _ & _ & K3 & _ & _ & _ & _ & _ & K4).
    rewrite registerNoteOn_fields in H2. unfold counted. rewrite K1, K2, H2.
    destruct (inZ _ _ _).
    + cbn [count_sequence set_seq l_counter l_seq]. injection H1 as H1 H1'. now rewrite H1, K4.
    + rewrite H1, K3, K4. reflexivity.
  - exact HS.
  - destruct (Z.eqb_spec cc 121) as [->|]; cbn [orb].
    + destruct HS as (m & ->). unfold counted.
      destruct (update_all_fields m defaults r l) as (_ & _ & A & B & _). now rewrite A, B.
    + rewrite (orb_comm (cc =? 123)) in HS. destruct ((cc =? 120) || (cc =? 123)).
      * subst. reflexivity.
      * subst. apply counted_cc.
  - subst. apply counted_cc.
  - destruct HS as (m & ->). apply (counted_cc r m 128 v (o_rnd o) (-1) (registerPitchWheel r v l)).
  - destruct HS as (m & ->). apply (counted_cc r m 129 v (o_rnd o) (-1) (registerAftertouch r v l)).
  - destruct HS as (m & ->). apply counted_cc.
  - subst. reflexivity.
  - subst. reflexivity.
  - subst. reflexivity.
Qed.

Lemma reached_snoc r os o : reached r (os ++ [o]) = reached r os + (if reaches r o then 1 else 0).
Proof.
  unfold reached. rewrite filter_app, app_length. cbn [filter].
  destruct (reaches r o); cbn [length]; lia.
Qed.
Lemma reached_nonneg r os : 0 <= reached r os.
Proof. unfold reached. lia. Qed.

Lemma counter_run defaults m sw bps rs os s k r :
  srun defaults (load m sw bps rs) os = Some s -> nth_error rs k = Some r ->
  1 <= seqLength r -> reached r os <= 2 ^ 31 - 1 ->
  exists l, lay s k = Some (r, l) /\ l_counter l = reached r os /\
    l_seq l = if reached r os =? 0 then negb (usesSequenceSwitches r)
              else (reached r os - 1) mod seqLength r =? seqPosition r - 1.
Proof.
  intros E Hk HL HB.
  assert (G : exists l, lay s k = Some (r, l) /\
    (reached r os <= 2 ^ 31 - 1 -> l_counter l = reached r os /\
    l_seq l = if reached r os =? 0 then negb (usesSequenceSwitches r)
              else (reached r os - 1) mod seqLength r =? seqPosition r - 1)).
  2:{ destruct G as (l & L & G). exists l. split; auto. }
  clear HB.
  apply (run_layer_inv defaults (load m sw bps rs) os s k r
           (fun os s l => reached r os <= 2 ^ 31 - 1 -> l_counter l = reached r os /\
    l_seq l = if reached r os =? 0 then negb (usesSequenceSwitches r)
              else (reached r os - 1) mod seqLength r =? seqPosition r - 1)); auto.
  - eexists. split; [now apply lay_load|]. intros _.
    destruct (finish_layer_eq m sw bps r) as (l & -> & _ & _ & A & _ & B & _). cbn -[update_all].
    destruct (update_all_fields m (ccValue m) r l) as (_ & _ & C & D & _). rewrite C, D. auto.
  - intros os1 o s1 s2 l _ L HI Es.
    destruct (sstep_lay _ _ _ _ _ counter_frame Es) as (_ & _ & G).
    destruct (G k r l L) as (l' & L' & HS). exists l'. split; auto.
    apply counted_step in HS. unfold counted in HS. rewrite reached_snoc.
    pose proof (reached_nonneg r os1). intros HB.
    destruct (reaches r o).
    + destruct (HI ltac:(lia)) as (H1 & H2).
      injection HS as HS1 HS2. rewrite H1 in *.
      split.
      * rewrite HS1. unfold incr32. destruct (Z.eqb_spec (reached r os1) (2 ^ 31 - 1)); lia.
      * rewrite HS2. destruct (Z.eqb_spec (reached r os1 + 1) 0); [lia|].
        rewrite Z.rem_mod_nonneg by lia. f_equal. f_equal. lia.
    + rewrite Z.add_0_r in *. injection HS as HS1 HS2. rewrite HS1, HS2. auto.
Qed.

(** The region has no keyswitch. *)
Definition no_keyswitch (r : region) : Prop :=
  lastKeyswitch r = None /\ lastKeyswitchRange r = None /\ upKeyswitch r = None /\
  downKeyswitch r = None /\ previousKeyswitch r = None.
(** Everything except the sequence is met for this note. *)
Definition other_conditions (r : region) (l : layer) (m : midi) (n : Z) (vel : Q) (o : oracle)
  (k : nat) : bool :=
  l_key l && l_prev l && l_pitch l && l_prog l && l_bpm l && l_aft l && bits_all (l_cc l)
  && inQ (polyLo r) (polyHi r) (getPolyAftertouch m n) && triggerOnNote r
  && inQ (velLo r) (velHi r) (if velocityPrevious r then velocityOverride m else vel)
  && randOk r (o_rnd o)
  && match trig r with TAttack => true | TFirst => activeNotes m =? 1
                     | TLegato => 1 <? activeNotes m | _ => false end
  && negb (useTimerRange r && negb (o_tim o k)).

(** Everything except the delayed releases is kept by note-offs for a region without
    keyswitches. *)
Definition keep_all (l l' : layer) : Prop :=
  same_switches l l' /\ l_seq l' = l_seq l /\ l_counter l' = l_counter l /\ l_cc l' = l_cc l.
Lemma keep_all_frame : off_frame (fun r l l' => no_keyswitch r -> keep_all l l').
Proof.
  unfold keep_all, same_switches. constructor.
  - auto 20.
  - intros r a b c H1 H2 N. specialize (H1 N). specialize (H2 N). intuition congruence.
  - intros r l n (A & B & C & D & E). unfold switch_off, in_up_list, in_down_list. rewrite C, D.
    auto 20.
  - intros r l m n vel rnd _. pose proof (registerNoteOff_fields r m n vel rnd l) as H. cbv zeta in H.
    intuition.
Qed.

(** A note-on in the key range starts the region exactly when it is number [seq_position],
    modulo [seq_length], among the events that reach the counter (and the other conditions,
    which do not depend on the counter, are met). *)
Theorem C17_round_robin defaults m sw bps rs os s k r l d n vel o s' :
  srun defaults (load m sw bps rs) os = Some s -> nth_error rs k = Some r ->
  lay s k = Some (r, l) ->
  1 <= seqLength r -> 1 <= seqPosition r <= seqLength r -> no_keyswitch r ->
  0 <= n < 128 -> inZ (keyLo r) (keyHi r) n = true ->
  reached r os < 2 ^ 31 - 1 ->
  sstep defaults s (ONoteOn d n vel, o) = Some s' ->
  exists m' out, s_out s' = s_out s ++ out /\ s_midi s' = m' /\
    ons k out = if ((reached r os + 1) mod seqLength r =? seqPosition r mod seqLength r)
                   && other_conditions r l m' n vel o k
                then [Start k ENoteOn n vel] else [].
Proof.
  intros E Hk L HL HP NK Hn Hin HB Es.
  assert (G : forall s0, s_layers s0 = s_layers s -> s_switch s0 = s_switch s -> s_out s0 = s_out s ->
     s' = noteOnDispatch n vel (o_rnd o) (o_tim o) (o_chk o) s0 ->
  exists m' out, s_out s' = s_out s ++ out /\ s_midi s' = m' /\
    ons k out = if ((reached r os + 1) mod seqLength r =? seqPosition r mod seqLength r)
                   && other_conditions r l m' n vel o k
                then [Start k ENoteOn n vel] else []).
  { intros s0 HLay HS HO ->.
    destruct (noteOn_out _ n vel (o_rnd o) (o_tim o) (o_chk o) s0 keep_all_frame) as (out & Ho & G).
    destruct (noteOn_lay _ n vel (o_rnd o) (o_tim o) (o_chk o) s0 keep_all_frame) as (Hm & _).
    exists (s_midi s0), out. rewrite HO in Ho. split; [exact Ho|]. split; [exact Hm|].
    destruct (G k r l) as (l1 & HR & Hons); [unfold lay in *; now rewrite HLay|].
    specialize (HR NK). rewrite Hons, Hin. cbn [andb].
    assert (Sw : switch_on (s_switch s0) (is_last_switch s0 n) n r l = l).
    { destruct NK as (A & B & C & D & _). unfold switch_on, in_last_list, in_up_list, in_down_list.
      rewrite A, B, C, D. cbn [orb]. destruct (s_switch s0); [|reflexivity].
      now rewrite andb_false_r. }
    rewrite Sw in HR. destruct HR as ((R1 & R2 & R3 & R4 & R5 & R6) & R7 & R8 & R9).
    destruct (counter_run _ _ _ _ _ _ _ _ _ E Hk HL ltac:(lia)) as (l0 & L0 & C1 & C2).
    rewrite L in L0. injection L0 as <-.
    pose proof (reached_nonneg r os) as Hc.
    assert (Seq : (Z.rem (l_counter l1) (seqLength r) =? seqPosition r - 1)
                  = ((reached r os + 1) mod seqLength r =? seqPosition r mod seqLength r)).
    { rewrite R8, C1, Z.rem_mod_nonneg by lia.
      apply Bool.eq_iff_eq_true. rewrite !Z.eqb_eq. split.
      - intros Hq. rewrite Z.add_mod, Hq by lia.
        destruct (Z.eq_dec (seqLength r) 1) as [->|].
        + now rewrite !Z.mod_1_r.
        + rewrite (Z.mod_small 1) by lia. f_equal. lia.
      - intros Hq. assert (Hd : (reached r os + 1 - seqPosition r) mod seqLength r = 0).
        { rewrite Zminus_mod, Hq, Z.sub_diag. apply Z.mod_0_l. lia. }
        replace (reached r os) with ((seqPosition r - 1) + (reached r os + 1 - seqPosition r)) by lia.
        apply Z.mod_divide in Hd; [|lia]. destruct Hd as (q & ->).
        rewrite Z.mod_add by lia. apply Z.mod_small. lia. }
    unfold registerNoteOn, other_conditions, isSwitchedOn. cbv zeta. rewrite Hin.
    cbn [count_sequence set_seq l_key l_prev l_seq l_pitch l_prog l_bpm l_aft l_cc].
    rewrite R1, R2, R3, R4, R5, R6, R9, Seq. generalize (bits_all (l_cc l)). intros ba.
    destruct ((reached r os + 1) mod seqLength r =? seqPosition r mod seqLength r);
    destruct (l_key l), (l_prev l), (l_pitch l), (l_prog l), (l_bpm l), (l_aft l), ba;
      cbn [andb negb orb snd]; auto;
      destruct (inQ (polyLo r) (polyHi r) (getPolyAftertouch (s_midi s0) n)); cbn [andb negb orb snd]; auto;
      destruct (triggerOnNote r); cbn [andb negb orb snd]; auto. }
  cbn [sstep] in Es. destruct (is_last_switch s n).
  - apply some_inj in Es. apply (G s); auto.
  - unfold opt_sys in Es. destruct (noteOnEvent _ _ _ _ _ _) as [m'|]; [|discriminate].
    apply some_inj in Es. apply (G (with_midi s m')); auto.
Qed.

Definition seq_region (len pos : Z) : region :=
  Region 40 80 0%Q 1%Q (-1)%Q 1%Q 0 127 [] None None None None None false false true false
    true true 64 66 (1#127)%Q (1#127)%Q 0%Q 1%Q 0%Q 1%Q 0%Q 500%Q 0%Q 1%Q len pos TAttack []
    false true false false.
Example C17_ex :
  run_outs [seq_region 3 1; seq_region 3 2; seq_region 3 3] None
    [ONoteOn 0 60 1; ONoteOn 0 61 1; ONoteOff 0 60 0; ONoteOn 0 30 1; ONoteOn 0 62 1; OCC 0 1 1;
     ONoteOn 0 63 1]%Q
  = Some [Start 0 ENoteOn 60 1; Start 1 ENoteOn 61 1; Start 2 ENoteOn 62 1; Start 0 ENoteOn 63 1].
Proof. vm_compute. reflexivity. Qed.

(** After 2^31 events the counter overflows; were it to wrap, the sequence is broken: the
    remainder of a negative number is negative, so position 2 of 3 is not played where it
    should be. *)
Theorem C17_counter_overflow_refuted :
  let r := seq_region 3 2 in
  let l := Layer false false [] [] true true true true true true true (fun _ => true) (2 ^ 31 - 1) in
  let l1 := count_sequence r l in
  let l2 := count_sequence r l1 in
  let l3 := count_sequence r l2 in
  let l4 := count_sequence r l3 in
  l_seq l1 = true /\ l_seq l2 = false /\ l_seq l3 = false /\ l_seq l4 = false.
Proof. cbv. auto. Qed.

(** * C44 *)

(** Keys held according to note messages. *)
Definition held_step (n : Z) (b : bool) (o : op) : bool :=
  match o with
  | ONoteOn _ k _ => if k =? n then true else b
  | ONoteOff _ k _ => if k =? n then false else b
  | _ => b
  end.
Definition held (os : list (op * oracle)) (n : Z) : bool :=
  fold_left (fun b oo => held_step n b (fst oo)) os false.
(** The last keyswitch played: [sw] at load. *)
Definition last_switch_step (is_switch : Z -> bool) (c : option Z) (o : op) : option Z :=
  match o with ONoteOn _ k _ => if is_switch k then Some k else c | _ => c end.
Definition last_switch (is_switch : Z -> bool) (sw : option Z) (os : list (op * oracle)) : option Z :=
  fold_left (fun c oo => last_switch_step is_switch c (fst oo)) os sw.
(** The last note played. *)
Definition last_note_step (c : option Z) (o : op) : option Z :=
  match o with ONoteOn _ k _ => Some k | _ => c end.
Definition last_note (os : list (op * oracle)) : option Z :=
  fold_left (fun c oo => last_note_step c (fst oo)) os None.
(** A note that selects an articulation in this instrument. *)
Definition selects (rs : list region) (n : Z) : bool :=
  existsb (fun r => in_last_list r n) rs.

Lemma last_switch_snoc f sw os o :
  last_switch f sw (os ++ [o]) = last_switch_step f (last_switch f sw os) (fst o).
Proof. unfold last_switch. now rewrite fold_left_app. Qed.
Lemma last_note_snoc os o : last_note (os ++ [o]) = last_note_step (last_note os) (fst o).
Proof. unfold last_note. now rewrite fold_left_app. Qed.
Lemma held_snoc os o n : held (os ++ [o]) n = held_step n (held os n) (fst o).
Proof. unfold held. now rewrite fold_left_app. Qed.
Lemma selects_run defaults m sw bps rs os s :
  srun defaults (load m sw bps rs) os = Some s ->
  (forall n, is_last_switch s n = selects rs n) /\ s_switch s = last_switch (selects rs) sw os.
Proof.
  revert s. induction os as [|o os IH] using rev_ind; intros s E.
  - injection E as <-. split; [|reflexivity]. intros n. unfold is_last_switch, selects, load. cbn.
    induction rs; cbn; auto. now rewrite IHrs.
  - rewrite srun_snoc in E. destruct (srun defaults (load m sw bps rs) os) as [s1|] eqn:E1; [|discriminate].
    destruct (IH s1 eq_refl) as (A & B).
    assert (FT : off_frame (fun _ _ _ => True)) by (constructor; auto).
    destruct (sstep_lay _ _ _ _ _ FT E) as (HL & HS & HLay).
    assert (Same : map fst (s_layers s) = map fst (s_layers s1)).
    { apply nth_ext with (d := base_region) (d' := base_region).
      - rewrite !map_length. exact HL.
      - intros i Hi. rewrite map_length in Hi.
        destruct (lay s1 i) as [[r l]|] eqn:El.
        + destruct (HLay i r l El) as (l' & El' & _).
          rewrite (nth_error_nth (map fst (s_layers s)) i base_region (x := r)).
          2:{ rewrite nth_error_map. unfold lay in El'. now rewrite El'. }
          rewrite (nth_error_nth (map fst (s_layers s1)) i base_region (x := r)); auto.
          rewrite nth_error_map. unfold lay in El. now rewrite El.
        + unfold lay in El. apply nth_error_None in El. lia. }
    assert (I : forall x, is_last_switch s x = is_last_switch s1 x).
    { intros x. unfold is_last_switch.
      assert (EB : forall l : list (region * layer), existsb (fun p => in_last_list (fst p) x) l
                   = existsb (fun r => in_last_list r x) (map fst l)).
      { induction l as [|? l IHl]; cbn; auto. now rewrite IHl. }
      now rewrite !EB, Same. }
    split; [intros n; now rewrite I|]. rewrite HS, last_switch_snoc, <- B. unfold switch_after, last_switch_step.
    destruct (fst o); auto. now rewrite A.
Qed.

(** ** sw_last *)
Lemma key_frame_last :
  off_frame (fun r l l' => upKeyswitch r = None -> downKeyswitch r = None -> l_key l' = l_key l).
Proof.
  constructor; intros; auto.
  - rewrite H0, H; auto.
  - unfold switch_off, in_up_list, in_down_list. now rewrite H, H0.
  - apply registerNoteOff_fields.
Qed.

(** A region with a sw_last (single or range) and neither sw_up nor sw_down. *)
Definition last_only (r : region) : Prop :=
  upKeyswitch r = None /\ downKeyswitch r = None /\ usesKeySwitches r = true /\
  ((lastKeyswitchRange r = None /\ lastKeyswitch r <> None) \/
   (lastKeyswitch r = None /\ lastKeyswitchRange r <> None)).
(** The region's sw_last says that [c] selects it. *)
Definition selected_by (r : region) (c : Z) : Prop :=
  lastKeyswitch r = Some c \/
  exists lo hi, lastKeyswitchRange r = Some (lo, hi) /\ lo <= c <= hi.
Lemma selected_iff r c : in_last_list r c = true <-> selected_by r c.
Proof.
  unfold in_last_list, selected_by. rewrite orb_true_iff.
  destruct (lastKeyswitch r) as [k|], (lastKeyswitchRange r) as [[lo hi]|];
    unfold inZ; rewrite ?andb_true_iff, ?Z.eqb_eq, ?Z.leb_le; split.
  all: try (intros [H|H]; [left; congruence|right; eauto; discriminate]).
  all: try (intros [H|(a & b & H & H')]; [left; congruence|right; injection H as <- <-; auto]).
  all: try (intros [H|(a & b & H & H')]; try discriminate; [left; congruence]).
  all: try (intros [H|(a & b & H & H')]; try discriminate; right; injection H as <- <-; auto).
Qed.

(** A region selected by sw_last is on exactly when the last keyswitch played (or the default
    one at load) selects it, whatever chokes happen. *)
Theorem C44_sw_last defaults m sw bps rs os s k r :
  srun defaults (load m sw bps rs) os = Some s -> nth_error rs k = Some r -> last_only r ->
  exists l, lay s k = Some (r, l) /\
    (l_key l = true <-> exists c, last_switch (selects rs) sw os = Some c /\ selected_by r c).
Proof.
  intros E Hk (U & D & K & LL).
  assert (Hin : forall n, in_last_list r n = true -> selects rs n = true).
  { intros n H. unfold selects. apply existsb_exists. exists r. split; auto.
    eapply nth_error_In; eauto. }
  cut (exists l, lay s k = Some (r, l) /\
    l_key l = match last_switch (selects rs) sw os with Some c => in_last_list r c | None => false end).
  { intros (l & L & H). exists l. split; auto. rewrite H.
    destruct (last_switch (selects rs) sw os) as [c|].
    - rewrite selected_iff. split; eauto. now intros (c' & [= <-] & ?).
    - split; [discriminate|]. now intros (c' & ? & _). }
  apply (run_layer_inv defaults (load m sw bps rs) os s k r
    (fun os s l => l_key l = match last_switch (selects rs) sw os with
                             | Some c => in_last_list r c | None => false end)); auto.
  - eexists. split; [now apply lay_load|]. cbn [last_switch fold_left].
    destruct (finish_layer_eq m sw bps r) as (l & -> & A & _). cbn -[update_all in_last_list].
    destruct (update_all_fields m (ccValue m) r l) as ((F & _) & _).
    rewrite F, A. unfold in_last_list.
    destruct LL as [(L1 & L2)|(L1 & L2)]; rewrite L1.
    + destruct (lastKeyswitch r) as [x|]; [|congruence]. destruct sw as [c|].
      * now rewrite orb_false_r, Z.eqb_sym.
      * now rewrite K.
    + destruct (lastKeyswitchRange r) as [[lo hi]|]; [|congruence].
      destruct sw as [c|]; [reflexivity|now rewrite K].
  - intros os1 o s1 s2 l E1 L HI Es.
    destruct (sstep_lay _ _ _ _ _ key_frame_last Es) as (_ & _ & G).
    destruct (G k r l L) as (l' & L' & HS). exists l'. split; auto.
    destruct (selects_run _ _ _ _ _ _ _ E1) as (S1 & S2).
    rewrite last_switch_snoc. rewrite <- S2 in *. clear S2.
    destruct o as [op o]. cbn [layer_step fst last_switch_step] in *.
    destruct op; cbn [last_switch_step].
    + destruct HS as (m' & l1 & l2 & H1 & H2 & ->).
      destruct (register_prev_fields n r l2) as (_ & _ & _ & _ & P & _). rewrite P, H2 by auto.
      rewrite registerNoteOn_fields.
      assert (Q : l_key (if inZ (keyLo r) (keyHi r) n then if inZ (keyLo r) (keyHi r) n
                  then count_sequence r l1 else l1 else l1) = l_key l1)
        by (destruct (inZ _ _ _); reflexivity).
      rewrite Q, H1 by auto. rewrite S1. unfold switch_on, in_up_list, in_down_list. rewrite U, D.
      destruct (in_last_list r n) eqn:En.
      * rewrite (Hin n En). cbn [set_key l_key]. now rewrite En.
      * destruct (selects rs n) eqn:Esel; cbn [andb].
        -- rewrite En. destruct (s_switch s1) as [c|]; [|exact HI].
           destruct (Z.eqb_spec c n) as [->|]; cbn [negb andb].
           ++ now rewrite HI, En.
           ++ destruct (in_last_list r c); [reflexivity|exact HI].
        -- destruct (s_switch s1); exact HI.
    + rewrite HS by auto. exact HI.
    + destruct (cc =? 121).
      * destruct HS as (m' & ->). destruct (update_all_fields m' defaults r l) as ((F & _) & _).
        now rewrite F.
      * destruct ((cc =? 123) || (cc =? 120)); subst; auto.
        destruct (cc_effect_switches r (s_midi s1) cc v (o_rnd o) (-1) l) as (F & _). now rewrite F.
    + subst. destruct (cc_effect_switches r (s_midi s1) cc v (o_rnd o) (-1) l) as (F & _). now rewrite F.
    + destruct HS as (m' & ->).
      destruct (cc_effect_switches r m' 128 v (o_rnd o) (-1) (registerPitchWheel r v l)) as (F & _).
      now rewrite F.
    + destruct HS as (m' & ->).
      destruct (cc_effect_switches r m' 129 v (o_rnd o) (-1) (registerAftertouch r v l)) as (F & _).
      now rewrite F.
    + destruct HS as (m' & ->).
      destruct (cc_effect_switches r m' 130 v (o_rnd o) n l) as (F & _).
      now rewrite F.
    + subst. exact HI.
    + subst. exact HI.
    + subst. exact HI.
Qed.

(** ** sw_previous *)
Lemma prev_frame : off_frame (fun _ l l' => l_prev l' = l_prev l).
Proof.
  apply same_field_frame.
  - intros. apply switch_off_fields.
  - intros. apply registerNoteOff_fields.
Qed.
(** A region with sw_previous is on exactly when the previous note was that one. *)
Theorem C44_sw_previous defaults m sw bps rs os s k r p :
  srun defaults (load m sw bps rs) os = Some s -> nth_error rs k = Some r ->
  previousKeyswitch r = Some p -> usesPreviousKeySwitches r = true ->
  exists l, lay s k = Some (r, l) /\ (l_prev l = true <-> last_note os = Some p).
Proof.
  intros E Hk P UP.
  apply (run_layer_inv defaults (load m sw bps rs) os s k r
    (fun os s l => l_prev l = true <-> last_note os = Some p)); auto.
  - eexists. split; [now apply lay_load|]. cbn [last_note fold_left].
    destruct (finish_layer_eq m sw bps r) as (l & -> & _ & A & _). cbn -[update_all].
    destruct (update_all_fields m (ccValue m) r l) as ((_ & F & _) & _).
    rewrite F, A, UP. split; discriminate.
  - intros os1 o s1 s2 l E1 L HI Es.
    destruct (sstep_lay _ _ _ _ _ prev_frame Es) as (_ & _ & G).
    destruct (G k r l L) as (l' & L' & HS). exists l'. split; auto.
    rewrite last_note_snoc.
    destruct o as [op o]. cbn [layer_step fst last_note_step] in *.
    destruct op; cbn [last_note_step].
    + destruct HS as (m' & l1 & l2 & H1 & H2 & ->).
      unfold register_prev. rewrite P. cbn [set_prev l_prev]. rewrite Z.eqb_eq.
      split; congruence.
    + now rewrite HS.
    + destruct (cc =? 121).
      * destruct HS as (m' & ->). destruct (update_all_fields m' defaults r l) as ((_ & F & _) & _).
        now rewrite F.
      * destruct ((cc =? 123) || (cc =? 120)); subst; auto.
        destruct (cc_effect_switches r (s_midi s1) cc v (o_rnd o) (-1) l) as (_ & F & _). now rewrite F.
    + subst. destruct (cc_effect_switches r (s_midi s1) cc v (o_rnd o) (-1) l) as (_ & F & _). now rewrite F.
    + destruct HS as (m' & ->).
      destruct (cc_effect_switches r m' 128 v (o_rnd o) (-1) (registerPitchWheel r v l)) as (_ & F & _).
      now rewrite F.
    + destruct HS as (m' & ->).
      destruct (cc_effect_switches r m' 129 v (o_rnd o) (-1) (registerAftertouch r v l)) as (_ & F & _).
      now rewrite F.
    + destruct HS as (m' & ->).
      destruct (cc_effect_switches r m' 130 v (o_rnd o) n l) as (_ & F & _).
      now rewrite F.
    + subst. exact HI.
    + subst. exact HI.
    + subst. exact HI.
Qed.
