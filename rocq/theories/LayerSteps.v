(** Effect of one API call on one layer, and the starts it emits. *)
From Coq Require Import ZArith QArith List Bool Lia.
From Verif Require Import MidiModel MidiProps LayerModel LayerProofs.
Import ListNotations.
Local Open Scope Z_scope.

(** Starts of layer [k] caused by notes going on. *)
Definition is_on (k : nat) (x : start) : bool :=
  Nat.eqb (st_layer x) k && match st_type x with ENoteOn => true | _ => false end.
Definition ons (k : nat) (o : list start) : list start := filter (is_on k) o.

Lemma ons_app k a b : ons k (a ++ b) = ons k a ++ ons k b.
Proof. apply filter_app. Qed.
Lemma ons_off k o : Forall (fun x => st_type x = ENoteOff) o -> ons k o = [].
Proof.
  induction 1 as [|x o H _ IH]; cbn; auto. unfold is_on at 1. rewrite H, andb_false_r. exact IH.
Qed.

(** The note-on starts of layer [j] in the loop. *)
Lemma on_loop_out R n vel rnd tim chk s k : off_frame R ->
  exists o, s_out (on_layer_loop n vel rnd tim chk s k) = s_out s ++ o /\
  forall j, ons j o =
    match lay s k with
    | Some (r, l) =>
      if Nat.eqb j k && (inZ (keyLo r) (keyHi r) n && snd (registerNoteOn r (s_midi s) n vel rnd l)
          && negb (useTimerRange r && negb (tim k)))
      then [Start k ENoteOn n vel] else []
    | None => []
    end.
Proof.
  intros F. pose proof (on_loop_spec n vel rnd tim chk s k) as H.
  destruct (lay s k) as [[r l]|].
  2:{ rewrite H. exists []. rewrite app_nil_r. auto. }
  destruct (inZ _ _ _).
  2:{ rewrite H. exists []. rewrite app_nil_r. split; auto. intros j. now rewrite andb_false_r. }
  destruct (registerNoteOn r (s_midi s) n vel rnd l) as [l' t]. cbv zeta in H. rewrite H. clear H.
  cbn [snd andb]. destruct (t && _) eqn:Et.
  - set (s1 := on_layer k (fun _ _ => l') s).
    destruct (chokes_frame R (chk k) s1 F) as (_ & _ & _ & _ & o & Ho & Hall).
    exists (o ++ [Start k ENoteOn n vel]). split.
    + cbn. rewrite Ho. cbn. now rewrite <- app_assoc.
    + intros j. rewrite ons_app, (ons_off j o Hall), andb_true_r. cbn. unfold is_on. cbn.
      rewrite (Nat.eqb_sym j k). destruct (Nat.eqb k j); reflexivity.
  - exists []. cbn. rewrite app_nil_r. split; auto. intros j. now rewrite andb_false_r.
Qed.

Lemma noteOn_out R n vel rnd tim chk s : off_frame R ->
  exists o, s_out (noteOnDispatch n vel rnd tim chk s) = s_out s ++ o /\
  forall j r l, lay s j = Some (r, l) ->
    exists l1, R r (switch_on (s_switch s) (is_last_switch s n) n r l) l1 /\
      ons j o = if inZ (keyLo r) (keyHi r) n && snd (registerNoteOn r (s_midi s) n vel rnd l1)
                   && negb (useTimerRange r && negb (tim j))
                then [Start j ENoteOn n vel] else [].
Proof.
  intros F. unfold noteOnDispatch.
  set (sw := is_last_switch s n).
  set (s1 := all_layers (switch_on (s_switch s) sw n) s).
  set (s2 := if sw then Sys (s_midi s1) (s_layers s1) (Some n) (s_out s1) else s1).
  assert (M2 : s_midi s2 = s_midi s) by (unfold s2; destruct sw; reflexivity).
  assert (O2 : s_out s2 = s_out s) by (unfold s2; destruct sw; reflexivity).
  assert (N2 : length (s_layers s2) = length (s_layers s)).
  { unfold s2; destruct sw; cbn; apply map_length. }
  assert (L2 : forall j, lay s2 j = option_map (fun p => (fst p, switch_on (s_switch s) sw n (fst p) (snd p))) (lay s j)).
  { intros j. rewrite <- lay_all. unfold s2. destruct sw; reflexivity. }
  assert (Loop : forall len st s3, s_midi s3 = s_midi s ->
    exists o, s_out (fold_left (on_layer_loop n vel rnd tim chk) (seq st len) s3) = s_out s3 ++ o /\
    forall j r l, lay s3 j = Some (r, l) ->
      exists l1, R r l l1 /\
        ons j o = if (st <=? j)%nat && (j <? st + len)%nat &&
                     (inZ (keyLo r) (keyHi r) n && snd (registerNoteOn r (s_midi s) n vel rnd l1)
                     && negb (useTimerRange r && negb (tim j)))
                  then [Start j ENoteOn n vel] else []).
  { induction len as [|len IH]; intros st s3 Hm; cbn [seq fold_left].
    - exists []. rewrite app_nil_r. split; auto. intros j r l E. exists l.
      split; [now apply of_refl|]. destruct (Nat.leb_spec st j), (Nat.ltb_spec j (st + 0)); try lia; reflexivity.
    - destruct (on_loop_lay R n vel rnd tim chk s3 st F) as (A1 & A2 & A3 & A4).
      destruct (on_loop_out R n vel rnd tim chk s3 st F) as (o1 & O1 & G1).
      destruct (IH (S st) (on_layer_loop n vel rnd tim chk s3 st) ltac:(congruence)) as (o2 & E2 & G2).
      exists (o1 ++ o2). split; [rewrite E2, O1; now rewrite app_assoc|].
      intros j r l E. specialize (A4 j). rewrite E in A4. destruct A4 as (l' & E' & HR).
      destruct (G2 j r l' E') as (l1 & R1 & Ho2). rewrite ons_app, Ho2, G1.
      rewrite Hm in *.
      destruct (Nat.eqb_spec j st) as [Hj|Hne]; cbn [andb] in *.
      + rewrite Hj in E |- *. rewrite E.
        destruct (Nat.leb_spec (S st) st); [lia|].
        destruct (Nat.leb_spec st st), (Nat.ltb_spec st (st + S len)); try lia. cbn [andb].
        exists l. split; [now apply of_refl|]. rewrite app_nil_r. reflexivity.
      + exists l1. split; [eapply of_trans; eauto|].
        replace (match lay s3 st with Some (_, _) => [] | None => [] end) with (@nil start)
          by (destruct (lay s3 st) as [[]|]; reflexivity).
        destruct (Nat.leb_spec st j), (Nat.leb_spec (S st) j), (Nat.ltb_spec j (S st + len)),
          (Nat.ltb_spec j (st + S len)); try lia; reflexivity. }
  destruct (Loop (length (s_layers s2)) O s2 M2) as (o & E & G).
  exists o. split; [cbn; rewrite E, O2; reflexivity|].
  intros j r l El. specialize (G j r (switch_on (s_switch s) sw n r l)).
  rewrite L2, El in G. destruct (G eq_refl) as (l1 & HR & Ho). exists l1. split; auto.
  rewrite Ho. assert (j < length (s_layers s))%nat by (apply nth_error_Some; unfold lay in El; congruence).
  rewrite N2. destruct (Nat.leb_spec 0 j), (Nat.ltb_spec j (0 + length (s_layers s))); try lia.
  reflexivity.
Qed.

(** The effect of one call on one layer, up to a relation kept by note-offs. *)
Definition layer_step (R : region -> layer -> layer -> Prop) (defaults : Z -> Q) (s : sys)
  (oo : op * oracle) (r : region) (l l' : layer) : Prop :=
  let '(op, o) := oo in
  let cc_eff cc v ext m l := cc_layer_effect r m cc v (o_rnd o) ext l in
  match op with
  | ONoteOn d n vel =>
    exists m l1 l2,
      R r (switch_on (s_switch s) (is_last_switch s n) n r l) l1 /\
      R r (if inZ (keyLo r) (keyHi r) n
           then fst (registerNoteOn r m n vel (o_rnd o) l1) else l1) l2 /\
      l' = register_prev n r l2
  | ONoteOff d n vel => R r l l'
  | OCC d cc v =>
    if cc =? 121 then exists m, l' = update_all m defaults r l
    else if (cc =? 123) || (cc =? 120) then l' = l
    else l' = cc_eff cc v (-1) (s_midi s) l
  | OAutomate d cc v => l' = cc_eff cc v (-1) (s_midi s) l
  | OPitch d v => exists m, l' = cc_eff 128 v (-1) m (registerPitchWheel r v l)
  | OChanAT d v => exists m, l' = cc_eff 129 v (-1) m (registerAftertouch r v l)
  | OPolyAT d n v => exists m, l' = cc_eff 130 v n m l
  | OProgram p => l' = registerProgramChange r p l
  | OTempo _ | OBlock _ => l' = l
  end.

Definition switch_after (s : sys) (o : op) : option Z :=
  match o with
  | ONoteOn _ n _ => if is_last_switch s n then Some n else s_switch s
  | _ => s_switch s
  end.

Lemma all_layers_length f s : length (s_layers (all_layers f s)) = length (s_layers s).
Proof. apply map_length. Qed.
Lemma lay_all_some f s j r l : lay s j = Some (r, l) -> lay (all_layers f s) j = Some (r, f r l).
Proof. intros H. rewrite lay_all, H. reflexivity. Qed.
Lemma some_inj {A} (a b : A) : Some a = Some b -> a = b.
Proof. congruence. Qed.
Lemma resetAll_some d defaults s s' : resetAllControllers d defaults s = Some s' ->
  exists m, s' = all_layers (update_all m defaults) (with_midi s m).
Proof.
  unfold resetAllControllers. generalize all_ccs. intros ccs.
  destruct (reset_ccs _ _ ccs _) as [m|]; [|discriminate]. intros E. apply some_inj in E. eauto.
Qed.
Lemma perform_cc_lay d cc v ext o s s' : perform_cc d cc v ext o s = Some s' ->
  length (s_layers s') = length (s_layers s) /\ s_switch s' = s_switch s /\
  forall j r l, lay s j = Some (r, l) ->
    lay s' j = Some (r, cc_layer_effect r (s_midi s) cc v (o_rnd o) ext l).
Proof.
  unfold perform_cc, opt_sys.
  destruct (ccDispatch_lay cc v (o_rnd o) ext (o_att o) (o_att2 o) (o_tim o) s) as (A & B & C & D).
  destruct (ccEvent _ _ _ _); [|discriminate]. intros E. injection E as <-.
  split; [exact C|]. split; [exact B|]. intros j r l El.
  unfold lay in *. cbn. specialize (D j). rewrite El in D. exact D.
Qed.

Lemma sstep_lay R defaults s oo s' : off_frame R -> sstep defaults s oo = Some s' ->
  length (s_layers s') = length (s_layers s) /\ s_switch s' = switch_after s (fst oo) /\
  forall j r l, lay s j = Some (r, l) ->
    exists l', lay s' j = Some (r, l') /\ layer_step R defaults s oo r l l'.
Proof.
  intros F E. destruct oo as [op o]. cbn [sstep layer_step fst switch_after] in *.
  destruct op; cbn [switch_after].
  - assert (G : forall s0 m, s_layers s0 = s_layers s -> s_switch s0 = s_switch s -> s_midi s0 = m ->
      s' = noteOnDispatch n vel (o_rnd o) (o_tim o) (o_chk o) s0 ->
      length (s_layers s') = length (s_layers s) /\
      s_switch s' = (if is_last_switch s n then Some n else s_switch s) /\
      forall j r l, lay s j = Some (r, l) -> exists l', lay s' j = Some (r, l') /\
      exists m l1 l2,
      R r (switch_on (s_switch s) (is_last_switch s n) n r l) l1 /\
      R r (if inZ (keyLo r) (keyHi r) n
           then fst (registerNoteOn r m n vel (o_rnd o) l1) else l1) l2 /\
      l' = register_prev n r l2).
    { intros s0 m HL HS HM ->.
      destruct (noteOn_lay R n vel (o_rnd o) (o_tim o) (o_chk o) s0 F) as (A & B & C & D).
      assert (I : is_last_switch s0 n = is_last_switch s n) by (unfold is_last_switch; now rewrite HL).
      split; [congruence|]. split; [now rewrite B, I, HS|]. intros j r l El.
      specialize (D j). unfold lay in D at 1. rewrite HL in D. fold (lay s j) in D.
      rewrite El in D. destruct D as (l1 & l2 & D1 & D2 & D3).
      eexists; split; [exact D3|]. exists m, l1, l2. rewrite HS, I in D1. rewrite HM in D2. auto. }
    destruct (is_last_switch s n) eqn:Isw.
    + injection E as E. apply (G s (s_midi s)); auto.
    + unfold opt_sys in E. destruct (noteOnEvent _ _ _ _ _ _) as [m|]; [|discriminate].
      injection E as E. apply (G (with_midi s m) m); auto.
  - assert (G : forall s0 c, s_layers s0 = s_layers s -> s_switch s0 = s_switch s ->
      s' = noteOffDispatch c s0 ->
      length (s_layers s') = length (s_layers s) /\ s_switch s' = s_switch s /\
      forall j r l, lay s j = Some (r, l) -> exists l', lay s' j = Some (r, l') /\ R r l l').
    { intros s0 c HL HS ->. destruct (noteOff_frame R c s0 F) as (A & B & C & D & _).
      split; [congruence|]. split; [congruence|]. intros j r l El. specialize (D j).
      unfold lay in D at 1. rewrite HL in D. fold (lay s j) in D. rewrite El in D. exact D. }
    destruct (is_last_switch s n).
    + apply some_inj in E. eapply (G s); eauto.
    + unfold opt_sys in E. destruct (noteOffEvent _ _ _ _ _ _) as [m|]; [|discriminate].
      apply some_inj in E. eapply (G (with_midi s m)); eauto.
  - destruct (cc =? 121) eqn:E1.
    + apply resetAll_some in E as (m & ->). split; [exact (all_layers_length _ (with_midi s m))|].
      split; [reflexivity|]. intros j r l El. eexists. split; [|exists m; reflexivity].
      apply lay_all_some. exact El.
    + destruct ((cc =? 123) || (cc =? 120)).
      * unfold opt_sys in E. destruct (allNotesOff _ _ _); [|discriminate]. injection E as <-.
        split; [reflexivity|]. split; [reflexivity|]. intros j r l El. exists l. split; auto.
      * apply perform_cc_lay in E as (A & B & C). split; auto. split; auto.
        intros j r l El. eauto.
  - apply perform_cc_lay in E as (A & B & C). split; auto. split; auto. intros j r l El. eauto.
  - apply perform_cc_lay in E as (A & B & C). split; [rewrite A; apply map_length|].
    split; [rewrite B; reflexivity|]. intros j r l El. eexists. split; [|eexists; reflexivity].
    apply C. apply (lay_all_some (fun r => registerPitchWheel r v)). exact El.
  - apply perform_cc_lay in E as (A & B & C). split; [rewrite A; apply map_length|].
    split; [rewrite B; reflexivity|]. intros j r l El. eexists. split; [|eexists; reflexivity].
    apply C. apply (lay_all_some (fun r => registerAftertouch r v)). exact El.
  - apply perform_cc_lay in E as (A & B & C). split; [rewrite A; reflexivity|].
    split; [rewrite B; reflexivity|]. intros j r l El. eexists. split; [|eexists; reflexivity].
    apply C. exact El.
  - injection E as <-. split; [apply map_length|]. split; [reflexivity|].
    intros j r l El. eexists. split; [|reflexivity].
    apply (lay_all_some (fun r => registerProgramChange r p)). exact El.
  - injection E as <-. split; [reflexivity|]. split; [reflexivity|]. eauto.
  - unfold opt_sys in E. destruct (advanceTime _ _); [|discriminate]. injection E as <-.
    split; [reflexivity|]. split; [reflexivity|]. intros j r l El. exists l. split; auto.
Qed.

(** Equality of one field is a frame when note-offs keep the field. *)
Lemma same_field_frame {A} (f : layer -> A) :
  (forall r l n, f (switch_off n r l) = f l) ->
  (forall r m n vel rnd l, f (fst (registerNoteOff r m n vel rnd l)) = f l) ->
  off_frame (fun _ l l' => f l' = f l).
Proof. intros H1 H2. constructor; intros; auto. congruence. Qed.

Ltac break_if := match goal with |- context [if ?b then _ else _] => destruct b end.
Lemma registerNoteOff_fields r m n vel rnd l :
  let l' := fst (registerNoteOff r m n vel rnd l) in
  l_sustain l' = l_sustain l /\ l_sosten l' = l_sosten l /\ l_key l' = l_key l /\
  l_prev l' = l_prev l /\ l_seq l' = l_seq l /\ l_pitch l' = l_pitch l /\ l_prog l' = l_prog l /\
  l_bpm l' = l_bpm l /\ l_aft l' = l_aft l /\ l_cc l' = l_cc l /\ l_counter l' = l_counter l.
Proof.
  cbv zeta. unfold registerNoteOff.
  do 3 (break_if; [cbn; auto 20|]). destruct (trig r); cbn [fst]; auto 20.
  repeat match goal with |- context [if ?b then _ else _] => destruct b eqn:? end;
    cbn in *; auto 20.
Qed.
Lemma switch_off_fields r n l :
  let l' := switch_off n r l in
  l_sustain l' = l_sustain l /\ l_sosten l' = l_sosten l /\ l_dsus l' = l_dsus l /\
  l_dsos l' = l_dsos l /\
  l_prev l' = l_prev l /\ l_seq l' = l_seq l /\ l_pitch l' = l_pitch l /\ l_prog l' = l_prog l /\
  l_bpm l' = l_bpm l /\ l_aft l' = l_aft l /\ l_cc l' = l_cc l /\ l_counter l' = l_counter l.
Proof. cbv zeta. unfold switch_off. repeat break_if; cbn; auto 20. Qed.
Lemma switch_on_fields c b r n l :
  let l' := switch_on c b n r l in
  l_sustain l' = l_sustain l /\ l_sosten l' = l_sosten l /\ l_dsus l' = l_dsus l /\
  l_dsos l' = l_dsos l /\
  l_prev l' = l_prev l /\ l_seq l' = l_seq l /\ l_pitch l' = l_pitch l /\ l_prog l' = l_prog l /\
  l_bpm l' = l_bpm l /\ l_aft l' = l_aft l /\ l_cc l' = l_cc l /\ l_counter l' = l_counter l.
Proof. cbv zeta. unfold switch_on. destruct c; repeat break_if; cbn; auto 20. Qed.
Lemma registerNoteOn_fields r m n vel rnd l :
  fst (registerNoteOn r m n vel rnd l) = if inZ (keyLo r) (keyHi r) n then count_sequence r l else l.
Proof. unfold registerNoteOn. cbv zeta. repeat break_if; reflexivity. Qed.
Lemma register_prev_fields n r l :
  let l' := register_prev n r l in
  l_sustain l' = l_sustain l /\ l_sosten l' = l_sosten l /\ l_dsus l' = l_dsus l /\
  l_dsos l' = l_dsos l /\ l_key l' = l_key l /\
  l_seq l' = l_seq l /\ l_pitch l' = l_pitch l /\ l_prog l' = l_prog l /\
  l_bpm l' = l_bpm l /\ l_aft l' = l_aft l /\ l_cc l' = l_cc l /\ l_counter l' = l_counter l.
Proof. cbv zeta. unfold register_prev. destruct (previousKeyswitch r); cbn; auto 20. Qed.

(** Folds over delayed releases change nothing else. *)
Lemma fold_delay_fields r d : forall l,
  let l' := fold_left (fun l x => delaySustainRelease r (fst x) (snd x) l) d l in
  l_sustain l' = l_sustain l /\ l_sosten l' = l_sosten l /\ l_dsos l' = l_dsos l /\
  l_key l' = l_key l /\ l_prev l' = l_prev l /\
  l_seq l' = l_seq l /\ l_pitch l' = l_pitch l /\ l_prog l' = l_prog l /\
  l_bpm l' = l_bpm l /\ l_aft l' = l_aft l /\ l_cc l' = l_cc l /\ l_counter l' = l_counter l.
Proof.
  cbv zeta. induction d as [|x d IH]; intros l; cbn [fold_left]; [auto 20|].
  specialize (IH (delaySustainRelease r (fst x) (snd x) l)). cbn in IH. exact IH.
Qed.
Lemma store_fields r m l :
  let l' := storeSostenutoNotes r m l in
  l_sustain l' = l_sustain l /\ l_sosten l' = l_sosten l /\ l_dsus l' = l_dsus l /\
  l_key l' = l_key l /\ l_prev l' = l_prev l /\
  l_seq l' = l_seq l /\ l_pitch l' = l_pitch l /\ l_prog l' = l_prog l /\
  l_bpm l' = l_bpm l /\ l_aft l' = l_aft l /\ l_cc l' = l_cc l /\ l_counter l' = l_counter l.
Proof.
  cbv zeta. unfold storeSostenutoNotes. generalize (note_range (keyLo r) (keyHi r)). intros ns.
  revert l. induction ns as [|x ns IH]; intros l; cbn [fold_left]; [auto 20|].
  break_if; [|apply IH]. specialize (IH (delaySostenutoRelease r x (lastNoteVelocities m x) l)).
  cbn in IH. exact IH.
Qed.

(** Switch-related fields through a controller event. *)
Definition same_switches (l l' : layer) : Prop :=
  l_key l' = l_key l /\ l_prev l' = l_prev l /\ l_pitch l' = l_pitch l /\
  l_prog l' = l_prog l /\ l_bpm l' = l_bpm l /\ l_aft l' = l_aft l.
Lemma same_switches_trans a b c : same_switches a b -> same_switches b c -> same_switches a c.
Proof. unfold same_switches. intuition congruence. Qed.

Lemma update_sostenuto_fields r m cc v l :
  let l' := update_sostenuto r m cc v l in
  same_switches l l' /\ l_sustain l' = l_sustain l /\ l_dsus l' = l_dsus l /\
  l_seq l' = l_seq l /\ l_cc l' = l_cc l /\ l_counter l' = l_counter l.
Proof.
  cbv zeta. unfold update_sostenuto, same_switches.
  break_if; [|auto 20].
  destruct (store_fields r m l) as (A & B & C & D & E & F & G & H & I & J & K & L).
  destruct (negb (l_sosten l) && _); break_if; cbn;
    rewrite ?A, ?C, ?D, ?E, ?F, ?G, ?H, ?I, ?J, ?K, ?L; auto 20.
Qed.
Lemma updateCC_fields r m cc v l :
  let l' := updateCCState r m cc v l in
  same_switches l l' /\ l_dsus l' = l_dsus l /\
  l_sustain l' = (if cc =? sustainCC r then checkSustain r && Qle_bool (sustainThreshold r) v
                  else l_sustain l) /\
  l_seq l' = l_seq l /\ l_counter l' = l_counter l /\
  l_cc l' = match cc_get (ccConditions r) cc with
            | Some (lo, hi) => upd (l_cc l) cc (inQ lo hi v) | None => l_cc l end.
Proof.
  cbv zeta. unfold updateCCState.
  set (l1 := update_sustain r cc v l).
  destruct (update_sostenuto_fields r m cc v l1) as (A & B & C & D & E & F).
  assert (H1 : same_switches l l1 /\ l_dsus l1 = l_dsus l /\
     l_sustain l1 = (if cc =? sustainCC r then checkSustain r && Qle_bool (sustainThreshold r) v
                  else l_sustain l) /\ l_seq l1 = l_seq l /\ l_counter l1 = l_counter l /\ l_cc l1 = l_cc l).
  { unfold l1, update_sustain. break_if; cbn; unfold same_switches; auto 20. }
  destruct H1 as (H1 & H2 & H3 & H4 & H5 & H6).
  set (l2 := update_sostenuto r m cc v l1) in *. unfold update_bits.
  destruct (cc_get (ccConditions r) cc) as [[lo hi]|]; cbn.
  - split; [unfold same_switches in *; cbn; intuition congruence|].
    repeat split; congruence.
  - split; [eapply same_switches_trans; eauto|]. repeat split; congruence.
Qed.
Lemma registerCC_fields r m cc v rnd ext l :
  let l' := fst (registerCC r m cc v rnd ext l) in
  same_switches l l' /\ l_cc l' = l_cc (updateCCState r m cc v l) /\
  l_sustain l' = l_sustain (updateCCState r m cc v l) /\
  l_sosten l' = l_sosten (updateCCState r m cc v l) /\
  l_dsus l' = l_dsus l /\ l_dsos l' = l_dsos (updateCCState r m cc v l).
Proof.
  cbv zeta. unfold registerCC.
  destruct (updateCC_fields r m cc v l) as (A & B & C & D & E & F).
  set (l1 := updateCCState r m cc v l) in *.
  destruct (negb (triggerOnCC r)); [cbn [fst]; auto 20|].
  destruct (negb (randOk r rnd)); [cbn [fst]; auto 20|].
  destruct (cc_get (ccTriggers r) cc) as [[lo hi]|]; [|cbn [fst]; auto 20].
  destruct (negb (inQ lo hi v)); [cbn [fst]; auto 20|].
  break_if; [cbn [fst]; auto 20|]. cbn [fst].
  split; [|cbn; auto 20]. eapply same_switches_trans; [exact A|]. unfold same_switches. cbn. auto 20.
Qed.
Lemma cc_pedals_fields r cc v l :
  let l' := cc_pedals r cc v l in
  same_switches l l' /\ l_sustain l' = l_sustain l /\ l_sosten l' = l_sosten l /\
  l_seq l' = l_seq l /\ l_counter l' = l_counter l /\ l_cc l' = l_cc l.
Proof.
  cbv zeta. unfold cc_pedals.
  set (l1 := if checkSustain r && (cc =? sustainCC r) && negb (Qle_bool (sustainThreshold r) v)
             then set_dsus l [] else l).
  assert (H1 : same_switches l l1 /\ l_sustain l1 = l_sustain l /\ l_sosten l1 = l_sosten l /\
     l_seq l1 = l_seq l /\ l_counter l1 = l_counter l /\ l_cc l1 = l_cc l).
  { unfold l1. break_if; cbn; unfold same_switches; auto 20. }
  break_if; [|exact H1]. destruct H1 as (H1 & H2 & H3 & H4 & H5 & H6).
  destruct (l_sustain l1) eqn:Es.
  - destruct (fold_delay_fields r (l_dsos l1) l1) as (A & B & C & D & E & F & G & H & I & J & K & L).
    split; [|cbn; repeat split; congruence].
    unfold same_switches in *. cbn. intuition congruence.
  - split; [|cbn; repeat split; congruence].
    unfold same_switches in *. cbn. intuition congruence.
Qed.
Lemma cc_effect_switches r m cc v rnd ext l : same_switches l (cc_layer_effect r m cc v rnd ext l).
Proof.
  unfold cc_layer_effect. break_if; [|unfold same_switches; auto 20].
  eapply same_switches_trans; [apply cc_pedals_fields|apply registerCC_fields].
Qed.
(** Condition bits through a controller event. *)
Lemma cc_effect_bits r m cc v rnd ext l :
  l_cc (cc_layer_effect r m cc v rnd ext l)
  = match cc_get (ccConditions r) cc with
    | Some (lo, hi) => upd (l_cc l) cc (inQ lo hi v) | None => l_cc l end.
Proof.
  unfold cc_layer_effect. destruct (in_cc_list r cc) eqn:E.
  - destruct (registerCC_fields r m cc v rnd ext (cc_pedals r cc v l)) as (_ & B & _).
    rewrite B. destruct (updateCC_fields r m cc v (cc_pedals r cc v l)) as (_ & _ & _ & _ & _ & F).
    rewrite F. destruct (cc_pedals_fields r cc v l) as (_ & _ & _ & _ & _ & G). now rewrite G.
  - unfold in_cc_list in E. apply orb_false_iff in E as [E _]. apply orb_false_iff in E as [_ E].
    destruct (cc_get (ccConditions r) cc); [discriminate|reflexivity].
Qed.

(** All controllers updated at once. *)
Lemma update_all_fields m vals r l :
  let l' := update_all m vals r l in
  same_switches l l' /\ l_dsus l' = l_dsus l /\ l_seq l' = l_seq l /\ l_counter l' = l_counter l /\
  forall cc, l_cc l' cc = match cc_get (ccConditions r) cc with
    | Some (lo, hi) => if inZ 0 511 cc then inQ lo hi (vals cc) else l_cc l cc
    | None => l_cc l cc end.
Proof.
  cbv zeta. unfold update_all.
  assert (G : forall ccs l, NoDup ccs ->
    let l' := fold_left (fun l cc => updateCCState r m cc (vals cc) l) ccs l in
    same_switches l l' /\ l_dsus l' = l_dsus l /\ l_seq l' = l_seq l /\ l_counter l' = l_counter l /\
    forall cc, l_cc l' cc = match cc_get (ccConditions r) cc with
      | Some (lo, hi) => if existsb (Z.eqb cc) ccs then inQ lo hi (vals cc) else l_cc l cc
      | None => l_cc l cc end).
  { induction ccs as [|c ccs IH]; intros l0 ND; cbn [fold_left existsb].
    - unfold same_switches. repeat split; auto. intros cc.
      destruct (cc_get _ _) as [[]|]; reflexivity.
    - inversion ND as [|? ? Hc ND']; subst.
      destruct (updateCC_fields r m c (vals c) l0) as (A1 & A2 & A3 & A4 & A5 & A6).
      destruct (IH (updateCCState r m c (vals c) l0) ND') as (B1 & B2 & B3 & B4 & B5).
      split; [eapply same_switches_trans; eauto|]. repeat (split; [congruence|]).
      intros cc. rewrite B5, A6. destruct (Z.eqb_spec cc c) as [->|Hne]; cbn [orb].
      + destruct (cc_get (ccConditions r) c) as [[lo hi]|]; auto.
        destruct (existsb (Z.eqb c) ccs); auto. unfold upd. now rewrite Z.eqb_refl.
      + destruct (cc_get (ccConditions r) cc) as [[lo hi]|];
          [destruct (existsb (Z.eqb cc) ccs); auto|];
          (destruct (cc_get (ccConditions r) c) as [[]|]; auto; unfold upd;
           destruct (Z.eqb_spec cc c); [contradiction|auto]). }
  assert (ND : NoDup all_ccs).
  { unfold all_ccs. apply FinFun.Injective_map_NoDup; [|apply seq_NoDup].
    intros a b Hab. now apply Nat2Z.inj. }
  specialize (G all_ccs l ND). cbv zeta in G. destruct G as (A & B & C & D & E).
  repeat (split; [assumption|]). intros cc. rewrite E.
  destruct (cc_get (ccConditions r) cc) as [[lo hi]|]; auto.
  replace (existsb (Z.eqb cc) all_ccs) with (inZ 0 511 cc); auto.
  destruct (inZ 0 511 cc) eqn:Ei; symmetry.
  - apply existsb_exists. exists cc. split; [|apply Z.eqb_refl]. unfold all_ccs.
    apply in_map_iff. exists (Z.to_nat cc). unfold inZ in Ei. rewrite in_seq. lia.
  - destruct (existsb (Z.eqb cc) all_ccs) eqn:Ex; auto. apply existsb_exists in Ex as (x & Hx & Hq).
    apply Z.eqb_eq in Hq as ->. unfold all_ccs in Hx. apply in_map_iff in Hx as (y & <- & Hy).
    rewrite in_seq in Hy. unfold inZ in Ei. lia.
Qed.
