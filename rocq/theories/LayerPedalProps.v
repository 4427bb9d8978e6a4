(** C18 (sustained releases), the rest of C44 (sw_down, sw_up), C50 (other switches) and
    C51 (tempo conditions). *)
From Coq Require Import ZArith QArith List Bool Lia Permutation.
From Verif Require Import MidiModel MidiProps LayerModel LayerProofs LayerSteps LayerProps LayerPedals.
Import ListNotations.
Local Open Scope Z_scope.

(** * C18 *)

(** The sustain pedal is down for this region, judging by the messages sent. *)
Definition pedal_down (r : region) (vals : Z -> Q) : Prop :=
  checkSustain r = true /\ (sustainThreshold r <= vals (sustainCC r))%Q.
(** The call is a message that lifts the pedal. *)
Definition lifts (r : region) (o : op) : Prop :=
  exists v, cc_sent o = Some (sustainCC r, v) /\ ~ (sustainThreshold r <= v)%Q.

Definition sustain_bit (r : region) (vals : Z -> Q) : bool :=
  checkSustain r && Qle_bool (sustainThreshold r) (vals (sustainCC r)).
Lemma sustain_bit_iff r vals : sustain_bit r vals = true <-> pedal_down r vals.
Proof. unfold sustain_bit, pedal_down. now rewrite andb_true_iff, Qle_bool_iff. Qed.

Lemma sustain_frame : off_frame (fun _ l l' => l_sustain l' = l_sustain l).
Proof.
  apply same_field_frame.
  - intros. apply switch_off_fields.
  - intros. apply registerNoteOff_fields.
Qed.
Lemma cc_effect_sustain r m cc v rnd ext l : trig r = TRelease ->
  l_sustain (cc_layer_effect r m cc v rnd ext l)
  = if cc =? sustainCC r then checkSustain r && Qle_bool (sustainThreshold r) v else l_sustain l.
Proof.
  intros T. unfold cc_layer_effect. destruct (in_cc_list r cc) eqn:Ei.
  - destruct (registerCC_fields r m cc v rnd ext (cc_pedals r cc v l)) as (_ & _ & A & _). rewrite A.
    destruct (updateCC_fields r m cc v (cc_pedals r cc v l)) as (_ & _ & B & _). rewrite B.
    destruct (cc_pedals_fields r cc v l) as (_ & C & _). now rewrite C.
  - unfold in_cc_list in Ei. rewrite T in Ei. apply orb_false_iff in Ei as [_ Ei].
    apply orb_false_iff in Ei as [Ei _]. now rewrite Ei.
Qed.
Lemma update_all_sustain m vals r l : 0 <= sustainCC r <= 511 ->
  l_sustain (update_all m vals r l)
  = checkSustain r && Qle_bool (sustainThreshold r) (vals (sustainCC r)).
Proof.
  intros H. unfold update_all.
  assert (G : forall ccs l0, l_sustain (fold_left (fun l cc => updateCCState r m cc (vals cc) l) ccs l0)
    = if existsb (Z.eqb (sustainCC r)) ccs
      then checkSustain r && Qle_bool (sustainThreshold r) (vals (sustainCC r)) else l_sustain l0).
  { induction ccs as [|c ccs IH]; intros l0; cbn [fold_left existsb]; [reflexivity|].
    rewrite IH. destruct (updateCC_fields r m c (vals c) l0) as (_ & _ & B & _). rewrite B.
    rewrite (Z.eqb_sym c). destruct (Z.eqb_spec (sustainCC r) c) as [Hc|Hc]; cbn [orb].
    - rewrite <- Hc. destruct (existsb _ _); reflexivity.
    - reflexivity. }
  rewrite G. replace (existsb (Z.eqb (sustainCC r)) all_ccs) with true; auto. symmetry.
  apply existsb_exists. exists (sustainCC r). split; [|apply Z.eqb_refl]. unfold all_ccs.
  apply in_map_iff. exists (Z.to_nat (sustainCC r)). rewrite in_seq. lia.
Qed.
Lemma sent_snoc d init os o : sent d init (os ++ [o]) = sent_step d (sent d init os) (fst o).
Proof. unfold sent. now rewrite fold_left_app. Qed.
Lemma upd_sustain r vals cc v :
  sustain_bit r (upd vals cc v)
  = if cc =? sustainCC r then checkSustain r && Qle_bool (sustainThreshold r) v
    else sustain_bit r vals.
Proof.
  unfold sustain_bit, upd. rewrite (Z.eqb_sym cc). destruct (sustainCC r =? cc); reflexivity.
Qed.

Lemma sustain_run defaults m sw bps rs os s k r :
  srun defaults (load m sw bps rs) os = Some s -> nth_error rs k = Some r ->
  trig r = TRelease -> 0 <= sustainCC r <= 511 ->
  exists l, lay s k = Some (r, l) /\ l_sustain l = sustain_bit r (sent defaults (ccValue m) os).
Proof.
  intros E Hk T W.
  apply (run_layer_inv defaults (load m sw bps rs) os s k r
    (fun os s l => l_sustain l = sustain_bit r (sent defaults (ccValue m) os))); auto.
  - eexists. split; [now apply lay_load|].
    destruct (finish_layer_eq m sw bps r) as (l & -> & _). cbn -[update_all].
    now rewrite update_all_sustain.
  - intros os1 o s1 s2 l E1 L HI Es.
    destruct (sstep_lay _ _ _ _ _ sustain_frame Es) as (_ & _ & G).
    destruct (G k r l L) as (l' & L' & HS). exists l'. split; auto.
    rewrite sent_snoc. destruct o as [op o]. cbn [layer_step fst] in *.
    destruct op; cbn [sent_step].
    + destruct HS as (m' & l1 & l2 & H1 & H2 & ->).
      destruct (register_prev_fields n r l2) as (P & _). rewrite P, H2, registerNoteOn_fields.
      assert (Q : l_sustain (if inZ (keyLo r) (keyHi r) n then if inZ (keyLo r) (keyHi r) n
                  then count_sequence r l1 else l1 else l1) = l_sustain l1)
        by (destruct (inZ _ _ _); reflexivity).
      rewrite Q, H1. destruct (switch_on_fields (s_switch s1) (is_last_switch s1 n) r n l) as (K & _).
      now rewrite K.
    + now rewrite HS.
    + destruct (cc =? 121).
      * destruct HS as (m' & ->). rewrite update_all_sustain by auto. unfold sustain_bit, inZ.
        destruct (Z.leb_spec 0 (sustainCC r)), (Z.leb_spec (sustainCC r) 511); try lia. reflexivity.
      * rewrite (orb_comm (cc =? 120)). destruct ((cc =? 123) || (cc =? 120)); subst; auto.
        rewrite cc_effect_sustain, upd_sustain by auto. now rewrite HI.
    + subst. rewrite cc_effect_sustain, upd_sustain by auto. now rewrite HI.
    + destruct HS as (m' & ->). rewrite cc_effect_sustain, upd_sustain by auto. cbn. now rewrite HI.
    + destruct HS as (m' & ->). rewrite cc_effect_sustain, upd_sustain by auto. cbn. now rewrite HI.
    + destruct HS as (m' & ->). rewrite cc_effect_sustain, upd_sustain by auto. now rewrite HI.
    + subst. exact HI.
    + subst. exact HI.
    + subst. exact HI.
Qed.

(** While the pedal is down no release is started: neither by note-offs, nor by the note-offs
    of choked voices, nor by the other pedal. *)
Lemma registerNoteOff_sustained r m n vel rnd l :
  trig r = TRelease -> l_sustain l = true -> snd (registerNoteOff r m n vel rnd l) = false.
Proof.
  intros T S. unfold registerNoteOff. rewrite T.
  destruct (negb (isSwitchedOn l) || _); [reflexivity|]. destruct (negb (triggerOnNote r)); [reflexivity|].
  destruct (negb (_ && _ && _)); [reflexivity|]. cbv zeta.
  destruct (isNoteSostenutoed n l && negb (l_sosten l)).
  - rewrite S. cbn [delaySustainRelease set_dsus set_dsos l_sosten l_sustain]. rewrite S.
    destruct (negb (l_sosten l) || _); reflexivity.
  - rewrite S. destruct (negb (l_sosten l) || _); reflexivity.
Qed.

Definition quiet_at (k : nat) (r : region) (base : list start) (s : sys) : Prop :=
  (exists l, lay s k = Some (r, l) /\ l_sustain l = true) /\ offs k (s_out s) = base.
Lemma quiet_switch k r base s n : quiet_at k r base s -> quiet_at k r base (all_layers (switch_off n) s).
Proof.
  intros ((l & L & S) & H). split; [|exact H].
  exists (switch_off n r l). split; [now apply lay_all_some|].
  destruct (switch_off_fields r n l) as (A & _). now rewrite A.
Qed.
Lemma quiet_off k r base s j n vel rnd att : quiet_at k r base s ->
  quiet_at k r base (fst (off_layer j n vel rnd att s)).
Proof.
  intros ((l & L & S) & H). destruct (off_layer_other j n vel rnd att s) as (_ & _ & O & _).
  split; [|now rewrite O]. pose proof (off_layer_lay j n vel rnd att s k) as K. rewrite L in K.
  destruct (_ && _); eexists; (split; [exact K|]); auto.
  destruct (registerNoteOff_fields r (s_midi s) n vel rnd l) as (A & _). now rewrite A.
Qed.
Lemma quiet_emit k r base s0 s j n vel rnd att : trig r = TRelease -> quiet_at k r base s0 ->
  snd (off_layer j n vel rnd att s0) = true -> quiet_at k r base s ->
  quiet_at k r base (emit s (Start j ENoteOff n vel)).
Proof.
  intros T ((l0 & L0 & S0) & _) Hs ((l & L & S) & H). split; [exists l; auto|].
  unfold emit. cbn [s_out]. rewrite offs_app, H. unfold offs, is_off. cbn.
  destruct (Nat.eqb_spec j k) as [Hj|]; cbn [andb].
  - exfalso. subst j. unfold off_layer in Hs. fold (lay s0 k) in Hs. rewrite L0 in Hs.
    destruct (negb _); [discriminate|].
    pose proof (registerNoteOff_sustained r (s_midi s0) n vel rnd l0 T S0) as R.
    destruct (registerNoteOff r (s_midi s0) n vel rnd l0) as [l' t]. cbn [snd] in *. now subst t.
  - apply app_nil_r.
Qed.
Lemma quiet_noteOff k r base c s : trig r = TRelease -> quiet_at k r base s ->
  quiet_at k r base (noteOffDispatch c s).
Proof.
  intros T. apply noteOff_ind.
  - intros; now apply quiet_switch.
  - intros; now apply quiet_off.
  - intros s0 s1 j n vel rnd att H0 Hs H1. now apply (quiet_emit k r base s0 s1 j n vel rnd att).
Qed.
Lemma quiet_chokes k r base cs : trig r = TRelease -> forall s, quiet_at k r base s ->
  quiet_at k r base (run_chokes cs s).
Proof.
  intros T. unfold run_chokes. induction cs as [|c cs IH]; intros s H; cbn; auto.
  apply IH. now apply quiet_noteOff.
Qed.
Lemma quiet_loop k r base n vel rnd tim chk j s : trig r = TRelease -> quiet_at k r base s ->
  quiet_at k r base (on_layer_loop n vel rnd tim chk s j).
Proof.
  intros T H. pose proof (on_loop_spec n vel rnd tim chk s j) as Sp.
  destruct (lay s j) as [[rj lj]|] eqn:Ej; [|now rewrite Sp].
  destruct (inZ _ _ _) eqn:Ei; [|now rewrite Sp].
  destruct (registerNoteOn rj (s_midi s) n vel rnd lj) as [l' t] eqn:Er. cbv zeta in Sp.
  assert (H1 : quiet_at k r base (on_layer j (fun _ _ => l') s)).
  { destruct H as ((l & L & S) & H). split; [|exact H].
    rewrite lay_on_layer. destruct (Nat.eqb_spec k j) as [Hj|].
    - subst j. rewrite L in *. injection Ej as -> ->. eexists. split; [reflexivity|].
      pose proof (registerNoteOn_fields rj (s_midi s) n vel rnd lj) as F. rewrite Er in F.
      cbn [fst] in F. rewrite F. destruct (inZ _ _ _); exact S.
    - eauto. }
  rewrite Sp. destruct (t && _); [|exact H1].
  apply (quiet_chokes k r base (chk j) T) in H1. destruct H1 as ((l & L & S) & H1).
  split; [exists l; auto|]. unfold emit. cbn [s_out]. rewrite offs_app, H1. unfold offs, is_off. cbn.
  rewrite andb_false_r. apply app_nil_r.
Qed.
Lemma quiet_noteOn k r base n vel rnd tim chk s : trig r = TRelease -> quiet_at k r base s ->
  quiet_at k r base (noteOnDispatch n vel rnd tim chk s).
Proof.
  intros T ((l & L & S) & H). unfold noteOnDispatch.
  set (sw := is_last_switch s n). set (s1 := all_layers (switch_on (s_switch s) sw n) s).
  set (s2 := if sw then Sys (s_midi s1) (s_layers s1) (Some n) (s_out s1) else s1).
  assert (H2 : quiet_at k r base s2).
  { split.
    - exists (switch_on (s_switch s) sw n r l). split.
      + transitivity (lay s1 k); [unfold s2; destruct sw; reflexivity|]. now apply lay_all_some.
      + destruct (switch_on_fields (s_switch s) sw r n l) as (K & _). now rewrite K.
    - unfold s2. destruct sw; exact H. }
  assert (H3 : quiet_at k r base
    (fold_left (on_layer_loop n vel rnd tim chk) (seq 0 (length (s_layers s2))) s2)).
  { generalize (seq 0 (length (s_layers s2))). intros js. revert H2. generalize s2.
    induction js as [|j js IH]; intros s3 H3; cbn [fold_left]; auto. apply IH. now apply quiet_loop. }
  destruct H3 as ((l3 & L3 & S3) & H3). split; [|exact H3].
  exists (register_prev n r l3). split; [now apply lay_all_some|].
  destruct (register_prev_fields n r l3) as (P & _). now rewrite P.
Qed.

Lemma step_out defaults s oo s' : sstep defaults s oo = Some s' ->
  forall k r l, lay s k = Some (r, l) -> trig r = TRelease -> l_sustain l = true ->
  ~ lifts r (fst oo) -> offs k (s_out s') = offs k (s_out s).
Proof.
  intros E k r l L T S NL. destruct oo as [op o]. cbn [sstep fst] in *.
  assert (CC : forall d cc v ext s0 l0, perform_cc d cc v ext o s0 = Some s' ->
    lay s0 k = Some (r, l0) -> l_sustain l0 = true ->
    s_out s0 = s_out s -> cc_sent op = Some (cc, v) -> offs k (s_out s') = offs k (s_out s)).
  { intros d0 cc0 v0 ext0 s0 l0 E0 L0 S0 O0 Hs. destruct (perform_cc_out _ _ _ _ _ _ _ E0) as (out & A & B).
    rewrite A, offs_app, (B _ _ _ L0), O0. unfold cc_offs. rewrite S0. cbn [negb]. rewrite andb_false_r.
    cbn [andb]. rewrite app_nil_r.
    assert (P : pedal_up (checkSustain r) (sustainCC r) (sustainThreshold r) cc0 v0 = false).
    { unfold pedal_up. destruct (checkSustain r); cbn [andb]; auto.
      destruct (Z.eqb_spec cc0 (sustainCC r)) as [Hc|]; cbn [andb]; auto.
      destruct (Qle_bool (sustainThreshold r) v0) eqn:Eq; auto. exfalso. apply NL.
      exists v0. rewrite <- Hc. split; auto. intros Q. apply Qle_bool_iff in Q. congruence. }
    rewrite P. cbn [andb]. destruct (in_cc_list r cc0); apply app_nil_r. }
  assert (Q0 : quiet_at k r (offs k (s_out s)) s) by (split; eauto).
  destruct op.
  - destruct (is_last_switch s n).
    + apply some_inj in E as <-. exact (proj2 (quiet_noteOn k r _ n vel (o_rnd o) (o_tim o) (o_chk o) s T Q0)).
    + unfold opt_sys in E. destruct (noteOnEvent _ _ _ _ _ _) as [m|]; [|discriminate].
      apply some_inj in E as <-.
      exact (proj2 (quiet_noteOn k r _ n vel (o_rnd o) (o_tim o) (o_chk o) (with_midi s m) T Q0)).
  - destruct (is_last_switch s n).
    + apply some_inj in E as <-. exact (proj2 (quiet_noteOff k r _ _ s T Q0)).
    + unfold opt_sys in E. destruct (noteOffEvent _ _ _ _ _ _) as [m|]; [|discriminate].
      apply some_inj in E as <-.
      exact (proj2 (quiet_noteOff k r _ _ (with_midi s m) T Q0)).
  - destruct (cc =? 121) eqn:E1.
    + apply resetAll_some in E as (m & ->). reflexivity.
    + destruct ((cc =? 123) || (cc =? 120)) eqn:E2.
      * unfold opt_sys in E. destruct (allNotesOff _ _ _); [|discriminate]. now apply some_inj in E as <-.
      * eapply CC; eauto. cbn [cc_sent]. now rewrite E1, <- orb_assoc, E2.
  - eapply CC; eauto.
  - eapply CC; [exact E|apply (lay_all_some (fun r => registerPitchWheel r v)); exact L|exact S|reflexivity..].
  - eapply CC; [exact E|apply (lay_all_some (fun r => registerAftertouch r v)); exact L|exact S|reflexivity..].
  - eapply CC; [exact E|exact L|exact S|reflexivity..].
  - apply some_inj in E as <-. reflexivity.
  - apply some_inj in E as <-. reflexivity.
  - unfold opt_sys in E. destruct (advanceTime _ _); [|discriminate]. now apply some_inj in E as <-.
Qed.

Theorem C18_nothing_while_down defaults m sw bps rs os s k r oo s' :
  srun defaults (load m sw bps rs) os = Some s -> nth_error rs k = Some r ->
  trig r = TRelease -> 0 <= sustainCC r <= 511 ->
  pedal_down r (sent defaults (ccValue m) os) ->
  sstep defaults s oo = Some s' -> ~ lifts r (fst oo) ->
  offs k (s_out s') = offs k (s_out s).
Proof.
  intros E Hk T W D Es NL.
  destruct (sustain_run _ _ _ _ _ _ _ _ _ E Hk T W) as (l & L & S).
  apply sustain_bit_iff in D. rewrite D in S. eapply step_out; eauto.
Qed.

(** Lifting the pedal starts exactly the remembered releases, in order, and forgets them
    (for regions that do not also obey the sostenuto pedal). *)
Theorem C18_pedal_up_releases_all defaults m sw bps rs os s k r l oo s' :
  srun defaults (load m sw bps rs) os = Some s -> nth_error rs k = Some r ->
  lay s k = Some (r, l) -> trig r = TRelease -> checkSustain r = true -> checkSostenuto r = false ->
  (rtDead r = true \/ o_att (snd oo) k = true) ->
  sstep defaults s oo = Some s' -> lifts r (fst oo) ->
  exists l', lay s' k = Some (r, l') /\ l_dsus l' = [] /\ l_sustain l' = false /\
    offs k (s_out s') = offs k (s_out s) ++ map (off_start k) (l_dsus l).
Proof.
  intros E Hk L T C NS A Es (v & Hs & Hv). destruct oo as [op o]. cbn [fst snd sstep] in *.
  assert (Q : Qle_bool (sustainThreshold r) v = false).
  { destruct (Qle_bool _ v) eqn:Eq; auto. apply Qle_bool_iff in Eq. contradiction. }
  assert (In : in_cc_list r (sustainCC r) = true).
  { unfold in_cc_list. rewrite T, Z.eqb_refl. cbn. now rewrite !orb_true_r. }
  assert (CC : forall d ext s0 l0, perform_cc d (sustainCC r) v ext o s0 = Some s' ->
    lay s0 k = Some (r, l0) -> l_dsus l0 = l_dsus l -> s_out s0 = s_out s ->
    exists l', lay s' k = Some (r, l') /\ l_dsus l' = [] /\ l_sustain l' = false /\
    offs k (s_out s') = offs k (s_out s) ++ map (off_start k) (l_dsus l)).
  { intros d ext s0 l0 E0 L0 D0 O0.
    destruct (perform_cc_out _ _ _ _ _ _ _ E0) as (out & A1 & B1).
    apply perform_cc_lay in E0 as (_ & _ & C1). specialize (C1 _ _ _ L0).
    eexists. split; [exact C1|]. split; [|split].
    - unfold cc_layer_effect. rewrite In.
      destruct (registerCC_fields r (s_midi s0) (sustainCC r) v (o_rnd o) ext
                  (cc_pedals r (sustainCC r) v l0)) as (_ & _ & _ & _ & F & _). rewrite F.
      unfold cc_pedals. rewrite C, NS, Z.eqb_refl, Q. reflexivity.
    - rewrite cc_effect_sustain by auto. now rewrite Z.eqb_refl, C, Q.
    - rewrite A1, offs_app, O0, (B1 _ _ _ L0). f_equal. f_equal. unfold cc_offs. rewrite In.
      unfold pedal_up. rewrite C, NS, Z.eqb_refl, Q. cbn [andb negb].
      assert (Z0 : negb (negb (rtDead r) && negb (o_att o k)) = true)
        by (destruct A as [-> | ->]; [reflexivity|destruct (rtDead r); reflexivity]).
      rewrite Z0, D0. apply app_nil_r. }
  destruct op; cbn [cc_sent] in Hs; try discriminate.
  - destruct (cc =? 121) eqn:E1; [discriminate|].
    destruct ((cc =? 123) || (cc =? 120)) eqn:E2.
    { cbn [orb] in Hs. rewrite E2 in Hs. discriminate. }
    cbn [orb] in Hs. rewrite E2 in Hs. injection Hs as -> ->. eapply CC; eauto.
  - injection Hs as -> ->. eapply CC; eauto.
  - injection Hs as Hs ->. rewrite Hs in Es.
    eapply CC; [exact Es|apply (lay_all_some (fun r => registerPitchWheel r v)); exact L|reflexivity..].
  - injection Hs as Hs ->. rewrite Hs in Es.
    eapply CC; [exact Es|apply (lay_all_some (fun r => registerAftertouch r v)); exact L|reflexivity..].
  - injection Hs as Hs ->. rewrite Hs in Es.
    eapply CC; [exact Es|exact L|reflexivity..].
Qed.

(** ** Nothing is lost or doubled *)

(** A note-off concerns the region: every condition other than the pedals holds. *)
Definition concerned (r : region) (l : layer) (m : midi) (n : Z) (rnd : Q) : bool :=
  inZ (keyLo r) (keyHi r) n && isSwitchedOn (switch_off n r l)
  && inQ (polyLo r) (polyHi r) (getPolyAftertouch m n) && triggerOnNote r
  && inQ (velLo r) (velHi r) (lastNoteVelocities m n) && randOk r rnd.
Definition released_by (r : region) (l : layer) (s' : sys) (oo : op * oracle) : list (Z * Q) :=
  match fst oo with
  | ONoteOff _ n _ =>
    if concerned r l (s_midi s') n (o_rnd (snd oo)) then [(n, lastNoteVelocities (s_midi s') n)] else []
  | _ => []
  end.
Definition lifts_b (r : region) (o : op) : bool :=
  match cc_sent o with
  | Some (cc, v) => (cc =? sustainCC r) && negb (Qle_bool (sustainThreshold r) v)
  | None => false
  end.
(** A history without chokes, the note-offs that concern the region, and how many of them came
    since the pedal was last lifted: never more than the engine can remember. *)
Inductive history (defaults : Z -> Q) (s0 : sys) (k : nat) (r : region)
  : list (op * oracle) -> sys -> list (Z * Q) -> Z -> Prop :=
| hist_nil : history defaults s0 k r [] s0 [] 0
| hist_step os s acc since oo s' l acc' since' :
    history defaults s0 k r os s acc since ->
    calm oo -> sstep defaults s oo = Some s' -> lay s k = Some (r, l) ->
    acc' = released_by r l s' oo ->
    since' = (if lifts_b r (fst oo) then 0 else since + Z.of_nat (length acc')) ->
    since' <= release_capacity r ->
    history defaults s0 k r (os ++ [oo]) s' (acc ++ acc') since'.

Definition plain_release (r : region) : Prop :=
  trig r = TRelease /\ checkSustain r = true /\ checkSostenuto r = false /\ rtDead r = true.

(** No Reset All Controllers message in the history. *)
Definition no_reset (os : list (op * oracle)) : Prop :=
  forall oo d v, In oo os -> fst oo <> OCC d 121 v.
Definition pedal_inv (k : nat) (r : region) (os : list (op * oracle)) (s : sys)
  (acc : list (Z * Q)) (since : Z) (l : layer) : Prop :=
  l_dsos l = [] /\ l_sosten l = false /\ Z.of_nat (length (l_dsus l)) <= since /\
  Permutation (offs k (s_out s) ++ map (off_start k) (l_dsus l)) (map (off_start k) acc) /\
  (no_reset os -> (l_sustain l = false -> l_dsus l = []) /\
     offs k (s_out s) ++ map (off_start k) (l_dsus l) = map (off_start k) acc).

Lemma off_result_plain r m n rnd l :
  plain_release r -> l_dsos l = [] -> l_sosten l = false ->
  (concerned r l m n rnd = true -> Z.of_nat (length (l_dsus l)) < release_capacity r) ->
  let v := lastNoteVelocities m n in
  let l' := off_result r m n v rnd l in
  l_dsos l' = [] /\ l_sosten l' = false /\ l_sustain l' = l_sustain l /\
  l_dsus l' = l_dsus l ++ (if concerned r l m n rnd && l_sustain l then [(n, v)] else []) /\
  forall att, off_starts r m n v rnd att l = concerned r l m n rnd && negb (l_sustain l).
Proof.
  intros (T & _ & _ & RT) DS SO HC. cbv zeta. revert HC.
  unfold off_result, off_starts, concerned, registerNoteOff.
  destruct (switch_off_fields r n l) as (F1 & F2 & F3 & F4 & _).
  set (l1 := switch_off n r l) in *. intros HC. rewrite T, RT.
  destruct (inZ (keyLo r) (keyHi r) n); cbn [andb].
  2:{ rewrite F4, F2, F1, F3, app_nil_r. auto 20. }
  destruct (isSwitchedOn l1); cbn [negb orb andb].
  2:{ cbn [fst snd]. rewrite F4, F2, F1, F3, app_nil_r. auto 20. }
  destruct (inQ (polyLo r) (polyHi r) (getPolyAftertouch m n)); cbn [negb orb andb].
  2:{ cbn [fst snd]. rewrite F4, F2, F1, F3, app_nil_r. auto 20. }
  destruct (triggerOnNote r); cbn [negb orb andb].
  2:{ cbn [fst snd]. rewrite F4, F2, F1, F3, app_nil_r. auto 20. }
  destruct (inQ (velLo r) (velHi r) (lastNoteVelocities m n)); cbn [negb orb andb].
  2:{ cbn [fst snd]. rewrite F4, F2, F1, F3, app_nil_r. auto 20. }
  destruct (randOk r rnd); cbn [negb orb andb].
  2:{ cbn [fst snd]. rewrite F4, F2, F1, F3, app_nil_r. auto 20. }
  unfold isNoteSostenutoed. rewrite F4, DS. cbn [existsb andb negb orb]. rewrite orb_true_r, F1.
  destruct (l_sustain l) eqn:S; cbn [fst snd negb andb].
  - cbn [delaySustainRelease set_dsus l_dsos l_sosten l_sustain l_dsus]. unfold push_capped.
    rewrite F3. destruct (Z.eqb_spec (Z.of_nat (length (l_dsus l))) (release_capacity r)); [lia|].
    rewrite F4, F2, F1. auto 20.
  - rewrite F4, F2, F1, F3, app_nil_r. auto 20.
Qed.

Lemma cc_effect_plain r m cc v rnd ext l :
  plain_release r -> l_dsos l = [] -> l_sosten l = false ->
  let l' := cc_layer_effect r m cc v rnd ext l in
  l_dsos l' = [] /\ l_sosten l' = false /\
  l_dsus l' = (if (cc =? sustainCC r) && negb (Qle_bool (sustainThreshold r) v) then [] else l_dsus l) /\
  forall a1 a2, cc_offs r cc v a1 a2 l
    = if (cc =? sustainCC r) && negb (Qle_bool (sustainThreshold r) v) then l_dsus l else [].
Proof.
  intros (T & C & NS & RT) DS SO. cbv zeta. unfold cc_layer_effect, cc_offs, pedal_up.
  rewrite C, NS, RT. cbn [andb negb].
  destruct (in_cc_list r cc) eqn:Ei.
  - destruct (registerCC_fields r m cc v rnd ext (cc_pedals r cc v l)) as (_ & _ & _ & F1 & F2 & F3).
    rewrite F1, F2, F3. unfold cc_pedals. rewrite C, NS. cbn [andb].
    set (l1 := if (cc =? sustainCC r) && negb (Qle_bool (sustainThreshold r) v) then set_dsus l [] else l).
    assert (A : l_dsos l1 = [] /\ l_sosten l1 = false)
      by (unfold l1; destruct (_ && _); auto).
    destruct A as [A1 A2].
    assert (B : l_dsos (updateCCState r m cc v l1) = [] /\ l_sosten (updateCCState r m cc v l1) = false).
    { unfold updateCCState, update_bits.
      assert (G : l_dsos (update_sostenuto r m cc v (update_sustain r cc v l1)) = [] /\
                  l_sosten (update_sostenuto r m cc v (update_sustain r cc v l1)) = false).
      { unfold update_sostenuto, update_sustain. rewrite NS. cbn [andb]. rewrite andb_false_r.
        destruct (cc =? sostenutoCC r), (cc =? sustainCC r);
          cbn [set_sosten set_sustain l_sosten l_dsos negb andb]; rewrite ?A2; cbn; auto. }
      destruct (cc_get (ccConditions r) cc) as [[]|]; exact G. }
    destruct B as [B1 B2]. rewrite B1, B2. split; auto. split; auto. split.
    + unfold l1. destruct (_ && _); reflexivity.
    + intros. rewrite andb_true_r. destruct (_ && _); apply app_nil_r.
  - unfold in_cc_list in Ei. rewrite T in Ei. apply orb_false_iff in Ei as [_ Ei].
    apply orb_false_iff in Ei as [Ei _]. rewrite Ei. cbn [andb]. auto.
Qed.
Lemma update_all_plain r m vals l : checkSostenuto r = false -> l_dsos l = [] -> l_sosten l = false ->
  l_dsos (update_all m vals r l) = [] /\ l_sosten (update_all m vals r l) = false.
Proof.
  intros NS. unfold update_all. generalize all_ccs. intros ccs. revert l.
  induction ccs as [|c ccs IH]; intros l D S; cbn [fold_left]; auto.
  assert (G : l_dsos (update_sostenuto r m c (vals c) (update_sustain r c (vals c) l)) = [] /\
              l_sosten (update_sostenuto r m c (vals c) (update_sustain r c (vals c) l)) = false).
  { unfold update_sostenuto, update_sustain. rewrite NS. cbn [andb]. rewrite andb_false_r.
    destruct (c =? sostenutoCC r), (c =? sustainCC r);
      cbn [set_sosten set_sustain l_sosten l_dsos negb andb]; rewrite ?S; cbn; auto. }
  apply IH; unfold updateCCState, update_bits; destruct (cc_get (ccConditions r) c) as [[]|]; apply G.
Qed.

Lemma history_run defaults s0 k r os s acc since :
  history defaults s0 k r os s acc since -> srun defaults s0 os = Some s.
Proof.
  induction 1 as [|os s acc since oo s' l acc' since' H IH C E]; [reflexivity|].
  now rewrite srun_snoc, IH.
Qed.

Lemma on_result_keep c sw r n l :
  let l' := on_result c sw r n l in
  l_dsos l' = l_dsos l /\ l_sosten l' = l_sosten l /\ l_dsus l' = l_dsus l /\ l_sustain l' = l_sustain l.
Proof.
  cbv zeta. unfold on_result. set (l1 := switch_on c sw n r l).
  destruct (switch_on_fields c sw r n l) as (A & B & C & D & _). fold l1 in A, B, C, D.
  set (l2 := if inZ (keyLo r) (keyHi r) n then count_sequence r l1 else l1).
  assert (E : l_dsos l2 = l_dsos l1 /\ l_sosten l2 = l_sosten l1 /\ l_dsus l2 = l_dsus l1 /\
              l_sustain l2 = l_sustain l1) by (unfold l2; destruct (inZ _ _ _); auto).
  destruct (register_prev_fields n r l2) as (F & G & H & I & _). intuition congruence.
Qed.

Lemma no_reset_snoc os oo : no_reset (os ++ [oo]) -> no_reset os /\ forall d v, fst oo <> OCC d 121 v.
Proof.
  intros H. split.
  - intros o d v Hi. apply H. apply in_or_app. auto.
  - intros d v. apply H. apply in_or_app. cbn. auto.
Qed.

Lemma history_inv defaults m sw bps rs k r os s acc since :
  nth_error rs k = Some r -> plain_release r -> 0 <= sustainCC r <= 511 ->
  history defaults (load m sw bps rs) k r os s acc since ->
  exists l, lay s k = Some (r, l) /\ pedal_inv k r os s acc since l.
Proof.
  intros Hk PR W. pose proof PR as (T & C & NS & RT).
  induction 1 as [|os s acc since oo s' l acc' since' H IH Ca E L Hacc Hs Hc].
  - eexists. split; [now apply lay_load|]. unfold pedal_inv.
    destruct (finish_layer_eq m sw bps r) as (l & -> & _ & _ & _ & _ & _ & A & B & _ & D).
    cbn -[update_all].
    destruct (update_all_plain r m (ccValue m) l NS B D) as (F1 & F2).
    destruct (update_all_fields m (ccValue m) r l) as (_ & F3 & _). rewrite F1, F2, F3, A.
    split; [reflexivity|]. split; [reflexivity|]. split; [reflexivity|]. split; [apply Permutation_refl|].
    intros _. split; reflexivity.
  - destruct IH as (l0 & L0 & I). rewrite L in L0. injection L0 as <-.
    destruct I as (I1 & I2 & I3 & I4 & I5).
    destruct (sstep_calm _ _ _ _ Ca E) as (out & O & G).
    destruct (G k r l L) as (l' & L' & St). exists l'. split; [exact L'|].
    unfold pedal_inv. rewrite O, offs_app, map_app.
    set (goal := l_dsos l' = [] /\ l_sosten l' = false /\ Z.of_nat (length (l_dsus l')) <= since' /\
      Permutation ((offs k (s_out s) ++ offs k out) ++ map (off_start k) (l_dsus l'))
        (map (off_start k) acc ++ map (off_start k) acc') /\
      (no_reset (os ++ [oo]) -> (l_sustain l' = false -> l_dsus l' = []) /\
       (offs k (s_out s) ++ offs k out) ++ map (off_start k) (l_dsus l')
       = map (off_start k) acc ++ map (off_start k) acc')).
    assert (Keep : l_dsos l' = l_dsos l -> l_sosten l' = l_sosten l -> l_dsus l' = l_dsus l ->
      (l_sustain l' = l_sustain l \/ exists d v, fst oo = OCC d 121 v) ->
      offs k out = [] -> acc' = [] -> since <= since' -> goal).
    { intros A1 A2 A3 A4 A5 A6 A7. unfold goal. rewrite A1, A2, A3, A5, A6, !app_nil_r.
      repeat (split; [auto; lia|]). intros NR. apply no_reset_snoc in NR as [NR1 NR2].
      destruct (I5 NR1) as [J1 J2]. split; auto. destruct A4 as [A4|(d & v & A4)].
      - rewrite A4. exact J1.
      - exfalso. eapply NR2; eauto. }
    assert (CC : forall m' cc v ext v0, l_dsos v0 = l_dsos l -> l_sosten v0 = l_sosten l ->
      l_dsus v0 = l_dsus l -> l_sustain v0 = l_sustain l ->
      l' = cc_layer_effect r m' cc v (o_rnd (snd oo)) ext v0 ->
      offs k out = map (off_start k) (cc_offs r cc v (o_att (snd oo) k) (o_att2 (snd oo) k) l) ->
      acc' = [] -> cc_sent (fst oo) = Some (cc, v) -> goal).
    { intros m' cc v ext v0 A1 A2 A3 A4 -> A5 A6 A7.
      destruct (cc_effect_plain r m' cc v (o_rnd (snd oo)) ext v0 PR) as (B1 & B2 & B3 & _); try congruence.
      destruct (cc_effect_plain r m' cc v (o_rnd (snd oo)) ext l PR) as (_ & _ & _ & B4); try congruence.
      unfold goal. rewrite cc_effect_sustain by auto. rewrite A4, C. cbn [andb].
      rewrite B1, B2, B3, A3, A5, B4, A6. unfold lifts_b in Hs. rewrite A7 in Hs.
      rewrite A6 in Hs. cbn [length Z.of_nat] in Hs. rewrite Z.add_0_r in Hs.
      split; auto. split; auto. clear B1 B2 B3 B4 A5 E G St.
      destruct (Z.eqb_spec cc (sustainCC r)); cbn [andb] in *;
      destruct (Qle_bool (sustainThreshold r) v); cbn [negb map] in *; rewrite ?app_nil_r;
        (split; [cbn; lia|]); (split; [exact I4|]); intros NR; apply no_reset_snoc in NR as [NR1 _];
        destruct (I5 NR1) as [J1 J2]; split; auto; discriminate. }
    unfold calm_step in St. unfold released_by in Hacc. unfold lifts_b in Hs.
    destruct (fst oo) eqn:Eo; cbn [cc_sent] in *.
    + destruct St as (St1 & St2).
      destruct (on_result_keep (s_switch s) (is_last_switch s n) r n l) as (K1 & K2 & K3 & K4).
      apply Keep; auto; try (rewrite St1; assumption).
      * left. now rewrite St1.
      * subst acc'. cbn in Hs. lia.
    + cbv zeta in St. destruct St as (St1 & St2).
      assert (HC : concerned r l (s_midi s') n (o_rnd (snd oo)) = true ->
                   Z.of_nat (length (l_dsus l)) < release_capacity r).
      { intros Co. rewrite Co in Hacc. subst acc'. cbn [length] in Hs. lia. }
      destruct (off_result_plain r (s_midi s') n (o_rnd (snd oo)) l PR I1 I2 HC)
          as (B1 & B2 & B3 & B4 & B5).
      rewrite <- St1 in B1, B2, B3, B4. rewrite B5 in St2.
      destruct (concerned r l (s_midi s') n (o_rnd (snd oo))) eqn:Co; cbn [andb] in *.
      * unfold goal. rewrite B1, B2, B3, B4, St2, app_length, map_app, Hacc.
        rewrite Hacc in Hs. cbn [length] in Hs. split; auto. split; auto.
        destruct (l_sustain l) eqn:Su; cbn [length negb map app]; (split; [lia|]).
        -- rewrite app_nil_r, app_assoc. split; [now apply Permutation_app_tail|].
           intros NR. apply no_reset_snoc in NR as [NR1 _]. destruct (I5 NR1) as [J1 J2].
           split; [discriminate|]. now rewrite J2.
        -- rewrite app_nil_r. split.
           ++ rewrite <- app_assoc. rewrite (Permutation_app_comm [Start k ENoteOff n _]).
              rewrite app_assoc. now apply Permutation_app_tail.
           ++ intros NR. apply no_reset_snoc in NR as [NR1 _]. destruct (I5 NR1) as [J1 J2].
              rewrite (J1 eq_refl) in *. split; auto. cbn [map] in *. rewrite app_nil_r in *.
              now rewrite J2.
      * rewrite app_nil_r in B4. apply Keep; try congruence; auto.
        subst acc'. cbn in Hs. lia.
    + destruct (cc =? 121) eqn:E1.
      * destruct St as ((m' & St1) & St2).
        destruct (update_all_plain r m' defaults l NS I1 I2) as (F1 & F2).
        destruct (update_all_fields m' defaults r l) as (_ & F3 & _).
        apply Keep; try congruence.
        -- right. apply Z.eqb_eq in E1 as ->. eauto.
        -- subst acc'. cbn in Hs. lia.
      * destruct ((cc =? 123) || (cc =? 120)) eqn:E2.
        -- destruct St as (St1 & St2). apply Keep; try congruence; auto.
           ++ left. now rewrite St1.
           ++ rewrite Hacc in Hs. cbn [orb] in Hs. rewrite E2 in Hs. cbn in Hs. lia.
        -- destruct St as ((m' & St1) & St2). eapply CC; eauto. cbn [orb]. now rewrite E2.
    + destruct St as ((m' & St1) & St2). eapply CC; eauto.
    + destruct St as ((m' & St1) & St2). eapply (CC m' 128 v (-1) (registerPitchWheel r v l)); eauto.
    + destruct St as ((m' & St1) & St2). eapply (CC m' 129 v (-1) (registerAftertouch r v l)); eauto.
    + destruct St as ((m' & St1) & St2). eapply (CC m' 130 v n l); eauto.
    + destruct St as (St1 & St2). apply Keep; auto; try (rewrite St1; reflexivity).
      * left. now rewrite St1.
      * subst acc'. cbn in Hs. lia.
    + destruct St as (St1 & St2). apply Keep; auto; try (rewrite St1; reflexivity).
      * left. now rewrite St1.
      * subst acc'. cbn in Hs. lia.
    + destruct St as (St1 & St2). apply Keep; auto; try (rewrite St1; reflexivity).
      * left. now rewrite St1.
      * subst acc'. cbn in Hs. lia.
Qed.

(** Every note-off that concerns the region is either already released, once, or still
    remembered, once; nothing else is released. *)
Theorem C18_conservation defaults m sw bps rs k r os s acc since :
  nth_error rs k = Some r -> plain_release r -> 0 <= sustainCC r <= 511 ->
  history defaults (load m sw bps rs) k r os s acc since ->
  exists l, lay s k = Some (r, l) /\
    Permutation (offs k (s_out s) ++ map (off_start k) (l_dsus l)) (map (off_start k) acc).
Proof.
  intros Hk PR W H. destruct (history_inv _ _ _ _ _ _ _ _ _ _ _ Hk PR W H) as (l & L & I).
  exists l. split; auto. apply I.
Qed.
(** Without Reset All Controllers: with the pedal up, the releases started so far are exactly
    the note-offs that concerned the region, in order. *)
Theorem C18_all_released defaults m sw bps rs k r os s acc since :
  nth_error rs k = Some r -> plain_release r -> 0 <= sustainCC r <= 511 ->
  history defaults (load m sw bps rs) k r os s acc since -> no_reset os ->
  ~ pedal_down r (sent defaults (ccValue m) os) ->
  offs k (s_out s) = map (off_start k) acc.
Proof.
  intros Hk PR W H NR NP. destruct (history_inv _ _ _ _ _ _ _ _ _ _ _ Hk PR W H) as (l & L & I).
  destruct I as (_ & _ & _ & _ & I). destruct (I NR) as (I1 & I2).
  destruct (sustain_run _ _ _ _ _ _ _ _ _ (history_run _ _ _ _ _ _ _ _ H) Hk (proj1 PR) W)
    as (l' & L' & S). rewrite L in L'. injection L' as <-.
  rewrite I1, app_nil_r in I2; auto. rewrite S.
  destruct (sustain_bit _ _) eqn:Sb; auto. exfalso. apply NP. now apply sustain_bit_iff.
Qed.

(** ** Examples and counter-examples *)
Definition release_region (lo hi : Z) (sost : bool) : region :=
  Region lo hi 0%Q 1%Q (-1)%Q 1%Q 0 127 [] None None None None None false false false false
    true sost 64 66 (1#127)%Q (1#127)%Q 0%Q 1%Q 0%Q 1%Q 0%Q 500%Q 0%Q 1%Q 1 1 TRelease []
    false true true false.
Definition strike (n : Z) : list op := [ONoteOn 0 n 1%Q; ONoteOff 0 n 0%Q].
Example C18_ex : plain_release (release_region 40 80 false) /\
  run_outs [release_region 40 80 false] None
    (OCC 0 64 1%Q :: strike 60 ++ strike 62 ++ [ONoteOn 0 64 1%Q; OCC 0 64 0%Q; ONoteOff 0 64 0%Q])
  = Some [Start 0 ENoteOff 60 1%Q; Start 0 ENoteOff 62 1%Q; Start 0 ENoteOff 64 1%Q].
Proof. split; [repeat split|]. vm_compute. reflexivity. Qed.

(** The histories of [C18_conservation] exist: this one has a note-off under the pedal. *)
Example C18_history_ex : exists s acc since,
  history zeros (load midi_init None 2%Q [release_region 40 80 false]) 0 (release_region 40 80 false)
    [(OCC 0 64 1%Q, quiet); (ONoteOn 0 60 1%Q, quiet); (ONoteOff 0 60 0%Q, quiet)] s acc since /\
  length acc = 1%nat.
Proof.
  set (r := release_region 40 80 false).
  assert (Cq : forall o, calm (o, quiet)) by (intros; split; reflexivity).
  destruct (sstep zeros (load midi_init None 2%Q [r]) (OCC 0 64 1%Q, quiet)) as [s1|] eqn:E1;
    [|exfalso; revert E1; vm_compute; discriminate].
  destruct (sstep zeros s1 (ONoteOn 0 60 1%Q, quiet)) as [s2|] eqn:E2.
  2:{ exfalso. assert (X : match sstep zeros (load midi_init None 2%Q [r]) (OCC 0 64 1%Q, quiet) with
        Some s1 => match sstep zeros s1 (ONoteOn 0 60 1%Q, quiet) with Some _ => true | _ => false end
        | None => false end = true) by (vm_compute; reflexivity). rewrite E1, E2 in X. discriminate. }
  destruct (sstep zeros s2 (ONoteOff 0 60 0%Q, quiet)) as [s3|] eqn:E3.
  2:{ exfalso. assert (X : match sstep zeros (load midi_init None 2%Q [r]) (OCC 0 64 1%Q, quiet) with
        Some s1 => match sstep zeros s1 (ONoteOn 0 60 1%Q, quiet) with Some s2 =>
          match sstep zeros s2 (ONoteOff 0 60 0%Q, quiet) with Some _ => true | _ => false end
          | _ => false end
        | None => false end = true) by (vm_compute; reflexivity). rewrite E1, E2, E3 in X. discriminate. }
  assert (X : match sstep zeros (load midi_init None 2%Q [r]) (OCC 0 64 1%Q, quiet) with
        Some s1 => match sstep zeros s1 (ONoteOn 0 60 1%Q, quiet) with Some s2 =>
          match sstep zeros s2 (ONoteOff 0 60 0%Q, quiet), lay s2 0 with Some s3, Some (r', l2) =>
             length (released_by r' l2 s3 (ONoteOff 0 60 0%Q, quiet)) | _, _ => O end
          | _ => O end
        | None => O end = 1%nat) by (vm_compute; reflexivity).
  rewrite E1, E2, E3 in X.
  assert (Hk : nth_error [r] 0 = Some r) by reflexivity.
  assert (R1 : srun zeros (load midi_init None 2%Q [r]) [(OCC 0 64 1%Q, quiet)] = Some s1)
    by (cbn [srun]; now rewrite E1).
  assert (R2 : srun zeros (load midi_init None 2%Q [r]) [(OCC 0 64 1%Q, quiet); (ONoteOn 0 60 1%Q, quiet)] = Some s2)
    by (cbn [srun]; now rewrite E1, E2).
  assert (T : trig r = TRelease) by reflexivity.
  assert (W : 0 <= sustainCC r <= 511) by (cbn; lia).
  destruct (sustain_run _ _ _ _ _ _ _ _ _ R1 Hk T W) as (l1 & L1 & _).
  destruct (sustain_run _ _ _ _ _ _ _ _ _ R2 Hk T W) as (l2 & L2 & _).
  rewrite L2 in X.
  assert (Cap : 40 <= release_capacity r) by (vm_compute; discriminate).
  assert (H1 := hist_step zeros _ 0 r [] _ [] 0 (OCC 0 64 1%Q, quiet) s1 _ _ _
    (hist_nil _ _ _ _) (Cq _) E1 (lay_load midi_init None 2%Q [r] 0 r Hk) eq_refl eq_refl
    ltac:(cbn [lifts_b fst cc_sent]; cbn; lia)).
  assert (H2 := hist_step zeros _ 0 r _ _ _ _ (ONoteOn 0 60 1%Q, quiet) s2 _ _ _
    H1 (Cq _) E2 L1 eq_refl eq_refl ltac:(cbn; lia)).
  assert (H3 := hist_step zeros _ 0 r _ _ _ _ (ONoteOff 0 60 0%Q, quiet) s3 _ _ _
    H2 (Cq _) E3 L2 eq_refl eq_refl
    ltac:(cbn [lifts_b fst cc_sent]; rewrite X; cbn; lia)).
  eexists _, _, _. split; [exact H3|]. cbn [app]. exact X.
Qed.

(** Seventeen note-offs of one key under the pedal: the last one is forgotten.  A region over
    the whole keyboard forgets the 128th key. *)
Theorem C18_capacity_refuted :
  option_map (@length start)
    (run_outs [release_region 60 60 false] None
       (OCC 0 64 1%Q :: concat (repeat (strike 60) 17) ++ [OCC 0 64 0%Q])) = Some 16%nat /\
  option_map (@length start)
    (run_outs [release_region 0 127 false] None
       (OCC 0 64 1%Q :: concat (map (fun n => strike (Z.of_nat n)) (seq 0 128)) ++ [OCC 0 64 0%Q]))
  = Some 127%nat.
Proof. split; vm_compute; reflexivity. Qed.

(** Reset All Controllers lifts the pedal without releasing what was remembered; the release
    sounds when the pedal is used again. *)
Theorem C18_reset_refuted :
  run_outs [release_region 40 80 false] None (OCC 0 64 1%Q :: strike 60 ++ [OCC 0 121 0%Q])
  = Some [] /\
  run_outs [release_region 40 80 false] None
    (OCC 0 64 1%Q :: strike 60 ++ [OCC 0 121 0%Q; OCC 0 64 1%Q; OCC 0 64 0%Q])
  = Some [Start 0 ENoteOff 60 1%Q].
Proof. split; vm_compute; reflexivity. Qed.

(** Lifting the sostenuto pedal releases a key that is still held, and that key is released
    again when it goes up. *)
Theorem C18_sostenuto_refuted :
  run_outs [release_region 40 80 true] None
    [ONoteOn 0 60 1%Q; OCC 0 66 1%Q; OCC 0 66 0%Q] = Some [Start 0 ENoteOff 60 1%Q] /\
  run_outs [release_region 40 80 true] None
    [ONoteOn 0 60 1%Q; OCC 0 66 1%Q; OCC 0 66 0%Q; ONoteOff 0 60 0%Q]
  = Some [Start 0 ENoteOff 60 1%Q; Start 0 ENoteOff 60 1%Q].
Proof. split; vm_compute; reflexivity. Qed.

(** * C44: sw_down and sw_up *)

Lemma run_calm_inv defaults s0 os s k r (I : list (op * oracle) -> layer -> Prop) :
  srun defaults s0 os = Some s -> Forall calm os ->
  (exists l0, lay s0 k = Some (r, l0) /\ I [] l0) ->
  (forall os1 oo s1 s2 l l' o, I os1 l -> calm_step defaults s1 s2 oo k r l l' o -> I (os1 ++ [oo]) l') ->
  exists l, lay s k = Some (r, l) /\ I os l.
Proof.
  intros E C H0 Hs. revert s E. induction os as [|o os IH] using rev_ind; intros s E.
  - injection E as <-. exact H0.
  - apply Forall_app in C as [C1 C2]. apply Forall_inv in C2.
    rewrite srun_snoc in E. destruct (srun defaults s0 os) as [s1|] eqn:E1; [|discriminate].
    destruct (IH C1 s1 eq_refl) as (l & L & HI).
    destruct (sstep_calm _ _ _ _ C2 E) as (out & _ & G). destruct (G k r l L) as (l' & L' & St).
    exists l'. split; auto. eapply Hs; eauto.
Qed.

(** Effects that leave the keyswitch alone. *)
Lemma calm_key defaults s s' oo k r l l' o :
  lastKeyswitch r = None -> lastKeyswitchRange r = None ->
  calm_step defaults s s' oo k r l l' o ->
  l_key l' = match fst oo with
             | ONoteOn _ n _ => if in_down_list r n then true else if in_up_list r n then false else l_key l
             | ONoteOff _ n _ => if in_down_list r n then false else if in_up_list r n then true else l_key l
             | _ => l_key l
             end.
Proof.
  intros N1 N2 St. unfold calm_step in St. destruct (fst oo).
  - destruct St as (-> & _). unfold on_result.
    set (l1 := switch_on (s_switch s) (is_last_switch s n) n r l).
    set (l2 := if inZ (keyLo r) (keyHi r) n then count_sequence r l1 else l1).
    destruct (register_prev_fields n r l2) as (_ & _ & _ & _ & P & _). rewrite P.
    assert (Q : l_key l2 = l_key l1) by (unfold l2; destruct (inZ _ _ _); reflexivity). rewrite Q.
    unfold l1, switch_on, in_last_list. rewrite N1, N2. cbn [orb].
    destruct (s_switch s); rewrite ?andb_false_r;
      destruct (in_up_list r n), (in_down_list r n); reflexivity.
  - destruct St as (-> & _). cbv zeta. unfold off_result.
    set (l1 := switch_off n r l).
    assert (Q : l_key (if inZ (keyLo r) (keyHi r) n then fst (registerNoteOff r (s_midi s') n
       (lastNoteVelocities (s_midi s') n) (o_rnd (snd oo)) l1) else l1) = l_key l1).
    { destruct (inZ _ _ _); auto. apply registerNoteOff_fields. }
    rewrite Q. unfold l1, switch_off.
    destruct (in_up_list r n), (in_down_list r n); reflexivity.
  - destruct (cc =? 121).
    + destruct St as ((m' & ->) & _). destruct (update_all_fields m' defaults r l) as ((F & _) & _). exact F.
    + destruct ((cc =? 123) || (cc =? 120)).
      * destruct St as (-> & _). reflexivity.
      * destruct St as ((m' & ->) & _). apply cc_effect_switches.
  - destruct St as ((m' & ->) & _). apply cc_effect_switches.
  - destruct St as ((m' & ->) & _). apply (cc_effect_switches r m' 128 v _ _ (registerPitchWheel r v l)).
  - destruct St as ((m' & ->) & _). apply (cc_effect_switches r m' 129 v _ _ (registerAftertouch r v l)).
  - destruct St as ((m' & ->) & _). apply cc_effect_switches.
  - destruct St as (-> & _). reflexivity.
  - destruct St as (-> & _). reflexivity.
  - destruct St as (-> & _). reflexivity.
Qed.

Lemma load_key m sw bps r : lastKeyswitch r = None -> lastKeyswitchRange r = None ->
  l_key (finish_layer m sw bps r) = negb (usesKeySwitches r).
Proof.
  intros N1 N2. destruct (finish_layer_eq m sw bps r) as (l & -> & A & _). cbn -[update_all].
  destruct (update_all_fields m (ccValue m) r l) as ((F & _) & _). rewrite F, A, N1, N2. reflexivity.
Qed.

(** A region with only sw_down is on exactly while that key is held, as long as no voice is
    choked. *)
Theorem C44_sw_down defaults m sw bps rs os s k r d :
  srun defaults (load m sw bps rs) os = Some s -> Forall calm os -> nth_error rs k = Some r ->
  lastKeyswitch r = None -> lastKeyswitchRange r = None -> upKeyswitch r = None ->
  downKeyswitch r = Some d -> usesKeySwitches r = true ->
  exists l, lay s k = Some (r, l) /\ l_key l = held os d.
Proof.
  intros E C Hk N1 N2 U D K.
  apply (run_calm_inv defaults (load m sw bps rs) os s k r (fun os l => l_key l = held os d)); auto.
  - eexists. split; [now apply lay_load|]. now rewrite load_key, K.
  - intros os1 oo s1 s2 l l' o HI St. apply calm_key in St; auto. rewrite St, held_snoc, <- HI.
    unfold in_down_list, in_up_list. rewrite D, U. destruct (fst oo); auto; cbn [held_step].
    + now rewrite (Z.eqb_sym d).
    + now rewrite (Z.eqb_sym d).
Qed.
(** A region with only sw_up is on exactly while that key is not held. *)
Theorem C44_sw_up defaults m sw bps rs os s k r u :
  srun defaults (load m sw bps rs) os = Some s -> Forall calm os -> nth_error rs k = Some r ->
  lastKeyswitch r = None -> lastKeyswitchRange r = None -> downKeyswitch r = None ->
  upKeyswitch r = Some u -> usesKeySwitches r = false ->
  exists l, lay s k = Some (r, l) /\ l_key l = negb (held os u).
Proof.
  intros E C Hk N1 N2 D U K.
  apply (run_calm_inv defaults (load m sw bps rs) os s k r (fun os l => l_key l = negb (held os u))); auto.
  - eexists. split; [now apply lay_load|]. now rewrite load_key, K.
  - intros os1 oo s1 s2 l l' o HI St. apply calm_key in St; auto. rewrite St, held_snoc, HI.
    unfold in_down_list, in_up_list. rewrite D, U. destruct (fst oo); auto; cbn [held_step].
    + rewrite (Z.eqb_sym u). destruct (n =? u); reflexivity.
    + rewrite (Z.eqb_sym u). destruct (n =? u); reflexivity.
Qed.

Definition switch_region (last up down prev : option Z) (uses usesprev : bool) : region :=
  Region 40 80 0%Q 1%Q (-1)%Q 1%Q 0 127 [] last None up down prev uses usesprev false false
    true true 64 66 (1#127)%Q (1#127)%Q 0%Q 1%Q 0%Q 1%Q 0%Q 500%Q 0%Q 1%Q 1 1 TAttack []
    false true false false.
Example C44_ex :
  run_outs [switch_region (Some 24) None None None true false;
            switch_region (Some 25) None None None true false;
            switch_region None None (Some 26) None true false;
            switch_region None (Some 26) None None false false;
            switch_region None None None (Some 60) false true] (Some 24)
    [ONoteOn 0 60 1; ONoteOn 0 25 1; ONoteOn 0 26 1; ONoteOn 0 61 1; ONoteOff 0 26 0;
     ONoteOn 0 60 1; ONoteOn 0 62 1]%Q
  = Some [Start 0 ENoteOn 60 1; Start 3 ENoteOn 60 1;
          Start 1 ENoteOn 61 1; Start 2 ENoteOn 61 1;
          Start 1 ENoteOn 60 1; Start 3 ENoteOn 60 1;
          Start 1 ENoteOn 62 1; Start 3 ENoteOn 62 1; Start 4 ENoteOn 62 1]%Q.
Proof. vm_compute. reflexivity. Qed.

(** A region with sw_last=24 and sw_down=26 is on as soon as 24 has been played, whether or
    not 26 is held. *)
Theorem C44_combination_refuted :
  run_outs [switch_region (Some 24) None (Some 26) None true false] None
    [ONoteOn 0 24 1; ONoteOn 0 60 1]%Q = Some [Start 0 ENoteOn 60 1%Q].
Proof. vm_compute. reflexivity. Qed.
(** When a voice started by the held key 50 is choked by another note, the region with
    sw_down=50 is switched off although the key is still held. *)
Definition choking : oracle :=
  Oracle 0%Q 0%Q 0%Q (fun _ => (0%Q, 0%Q)) (fun _ => true) (fun _ => true) (fun _ => true)
    (fun _ => [Choke 50 1%Q 0%Q (fun _ => true) []]) [].
Theorem C44_choke_refuted :
  let rs := [base_region; switch_region None None (Some 50) None true false] in
  let os := [(ONoteOn 0 50 1%Q, quiet); (ONoteOn 0 60 1%Q, choking)] in
  held os 50 = true /\
  option_map (fun s => option_map (fun p => l_key (snd p)) (lay s 1))
    (srun zeros (load midi_init None 2%Q rs) os) = Some (Some false).
Proof. split; vm_compute; reflexivity. Qed.

(** * C50: pitch wheel, program and channel aftertouch conditions *)
Definition pitch_step (v : Q) (o : op) : Q := match o with OPitch _ x => x | _ => v end.
Definition prog_step (p : Z) (o : op) : Z := match o with OProgram x => x | _ => p end.
Definition aft_step (v : Q) (o : op) : Q := match o with OChanAT _ x => x | _ => v end.
Definition last_pitch (v : Q) (os : list (op * oracle)) : Q := fold_left (fun c oo => pitch_step c (fst oo)) os v.
Definition last_prog (p : Z) (os : list (op * oracle)) : Z := fold_left (fun c oo => prog_step c (fst oo)) os p.
Definition last_aft (v : Q) (os : list (op * oracle)) : Q := fold_left (fun c oo => aft_step c (fst oo)) os v.

Definition three (l : layer) : bool * bool * bool := (l_pitch l, l_prog l, l_aft l).
Lemma three_frame : off_frame (fun _ l l' => three l' = three l).
Proof.
  apply same_field_frame; intros; unfold three.
  - destruct (switch_off_fields r n l) as (_ & _ & _ & _ & _ & _ & A & B & _ & C & _). now rewrite A, B, C.
  - destruct (registerNoteOff_fields r m n vel rnd l) as (_ & _ & _ & _ & _ & A & B & _ & C & _). now rewrite A, B, C.
Qed.
Lemma three_same l l' : same_switches l l' -> three l' = three l.
Proof. intros (_ & _ & A & B & _ & C). unfold three. congruence. Qed.

(** The conditions hold in the engine's eyes exactly when the last pitch bend, program and
    aftertouch messages (or the values at load) are within the region's ranges. *)
Theorem C50_other_conditions defaults m sw bps rs os s k r :
  srun defaults (load m sw bps rs) os = Some s -> nth_error rs k = Some r ->
  exists l, lay s k = Some (r, l) /\
    (l_pitch l = true <->
     let v := last_pitch (last_value (pitchEvents m)) os in (bendLo r <= v)%Q /\ (v <= bendHi r)%Q) /\
    (l_prog l = true <-> progLo r <= last_prog (currentProgram m) os <= progHi r) /\
    (l_aft l = true <->
     let v := last_aft (last_value (channelAftertouchEvents m)) os in (aftLo r <= v)%Q /\ (v <= aftHi r)%Q).
Proof.
  intros E Hk.
  cut (exists l, lay s k = Some (r, l) /\
    three l = (inQ (bendLo r) (bendHi r) (last_pitch (last_value (pitchEvents m)) os),
               inZ (progLo r) (progHi r) (last_prog (currentProgram m) os),
               inQ (aftLo r) (aftHi r) (last_aft (last_value (channelAftertouchEvents m)) os))).
  { intros (l & L & H). exists l. split; auto. injection H as -> -> ->. cbv zeta. rewrite !inQ_iff.
    split; [reflexivity|]. split; [|reflexivity]. unfold inZ. rewrite andb_true_iff, !Z.leb_le. reflexivity. }
  apply (run_layer_inv defaults (load m sw bps rs) os s k r (fun os s l =>
    three l = (inQ (bendLo r) (bendHi r) (last_pitch (last_value (pitchEvents m)) os),
               inZ (progLo r) (progHi r) (last_prog (currentProgram m) os),
               inQ (aftLo r) (aftHi r) (last_aft (last_value (channelAftertouchEvents m)) os)))); auto.
  - eexists. split; [now apply lay_load|].
    destruct (finish_layer_eq m sw bps r) as (l & -> & _). reflexivity.
  - intros os1 o s1 s2 l E1 L HI Es.
    destruct (sstep_lay _ _ _ _ _ three_frame Es) as (_ & _ & G).
    destruct (G k r l L) as (l' & L' & HS). exists l'. split; auto.
    unfold last_pitch, last_prog, last_aft in *. rewrite !fold_left_app. cbn [fold_left].
    set (fp := fold_left (fun c oo => pitch_step c (fst oo)) os1 (last_value (pitchEvents m))) in *.
    set (fg := fold_left (fun c oo => prog_step c (fst oo)) os1 (currentProgram m)) in *.
    set (fa := fold_left (fun c oo => aft_step c (fst oo)) os1 (last_value (channelAftertouchEvents m))) in *.
    clearbody fp fg fa.
    destruct o as [op o]. cbn [layer_step fst] in *.
    destruct op; cbn [pitch_step prog_step aft_step].
    + destruct HS as (m' & l1 & l2 & H1 & H2 & ->).
      destruct (register_prev_fields n r l2) as (_ & _ & _ & _ & _ & _ & P1 & P2 & _ & P3 & _).
      assert (Q0 : three (register_prev n r l2) = three l2) by (unfold three; now rewrite P1, P2, P3).
      rewrite Q0, H2, registerNoteOn_fields.
      assert (Q : three (if inZ (keyLo r) (keyHi r) n then if inZ (keyLo r) (keyHi r) n
                  then count_sequence r l1 else l1 else l1) = three l1)
        by (destruct (inZ (keyLo r) (keyHi r) n); reflexivity).
      rewrite Q, H1.
      destruct (switch_on_fields (s_switch s1) (is_last_switch s1 n) r n l)
        as (_ & _ & _ & _ & _ & _ & K1 & K2 & _ & K3 & _).
      rewrite <- HI. unfold three. now rewrite K1, K2, K3.
    + now rewrite HS.
    + destruct (cc =? 121).
      * destruct HS as (m' & ->). destruct (update_all_fields m' defaults r l) as (F & _).
        now rewrite (three_same _ _ F).
      * destruct ((cc =? 123) || (cc =? 120)); subst; auto.
        now rewrite (three_same _ _ (cc_effect_switches _ _ _ _ _ _ _)).
    + subst. now rewrite (three_same _ _ (cc_effect_switches _ _ _ _ _ _ _)).
    + destruct HS as (m' & ->). rewrite (three_same _ _ (cc_effect_switches _ _ _ _ _ _ _)).
      injection HI as A B D. unfold three. cbn. now rewrite B, D.
    + destruct HS as (m' & ->). rewrite (three_same _ _ (cc_effect_switches _ _ _ _ _ _ _)).
      injection HI as A B D. unfold three. cbn. now rewrite A, B.
    + destruct HS as (m' & ->). now rewrite (three_same _ _ (cc_effect_switches _ _ _ _ _ _ _)).
    + subst. injection HI as A B D. unfold three. cbn. now rewrite A, D.
    + subst. exact HI.
    + subst. exact HI.
Qed.

(** Reset All Controllers puts the pitch wheel back to the centre in the MIDI state, but the
    regions keep their condition from the last bend: a region for bends above one half still
    plays. *)
Definition bend_region : region :=
  Region 0 127 0%Q 1%Q (1#2)%Q 1%Q 0 127 [] None None None None None false false false false
    true true 64 66 (1#127)%Q (1#127)%Q 0%Q 1%Q 0%Q 1%Q 0%Q 500%Q 0%Q 1%Q 1 1 TAttack []
    false true false false.
Theorem C50_reset_refuted :
  run_outs [bend_region] None [ONoteOn 0 60 1; OPitch 0 (3#4); ONoteOn 0 61 1; OCC 0 121 0; ONoteOn 0 62 1]%Q
  = Some [Start 0 ENoteOn 61 1%Q; Start 0 ENoteOn 62 1%Q] /\
  option_map (fun s => Qred (last_value (pitchEvents (s_midi s))))
    (srun zeros (load midi_init None 2%Q [bend_region])
       [(OPitch 0 (3#4)%Q, quiet); (OCC 0 121 0%Q, quiet)]) = Some 0%Q.
Proof. split; vm_compute; reflexivity. Qed.

(** * C51: tempo conditions *)
(** At 120 beats per minute (two per second) a region for 100 to 140 beats per minute is
    silent and one for 20 to 40 plays; setting the tempo to 30 changes nothing. *)
Definition tempo_region (lo hi : Q) : region :=
  Region 0 127 0%Q 1%Q (-1)%Q 1%Q 0 127 [] None None None None None false false false false
    true true 64 66 (1#127)%Q (1#127)%Q 0%Q 1%Q 0%Q 1%Q lo hi 0%Q 1%Q 1 1 TAttack []
    false true false false.
Theorem C51_tempo_refuted :
  run_outs [tempo_region 100 140; tempo_region 20 40] None [ONoteOn 0 60 1%Q]
  = Some [Start 1 ENoteOn 60 1%Q] /\
  run_outs [tempo_region 100 140; tempo_region 20 40] None
    [OTempo 120; ONoteOn 0 60 1%Q; OTempo 30; ONoteOn 0 61 1%Q]
  = Some [Start 1 ENoteOn 60 1%Q; Start 1 ENoteOn 61 1%Q].
Proof. split; vm_compute; reflexivity. Qed.
(** In general the condition is decided at load, from the reciprocal of the tempo, and no
    call ever changes it. *)
Lemma bpm_frame : off_frame (fun _ l l' => l_bpm l' = l_bpm l).
Proof.
  apply same_field_frame.
  - intros. apply switch_off_fields.
  - intros. apply registerNoteOff_fields.
Qed.
Theorem C51_tempo_partial defaults m sw bps rs os s k r :
  srun defaults (load m sw bps rs) os = Some s -> nth_error rs k = Some r ->
  exists l, lay s k = Some (r, l) /\
    (l_bpm l = true <-> (bpmLo r <= 60 / bps)%Q /\ (60 / bps <= bpmHi r)%Q).
Proof.
  intros E Hk.
  apply (run_layer_inv defaults (load m sw bps rs) os s k r (fun os s l =>
    l_bpm l = true <-> (bpmLo r <= 60 / bps)%Q /\ (60 / bps <= bpmHi r)%Q)); auto.
  - eexists. split; [now apply lay_load|].
    destruct (finish_layer_eq m sw bps r) as (l & -> & _). cbn -[update_all Qdiv].
    now rewrite inQ_iff.
  - intros os1 o s1 s2 l E1 L HI Es.
    destruct (sstep_lay _ _ _ _ _ bpm_frame Es) as (_ & _ & G).
    destruct (G k r l L) as (l' & L' & HS). exists l'. split; auto. rewrite <- HI.
    assert (X : forall b b' : bool, b' = b -> (b' = true <-> b = true)) by (intros; subst; tauto).
    apply X. clear X. destruct o as [op o]. cbn [layer_step fst] in *.
    destruct op.
    + destruct HS as (m' & l1 & l2 & H1 & H2 & ->).
      destruct (register_prev_fields n r l2) as (_ & _ & _ & _ & _ & _ & _ & _ & P & _).
      rewrite P, H2, registerNoteOn_fields.
      assert (Q : l_bpm (if inZ (keyLo r) (keyHi r) n then if inZ (keyLo r) (keyHi r) n
                  then count_sequence r l1 else l1 else l1) = l_bpm l1)
        by (destruct (inZ _ _ _); reflexivity).
      rewrite Q, H1. apply switch_on_fields.
    + exact HS.
    + destruct (cc =? 121).
      * destruct HS as (m' & ->). apply update_all_fields.
      * destruct ((cc =? 123) || (cc =? 120)); subst; auto. apply cc_effect_switches.
    + subst. apply cc_effect_switches.
    + destruct HS as (m' & ->). apply (cc_effect_switches r m' 128 v _ _ (registerPitchWheel r v l)).
    + destruct HS as (m' & ->). apply (cc_effect_switches r m' 129 v _ _ (registerAftertouch r v l)).
    + destruct HS as (m' & ->). apply cc_effect_switches.
    + subst. reflexivity.
    + subst. reflexivity.
    + subst. reflexivity.
Qed.
