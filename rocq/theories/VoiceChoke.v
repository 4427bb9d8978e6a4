(** C22: choking ends; every call of the API is defined. *)
From Coq Require Import ZArith QArith List Bool Lia Arith Permutation.
From Verif Require Import ContainersModel MidiModel MidiProps LayerModel VoiceModel VoiceRings VoiceInv VoiceSteps
  VoiceProps VoiceExamples VoiceEvent VoicePoly.
Import ListNotations.
Local Open Scope nat_scope.

(** * The measure: voices that off_by can still turn off *)
Definition chokeable (m : vman) (i : nat) : bool :=
  match v_region (m_voice m i), v_offed (m_voice m i), te_type (v_ev (m_voice m i)) with
  | Some _, false, ENoteOn | Some _, false, ECC => true
  | _, _, _ => false
  end.
Definition chokeables (m : vman) : nat := length (filter (chokeable m) (seq 0 (m_n m))).

Lemma chokeable_spec : forall m i, chokeable m i = true <->
  (rg m i <> None /\ offed m i = false /\ te_type (ev m i) <> ENoteOff).
Proof.
  intros m i. unfold chokeable, rg, offed, ev.
  destruct (v_region _), (v_offed _), (te_type _); split; intros H; try discriminate; try tauto;
    try (destruct H as (A & B & C); congruence); repeat split; congruence.
Qed.
Lemma chokeables_n : forall m, chokeables m <= m_n m.
Proof.
  intros m. unfold chokeables. rewrite <- (seq_length (m_n m) 0) at 2.
  induction (seq 0 (m_n m)) as [|x l IH]; cbn [filter length]; auto.
  destruct (chokeable m x); cbn [length]; lia.
Qed.
Lemma chokeable_quiet : forall m m' i, quiet m m' -> chokeable m' i = true -> chokeable m i = true.
Proof.
  intros m m' i Q H. apply chokeable_spec in H as (A & B & C). apply chokeable_spec.
  rewrite <- (quiet_rg _ _ i Q), <- (quiet_ev _ _ i Q). split; auto. split; auto.
  destruct (offed m i) eqn:O; auto. rewrite (quiet_offed _ _ _ Q O) in B. discriminate.
Qed.
Lemma chokeables_quiet : forall m m', quiet m m' -> chokeables m' <= chokeables m.
Proof.
  intros m m' Q. unfold chokeables. rewrite (q_n _ _ Q). apply filter_le. intros i _.
  now apply chokeable_quiet.
Qed.
Lemma chokeables_off : forall I d i m, i < m_n m -> chokeable m i = true ->
  chokeables (v_off I d i m) < chokeables m.
Proof.
  intros I d i m Hi H. pose proof (v_off_quiet I d i m) as Q. unfold chokeables. rewrite (q_n _ _ Q).
  apply filter_lt.
  - intros x _. now apply chokeable_quiet.
  - exists i. split; [apply in_seq; lia|]. split; auto.
    destruct (chokeable (v_off I d i m) i) eqn:C; auto. apply chokeable_spec in C as (_ & C & _).
    rewrite v_off_offed in C. discriminate.
Qed.
Lemma chokeables_start : forall I si k e i m m', started I si k e i m m' -> te_type e = ENoteOff ->
  chokeables m' <= chokeables m.
Proof.
  intros I si k e i m m' S T. unfold chokeables. rewrite (sd_n _ _ _ _ _ _ _ S).
  apply filter_le. intros x _ H. apply chokeable_spec in H as (A & B & C).
  destruct (Nat.eq_dec x i) as [->|Hx].
  - rewrite (sd_type _ _ _ _ _ _ _ S) in C. congruence.
  - pose proof (core_st _ _ _ (sd_other _ _ _ _ _ _ _ S x Hx)) as (_ & R & EV & O & _).
    apply chokeable_spec. rewrite <- R, <- EV, <- O. auto.
Qed.

Lemma off_group_chokeable : forall I s other n i, off_group I s other n i = true ->
  chokeable (f_vm s) i = true.
Proof.
  intros I s other n i H. unfold off_group in H. cbv zeta in H. apply chokeable_spec. unfold rg, offed, ev.
  destruct (v_region _); [|discriminate]. apply andb_true_iff in H as [H _].
  apply andb_true_iff in H as [H _]. apply andb_true_iff in H as [H1 H2].
  split; [discriminate|]. split; [now apply negb_true_iff|]. destruct (te_type _); congruence.
Qed.

Lemma ofold_some : forall A B (f : A -> B -> option A) (Q : A -> Prop) l a,
  (forall a b, In b l -> Q a -> exists a', f a b = Some a' /\ Q a') -> Q a ->
  exists a', ofold f l a = Some a' /\ Q a'.
Proof.
  intros A B f Q l. induction l as [|b l IH]; intros a Hf Ha; cbn [ofold]; [eauto|].
  destruct (Hf a b (or_introl eq_refl) Ha) as (a1 & E & Q1). rewrite E. cbn [bind].
  apply IH; auto. intros. apply Hf; auto. now right.
Qed.

(** * Everything succeeds *)
Section TOTAL.
Variable I : instr.
Variable E : env.
Variable md : midi.
Variable N : nat.

Definition good (M : nat) (s : fsys) : Prop :=
  vinv I (f_vm s) /\ limits_ok I (f_vm s) /\ chokeables (f_vm s) <= M /\ m_n (f_vm s) = N
  /\ s_midi (f_sys s) = md.
Definition gacc (M : nat) (a : fsys * option nat) : Prop :=
  good M (fst a) /\ match snd a with Some h => h < N | None => True end.

Lemma good_le : forall M M' s, M <= M' -> good M s -> good M' s.
Proof. intros M M' s L (A & B & C & D & F). repeat (split; auto). lia. Qed.
Lemma good_sys : forall M s x, s_midi x = md -> good M s -> good M (put_sys s x).
Proof. intros M s x HX (A & B & C & D & F). unfold good. cbn [f_vm f_sys put_sys]. auto. Qed.
Lemma good_quiet : forall M s m, quiet (f_vm s) m -> good M s -> good M (put_vm s m).
Proof.
  intros M s m Q (A & B & C & D & F). unfold good. cbn [f_vm f_sys put_vm].
  split; [eapply quiet_vinv; eauto|]. split; [eapply limits_ok_quiet; eauto|].
  split; [pose proof (chokeables_quiet _ _ Q); lia|]. rewrite (q_n _ _ Q). auto.
Qed.

Lemma start_total : forall M k d e a, gacc M a -> te_type e = ENoteOff \/ M = N ->
  exists a', f_startVoice I E k d e a = Some a' /\ gacc M a'.
Proof.
  intros M k d e [s ring] [(V & L & C & D & F) HR] HT. cbn [fst snd] in *.
  destruct (vm_start_some I (s_midi (f_sys s)) (e_start E (f_tick s)) k d e ring (f_vm s) V L) as [[m' r'] EV].
  rewrite f_startVoice_vm, EV. eexists; split; [reflexivity|].
  assert (HO : head_ok (f_vm s) ring) by (destruct ring; cbn; rewrite ?D; auto).
  destruct (vm_start_spec _ _ _ _ _ _ _ _ _ _ V HO EV) as (m1 & EC & Q & V' & HO' & LN & DD).
  assert (RQ : m_required m' = m_required (f_vm s) /\ (te_type e = ENoteOff -> chokeables m' <= chokeables (f_vm s))).
  { destruct DD as [(_ & -> & _)|(i & _ & S)].
    - split; [apply Q|]. intros _. now apply chokeables_quiet.
    - split; [rewrite (sd_required _ _ _ _ _ _ _ S); apply Q|]. intros T.
      pose proof (chokeables_start _ _ _ _ _ _ _ S T). pose proof (chokeables_quiet _ _ Q). lia. }
  destruct RQ as [RQ CH]. unfold gacc, good. cbn [fst snd f_vm f_sys emit s_midi].
  split; [split; [exact V'|]; split; [intros ST; rewrite RQ; apply (L ST)|]; split; [|split; [congruence|exact F]]|].
  - destruct HT as [HT|HT]; [specialize (CH HT); lia|]. pose proof (chokeables_n m'). lia.
  - destruct r'; cbn in *; [rewrite LN, D in HO'|]; auto.
Qed.

Lemma checkOff_total : forall M dispatch other d n byCC s,
  (forall n v s, byCC = false -> good (pred M) s -> 0 < M -> exists s', dispatch n v s = Some s' /\ good (pred M) s') ->
  good M s -> exists s', checkOffGroups I dispatch other d n byCC s = Some s' /\ good M s'.
Proof.
  intros M dispatch other d n byCC s HD HS. unfold checkOffGroups.
  apply ofold_some with (Q := good M); auto. intros s0 i Hi H0. unfold off_group_step.
  destruct (off_group I s0 other n i) eqn:OG; [|eauto]. cbv zeta.
  apply off_group_chokeable in OG.
  assert (Hn : i < m_n (f_vm s0)).
  { apply in_seq in Hi. destruct HS as (_ & _ & _ & D & _). destruct H0 as (_ & _ & _ & D0 & _). lia. }
  pose proof (chokeables_off I d i (f_vm s0) Hn OG) as LT.
  pose proof H0 as (_ & _ & CM & _).
  assert (G1 : good (pred M) (put_vm s0 (v_off I d i (f_vm s0)))).
  { pose proof (good_quiet M s0 _ (v_off_quiet I d i (f_vm s0)) H0) as (A & B & C & D & F).
    unfold good. repeat (split; auto). cbn [put_vm f_vm]. lia. }
  assert (LP : pred M <= M) by lia.
  destruct byCC.
  - rewrite andb_false_r. eexists; split; [reflexivity|]. eapply good_le; eauto.
  - destruct (_ && _).
    + destruct (HD (te_num (v_ev (m_voice (v_off I d i (f_vm s0)) i))) (te_val (v_ev (m_voice (v_off I d i (f_vm s0)) i)))
        _ eq_refl G1 ltac:(lia)) as (s' & E' & G').
      exists s'. split; [exact E'|]. eapply good_le; eauto.
    + eexists; split; [reflexivity|]. eapply good_le; eauto.
Qed.

Lemma off_layer_midi : forall k n vel rnd att x, s_midi (fst (off_layer k n vel rnd att x)) = s_midi x.
Proof.
  intros. unfold off_layer. destruct (nth_error _ _) as [[r l]|]; auto. destruct (negb _); auto.
  destruct (registerNoteOff _ _ _ _ _ _). reflexivity.
Qed.

(** noteOffDispatch with at most [M] voices to turn off ends within depth [M + 1]. *)
Lemma noteOff_total : forall fuel M d n v s, M < fuel -> good M s ->
  exists s', f_noteOffDispatch fuel I E d n v s = Some s' /\ good M s'.
Proof.
  intros fuel. induction fuel as [|fuel IH]; intros M d n v s HM HS; [lia|].
  cbn [f_noteOffDispatch]. cbv zeta.
  match goal with |- context [ofold ?f ?l ?a] =>
    destruct (ofold_some _ _ f (gacc M) l a) as ([s' r'] & E' & G') end.
  - intros [s0 r0] k _ [H0 HR]. cbn [fst snd] in *. unfold f_off_layer.
    destruct (off_layer k n v _ _ (f_sys s0)) as [x t] eqn:OL.
    assert (MX : s_midi x = md).
    { change x with (fst (x, t)). rewrite <- OL, off_layer_midi. apply H0. }
    destruct t.
    + destruct (checkOff_total M (fun n v => f_noteOffDispatch fuel I E d n v) k d n false (put_sys s0 x))
        as (s2 & E2 & G2).
      { intros n0 v0 s1 _ G1 P. apply IH; auto. lia. }
      { now apply good_sys. }
      rewrite E2. cbn [bind]. apply start_total; auto. split; auto.
    + eexists; split; [reflexivity|]. split; [now apply good_sys|auto].
  - split; cbn [fst snd]; auto.
  - rewrite E'. cbn [omap_fst]. exists s'. split; auto. apply G'.
Qed.
Lemma top_total : forall d s0 n v s, m_n (f_vm s0) = N -> good N s ->
  exists s', top_dispatch I E d s0 n v s = Some s' /\ good N s'.
Proof. intros d s0 n v s D G. unfold top_dispatch. apply noteOff_total; auto. lia. Qed.

Lemma checkOff_top : forall other d n byCC s s0, m_n (f_vm s0) = N -> good N s ->
  exists s', checkOffGroups I (top_dispatch I E d s0) other d n byCC s = Some s' /\ good N s'.
Proof.
  intros other d n byCC s s0 D G. apply checkOff_total; auto. intros n0 v0 s1 _ G1 P.
  unfold top_dispatch. apply noteOff_total; auto. lia.
Qed.

Lemma on_layer_total : forall d n vel rnd a k, gacc N a ->
  exists a', f_on_layer I E d n vel rnd a k = Some a' /\ gacc N a'.
Proof.
  intros d n vel rnd [s ring] k [G HR]. cbn [fst snd] in *. unfold f_on_layer.
  destruct (nth_error _ _) as [[r l]|]; [|eexists; split; [reflexivity|split; auto]].
  destruct (negb _); [eexists; split; [reflexivity|split; auto]|].
  destruct (registerNoteOn _ _ _ _ _ _) as [l' t]. cbv zeta.
  assert (G1 : good N (put_sys s (on_layer k (fun _ _ => l') (f_sys s)))) by (apply good_sys; auto; apply G).
  destruct (_ && _).
  - destruct (checkOff_top k d n false _ _ (proj1 (proj2 (proj2 (proj2 G1)))) G1) as (s2 & E2 & G2).
    rewrite E2. cbn [bind]. apply start_total; auto. split; auto.
  - eexists; split; [reflexivity|split; auto].
Qed.
Lemma noteOn_total : forall d n vel s, good N s ->
  exists s', f_noteOnDispatch I E d n vel s = Some s' /\ good N s'.
Proof.
  intros d n vel s G. unfold f_noteOnDispatch. cbv zeta.
  match goal with |- context [ofold ?f ?l ?a] =>
    destruct (ofold_some _ _ f (gacc N) l a) as ([s' r'] & E' & G') end.
  - intros. now apply on_layer_total.
  - split; cbn [fst snd]; auto. apply (good_sys N (tick s)); [|exact G].
    destruct (is_last_switch _ _); apply G.
  - rewrite E'. cbn [omap_fst bind]. eexists; split; [reflexivity|]. apply good_sys; apply G'.
Qed.
Lemma delayed_total : forall k d r l clear a, gacc N a ->
  exists a', f_delayed I E k d r l clear a = Some a' /\ gacc N a'.
Proof.
  intros k d r l clear a G. unfold f_delayed.
  assert (S1 : exists a1, (if negb (rtDead r) && negb (playingAttackVoice I (f_vm (fst a)) k) then Some a
           else ofold (fun acc x => f_startVoice I E k d (TE ENoteOff (fst x) (snd x)) acc) l a) = Some a1 /\ gacc N a1).
  { destruct (_ && _); [eauto|]. apply ofold_some with (Q := gacc N); auto. intros. now apply start_total; auto. }
  destruct S1 as (a1 & E1 & G1). rewrite E1. cbn [bind]. eexists; split; [reflexivity|].
  split; [cbn [fst]; apply good_sys; apply G1|apply G1].
Qed.
Lemma cc_layer_total : forall d cc v rnd ext a k, gacc N a ->
  exists a', f_cc_layer I E d cc v rnd ext a k = Some a' /\ gacc N a'.
Proof.
  intros d cc v rnd ext a k G. unfold f_cc_layer.
  destruct (nth_error _ _) as [[r l]|]; [|eauto]. destruct (in_cc_list r cc); [|eauto].
  assert (S1 : exists a1, f_cc_sustain I E d cc v k a = Some a1 /\ gacc N a1).
  { unfold f_cc_sustain. destruct (nth_error _ _) as [[r1 l1]|]; [|eauto].
    destruct (_ && _); [|eauto]. now apply delayed_total. }
  destruct S1 as (a1 & E1 & G1). rewrite E1. cbn [bind].
  assert (S2 : exists a2, f_cc_sostenuto I E d cc v k a1 = Some a2 /\ gacc N a2).
  { unfold f_cc_sostenuto. destruct (nth_error _ _) as [[r1 l1]|]; [|eauto].
    destruct (_ && _); [|eauto]. destruct (l_sustain l1); [|now apply delayed_total].
    eexists; split; [reflexivity|]. split; [cbn [fst]; apply good_sys; apply G1|apply G1]. }
  destruct S2 as ([s ring] & E2 & [G2 HR]). rewrite E2. cbn [bind fst snd] in *. unfold f_cc_register.
  destruct (nth_error _ _) as [[r1 l1]|]; [|eexists; split; [reflexivity|split; auto]].
  destruct (registerCC _ _ _ _ _ _ _) as [l' t]. cbv zeta.
  assert (G3 : good N (put_sys s (on_layer k (fun _ _ => l') (f_sys s)))) by (apply good_sys; auto; apply G2).
  destruct (_ && _).
  - destruct (checkOff_top k d cc true _ _ (proj1 (proj2 (proj2 (proj2 G3)))) G3) as (s2 & E3 & G4).
    rewrite E3. cbn [bind]. apply start_total; auto. split; auto.
  - eexists; split; [reflexivity|split; auto].
Qed.
Lemma ccDispatch_total : forall d cc v ext s, good N s ->
  exists s', f_ccDispatch I E d cc v ext s = Some s' /\ good N s'.
Proof.
  intros d cc v ext s G. unfold f_ccDispatch. cbv zeta.
  match goal with |- context [ofold ?f ?l ?a] =>
    destruct (ofold_some _ _ f (gacc N) l a) as ([s' r'] & E' & G') end.
  - intros. now apply cc_layer_total.
  - split; cbn [fst snd]; auto.
  - rewrite E'. cbn [omap_fst]. exists s'. split; auto. apply G'.
Qed.
End TOTAL.

(** * More depth changes nothing *)
Lemma ofold_mono : forall A B (f g : A -> B -> option A) l a r,
  (forall a b r, f a b = Some r -> g a b = Some r) -> ofold f l a = Some r -> ofold g l a = Some r.
Proof.
  intros A B f g l. induction l as [|b l IH]; intros a r H E; cbn [ofold] in *; auto.
  apply bind_inv in E as (a1 & E1 & E). rewrite (H _ _ _ E1). cbn [bind]. now apply IH.
Qed.
Lemma fuel_mono : forall I E d fuel fuel' n v s s', fuel <= fuel' ->
  f_noteOffDispatch fuel I E d n v s = Some s' -> f_noteOffDispatch fuel' I E d n v s = Some s'.
Proof.
  intros I E d fuel. induction fuel as [|fuel IH]; intros fuel' n v s s' L H; [discriminate|].
  destruct fuel' as [|fuel']; [lia|]. cbn [f_noteOffDispatch] in *. cbv zeta in *.
  match type of H with omap_fst ?x = _ => destruct x as [[s1 r1]|] eqn:EO; [|discriminate] end.
  erewrite ofold_mono; [exact H| |exact EO].
  intros [s0 r0] k r HR. unfold f_off_layer in *. destruct (off_layer _ _ _ _ _ _) as [x t].
  destruct t; auto. apply bind_inv in HR as (s2 & E2 & HR). unfold checkOffGroups in *.
  erewrite ofold_mono; [cbn [bind]; exact HR| |exact E2].
  intros s3 i s4 H3. unfold off_group_step in *. destruct (off_group _ _ _ _ _); auto. cbv zeta in *.
  destruct (_ && _); auto. eapply IH; eauto. lia.
Qed.

(** * The whole API *)
Definition fgood (I : instr) (s : fsys) : Prop :=
  vinv I (f_vm s) /\ limits_ok I (f_vm s) /\ Inv (s_midi (f_sys s)).
(** Arguments that are in range: delays are not negative, keys and controllers exist, and voices are asked
    for when the stealer needs one. *)
Definition flegal (I : instr) (o : fop) : Prop :=
  match o with
  | FAllSoundOff => True
  | FSetNumVoices n => i_stealer I = SEnvelope -> (1 <= n)%Z
  | FOp o _ _ =>
    match o with
    | ONoteOn d n _ | ONoteOff d n _ | OPolyAT d n _ => (0 <= d /\ 0 <= n <= 127)%Z
    | OPitch d _ | OChanAT d _ => (0 <= d)%Z
    | OCC d cc _ | OAutomate d cc _ => (0 <= d /\ 0 <= cc < 512)%Z
    | OProgram _ | OTempo _ | OBlock _ => True
    end
  end.

Lemma fgood_good : forall I s, fgood I s ->
  good I (s_midi (f_sys s)) (m_n (f_vm s)) (m_n (f_vm s)) s.
Proof. intros I s (A & B & C). unfold good. repeat (split; auto). apply chokeables_n. Qed.
Lemma good_fgood : forall I md N M s, Inv md -> good I md N M s -> fgood I s.
Proof. intros I md N M s H (A & B & C & D & F). unfold fgood. rewrite F. auto. Qed.
Lemma fgood_sys : forall I s x, Inv (s_midi x) -> fgood I s -> fgood I (put_sys s x).
Proof. intros I s x H (A & B & C). unfold fgood. cbn [put_sys f_vm f_sys]. auto. Qed.
Lemma fgood_quiet : forall I s m, quiet (f_vm s) m -> fgood I s -> fgood I (put_vm s m).
Proof.
  intros I s m Q (A & B & C). unfold fgood. cbn [put_vm f_vm f_sys].
  split; [eapply quiet_vinv; eauto|]. split; [eapply limits_ok_quiet; eauto|auto].
Qed.

Lemma perform_total : forall I E d cc v ext s, fgood I s -> (0 <= d)%Z -> (0 <= cc < 512)%Z ->
  exists s', f_perform I E d cc v ext s = Some s' /\ fgood I s'.
Proof.
  intros I E d cc v ext s G Hd Hc. unfold f_perform. cbv zeta.
  assert (G1 : fgood I (put_vm s (each_voice (v_registerCC I d cc v) (f_vm s)))).
  { apply fgood_quiet; auto. unfold each_voice. apply fold_quiet. intros. apply v_registerCC_quiet. }
  destruct (ccDispatch_total I E _ _ d cc v ext _ (fgood_good _ _ G1)) as (s2 & E2 & G2).
  rewrite E2. cbn [bind]. apply good_fgood in G2; [|apply G1].
  destruct (ccEvent_inv (s_midi (f_sys s2)) d cc v) as (md & EM & IM); auto; [apply G2|].
  rewrite EM. cbn [opt_sys bind]. eexists; split; [reflexivity|]. apply fgood_sys; auto.
Qed.
Lemma reset_ccs_total : forall d defaults l m, (0 <= d)%Z -> (forall c, In c l -> (0 <= c < 512)%Z) ->
  Inv m -> exists m', reset_ccs d defaults l m = Some m' /\ Inv m'.
Proof.
  intros d defaults l. induction l as [|c l IH]; intros m Hd Hl H; cbn [reset_ccs]; [eauto|].
  destruct (ccEvent_inv m d c (defaults c) H Hd (Hl c (or_introl eq_refl))) as (m1 & E1 & H1).
  rewrite E1. apply IH; auto. intros. apply Hl. now right.
Qed.
Lemma all_ccs_in : forall c, In c all_ccs -> (0 <= c < 512)%Z.
Proof. intros c H. unfold all_ccs in H. apply in_map_iff in H as (x & <- & H). apply in_seq in H. lia. Qed.

Lemma each_required : forall (f : vman -> nat -> vman) m,
  (forall m i, m_required (f m i) = m_required m) -> m_required (each_voice f m) = m_required m.
Proof.
  intros f m H. unfold each_voice. generalize (seq 0 (m_n m)). intros l. revert m.
  induction l as [|i l IH]; intros m; cbn [fold_left]; auto. now rewrite IH, H.
Qed.
Lemma v_reset_required : forall I i m, m_required (v_reset I i m) = m_required m.
Proof.
  intros. change (m_required (v_reset I i m)) with (m_required (switchState I i VIdle m)).
  apply switchState_required.
Qed.
Lemma render_required : forall I frames ri m i,
  m_required (render_voice I frames ri m i) = m_required m.
Proof.
  intros I frames ri m i. unfold render_voice.
  destruct (state_eqb_spec VIdle (v_state (m_voice m i))) as [E|E]; auto. cbv zeta.
  assert (Q : quiet m (v_render I frames (ri i) i m)) by (apply v_render_quiet; unfold st; congruence).
  destruct (state_eqb VClean _); rewrite ?v_reset_required; apply Q.
Qed.
Lemma limits_ok_required : forall I m m', m_required m' = m_required m -> limits_ok I m -> limits_ok I m'.
Proof. intros I m m' R L S. rewrite R. auto. Qed.
Lemma fgood_vm : forall I s m, fgood I s -> vinv I m -> m_required m = m_required (f_vm s) ->
  fgood I (put_vm s m).
Proof.
  intros I s m (A & B & C) V R. unfold fgood. cbn [put_vm f_vm f_sys].
  split; auto. split; auto. eapply limits_ok_required; eauto.
Qed.
Lemma vinv_reset_all : forall I m, vinv I m -> vinv I (f_reset_all I m).
Proof. intros. now apply (reset_all_ok I _ (vinv_closed I)). Qed.
Lemma reset_all_required : forall I m, m_required (f_reset_all I m) = m_required m.
Proof. intros. unfold f_reset_all. apply each_required. intros. apply v_reset_required. Qed.

Lemma midi_step : forall m o, Inv m -> legal o -> forall m', mstep m o = Some m' -> Inv m'.
Proof. intros m o H L m' E. destruct (mstep_inv m o H L) as (m1 & E1 & I1). congruence. Qed.

Theorem fstep_total : forall I E defaults s o, fgood I s -> flegal I o ->
  exists s', fstep I E defaults s o = Some s' /\ fgood I s'.
Proof.
  intros I E defaults s o G L. pose proof G as (V & LO & M). unfold fstep. cbv zeta.
  destruct o as [o rands ri| |n].
  - destruct o; cbn [flegal] in L.
    + assert (X : exists x1, (if is_last_switch (f_sys s) n then Some (f_sys s)
          else opt_sys (f_sys s) (noteOnEvent (s_midi (f_sys s)) d n vel (e_rand E (f_tick s)) (e_rand E (S (f_tick s))))
                 (fun x => x)) = Some x1 /\ Inv (s_midi x1)).
      { destruct (is_last_switch _ _); [eauto|].
        destruct (noteOn_inv _ d n vel (e_rand E (f_tick s)) (e_rand E (S (f_tick s))) M (proj1 L)) as (m' & -> & HI).
        cbn [opt_sys]. eexists; split; [reflexivity|exact HI]. }
      destruct X as (x1 & EX & IX). rewrite EX. cbn [bind].
      assert (G1 : fgood I (put_sys (tick (tick s)) x1)) by (apply fgood_sys; auto).
      destruct (noteOn_total I E _ _ d n vel _ (fgood_good _ _ G1)) as (s2 & E2 & G2).
      exists s2. split; auto. apply good_fgood in G2; auto.
    + assert (X : exists x1, (if is_last_switch (f_sys s) n then Some (f_sys s)
          else opt_sys (f_sys s) (noteOffEvent (s_midi (f_sys s)) d n vel (e_rand E (f_tick s)) (e_rand E (S (f_tick s))))
                 (fun x => x)) = Some x1 /\ Inv (s_midi x1)).
      { destruct (is_last_switch _ _); [eauto|].
        destruct (noteOff_inv _ d n vel (e_rand E (f_tick s)) (e_rand E (S (f_tick s))) M (proj1 L)) as (m' & -> & HI).
        cbn [opt_sys]. eexists; split; [reflexivity|exact HI]. }
      destruct X as (x1 & EX & IX). rewrite EX. cbn [bind].
      match goal with |- context [top_dispatch _ _ _ ?x _ _ ?x] => assert (G1 : fgood I x) end.
      { apply fgood_quiet.
        - unfold each_voice. apply fold_quiet. intros. apply v_registerNoteOff_quiet.
        - apply fgood_sys; auto. }
      edestruct (top_total I E) as (s2 & E2 & G2); [reflexivity|apply (fgood_good _ _ G1)|].
      exists s2. split; [exact E2|]. apply good_fgood in G2; [exact G2|apply G1].
    + destruct (cc =? 121)%Z.
      * unfold resetAllControllers.
        destruct (reset_ccs_total d defaults all_ccs (pitchBendEvent (s_midi (f_sys s)) d 0%Q)) as (m' & EM & IM);
          [tauto|apply all_ccs_in| |].
        { apply (midi_step (s_midi (f_sys s)) (MPitch d 0%Q) M); [apply L|reflexivity]. }
        rewrite EM. cbn [bind]. eexists; split; [reflexivity|]. apply fgood_quiet.
        -- unfold each_voice. apply fold_quiet. intros. apply fold_quiet. intros. apply v_registerCC_quiet.
        -- apply fgood_sys; auto.
      * destruct (_ || _).
        -- destruct (mstep_inv (s_midi (f_sys s)) (MAllNotesOff d rands) M (proj1 L)) as (m' & EM & IM).
           cbn [mstep] in EM. rewrite EM. cbn [opt_sys bind]. eexists; split; [reflexivity|].
           apply fgood_vm; [apply fgood_sys; auto|now apply vinv_reset_all|apply reset_all_required].
        -- apply perform_total; tauto.
    + apply perform_total; tauto.
    + apply perform_total; auto; [|lia]. apply fgood_sys; auto.
      apply (midi_step (s_midi (f_sys s)) (MPitch d v) M); [exact L|reflexivity].
    + apply perform_total; auto; [|lia]. apply fgood_sys; auto.
      apply (midi_step (s_midi (f_sys s)) (MChanAT d v) M); [exact L|reflexivity].
    + apply perform_total; auto; [|lia|lia]. apply fgood_sys; auto.
      apply (midi_step (s_midi (f_sys s)) (MPolyAT d n v) M); [apply L|reflexivity].
    + eexists; split; [reflexivity|]. now apply fgood_sys.
    + eauto.
    + destruct (mstep_inv (s_midi (f_sys s)) (MAdvance n) M Logic.I) as (m' & EM & IM).
      cbn [mstep] in EM. rewrite EM. cbn [opt_sys bind]. eexists; split; [reflexivity|].
      apply fgood_vm; [apply fgood_sys; auto| |].
      * apply (each_voice_ok (vinv I)); auto. intros. now apply (render_voice_ok I _ (vinv_closed I)).
      * apply each_required. intros. apply render_required.
  - eexists; split; [reflexivity|]. apply fgood_vm; auto; [now apply vinv_reset_all|apply reset_all_required].
  - destruct (_ =? _)%Z; [eauto|]. eexists; split; [reflexivity|].
    unfold fgood. cbn [put_vm f_vm f_sys]. split; [apply new_voices_vinv|]. split; auto.
    intros S. cbn [flegal] in L. specialize (LO S). change (m_required (new_voices n _)) with n. tauto.
Qed.

(** The instrument's limits are positive if the stealer needs them to be. *)
Definition positive_limits (I : instr) (n : Z) : Prop := limits_ok I (new_voices n (fun _ => 0%Z)).

(** C22: from a loaded instrument every sequence of calls with valid arguments runs to its end,
    however the off_by groups of its regions refer to each other. *)
Theorem C22_calls_return : forall I E defaults sw bps count n os,
  positive_limits I n -> Forall (flegal I) os ->
  exists s, frun I E defaults (f_load I midi_init sw bps count n) os = Some s /\ fgood I s.
Proof.
  intros I E defaults sw bps count n os PL HL.
  assert (G0 : fgood I (f_load I midi_init sw bps count n)).
  { unfold fgood, f_load. cbn [f_vm f_sys]. split; [apply new_voices_vinv|]. split; [exact PL|].
    unfold load. cbn [s_midi]. apply init_inv. }
  generalize dependent (f_load I midi_init sw bps count n). induction HL as [|o os Ho HL IH]; intros s G0; cbn [frun].
  - eauto.
  - destruct (fstep_total I E defaults s o G0 Ho) as (s1 & E1 & G1). rewrite E1. cbn [bind]. auto.
Qed.

(** On any state so reached, the recursion of noteOffDispatch through checkOffGroups is at most
    one deeper than the number of voices still to be turned off. *)
Theorem C22_depth : forall I E defaults sw bps count n os s d k v,
  positive_limits I n -> Forall (flegal I) os ->
  frun I E defaults (f_load I midi_init sw bps count n) os = Some s ->
  exists s', (forall fuel, chokeables (f_vm s) < fuel -> f_noteOffDispatch fuel I E d k v s = Some s')
    /\ chokeables (f_vm s') <= chokeables (f_vm s).
Proof.
  intros I E defaults sw bps count n os s d k v PL HL HR.
  destruct (C22_calls_return I E defaults sw bps count n os PL HL) as (s0 & E0 & V & L & M).
  rewrite HR in E0. apply some_inj in E0. subst s0.
  destruct (noteOff_total I E (s_midi (f_sys s)) (m_n (f_vm s)) (S (chokeables (f_vm s))) (chokeables (f_vm s)) d k v s)
    as (s' & E' & G'); auto.
  { unfold good. repeat (split; auto). }
  exists s'. split; [|apply G']. intros fuel HF. eapply fuel_mono; [|exact E']. lia.
Qed.
