(** C99: the parts of voices and buses have the sample rate and block size of the synthesizer, and voices have all the
    parts that regions need. *)
From Coq Require Import ZArith List Bool Lia.
From Verif Require Import SetupModel.
Import ListNotations.
Local Open Scope Z_scope.

(** ** Specification *)
(** All parts of a voice but its filters and equalizers run at [r]. *)
Definition runsAt (r : Z) (v : voice) : Prop :=
  v_rate v = r /\ (forall x, In x (v_lfos v) \/ In x (v_egs v) -> x = r) /\ (forall x, v_alfo v = Some x \/ v_plfo v = Some x \/ v_flfo v = Some x -> x = r).
Definition filtersAt (P : Z -> Prop) (v : voice) : Prop := forall x, In x (v_filters v) \/ In x (v_eqs v) -> P x.
(** A voice has the parts that a region needs. *)
Definition serves (v : voice) (r : settings) : Prop :=
  (n_filters r <= length (v_filters v))%nat /\ (n_eqs r <= length (v_eqs v))%nat /\ (n_lfos r <= length (v_lfos v))%nat /\ (n_egs r <= length (v_egs v))%nat /\
  (n_peg r = true -> v_peg v = true) /\ (n_feg r = true -> v_feg v = true) /\
  (n_alfo r = true -> v_alfo v <> None) /\ (n_plfo r = true -> v_plfo v <> None) /\ (n_flfo r = true -> v_flfo v <> None).
(** A bus has buffers and effects for blocks of [n] at rate [r]. *)
Definition tuned (r n : Z) (b : bus) : Prop := b_size b = n /\ forall e, In e (b_effects b) -> e = (r, n).
Definition rendered (s : synth) (b : bus) : Prop := exists o l, (o < s_outputs s)%nat /\ nth_error (s_buses s) o = Some l /\ In (Some b) l.

(** ** Voices *)
Lemma in_const {A} (r x : Z) (l : list A) : In x (map (fun _ => r) l) -> x = r.
Proof. intros H. apply in_map_iff in H. destruct H as (? & H & _). now symmetry. Qed.
Lemma rate_runs r v : runsAt r (voiceRate r v) /\ filtersAt (eq r) (voiceRate r v).
Proof.
  split; [split; [reflexivity|]; split|].
  - intros x [H|H]; now apply in_const in H.
  - cbn. intros x [H|[H|H]]; [destruct (v_alfo v)|destruct (v_plfo v)|destruct (v_flfo v)]; cbn in H; congruence.
  - intros x [H|H]; apply in_const in H; now symmetry.
Qed.
Lemma block_runs r n v : runsAt r v -> runsAt r (voiceBlock n v).
Proof. trivial. Qed.
Lemma follow_runs r b v : runsAt r v -> runsAt r (voiceFollow b v).
Proof. trivial. Qed.
Lemma apply_runs r st v : runsAt r v -> runsAt r (applyTo st v).
Proof.
  intros (E & _). split; [exact E|]. cbn. split.
  - intros x [H|H]; apply repeat_spec in H; congruence.
  - intros x H. destruct (n_alfo st), (n_plfo st), (n_flfo st); destruct H as [H|[H|H]]; congruence.
Qed.
Lemma new_filters (P : Z -> Prop) n l : (forall x, In x l -> P x) -> P defaultSampleRate -> forall x, In x (newFilters n l) -> P x.
Proof. intros L D x H. unfold newFilters in H. destruct (_ =? _)%nat; [now apply L|]. apply repeat_spec in H. now subst. Qed.
Lemma apply_filters (P : Z -> Prop) st v : P defaultSampleRate -> filtersAt P v -> filtersAt P (applyTo st v).
Proof. intros D F x [H|H]; cbn in H; (eapply new_filters; [|exact D|exact H]); intros y Y; apply F; auto. Qed.
(** The number of parts. *)
Definition sized (st : settings) (v : voice) : Prop :=
  length (v_filters v) = n_filters st /\ length (v_eqs v) = n_eqs st /\ length (v_lfos v) = n_lfos st /\ length (v_egs v) = n_egs st /\
  v_peg v = n_peg st /\ v_feg v = n_feg st /\
  (n_alfo st = true -> v_alfo v <> None) /\ (n_plfo st = true -> v_plfo v <> None) /\ (n_flfo st = true -> v_flfo v <> None).
Lemma new_length n l : length (newFilters n l) = n.
Proof. unfold newFilters. destruct (Nat.eqb_spec n (length l)) as [->|N]; [reflexivity|apply repeat_length]. Qed.
Lemma apply_sized st v : sized st (applyTo st v).
Proof.
  unfold sized. cbn. rewrite !new_length, !repeat_length. repeat split; intros H; rewrite H; discriminate.
Qed.
Lemma rate_sized st r v : sized st v -> sized st (voiceRate r v).
Proof.
  unfold sized. cbn. rewrite !map_length. intros (H1 & H2 & H3 & H4 & H5 & H6 & H7 & H8 & H9). repeat split; auto; intros E.
  - specialize (H7 E). now destruct (v_alfo v).
  - specialize (H8 E). now destruct (v_plfo v).
  - specialize (H9 E). now destruct (v_flfo v).
Qed.
Lemma sized_serves st r v : sized st v -> join st r = st -> serves v r.
Proof.
  intros (H1 & H2 & H3 & H4 & H5 & H6 & H7 & H8 & H9) J. unfold join in J. destruct st as [a b c d e f g h i]. cbn in *. injection J as J1 J2 J3 J4 J5 J6 J7 J8 J9.
  unfold serves. rewrite H1, H2, H3, H4, H5, H6. repeat split; try lia; intros E; rewrite E, orb_true_r in *; auto.
Qed.

(** ** Buses *)
Definition allTuned (r n : Z) (bs : buses) : Prop := forall l b, In l bs -> In (Some b) l -> tuned r n b.
Lemma in_upd {A} (l : list A) i x y : In y (upd l i x) -> y = x \/ In y l.
Proof. revert i. induction l as [|z l IH]; intros [|i]; cbn; auto; intros [H|H]; auto. destruct (IH _ H); auto. Qed.
Lemma upd_length {A} (l : list A) i x : length (upd l i x) = length l.
Proof. revert i. induction l as [|z l IH]; intros [|i]; cbn; auto. Qed.
Lemma upd_nth {A} (l : list A) i x y : nth_error l i = Some x -> nth_error (upd l i y) i = Some y.
Proof. revert i. induction l as [|z l IH]; intros [|i] H; try discriminate; cbn in *; [reflexivity|now apply IH]. Qed.
Lemma add_tuned r n bs o : allTuned r n bs -> allTuned r n (addBuses n bs o).
Proof.
  intros H l b L B. apply in_app_or in L. destruct L as [L|L]; [eapply H; eauto|]. apply repeat_spec in L. subst l.
  destruct B as [B|[]]. injection B as <-. split; [reflexivity|intros e []].
Qed.
Lemma add_length n bs o : (length bs <= length (addBuses n bs o))%nat /\ (S o <= length (addBuses n bs o))%nat.
Proof. unfold addBuses. rewrite app_length, repeat_length. lia. Qed.
Lemma with_tuned r n bs o k f : (forall b, tuned r n b -> tuned r n (f b)) -> allTuned r n bs -> allTuned r n (withBus n bs o k f).
Proof.
  intros F H. unfold withBus. destruct (nth_error bs o) as [l|] eqn:E; [|exact H]. apply nth_error_In in E.
  assert (forall b, In (Some b) (l ++ repeat None (S k - length l)) -> tuned r n b) as L.
  { intros b B. apply in_app_or in B. destruct B as [B|B]; [eapply H; eauto|]. apply repeat_spec in B. discriminate. }
  intros l' b L' B. apply in_upd in L'. destruct L' as [->|L']; [|eapply H; eauto]. apply in_upd in B. destruct B as [B|B]; [|now apply L]. injection B as ->.
  apply F. destruct (nth k _ None) as [b|] eqn:Eb; [|split; [reflexivity|intros e []]]. apply L. rewrite <- Eb.
  destruct (Nat.lt_ge_cases k (length (l ++ repeat None (S k - length l)))) as [Lt|Ge]; [now apply nth_In|]. rewrite nth_overflow in Eb by exact Ge. discriminate.
Qed.
Lemma with_length n bs o k f : length (withBus n bs o k f) = length bs.
Proof. unfold withBus. destruct (nth_error bs o); [apply upd_length|reflexivity]. Qed.
Lemma effect_tuned r n bs e : allTuned r n bs -> allTuned r n (handleEffect r n bs e) /\ (length bs <= length (handleEffect r n bs e))%nat.
Proof.
  intros H. unfold handleEffect.
  assert (forall ks bs', allTuned r n bs' -> allTuned r n (fold_left (fun bs k => withBus n bs (e_output e) k (fun b => b)) ks bs') /\
    length (fold_left (fun bs k => withBus n bs (e_output e) k (fun b => b)) ks bs') = length bs') as G.
  { induction ks as [|k ks IH]; intros bs' H'; [now split|]. cbn [fold_left]. destruct (IH (withBus n bs' (e_output e) k (fun b => b))) as [G1 G2]; [apply with_tuned; auto|].
    split; [exact G1|]. now rewrite G2, with_length. }
  destruct (G (e_gains e) (addBuses n bs (e_output e)) (add_tuned _ _ _ _ H)) as [G1 G2]. pose proof (add_length n bs (e_output e)) as [A _].
  destruct (e_bus e) as [k|]; [|split; [exact G1|lia]]. split; [|rewrite with_length; lia]. apply with_tuned; [|exact G1].
  intros b [B1 B2]. split; [exact B1|]. cbn. intros x X. apply in_app_or in X. destruct X as [X|[<-|[]]]; [now apply B2|reflexivity].
Qed.
Lemma effects_tuned r n es : forall bs, allTuned r n bs -> allTuned r n (fold_left (handleEffect r n) es bs) /\ (length bs <= length (fold_left (handleEffect r n) es bs))%nat.
Proof.
  induction es as [|e es IH]; intros bs H; [split; [exact H|cbn; lia]|]. cbn [fold_left]. destruct (effect_tuned r n bs e H) as [E1 E2]. destruct (IH _ E1) as [G1 G2]. split; [exact G1|lia].
Qed.

(** ** The invariant *)
Definition inv (s : synth) : Prop :=
  (forall v, In v (s_voices s) -> runsAt (s_rate s) v /\ v_block v = s_block s /\ filtersAt (fun x => x = s_rate s \/ x = defaultSampleRate) v /\ sized (s_settings s) v) /\
  (s_outputs s <= length (s_buses s))%nat /\ (forall b, rendered s b -> tuned (s_rate s) (s_block s) b).
Lemma rendered_all s r n : allTuned r n (s_buses s) -> forall b, rendered s b -> tuned r n b.
Proof. intros H b (o & l & _ & L & B). apply nth_error_In in L. eapply H; eauto. Qed.
Lemma on_outputs s f b : (s_outputs s <= length (s_buses s))%nat -> forall o l, (o < s_outputs s)%nat -> nth_error (onOutputs s f) o = Some l -> In (Some b) l ->
  exists b0, rendered s b0 /\ b = f b0.
Proof.
  intros Len o l O N B. unfold onOutputs in N. rewrite nth_error_app1 in N by (rewrite map_length, firstn_length; lia).
  rewrite nth_error_map in N. destruct (nth_error (firstn (s_outputs s) (s_buses s)) o) as [l0|] eqn:E; [|discriminate]. injection N as <-.
  unfold onBus in B. apply in_map_iff in B. destruct B as ([b0|] & Eb & B0); [|discriminate]. injection Eb as <-. exists b0. split; [|reflexivity].
  exists o, l0. split; [exact O|]. split; [|exact B0]. rewrite <- E. symmetry. rewrite <- (firstn_skipn (s_outputs s) (s_buses s)) at 2.
  symmetry. apply nth_error_app1. rewrite firstn_length. lia.
Qed.
Lemma on_outputs_length s f : length (onOutputs s f) = length (s_buses s).
Proof. unfold onOutputs. rewrite app_length, map_length, <- app_length, firstn_skipn. reflexivity. Qed.
Lemma reset_inv s n : (s_outputs s <= length (s_buses s))%nat -> (forall b, rendered s b -> tuned (s_rate s) (s_block s) b) -> inv (resetVoices s n).
Proof.
  intros L T. split; [|split; [exact L|exact T]]. intros v V. cbn in V. apply in_map_iff in V. destruct V as (v0 & <- & V). apply repeat_spec in V. subst v0.
  split; [apply apply_runs, block_runs, rate_runs|]. split; [reflexivity|]. split; [|apply apply_sized].
  apply apply_filters; [now right|]. intros x [[]|[]].
Qed.
Lemma settings_inv s st rs : inv s -> inv (withSettings s st rs).
Proof.
  intros (V & L & T). split; [|split; [exact L|exact T]]. intros v Hv. cbn in Hv. apply in_map_iff in Hv. destruct Hv as (v0 & <- & Hv). destruct (V v0 Hv) as (R & B & F & _).
  split; [now apply apply_runs|]. split; [exact B|]. split; [|apply apply_sized]. apply apply_filters; [now right|exact F].
Qed.
Lemma stealing_inv s a : inv s -> inv (setStealing s a).
Proof.
  intros (V & L & T). split; [|split; [exact L|exact T]]. intros v Hv. cbn in Hv. apply in_map_iff in Hv. destruct Hv as (v0 & <- & Hv). exact (V v0 Hv).
Qed.
Lemma load_inv s rs es hint : inv s -> inv (load s rs es hint).
Proof.
  intros (V & _ & _). unfold load. cbn [s_rate s_block s_numVoices s_voices s_settings s_buses s_stealing setStealing].
  assert (allTuned (s_rate s) (s_block s) (addBuses (s_block s) [] 0)) as T0 by (apply add_tuned; intros l b []).
  destruct (effects_tuned _ _ es _ T0) as [T1 L1]. remember (fold_left _ es _) as bs eqn:Ebs. clear Ebs. cbn in L1.
  match goal with |- inv (match rs with [] => match hint with Some a => setStealing ?t a | None => _ end | _ => _ end) => set (s1 := t) end.
  assert (inv s1) as I1.
  { split; [|split; [exact L1|now apply rendered_all]]. intros v Hv. cbn in Hv. apply in_map_iff in Hv. destruct Hv as (v0 & <- & Hv). exact (V v0 Hv). }
  assert (exists s2, inv s2 /\ s_buses s2 = bs /\ s_rate s2 = s_rate s /\ s_block s2 = s_block s /\ s2 = match hint with Some a => setStealing s1 a | None => s1 end) as (s2 & I2 & B2 & R2 & N2 & E2).
  { destruct hint as [a|]; eexists; (split; [|split; [|split; [|split; [|reflexivity]]]]); try reflexivity; [now apply stealing_inv|exact I1]. }
  rewrite <- E2. clear E2 s1 I1. destruct rs as [|r rs]; [exact I2|]. remember (r :: rs) as rs' eqn:Er. clear Er.
  destruct (settings_inv s2 (fold_left (fun a x => join a (fst x)) rs' noSettings) rs' I2) as (V3 & _ & _).
  split; [exact V3|]. cbn [s_buses s_outputs s_rate s_block withSettings]. rewrite B2, R2, N2. split; [pose proof (add_length (s_block s) bs (fold_left (fun n x => Nat.max (S (snd x)) n) rs' 1%nat)); lia|].
  apply rendered_all. now apply add_tuned.
Qed.
Lemma step_inv s c : inv s -> inv (step s c).
Proof.
  intros I. destruct c as [r|n|n|rs es hint|i p]; cbn [step].
  - destruct I as (V & L & T). split; [|split].
    + intros v Hv. cbn in Hv. apply in_map_iff in Hv. destruct Hv as (v0 & <- & Hv). destruct (V v0 Hv) as (_ & B & _ & Sz). destruct (rate_runs r v0) as [R F].
      split; [exact R|]. split; [exact B|]. split; [|now apply rate_sized]. intros x Hx. left. symmetry. now apply F.
    + cbn. now rewrite on_outputs_length.
    + intros b (o & l & O & N & B). cbn in O, N. destruct (on_outputs s _ b L o l O N B) as (b0 & R & ->). destruct (T b0 R) as [T1 T2].
      split; [exact T1|]. cbn. intros e He. apply in_map_iff in He. destruct He as ((x & y) & <- & He). apply T2 in He. congruence.
  - destruct I as (V & L & T). split; [|split].
    + intros v Hv. cbn in Hv. apply in_map_iff in Hv. destruct Hv as (v0 & <- & Hv). destruct (V v0 Hv) as (R & _ & F & Sz). exact (conj R (conj eq_refl (conj F Sz))).
    + cbn. now rewrite on_outputs_length.
    + intros b (o & l & O & N & B). cbn in O, N. destruct (on_outputs s _ b L o l O N B) as (b0 & R & ->). destruct (T b0 R) as [T1 T2].
      split; [reflexivity|]. cbn. intros e He. apply in_map_iff in He. destruct He as ((x & y) & <- & He). apply T2 in He. congruence.
  - unfold setNumVoices. destruct (_ =? _); [exact I|]. destruct I as (_ & L & T). now apply reset_inv.
  - now apply load_inv.
  - unfold addTo. destruct (nth_error _ _) as [[r o]|]; [|exact I]. now apply settings_inv.
Qed.
Lemma initial_inv : inv initial.
Proof. apply reset_inv; [cbn; lia|]. apply rendered_all. intros l b [<-|[]] [H|[]]. injection H as <-. split; [reflexivity|intros e []]. Qed.
Lemma run_inv cs : inv (run cs).
Proof. unfold run. generalize initial, initial_inv. induction cs as [|c cs IH]; intros s H; [exact H|]. cbn [fold_left]. apply IH. now apply step_inv. Qed.

(** ** Theorems *)
(** C99: whatever is called, the oscillators, LFOs and flexible envelopes of every voice run at the sample rate of the
    synthesizer, and so do the effects of all outputs that are rendered; voices, buses and effects are made for its block size. *)
Theorem C99_rates cs : let s := run cs in
  (forall v, In v (s_voices s) -> runsAt (s_rate s) v /\ v_block v = s_block s) /\
  (forall b, rendered s b -> tuned (s_rate s) (s_block s) b) /\ (s_outputs s <= length (s_buses s))%nat.
Proof. intros s. destruct (run_inv cs) as (V & L & T). split; [|split; [exact T|exact L]]. intros v Hv. destruct (V v Hv) as (R & B & _). now split. Qed.
(** C99: filters and equalizers run at the sample rate of the synthesizer or at the default one, and at that of the
    synthesizer once it is set again. *)
Theorem C99_filters cs : (forall v, In v (s_voices (run cs)) -> filtersAt (fun x => x = s_rate (run cs) \/ x = defaultSampleRate) v) /\
  (forall r v, In v (s_voices (run (cs ++ [SetSampleRate r]))) -> filtersAt (eq r) v).
Proof.
  split.
  - intros v Hv. destruct (run_inv cs) as (V & _). now destruct (V v Hv) as (_ & _ & F & _).
  - intros r v Hv. unfold run in Hv. rewrite fold_left_app in Hv. cbn in Hv. apply in_map_iff in Hv. destruct Hv as (v0 & <- & _). apply rate_runs.
Qed.

(** The largest settings. *)
Lemma join_idem a b : join (join a b) b = join a b.
Proof. unfold join. cbn. f_equal; try lia; rewrite <- orb_assoc, orb_diag; reflexivity. Qed.
Lemma join_comm3 a b c : join (join a b) c = join (join a c) b.
Proof. unfold join. cbn. f_equal; try lia; rewrite <- !orb_assoc; f_equal; apply orb_comm. Qed.
Lemma join_fold rs : forall a b, join a b = a -> join (fold_left (fun a r => join a (fst r)) rs a) b = fold_left (fun a (r : settings * nat) => join a (fst r)) rs a.
Proof. induction rs as [|r rs IH]; intros a b H; [exact H|]. cbn [fold_left]. apply IH. now rewrite join_comm3, H. Qed.
Lemma join_all rs : forall a r, In r rs -> join (fold_left (fun a r => join a (fst r)) rs a) (fst r) = fold_left (fun a (r : settings * nat) => join a (fst r)) rs a.
Proof. induction rs as [|r rs IH]; intros a r0 []; cbn [fold_left]; [subst; apply join_fold, join_idem|now apply IH]. Qed.
Definition adds (c : call) : Prop := match c with AddTo _ Filter | AddTo _ EQ => True | _ => False end.
Lemma served cs : Forall (fun c => ~ adds c) cs -> forall r, In r (s_regions (run cs)) -> join (s_settings (run cs)) (fst r) = s_settings (run cs).
Proof.
  unfold run. intros F. assert (forall r, In r (s_regions initial) -> join (s_settings initial) (fst r) = s_settings initial) as H0 by (cbn; tauto).
  revert H0. generalize initial. induction F as [|c cs C F IH]; intros s H; [exact H|]. cbn [fold_left]. apply IH. clear IH F cs.
  destruct c as [r|n|n|rs es hint|i p]; cbn [step].
  - exact H.
  - exact H.
  - unfold setNumVoices. destruct (_ =? _); exact H.
  - unfold load. destruct rs as [|r rs]; [destruct hint; cbn; tauto|]. destruct hint; cbn [s_regions s_settings withSettings]; intros x X; now apply join_all.
  - unfold addTo. destruct (nth_error (s_regions s) i) as [[r o]|] eqn:E; [|exact H]. destruct p; try (exfalso; now apply C).
    cbn [s_regions s_settings withSettings]. intros x X. apply nth_error_In in E. pose proof (H _ E) as Hr. cbn [fst] in Hr.
    apply in_upd in X. destruct X as [->|X]; [|apply H in X]; [clear E; rename Hr into X|]; unfold join in *; destruct (s_settings s) as [a b c d e f g h k]; cbn in *; injection X as X1 X2 X3 X4 X5 X6 X7 X8 X9; f_equal; try lia; assumption.
Qed.
(** C99: without the messages that add filters and equalizers every voice has the parts that every region needs. *)
Theorem C99_capacity cs : Forall (fun c => ~ adds c) cs -> forall v r o, In v (s_voices (run cs)) -> In (r, o) (s_regions (run cs)) -> serves v r.
Proof.
  intros F v r o Hv Hr. destruct (run_inv cs) as (V & _). destruct (V v Hv) as (_ & _ & _ & Sz). eapply sized_serves; [exact Sz|]. exact (served cs F _ Hr).
Qed.
(** C99: with them not: whatever came before, a filter that is added to a region without flexible envelopes in a file
    that has no more filters is in no voice, and the next note of the region uses it. *)
Theorem C99_add_refuted rs es hint i r o : nth_error rs i = Some (r, o) -> n_egs r = 0%nat -> (forall x, In x rs -> n_filters (fst x) <= n_filters r)%nat ->
  forall cs, exists r', nth_error (s_regions (run (cs ++ [Load rs es hint; AddTo i Filter]))) i = Some (r', o) /\
    forall v, In v (s_voices (run (cs ++ [Load rs es hint; AddTo i Filter]))) -> ~ serves v r'.
Proof.
  intros E G M cs. unfold run. rewrite fold_left_app. cbn [fold_left]. fold (run cs). cbn [step]. set (s := load (run cs) rs es hint).
  assert (s_regions s = rs /\ n_filters (s_settings s) = n_filters r) as [Er En].
  { assert (In (r, o) rs) as Hin by (eapply nth_error_In; eauto).
    assert (forall l a, (n_filters a <= n_filters r)%nat -> (forall x, In x l -> n_filters (fst x) <= n_filters r)%nat -> In (r, o) l \/ n_filters a = n_filters r -> n_filters (fold_left (fun a (r : settings * nat) => join a (fst r)) l a) = n_filters r) as K.
    { induction l as [|x l IH]; intros a A L H; [destruct H as [[]|H]; exact H|]. cbn [fold_left]. pose proof (L x (or_introl eq_refl)) as Lx. apply IH.
      - cbn. lia.
      - intros y Y. apply L. now right.
      - destruct H as [[->|H]|H]; [right; cbn in *; lia|now left|right; cbn; lia]. }
    unfold s, load. destruct rs as [|x rs]; [destruct Hin|]. destruct hint; cbn [s_regions s_settings withSettings]; (split; [reflexivity|apply K; [cbn; lia|exact M|now left]]). }
  unfold addTo. rewrite Er, E. cbn [s_regions s_voices withSettings n_egs].
  eexists. split.
  - eapply upd_nth. exact E.
  - intros v Hv Sv. apply in_map_iff in Hv. destruct Hv as (v0 & <- & _). destruct Sv as (Sv & _). cbn in Sv. rewrite new_length, En, G in Sv. lia.
Qed.
(** C99: the filters of a file that is loaded after the sample rate was set run at the default rate: every cutoff is
    scaled by the quotient of both. *)
Theorem C99_filters_refuted cs r rs es hint : let k := n_filters (fold_left (fun a x => join a (fst x)) rs noSettings) in
  (0 < k)%nat -> n_filters (s_settings (run cs)) <> k -> r <> defaultSampleRate ->
  forall v, In v (s_voices (run (cs ++ [SetSampleRate r; Load rs es hint]))) ->
    v_rate v = r /\ v_filters v = repeat defaultSampleRate k /\ ~ filtersAt (eq r) v.
Proof.
  intros k K N R v H. assert (exists v0, In v0 (s_voices (run cs)) /\ v_rate v = r /\ v_filters v = newFilters k (v_filters (voiceRate r v0))) as (v0 & H0 & Ev & Ef).
  { unfold run in H. rewrite fold_left_app in H. cbn [fold_left step] in H. fold (run cs) in H. unfold load in H.
    destruct rs as [|x rs]; [cbn in K; lia|]. destruct hint as [a|]; cbn [s_voices withSettings setStealing setSampleRate] in H;
      rewrite !map_map in H; apply in_map_iff in H; destruct H as (v0 & <- & H); exists v0; (split; [exact H|]); split; reflexivity. }
  destruct (run_inv cs) as (V & _). destruct (V v0 H0) as (_ & _ & _ & (Sz & _)).
  assert (v_filters v = repeat defaultSampleRate k) as E. { rewrite Ef. unfold newFilters. cbn [v_filters voiceRate]. rewrite map_length. destruct (Nat.eqb_spec k (length (v_filters v0))) as [Q|Q]; [congruence|reflexivity]. }
  split; [exact Ev|]. split; [exact E|]. intros F. apply R, F. left. rewrite E. destruct k; [lia|now left].
Qed.

(** ** Stealing *)
(** C99: until the number of voices is changed, voices measure their power exactly if the way of stealing needs it. *)
Theorem C99_follow cs : Forall (fun c => forall n, c <> SetNumVoices n) cs -> forall v, In v (s_voices (run cs)) -> (v_follow v = true <-> s_stealing (run cs) = EnvelopeAndAge).
Proof.
  intros F. enough (forall v, In v (s_voices (run cs)) -> v_follow v = follows (s_stealing (run cs))) as G.
  { intros v Hv. rewrite (G v Hv). destruct (s_stealing (run cs)); cbn [follows]; split; congruence. }
  unfold run. assert (forall v, In v (s_voices initial) -> v_follow v = follows (s_stealing initial)) as H0.
  { cbn [s_voices initial resetVoices]. intros v H. apply in_map_iff in H. destruct H as (v0 & <- & H). apply repeat_spec in H. now subst. }
  revert H0. generalize initial. induction F as [|c cs C F IH]; intros s H; [exact H|]. cbn [fold_left]. apply IH. clear IH F cs.
  destruct c as [r|n|n|rs es hint|i p]; cbn [step].
  - cbn. intros v Hv. apply in_map_iff in Hv. destruct Hv as (v0 & <- & Hv). exact (H v0 Hv).
  - cbn. intros v Hv. apply in_map_iff in Hv. destruct Hv as (v0 & <- & Hv). exact (H v0 Hv).
  - exfalso. now apply (C n).
  - unfold load. destruct rs, hint; cbn [s_voices s_stealing withSettings setStealing]; intros v Hv;
      repeat (apply in_map_iff in Hv; destruct Hv as (? & <- & Hv)); reflexivity.
  - unfold addTo. destruct (nth_error (s_regions s) i) as [[r o]|]; [|exact H]. cbn [s_voices s_stealing withSettings]. intros v Hv. apply in_map_iff in Hv. destruct Hv as (v0 & <- & Hv). exact (H v0 Hv).
Qed.
(** C99: and then they do not: no voice measures its power, which the stealing by envelope and age compares. *)
Theorem C99_follow_refuted cs rs es n : n <> s_numVoices (run cs) -> let s := run (cs ++ [Load rs es (Some EnvelopeAndAge); SetNumVoices n]) in
  s_stealing s = EnvelopeAndAge /\ forall v, In v (s_voices s) -> v_follow v = false.
Proof.
  intros N s. assert (s = resetVoices (load (run cs) rs es (Some EnvelopeAndAge)) n) as Es.
  { unfold s, run. rewrite fold_left_app. cbn [fold_left step]. fold (run cs). unfold setNumVoices.
    replace (n =? s_numVoices (load (run cs) rs es (Some EnvelopeAndAge))) with false; [reflexivity|]. symmetry. apply Z.eqb_neq. unfold load. now destruct rs. }
  rewrite Es. split; [unfold load; now destruct rs|]. cbn [s_voices resetVoices]. intros v Hv. apply in_map_iff in Hv. destruct Hv as (v0 & <- & Hv). apply repeat_spec in Hv. now subst.
Qed.

(** ** Cases *)
(** 44100 Hz, then a file with two filters, an LFO and an effect on the second output, another number of voices, and larger blocks. *)
Definition song : list call := [SetSampleRate 44100; Load [(Settings 2 0 1 0 true false false false false, 1%nat); (noSettings, 0%nat)] [Effect 1 [1%nat] (Some 1%nat)] (Some EnvelopeAndAge);
  SetNumVoices 10; SetSamplesPerBlock 2048; AddTo 1 EG].
Example C99_ex : (length (s_voices (run song)) = 25)%nat /\ s_outputs (run song) = 2%nat /\ Forall (fun c => ~ adds c) song /\
  rendered (run song) (Bus 2048 [(44100, 2048)]) /\
  nth_error (s_voices (run song)) 3 = Some (Voice 44100 2048 [48000; 48000] [] [44100] [44100] None None None true false false).
Proof.
  split; [reflexivity|]. split; [reflexivity|]. split; [repeat constructor; cbn; tauto|]. split; [|reflexivity].
  exists 1%nat, [Some (Bus 2048 []); Some (Bus 2048 [(44100, 2048)])]. split; [cbn; lia|]. split; [reflexivity|]. cbn. auto.
Qed.
