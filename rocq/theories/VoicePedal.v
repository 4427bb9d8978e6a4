(** Voices and pedals (C52). *)
From Coq Require Import ZArith QArith List Bool Lia.
Import ListNotations.
From Verif Require Import MidiModel LayerModel VoiceModel VoiceExamples.
Local Open Scope Z_scope.

(** What reaches a voice: the end of a key and the values of the controllers. *)
Inductive vevent := KeyUp (d n : Z) | Pedal (d cc : Z) (x : Q).
Definition voice_event (I : instr) (i : nat) (m : vman) (e : vevent) : vman :=
  match e with
  | KeyUp d n => v_registerNoteOff I d n m i
  | Pedal d cc x => v_registerCC I d cc x m i
  end.
Definition voice_run (I : instr) (i : nat) (l : list vevent) (m : vman) : vman :=
  fold_left (voice_event I i) l m.

(** ** What a player expects *)
Section Expected.
Variable r : region.
Variable key : Z.
(** The values of a pedal, the latest first, beginning with the one at the start of the note. *)
Definition is_down (threshold : Q) (values : list Q) : bool :=
  match values with x :: _ => Qle_bool threshold x | [] => false end.
Definition was_up (threshold : Q) (values : list Q) : bool := existsb (fun x => negb (Qle_bool threshold x)) values.
Definition values (cc : Z) (l : list vevent) (x0 : Q) : list Q :=
  fold_left (fun a e => match e with Pedal _ c x => if c =? cc then x :: a else a | _ => a end) l [x0].
(** The sustain pedal holds what sounds while it is down. *)
Definition sustained (l : list vevent) (x0 : Q) : bool := is_down (sustainThreshold r) (values (sustainCC r) l x0).
(** The sostenuto pedal holds the notes that sounded when it went down. *)
Definition sostenutoed (l : list vevent) (y0 : Q) : bool :=
  is_down (sostenutoThreshold r) (values (sostenutoCC r) l y0) && was_up (sostenutoThreshold r) (values (sostenutoCC r) l y0).
Definition key_up (l : list vevent) : bool :=
  existsb (fun e => match e with KeyUp _ n => n =? key | _ => false end) l.
(** The note ends when its key is up and no pedal holds it. *)
Definition ends (x0 y0 : Q) (l : list vevent) : bool := key_up l && negb (sustained l x0) && negb (sostenutoed l y0).
Definition relevant (e : vevent) : bool :=
  match e with KeyUp _ n => n =? key | Pedal _ cc _ => (cc =? sustainCC r) || (cc =? sostenutoCC r) end.
(** It has ended once that was so at some event. *)
Definition has_ended (x0 y0 : Q) (l : list vevent) : Prop :=
  exists pre e post, l = pre ++ e :: post /\ relevant e = true /\ ends x0 y0 (pre ++ [e]) = true.
End Expected.

(** ** A voice that starts *)
Definition holding (r : region) (x0 y0 : Q) : hold :=
  Hold false (Qle_bool (sustainThreshold r) x0) (if Qle_bool (sostenutoThreshold r) y0 then SoPreviouslyDown else SoUp).
Definition begun (I : instr) (k i : nat) (key : Z) (x0 y0 : Q) (m : vman) : Prop :=
  let v := m_voice m i in let r := i_region I k in
  v_state v = VPlaying /\ v_region v = Some k /\ te_num (v_ev v) = key /\ te_type (v_ev v) = ENoteOn /\
  a_released (v_amp v) = false /\ v_hold v = holding r x0 y0.

Lemma put_same m i v : m_voice (put m i v) i = v.
Proof. cbn [put m_voice]. unfold updn. rewrite Nat.eqb_refl. reflexivity. Qed.
Lemma clean_voice I i m k : v_region (m_voice m i) = Some k ->
  m_voice (switchState I i VClean m) i = set_state (m_voice m i) VClean.
Proof.
  intros R. unfold switchState. destruct (state_eqb VClean (v_state (m_voice m i))) eqn:E.
  - destruct (m_voice m i) as [[] ? ? ? ? ? ? ? ?]; cbn [state_eqb v_state] in E; try discriminate. reflexivity.
  - unfold listener. rewrite put_same. cbn [set_state v_region]. rewrite R. apply put_same.
Qed.
Lemma release_voice I i d m k : v_region (m_voice m i) = Some k -> v_state (m_voice m i) = VPlaying ->
  let v := m_voice m i in let v' := m_voice (v_release I i d m) i in
  a_released (v_amp v') = true /\ v_region v' = Some k.
Proof.
  intros R S. cbv zeta. unfold v_release. rewrite S. cbn [state_eqb].
  rewrite put_same. cbn [set_amp v_amp a_released v_region]. split; [reflexivity|].
  destruct (d <? a_delay (v_amp (m_voice m i))); [rewrite (clean_voice I i m k R); exact R|exact R].
Qed.
(** A voice that has been released stays so. *)
Lemma stays_released I i m e k : i_cancel I = false -> v_region (m_voice m i) = Some k ->
  a_released (v_amp (m_voice m i)) = true ->
  v_region (m_voice (voice_event I i m e) i) = Some k /\ a_released (v_amp (m_voice (voice_event I i m e) i)) = true.
Proof.
  intros C R A.
  assert (P : forall h d, v_region (m_voice (v_release I i d (put m i (set_hold (m_voice m i) h))) i) = Some k /\
    a_released (v_amp (m_voice (v_release I i d (put m i (set_hold (m_voice m i) h))) i)) = true).
  { intros h d. destruct (state_eqb VPlaying (v_state (m_voice m i))) eqn:S.
    - assert (S' : v_state (m_voice m i) = VPlaying) by (destruct (v_state (m_voice m i)); [discriminate|reflexivity|discriminate]).
      destruct (release_voice I i d (put m i (set_hold (m_voice m i) h)) k) as [X Y];
        [rewrite put_same; exact R|rewrite put_same; exact S'|]. split; [exact Y|exact X].
    - unfold v_release. rewrite put_same. cbn [set_hold v_state]. rewrite S, put_same. split; assumption. }
  assert (Q : forall h, v_region (m_voice (put m i (set_hold (m_voice m i) h)) i) = Some k /\
    a_released (v_amp (m_voice (put m i (set_hold (m_voice m i) h)) i)) = true).
  { intros h. rewrite put_same. split; assumption. }
  destruct e as [d n|d cc x]; cbn [voice_event]; unfold v_registerNoteOff, v_registerCC; rewrite R.
  - destruct (_ && _ && _); [|split; assumption].
    destruct (vi_oneShot (i_info I k)); [apply Q|]. destruct (pedals_allow _ _); [apply P|apply Q].
  - destruct (negb (state_eqb VPlaying (v_state (m_voice m i)))); [split; assumption|].
    destruct (_ && _); [split; assumption|]. cbv zeta. rewrite C, !andb_false_r. cbn [andb].
    destruct (_ && _ && _); [apply P|apply Q].
Qed.

Section Trace.
Variables (I : instr) (k i : nat) (key : Z) (x0 y0 : Q).
Let r := i_region I k.
Hypothesis Both : checkSustain r = true /\ checkSostenuto r = true.
Hypothesis Differ : sustainCC r <> sostenutoCC r.
Hypothesis NotOneShot : vi_oneShot (i_info I k) = false.
Hypothesis NoCancel : i_cancel I = false.

Definition sost_of (vals : list Q) : sost :=
  if is_down (sostenutoThreshold r) vals then
    if was_up (sostenutoThreshold r) vals then SoSustaining else SoPreviouslyDown
  else SoUp.
Definition hold_of (l : list vevent) : hold :=
  Hold (key_up key l) (sustained r l x0) (sost_of (values (sostenutoCC r) l y0)).
Definition playing (l : list vevent) (m : vman) : Prop :=
  let v := m_voice m i in
  v_state v = VPlaying /\ v_region v = Some k /\ te_num (v_ev v) = key /\ te_type (v_ev v) = ENoteOn /\
  a_released (v_amp v) = false /\ v_hold v = hold_of l.
Lemma values_snoc cc l e z : values cc (l ++ [e]) z =
  match e with Pedal _ c x => if c =? cc then x :: values cc l z else values cc l z | _ => values cc l z end.
Proof. unfold values. rewrite fold_left_app. reflexivity. Qed.
Lemma key_up_snoc l e : key_up key (l ++ [e]) = key_up key l || match e with KeyUp _ n => n =? key | _ => false end.
Proof. unfold key_up. rewrite existsb_app. cbn [existsb]. rewrite orb_false_r. reflexivity. Qed.
Lemma values_ne cc l z : values cc l z <> [].
Proof.
  induction l as [|e l IH] using rev_ind; [discriminate|]. rewrite values_snoc.
  destruct e as [|d c x]; [exact IH|]. destruct (c =? cc); [discriminate|exact IH].
Qed.
Lemma allow l : pedals_allow r (hold_of l) = negb (sustained r l x0) && negb (sostenutoed r l y0).
Proof.
  destruct Both as [B1 B2]. unfold pedals_allow, hold_of. rewrite B1, B2. cbn [negb orb h_sustain h_sosten].
  f_equal. unfold sostenutoed, sost_of. destruct (is_down _ _); [|reflexivity]. destruct (was_up _ _); reflexivity.
Qed.
Lemma sost_step vals x : vals <> [] ->
  sost_of (x :: vals) = if negb (Qle_bool (sostenutoThreshold r) x) then SoUp
    else match sost_of vals with SoUp => SoSustaining | s => s end.
Proof.
  intros N. unfold sost_of. cbn [is_down was_up existsb].
  destruct (Qle_bool (sostenutoThreshold r) x); cbn [negb orb]; [|reflexivity].
  destruct vals as [|y vals]; [now elim N|]. unfold was_up. cbn [is_down existsb].
  destruct (Qle_bool (sostenutoThreshold r) y); cbn [negb orb]; [|reflexivity].
  destruct (existsb _ vals); reflexivity.
Qed.
Lemma pedals_step l d cc x : v_pedals r cc x (hold_of l) = hold_of (l ++ [Pedal d cc x]).
Proof.
  destruct Both as [B1 B2]. unfold v_pedals, hold_of, sustained. rewrite B1, B2, key_up_snoc, !values_snoc, orb_false_r.
  cbn [andb h_noteOff h_sustain h_sosten]. f_equal.
  - destruct (cc =? sustainCC r); reflexivity.
  - destruct (cc =? sostenutoCC r); [|reflexivity]. rewrite (sost_step _ _ (values_ne _ _ _)). reflexivity.
Qed.

Definition reached (l : list vevent) (m : vman) : Prop :=
  v_region (m_voice m i) = Some k /\
  ((has_ended r key x0 y0 l /\ a_released (v_amp (m_voice m i)) = true) \/
   (~ has_ended r key x0 y0 l /\ playing l m)).
Lemma ended_snoc l e : has_ended r key x0 y0 (l ++ [e]) <->
  has_ended r key x0 y0 l \/ (relevant r key e = true /\ ends r key x0 y0 (l ++ [e]) = true).
Proof.
  split.
  - intros (pre & f & post & E & R & N). destruct post as [|g post] using rev_ind.
    + apply app_inj_tail in E. destruct E as [-> ->]. right. split; assumption.
    + left. clear IHpost. exists pre, f, post. split; [|split; assumption].
      change (f :: post ++ [g]) with ((f :: post) ++ [g]) in E. rewrite app_assoc in E. apply app_inj_tail in E. apply E.
  - intros [(pre & f & post & -> & R & N)|[R N]].
    + exists pre, f, (post ++ [e]). split; [rewrite <- app_assoc; reflexivity|split; assumption].
    + exists l, e, []. split; [reflexivity|split; assumption].
Qed.
Lemma step_reached l m e : reached l m -> reached (l ++ [e]) (voice_event I i m e).
Proof.
  intros [R [[H A]|[H P]]].
  - destruct (stays_released I i m e k NoCancel R A) as [X Y]. split; [exact X|]. left. split; [|exact Y].
    apply ended_snoc. left. exact H.
  - destruct P as (P1 & P2 & P3 & P4 & P5 & P6).
    assert (Go : forall d, relevant r key e = true ->
      let m1 := put m i (set_hold (m_voice m i) (hold_of (l ++ [e]))) in
      reached (l ++ [e]) (if ends r key x0 y0 (l ++ [e]) then v_release I i d m1 else m1)).
    { intros d Rl m1. destruct (ends r key x0 y0 (l ++ [e])) eqn:En.
      - destruct (release_voice I i d m1 k) as [X Y]; [unfold m1; rewrite put_same; exact P2|unfold m1; rewrite put_same; exact P1|].
        split; [exact Y|]. left. split; [|exact X]. apply ended_snoc. right. split; assumption.
      - split; [unfold m1; rewrite put_same; exact P2|]. right. split.
        + intros Q. apply ended_snoc in Q. destruct Q as [Q|[_ Q]]; [exact (H Q)|congruence].
        + unfold m1, playing. rewrite put_same. cbn [set_hold v_state v_region v_ev v_amp v_hold].
          refine (conj P1 (conj P2 (conj P3 (conj P4 (conj P5 eq_refl))))). }
    assert (Stay : relevant r key e = false -> reached (l ++ [e]) m).
    { intros Rl. split; [exact R|]. right. split.
      - intros Q. apply ended_snoc in Q. destruct Q as [Q|[Q _]]; [exact (H Q)|congruence].
      - unfold playing. refine (conj P1 (conj P2 (conj P3 (conj P4 (conj P5 _))))). rewrite P6. unfold hold_of, sustained.
        rewrite key_up_snoc, !values_snoc. destruct e as [d n|d cc x]; cbn [relevant] in Rl.
        + rewrite Rl, orb_false_r. reflexivity.
        + apply orb_false_elim in Rl. destruct Rl as [-> ->]. rewrite orb_false_r. reflexivity. }
    destruct e as [d n|d cc x]; cbn [voice_event relevant] in *.
    + unfold v_registerNoteOff. rewrite P2, P1, P3, P4. cbn [state_eqb andb]. rewrite andb_true_r.
      rewrite (Z.eqb_sym key n). destruct (n =? key) eqn:N; [|apply Stay; reflexivity].
      rewrite NotOneShot. specialize (Go d eq_refl). cbv zeta in Go.
      assert (Hh : Hold true (h_sustain (v_hold (m_voice m i))) (h_sosten (v_hold (m_voice m i))) = hold_of (l ++ [KeyUp d n])).
      { rewrite P6. unfold hold_of, sustained. rewrite key_up_snoc, !values_snoc, N, orb_true_r. reflexivity. }
      rewrite Hh. fold r. rewrite allow. unfold ends in Go. rewrite key_up_snoc, N, orb_true_r in Go. exact Go.
    + unfold v_registerCC. rewrite P2, P1. cbn [state_eqb negb]. fold r. rewrite <- negb_orb.
      destruct ((cc =? sustainCC r) || (cc =? sostenutoCC r)) eqn:Cc; cbn [negb]; [|apply Stay; reflexivity].
      cbv zeta. rewrite P6, (pedals_step l d cc x). rewrite NotOneShot, NoCancel, !andb_false_r. cbn [andb negb].
      rewrite andb_true_r, allow. specialize (Go d eq_refl). cbv zeta in Go.
      change (h_noteOff (hold_of (l ++ [Pedal d cc x]))) with (key_up key (l ++ [Pedal d cc x])).
      rewrite andb_assoc. exact Go.
Qed.
Lemma run_reached l : forall h m, reached h m -> reached (h ++ l) (voice_run I i l m).
Proof.
  induction l as [|e l IH]; intros h m H; [rewrite app_nil_r; exact H|].
  change (voice_run I i (e :: l) m) with (voice_run I i l (voice_event I i m e)).
  replace (h ++ e :: l) with ((h ++ [e]) ++ l) by (rewrite <- app_assoc; reflexivity).
  apply IH. apply step_reached. exact H.
Qed.

(** C52: a note is released at the first moment at which its key is up and neither pedal holds it, and not before. *)
Theorem C52_pedals l m : begun I k i key x0 y0 m ->
  (a_released (v_amp (m_voice (voice_run I i l m) i)) = true <-> has_ended r key x0 y0 l).
Proof.
  intros (B1 & B2 & B3 & B4 & B5 & B6).
  assert (H : reached [] m).
  { split; [exact B2|]. right. split.
    - intros (pre & e & post & E & _). destruct pre; discriminate.
    - unfold playing. refine (conj B1 (conj B2 (conj B3 (conj B4 (conj B5 _))))). rewrite B6. unfold holding, hold_of. fold r.
      unfold sustained, values, sost_of. cbn [fold_left key_up existsb is_down was_up].
      destruct (Qle_bool (sostenutoThreshold r) y0); reflexivity. }
  destruct (run_reached l [] m H) as [_ [[E A]|[E P]]]; cbn [app] in *.
  - tauto.
  - destruct P as (_ & _ & _ & _ & P & _). rewrite P. split; [discriminate|tauto].
Qed.
End Trace.

(** A voice started by a key is in that situation, with the pedals as the controllers have them. *)
Theorem C52_start I md si k d key vel i m m' : checkSustain (i_region I k) = true -> checkSostenuto (i_region I k) = true ->
  v_hold (m_voice m i) = Hold false (h_sustain (v_hold (m_voice m i))) SoUp ->
  v_state (m_voice m i) = VIdle ->
  v_start I md si k d (TE ENoteOn key vel) i m = (m', true) ->
  begun I k i key (ccValue md (sustainCC (i_region I k))) (ccValue md (sostenutoCC (i_region I k))) m'.
Proof.
  intros B1 B2 H S E. unfold v_start in E. cbv zeta in E. rewrite B1, B2 in E. cbn [te_type te_num te_val] in E.
  destruct (vi_disabled (i_info I k)); [discriminate|]. destruct (negb (si_file si)); [discriminate|]. injection E as <-.
  unfold begun. rewrite put_same. cbn [set_amp set_hold v_state v_region v_ev v_amp v_hold a_released h_noteOff h_sustain].
  unfold holding.
  match goal with |- context [switchState I i VPlaying ?x] => remember x as m2 eqn:E2 end.
  assert (V : m_voice m2 i = Voice (v_state (m_voice m i)) (Some k)
     (TE ENoteOn key (if velocityPrevious (i_region I k) then velocityOverride md else vel)) (v_offed (m_voice m i)) (v_hold (m_voice m i))
     (VTime (t_age (v_time (m_voice m i))) (Some (Z.max d 0)) (u32 (internalClock md + (Z.max d 0 + si_delay si))))
     (v_amp (m_voice m i)) (v_next (m_voice m i)) (v_prev (m_voice m i))).
  { rewrite E2. rewrite put_same. reflexivity. }
  assert (W : m_voice (switchState I i VPlaying m2) i = set_state (m_voice m2 i) VPlaying).
  { unfold switchState. rewrite V at 1. cbn [v_state]. rewrite S. cbn [state_eqb]. unfold listener. rewrite put_same, V.
    cbn [set_state v_region]. apply put_same. }
  rewrite W, V. cbn [set_state v_state v_region v_ev v_hold te_num te_type]. rewrite H. cbn [h_noteOff]. repeat split.
Qed.

(** With hint_sustain_cancels_release, a sustain pedal that goes down takes a release back. *)
Section Cancel.
Variables (I : instr) (k i : nat) (key : Z) (x0 y0 : Q).
Let r := i_region I k.
Hypothesis Both : checkSustain r = true /\ checkSostenuto r = true.
Hypothesis Differ : sustainCC r <> sostenutoCC r.
Hypothesis NotOneShot : vi_oneShot (i_info I k) = false.
Hypothesis Cancels : i_cancel I = true.
Hypothesis NotRelease : trig r <> TRelease /\ trig r <> TReleaseKey.
Definition is_pedal (e : vevent) : bool :=
  match e with Pedal _ cc _ => (cc =? sustainCC r) || (cc =? sostenutoCC r) | _ => false end.
Definition delay_of (e : vevent) : Z := match e with KeyUp d _ => d | Pedal d _ _ => d end.
(** It is ending when it has ended, and the sustain pedal was not down at any pedal event since. *)
Definition is_ending (l : list vevent) : Prop :=
  exists pre e post, l = pre ++ e :: post /\ relevant r key e = true /\ ends r key x0 y0 (pre ++ [e]) = true /\
    forall p f q, post = p ++ f :: q -> is_pedal f = true -> sustained r (pre ++ e :: p ++ [f]) x0 = false.
Lemma ending_snoc l e : is_ending (l ++ [e]) <->
  (relevant r key e = true /\ ends r key x0 y0 (l ++ [e]) = true) \/
  (is_ending l /\ (is_pedal e = true -> sustained r (l ++ [e]) x0 = false)).
Proof.
  split.
  - intros (pre & f & post & E & R & N & H). destruct post as [|g post] using rev_ind.
    + apply app_inj_tail in E. destruct E as [-> ->]. left. split; assumption.
    + right. clear IHpost. change (f :: post ++ [g]) with ((f :: post) ++ [g]) in E. rewrite app_assoc in E.
      apply app_inj_tail in E. destruct E as [-> ->]. split.
      * exists pre, f, post. refine (conj eq_refl (conj R (conj N _))). intros p h q -> Hp. apply (H p h (q ++ [g])); [|exact Hp].
        rewrite <- app_assoc. reflexivity.
      * intros Hp. specialize (H post g [] eq_refl Hp).
        rewrite <- app_assoc. exact H.
  - intros [[R N]|[(pre & f & post & -> & R & N & H) L]].
    + exists l, e, []. refine (conj eq_refl (conj R (conj N _))). intros [|] ? ? ?; discriminate.
    + exists pre, f, (post ++ [e]). rewrite <- app_assoc. refine (conj eq_refl (conj R (conj N _))).
      intros p h q E Hp. destruct q as [|u q] using rev_ind.
      * apply app_inj_tail in E. destruct E as [-> ->]. specialize (L Hp). rewrite <- app_assoc in L. exact L.
      * clear IHq. change (h :: q ++ [u]) with ((h :: q) ++ [u]) in E. rewrite app_assoc in E. apply app_inj_tail in E.
        destruct E as [E _]. exact (H p h q E Hp).
Qed.
Definition state_at (l : list vevent) (m : vman) : Prop :=
  let v := m_voice m i in
  v_state v = VPlaying /\ v_region v = Some k /\ te_num (v_ev v) = key /\ te_type (v_ev v) = ENoteOn /\
  a_delay (v_amp v) <= 0 /\ v_hold v = hold_of I k key x0 y0 l /\ (a_released (v_amp v) = true <-> is_ending l).
Lemma release_now d m : 0 <= d -> v_state (m_voice m i) = VPlaying -> a_delay (v_amp (m_voice m i)) <= 0 ->
  v_release I i d m = put m i (set_amp (m_voice m i) (Amp true (a_delay (v_amp (m_voice m i))) (a_power (v_amp (m_voice m i))))).
Proof.
  intros D P A. unfold v_release. rewrite P. cbn [state_eqb]. destruct (Z.ltb_spec d (a_delay (v_amp (m_voice m i)))); [lia|reflexivity].
Qed.
Lemma step_state l m e : 0 <= delay_of e -> state_at l m -> state_at (l ++ [e]) (voice_event I i m e).
Proof.
  intros D (P1 & P2 & P3 & P4 & P5 & P6 & P7).
  assert (Cut : sustained r (l ++ [e]) x0 = true -> ends r key x0 y0 (l ++ [e]) = true -> False).
  { intros A B. unfold ends in B. rewrite A, andb_false_r in B. discriminate. }
  assert (Stay : relevant r key e = false -> state_at (l ++ [e]) m).
  { intros Rl. assert (is_pedal e = false) as Ip by (destruct e; [reflexivity|exact Rl]).
    unfold state_at. refine (conj P1 (conj P2 (conj P3 (conj P4 (conj P5 (conj _ _)))))).
    - rewrite P6. unfold hold_of, sustained. rewrite key_up_snoc, !values_snoc. fold r.
      destruct e as [d n|d cc x]; cbn [relevant] in Rl.
      + rewrite Rl, orb_false_r. reflexivity.
      + apply orb_false_elim in Rl. destruct Rl as [-> ->]. rewrite orb_false_r. reflexivity.
    - rewrite ending_snoc, P7. split; [intros H; right; split; [exact H|congruence]|intros [[H _]|[H _]]; [congruence|exact H]]. }
  destruct e as [d n|d cc x]; cbn [voice_event delay_of] in *.
  - unfold v_registerNoteOff. rewrite P2, P1, P3, P4. cbn [state_eqb andb]. rewrite andb_true_r.
    rewrite (Z.eqb_sym key n). destruct (n =? key) eqn:N; [|apply Stay; exact N].
    rewrite NotOneShot.
    assert (Hh : Hold true (h_sustain (v_hold (m_voice m i))) (h_sosten (v_hold (m_voice m i))) = hold_of I k key x0 y0 (l ++ [KeyUp d n])).
    { rewrite P6. unfold hold_of, sustained. rewrite key_up_snoc, !values_snoc, N, orb_true_r. reflexivity. }
    rewrite Hh, (allow I k key x0 y0 Both). fold r.
    assert (En : ends r key x0 y0 (l ++ [KeyUp d n]) = negb (sustained r (l ++ [KeyUp d n]) x0) && negb (sostenutoed r (l ++ [KeyUp d n]) y0)).
    { unfold ends. rewrite key_up_snoc, N, orb_true_r. reflexivity. }
    destruct (negb _ && negb _); unfold state_at.
    + rewrite release_now by (rewrite ?put_same; assumption). rewrite !put_same.
      cbn [set_amp set_hold v_state v_region v_ev v_amp v_hold a_released a_delay].
      refine (conj P1 (conj P2 (conj P3 (conj P4 (conj P5 (conj eq_refl _)))))).
      rewrite ending_snoc. split; [intros _; left; split; [exact N|exact En]|reflexivity].
    + rewrite !put_same. cbn [set_hold v_state v_region v_ev v_amp v_hold].
      refine (conj P1 (conj P2 (conj P3 (conj P4 (conj P5 (conj eq_refl _)))))).
      rewrite P7, ending_snoc. split; [intros H; right; split; [exact H|discriminate]|].
      intros [[_ H]|[H _]]; [congruence|exact H].
  - unfold v_registerCC. rewrite P2, P1. cbn [state_eqb negb]. fold r. rewrite <- negb_orb.
    destruct ((cc =? sustainCC r) || (cc =? sostenutoCC r)) eqn:Cc; cbn [negb]; [|apply Stay; exact Cc].
    assert (Ps : v_pedals r cc x (v_hold (m_voice m i)) = hold_of I k key x0 y0 (l ++ [Pedal d cc x])).
    { rewrite P6. exact (pedals_step I k key x0 y0 Both l d cc x). }
    pose proof (allow I k key x0 y0 Both (l ++ [Pedal d cc x])) as Al. fold r in Al.
    cbv zeta. rewrite Ps, NotOneShot, Cancels. cbn [negb andb].
    rewrite !andb_true_r, Al, (proj1 Both). cbn [andb].
    change (h_noteOff (hold_of I k key x0 y0 (l ++ [Pedal d cc x]))) with (key_up key (l ++ [Pedal d cc x])).
    change (h_sustain (hold_of I k key x0 y0 (l ++ [Pedal d cc x]))) with (sustained r (l ++ [Pedal d cc x]) x0).
    rewrite andb_assoc. fold (ends r key x0 y0 (l ++ [Pedal d cc x])).
    destruct (ends r key x0 y0 (l ++ [Pedal d cc x])) eqn:En.
    + assert (Sf : sustained r (l ++ [Pedal d cc x]) x0 = false).
      { destruct (sustained r (l ++ [Pedal d cc x]) x0) eqn:S; [elim (Cut eq_refl eq_refl)|reflexivity]. }
      rewrite Sf. cbn [andb]. unfold state_at.
      rewrite release_now by (rewrite ?put_same; assumption). rewrite !put_same.
      cbn [set_amp set_hold v_state v_region v_ev v_amp v_hold a_released a_delay].
      refine (conj P1 (conj P2 (conj P3 (conj P4 (conj P5 (conj eq_refl _)))))).
      rewrite ending_snoc. split; [intros _; left; split; [exact Cc|exact En]|reflexivity].
    + rewrite put_same. unfold v_released. cbn [set_hold v_region v_state v_amp]. rewrite P2, P1.
      assert (Tr : match trig r with TRelease | TReleaseKey => false | _ => true end = true) by
        (destruct NotRelease as [A B]; destruct (trig r); try reflexivity; [now elim A|now elim B]).
      rewrite Tr, andb_true_r.
      destruct (sustained r (l ++ [Pedal d cc x]) x0) eqn:Su; destruct (a_released (v_amp (m_voice m i))) eqn:Rel; cbn [andb]; unfold state_at;
        rewrite !put_same; cbn [set_amp set_hold v_state v_region v_ev v_amp v_hold a_released a_delay];
        refine (conj P1 (conj P2 (conj P3 (conj P4 (conj P5 (conj eq_refl _)))))); rewrite ?Rel, ending_snoc, Su, En.
      * split; [discriminate|]. intros [[_ H]|[_ H]]; [discriminate|discriminate (H Cc)].
      * split; [discriminate|]. intros [[_ H]|[_ H]]; [discriminate|discriminate (H Cc)].
      * split; [|reflexivity]. intros _. right. split; [apply P7; reflexivity|reflexivity].
      * split; [discriminate|]. intros [[_ H]|[H _]]; [discriminate|apply P7 in H; discriminate].
Qed.
Theorem C52_cancel l m : Forall (fun e => 0 <= delay_of e) l -> begun I k i key x0 y0 m -> a_delay (v_amp (m_voice m i)) <= 0 ->
  (a_released (v_amp (m_voice (voice_run I i l m) i)) = true <-> is_ending l).
Proof.
  intros D (B1 & B2 & B3 & B4 & B5 & B6) B7.
  assert (H : state_at [] m).
  { unfold state_at. refine (conj B1 (conj B2 (conj B3 (conj B4 (conj B7 (conj _ _)))))).
    - rewrite B6. unfold holding, hold_of. fold r. unfold sustained, values, sost_of. fold r. cbn [fold_left key_up existsb is_down was_up].
      destruct (Qle_bool (sostenutoThreshold r) y0); reflexivity.
    - rewrite B5. split; [discriminate|]. intros (pre & e & post & E & _). destruct pre; discriminate. }
  assert (G : forall h, state_at h m -> state_at (h ++ l) (voice_run I i l m)).
  { clear H B1 B2 B3 B4 B5 B6 B7. revert m. induction D as [|e l De D IH]; intros m h H; [rewrite app_nil_r; exact H|].
    change (voice_run I i (e :: l) m) with (voice_run I i l (voice_event I i m e)).
    replace (h ++ e :: l) with ((h ++ [e]) ++ l) by (rewrite <- app_assoc; reflexivity).
    apply IH. apply step_state; assumption. }
  destruct (G [] H) as (_ & _ & _ & _ & _ & _ & X). exact X.
Qed.
End Cancel.

(** A one shot note, and a note of a region with both switches off, does not care for pedals. *)
Theorem C52_one_shot I k i l m : v_region (m_voice m i) = Some k -> vi_oneShot (i_info I k) = true ->
  a_released (v_amp (m_voice m i)) = false -> a_released (v_amp (m_voice (voice_run I i l m) i)) = false.
Proof.
  intros R O. revert m R. induction l as [|e l IH]; intros m R A; [exact A|].
  change (voice_run I i (e :: l) m) with (voice_run I i l (voice_event I i m e)).
  assert (G : v_region (m_voice (voice_event I i m e) i) = Some k /\ a_released (v_amp (m_voice (voice_event I i m e) i)) = false).
  { destruct e as [d n|d cc x]; cbn [voice_event]; unfold v_registerNoteOff, v_registerCC; rewrite R.
    - destruct (_ && _ && _); [|split; assumption]. rewrite O, put_same. split; assumption.
    - destruct (negb (state_eqb VPlaying (v_state (m_voice m i)))); [split; assumption|]. destruct (_ && _); [split; assumption|].
      cbv zeta. rewrite O, andb_false_r. cbn [andb negb].
      destruct (_ && _ && _ && _ && _); rewrite ?put_same; split; cbn [set_amp set_hold v_region v_amp a_released]; assumption || reflexivity. }
  destruct G as [G1 G2]. apply IH; assumption.
Qed.
Theorem C52_no_pedals I k i d key m : v_region (m_voice m i) = Some k -> vi_oneShot (i_info I k) = false ->
  checkSustain (i_region I k) = false -> checkSostenuto (i_region I k) = false ->
  v_state (m_voice m i) = VPlaying -> te_num (v_ev (m_voice m i)) = key -> te_type (v_ev (m_voice m i)) = ENoteOn ->
  a_released (v_amp (m_voice (voice_event I i m (KeyUp d key)) i)) = true.
Proof.
  intros R O B1 B2 P K T. cbn [voice_event]. unfold v_registerNoteOff. rewrite R, P, K, T, Z.eqb_refl, O. cbn [state_eqb andb].
  unfold pedals_allow. rewrite B1, B2. cbn [negb orb andb].
  match goal with |- context [v_release I i d ?x] => destruct (release_voice I i d x k) as [X _]; [rewrite put_same; assumption..|] end. exact X.
Qed.

(** ** Examples *)
Definition switches (a b : bool) : region :=
  Region 0 127 0%Q 1%Q (-1)%Q 1%Q 0 127 [] None None None None None false false false false
    a b 64 66 (1#2)%Q (1#2)%Q 0%Q 1%Q 0%Q 1%Q 0%Q 500%Q 0%Q 1%Q 1 1 TAttack [] false true true false.
Definition pedal_instr (a b cancel : bool) : instr :=
  Instr (fun _ => switches a b) (fun _ => xi) (fun _ => 256) (fun _ => 256) SOldest 48000%Q cancel.
Definition idle_voices : vman := VMan 1 fresh_voice [] (fun _ => []) (fun _ => 0) (fun _ => []) 1.
Definition started (a b cancel : bool) : vman :=
  fst (v_start (pedal_instr a b cancel) midi_init (SInfo 0 true 0) 0 0 (TE ENoteOn 60 1%Q) 0 idle_voices).
Lemma started_begun cancel : begun (pedal_instr true true cancel) 0 0 60 (ccValue midi_init 64) (ccValue midi_init 66) (started true true cancel).
Proof.
  apply (C52_start (pedal_instr true true cancel) midi_init (SInfo 0 true 0) 0 0 60 1%Q 0 idle_voices); reflexivity.
Qed.
(** Key down, pedal down, key up, a second lift of the pedal below its threshold: the note ends only there. *)
Definition song : list vevent := [Pedal 0 64 1%Q; KeyUp 3 60; Pedal 5 64 (3#4)%Q; Pedal 9 66 1%Q; Pedal 12 64 (1#4)%Q].
Definition lift : list vevent := song ++ [Pedal 20 66 0%Q].
Definition is_released (I : instr) (l : list vevent) (m : vman) : bool := a_released (v_amp (m_voice (voice_run I 0 l m) 0)).
Example C52_pedals_ex :
  begun (pedal_instr true true false) 0 0 60 (ccValue midi_init 64) (ccValue midi_init 66) (started true true false) /\
  is_released (pedal_instr true true false) song (started true true false) = false /\
  is_released (pedal_instr true true false) lift (started true true false) = true /\
  ~ has_ended (switches true true) 60 (ccValue midi_init 64) (ccValue midi_init 66) song /\
  has_ended (switches true true) 60 (ccValue midi_init 64) (ccValue midi_init 66) lift.
Proof.
  pose proof (started_begun false) as B.
  assert (P : forall l, is_released (pedal_instr true true false) l (started true true false) = true <->
    has_ended (switches true true) 60 (ccValue midi_init 64) (ccValue midi_init 66) l).
  { intros l. exact (C52_pedals (pedal_instr true true false) 0 0 60 _ _ (conj eq_refl eq_refl) eq_refl eq_refl l _ B). }
  refine (conj B (conj _ (conj _ (conj _ _)))); try (vm_compute; reflexivity).
  - intros H. apply P in H. vm_compute in H. discriminate.
  - apply P. vm_compute. reflexivity.
Qed.
Example C52_cancel_ex :
  is_released (pedal_instr true true true) [KeyUp 0 60] (started true true true) = true /\
  is_released (pedal_instr true true true) [KeyUp 0 60; Pedal 5 64 1%Q] (started true true true) = false /\
  is_released (pedal_instr true true true) [KeyUp 0 60; Pedal 5 64 1%Q; Pedal 7 64 0%Q] (started true true true) = true /\
  ~ is_ending (pedal_instr true true true) 0 60 (ccValue midi_init 64) (ccValue midi_init 66) [KeyUp 0 60; Pedal 5 64 1%Q].
Proof.
  refine (conj _ (conj _ (conj _ _))); try (vm_compute; reflexivity). intros H.
  assert (T : trig (i_region (pedal_instr true true true) 0) <> TRelease /\ trig (i_region (pedal_instr true true true) 0) <> TReleaseKey) by (split; discriminate).
  apply (C52_cancel (pedal_instr true true true) 0 0 60 _ _ (conj eq_refl eq_refl) eq_refl eq_refl T _ (started true true true)) in H.
  - vm_compute in H. discriminate.
  - repeat (constructor; [cbn [delay_of]; lia|]). constructor.
  - exact (started_begun true).
  - vm_compute. discriminate.
Qed.
Example C52_one_shot_ex :
  let I := Instr (fun _ => switches true true) (fun _ => VInfo 0 None 256 None true false 60 true 0%Q 1000%Q [O]) (fun _ => 256) (fun _ => 256) SOldest 48000%Q false in
  let m := fst (v_start I midi_init (SInfo 0 true 0) 0 0 (TE ENoteOn 60 1%Q) 0 idle_voices) in
  v_region (m_voice m 0) = Some O /\ a_released (v_amp (m_voice m 0)) = false /\ h_noteOff (v_hold (m_voice (voice_run I 0 [KeyUp 0 60] m) 0)) = true.
Proof. vm_compute. repeat split. Qed.
Example C52_no_pedals_ex : is_released (pedal_instr false false false) [Pedal 0 64 1%Q; KeyUp 0 60] (started false false false) = true.
Proof. vm_compute. reflexivity. Qed.

(** ** Each pedal needs the switch of the other *)

(** sostenuto_sw=off: the sustain pedal, pressed after the note, does not hold it. *)
Theorem C52_not_held_refuted :
  let s := xrun (xinstr SOldest 256 256 [(switches true false, xi)]) 1 4
             [xop (ONoteOn 0 60 1%Q); xop (OCC 5 64 1%Q); xop (ONoteOff 9 60 0%Q)] in
  option_map (fun s => (ccValue (s_midi (f_sys s)) 64, map (fun i => a_released (v_amp (m_voice (f_vm s) i))) (m_active (f_vm s)))) s
  = Some (1%Q, [true]).
Proof. vm_compute. reflexivity. Qed.
(** sostenuto_sw=off: a note struck with the sustain pedal down is never released. *)
Theorem C52_stuck_refuted : forall l m k i, let I := pedal_instr true false false in
  v_region (m_voice m i) = Some k -> h_sustain (v_hold (m_voice m i)) = true -> a_released (v_amp (m_voice m i)) = false ->
  a_released (v_amp (m_voice (voice_run I i l m) i)) = false.
Proof.
  intros l m k i I. revert m. induction l as [|e l IH]; intros m R Hs A; [exact A|].
  change (voice_run I i (e :: l) m) with (voice_run I i l (voice_event I i m e)).
  assert (G : v_region (m_voice (voice_event I i m e) i) = Some k /\ h_sustain (v_hold (m_voice (voice_event I i m e) i)) = true /\
    a_released (v_amp (m_voice (voice_event I i m e) i)) = false).
  { destruct e as [d n|d cc x]; cbn [voice_event]; unfold v_registerNoteOff, v_registerCC; rewrite R.
    - destruct (_ && _ && _); [|refine (conj R (conj Hs A))]. change (vi_oneShot (i_info I k)) with false. cbv iota.
      unfold pedals_allow. change (checkSustain (i_region I k)) with true. cbn [negb orb h_sustain]. rewrite Hs. cbn [negb andb].
      rewrite put_same. cbn [set_hold v_region v_hold v_amp h_sustain]. refine (conj R (conj eq_refl A)).
    - destruct (negb (state_eqb VPlaying (v_state (m_voice m i)))); [refine (conj R (conj Hs A))|]. destruct (_ && _); [refine (conj R (conj Hs A))|].
      cbv zeta. unfold v_pedals, pedals_allow. change (checkSustain (i_region I k)) with true. change (checkSostenuto (i_region I k)) with false.
      change (i_cancel I) with false. cbn [negb orb andb h_sustain h_noteOff]. rewrite Hs. cbn [negb andb]. rewrite !andb_false_r. cbn [andb].
      rewrite put_same. cbn [set_hold v_region v_hold v_amp h_sustain]. refine (conj R (conj eq_refl A)). }
  destruct G as (G1 & G2 & G3). apply IH; assumption.
Qed.
Example C52_stuck_refuted_ex :
  let s := xrun (xinstr SOldest 256 256 [(switches true false, xi)]) 1 4
             [xop (OCC 0 64 1%Q); xop (ONoteOn 1 60 1%Q); xop (ONoteOff 9 60 0%Q); xop (OCC 12 64 0%Q)] in
  option_map (fun s => (ccValue (s_midi (f_sys s)) 64, map (fun i => let v := m_voice (f_vm s) i in
     (v_state v, h_noteOff (v_hold v), h_sustain (v_hold v), a_released (v_amp v))) (m_active (f_vm s)))) s
  = Some (0%Q, [(VPlaying, true, true, false)]).
Proof. vm_compute. reflexivity. Qed.
(** sustain_sw=off: the sostenuto pedal does not hold the note that sounds when it goes down. *)
Theorem C52_sostenuto_refuted :
  let s := xrun (xinstr SOldest 256 256 [(switches false true, xi)]) 1 4
             [xop (ONoteOn 0 60 1%Q); xop (OCC 5 66 1%Q); xop (ONoteOff 9 60 0%Q)] in
  option_map (fun s => (ccValue (s_midi (f_sys s)) 66, map (fun i => a_released (v_amp (m_voice (f_vm s) i))) (m_active (f_vm s)))) s
  = Some (1%Q, [true]).
Proof. vm_compute. reflexivity. Qed.
