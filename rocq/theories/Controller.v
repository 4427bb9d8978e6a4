(** Properties of the modulation source of controllers. *)
From Coq Require Import QArith Qround Qabs ZArith List Bool Lia Lqa.
Import ListNotations.
From Verif Require Import AdsrModel CcEnvModel CcEnvelope SmootherModel Smoother ControllerModel.
Open Scope Q_scope.

(** ** Specification *)
(** What the controllers of a voice hold, by their meaning in the format; nothing for other controllers. *)
Definition meaning (c : Z) (v : voice) (m : midi) : option Q :=
  if (c =? 130)%Z then Some (match v_type v with NoteOn => polyAftertouch m (v_number v) | NoteOff | OnCC => 0 end)
  else if (c =? 131)%Z then Some (match v_type v with NoteOn => v_value v | NoteOff | OnCC => 0 end)
  else if (c =? 132)%Z then Some (match v_type v with NoteOff => v_value v | NoteOn | OnCC => 0 end)
  else if (c =? 133)%Z then Some (inject_Z (v_number v) / 127)
  else if (c =? 134)%Z then Some (v_gate v)
  else if (c =? 135)%Z then Some (v_unipolar v)
  else if (c =? 136)%Z then Some (v_bipolar v)
  else if (c =? 137)%Z then Some (v_alternate v)
  else if (c =? 140)%Z then Some (v_keydelta v)
  else if (c =? 141)%Z then Some (if Qle_bool 0 (v_keydelta v) then v_keydelta v else - v_keydelta v)
  else None.
(** Pitch bend, channel aftertouch and the distances of keys do not go through a curve. *)
Definition uncurved (c : Z) : bool := ((c =? 128) || (c =? 129) || (c =? 140) || (c =? 141))%Z.
(** The largest step not beyond [x], seen from 0; no steps if the size is not positive. *)
Definition snapped (step x y : Q) : Prop :=
  if Qltb 0 step then exists z : Z, y == inject_Z z * step /\ Qabs y <= Qabs x /\ Qabs x < Qabs y + step /\ 0 <= x * y
  else y == x.

Section Source.
Variable params_of : Z -> params.
Variable evalCurve : Z -> Q -> Q.
Notation run := (run params_of evalCurve).
Notation exec := (exec params_of evalCurve).
Notation block := (block evalCurve).
Notation generate := (generate params_of evalCurve).

Definition shaped (p : params) (x : Q) : Q := if uncurved (cc p) then x else evalCurve (curve p) x.

Lemma snapped_ext s x x' y : x == x' -> snapped s x y -> snapped s x' y.
Proof.
  unfold snapped. intros E. destruct (Qltb 0 s); [|intros ->; exact E]. intros (z & A & B & C & D). exists z.
  assert (Qabs x == Qabs x') as EA by now rewrite E. repeat split; try assumption; try lra. rewrite <- E. exact D.
Qed.
Lemma quant_snapped p x : snapped (step p) x (quant p x).
Proof.
  unfold snapped, quant. destruct (Qltb 0 (step p)) eqn:E; [|reflexivity]. unfold Qltb in E. apply negb_true_iff in E.
  assert (0 < step p) as Hp. { apply Qnot_le_lt. intros H. apply Qle_bool_iff in H. congruence. }
  clear E. remember (step p) as s eqn:Es. clear Es. unfold quantize.
  exists (Qtrunc (x / s)). split; [reflexivity|].
  assert (x == x / s * s) as Hx by (field; lra). remember (x / s) as q eqn:Eq. clear Eq.
  unfold Qtrunc. destruct (Qle_bool 0 q) eqn:Eb.
  - apply Qle_bool_iff in Eb. pose proof (Qfloor_le q). pose proof (Qlt_floor q) as L. rewrite inject_Z_plus in L. cbn in L.
    change (inject_Z 1) with 1 in L.
    assert (0 <= inject_Z (Qfloor q)) as F0. { change 0 with (inject_Z 0). rewrite <- Zle_Qle. change 0%Z with (Qfloor 0). now apply Qfloor_resp_le. }
    assert (0 <= x) by (rewrite Hx; nra). assert (0 <= inject_Z (Qfloor q) * s) by nra.
    rewrite !Qabs_pos by assumption. repeat split; [rewrite Hx; nra|rewrite Hx; nra|nra].
  - assert (q < 0) as Qn. { apply Qnot_le_lt. intros H. apply Qle_bool_iff in H. congruence. }
    pose proof (Qfloor_le (- q)). pose proof (Qlt_floor (- q)) as L. rewrite inject_Z_plus in L. change (inject_Z 1) with 1 in L.
    assert (0 <= inject_Z (Qfloor (- q))) as F0. { change 0 with (inject_Z 0). rewrite <- Zle_Qle. change 0%Z with (Qfloor 0). apply Qfloor_resp_le. lra. }
    rewrite inject_Z_opp. assert (x <= 0) by (rewrite Hx; nra). assert (- inject_Z (Qfloor (- q)) * s <= 0) by nra.
    rewrite !Qabs_neg by assumption. repeat split; [rewrite Hx; nra|rewrite Hx; nra|nra].
Qed.

(** A block of a controller of the voice. *)
Lemma block_voice p v m n x : meaning (cc p) v m = Some x ->
  block p (Some v) m n = (repeat (quant p (shaped p x)) n, true).
Proof.
  unfold meaning, block, shaped, uncurved. intros M.
  repeat match type of M with
  | (if (cc p =? ?c)%Z then _ else _) = _ =>
      let E := fresh "E" in destruct (cc p =? c)%Z eqn:E; [apply Z.eqb_eq in E; rewrite E; injection M as <-; reflexivity|]
  end. discriminate.
Qed.
(** Without a voice the value is 0. *)
Lemma block_none p v m n x : meaning (cc p) v m = Some x ->
  block p None m n = (repeat (quant p (shaped p 0)) n, true).
Proof.
  unfold meaning, block, shaped, uncurved. intros M.
  repeat match type of M with
  | (if (cc p =? ?c)%Z then _ else _) = _ =>
      let E := fresh "E" in destruct (cc p =? c)%Z eqn:E; [apply Z.eqb_eq in E; rewrite E; reflexivity|]
  end. discriminate.
Qed.
(** A block of another controller. *)
Lemma block_events p v m n : (forall w, meaning (cc p) w m = None) ->
  block p v m n = (samples (quantisedEnvelope (shaped p) (step p) (ccEvents m (cc p)) n), Nat.eqb (length (ccEvents m (cc p))) 1).
Proof.
  intros M. specialize (M (Voice NoteOn 0 0 0 0 0 0 0)). unfold meaning in M.
  repeat match type of M with (if ?b then _ else _) = _ => let E := fresh "E" in destruct b eqn:E; [discriminate|apply Z.eqb_neq in E] end. clear M.
  unfold block, shaped, uncurved.
  destruct (Z.eq_dec (cc p) 128) as [E'|E']; [rewrite E'; reflexivity|].
  destruct (Z.eq_dec (cc p) 129) as [E''|E'']; [rewrite E''; reflexivity|].
  assert ((cc p =? 128)%Z = false) as -> by now apply Z.eqb_neq. assert ((cc p =? 129)%Z = false) as -> by now apply Z.eqb_neq.
  assert ((cc p =? 140)%Z = false) as -> by now apply Z.eqb_neq. assert ((cc p =? 141)%Z = false) as -> by now apply Z.eqb_neq.
  cbn [orb]. destruct (cc p) as [|c|c]; [reflexivity| |reflexivity].
  repeat match goal with |- context [match ?q with xI _ => _ | xO _ => _ | xH => _ end] => is_var q; destruct q; try reflexivity; try (exfalso; congruence) end.
Qed.

(** ** One key and the others *)
Definition concerns (k : Z) (o : op) : bool := match o with Init j _ _ | Generate j _ _ _ => Z.eqb j k | SetRate _ | ResetAll _ => true end.
Definition outputs (k : Z) (bs : list (Z * list Q)) : list (list Q) := map snd (filter (fun b => Z.eqb (fst b) k) bs).
Definition same (k : Z) (a b : source) : Prop := rate a = rate b /\ smoothers a k = smoothers b k.

Lemma put_eq k s f : put k s f k = s.
Proof. unfold put. now rewrite Z.eqb_refl. Qed.
Lemma put_neq k j s f : j <> k -> put k s f j = f j.
Proof. intros N. unfold put. apply Z.eqb_neq in N. now rewrite N. Qed.
Lemma exec_other k o st : concerns k o = false -> same k (snd (exec o st)) st.
Proof.
  destruct o as [j v m|j v m n|r|m]; cbn [concerns]; try discriminate; intros N; apply Z.eqb_neq in N; cbn [ControllerModel.exec snd].
  - unfold init. destruct (0 <? _)%Z; split; cbn [rate smoothers]; try reflexivity; apply put_neq; congruence.
  - unfold ControllerModel.generate. destruct (block _ v m n) as [b sh]. destruct (smoothers st j) as [s|]; [|split; reflexivity].
    destruct (process exact b sh s) as [o s']. cbn [snd]. split; [reflexivity|]. cbn [smoothers]. apply put_neq. congruence.
Qed.
Lemma exec_same k o a b : concerns k o = true -> same k a b -> fst (exec o a) = fst (exec o b) /\ same k (snd (exec o a)) (snd (exec o b)).
Proof.
  intros C [R E]. destruct o as [j v m|j v m n|r|m]; cbn [concerns] in C; cbn [ControllerModel.exec fst snd].
  - apply Z.eqb_eq in C. subst j. split; [reflexivity|]. unfold init. rewrite R. destruct (0 <? _)%Z; split; cbn [rate smoothers]; try exact R; try reflexivity; now rewrite !put_eq.
  - apply Z.eqb_eq in C. subst j. unfold ControllerModel.generate. destruct (block _ v m n) as [bl sh]. rewrite E. destruct (smoothers b k) as [s|] eqn:Eb.
    + destruct (process exact bl sh s) as [o s']. cbn [fst snd]. split; [reflexivity|]. split; [exact R|]. cbn [smoothers]. now rewrite !put_eq.
    + cbn [fst snd]. split; [reflexivity|]. split; [exact R|congruence].
  - split; [reflexivity|]. unfold setSampleRate. rewrite R. destruct (Qeq_bool (rate b) r); [split; assumption|]. split; [reflexivity|]. cbn [smoothers]. now rewrite E.
  - split; [reflexivity|]. split; [exact R|]. cbn [resetSmoothers smoothers]. now rewrite E.
Qed.
Lemma run_same k ops : forall a b, same k a b ->
  outputs k (fst (run ops a)) = outputs k (fst (run (filter (concerns k) ops) b)) /\ same k (snd (run ops a)) (snd (run (filter (concerns k) ops) b)).
Proof.
  induction ops as [|o ops IH]; intros a b S; [split; [reflexivity|exact S]|]. cbn [filter]. destruct (concerns k o) eqn:C.
  - destruct (exec_same k o a b C S) as [F S']. cbn [ControllerModel.run]. destruct (exec o a) as [ba a']. destruct (exec o b) as [bb b']. cbn [fst snd] in F, S'. subst bb.
    specialize (IH a' b' S'). destruct (run ops a') as [ra a'']. destruct (run (filter (concerns k) ops) b') as [rb b'']. cbn [fst snd] in *.
    destruct IH as [I1 I2]. split; [|exact I2]. destruct o; try exact I1. unfold outputs in *. cbn [filter fst]. destruct (Z.eqb k0 k); cbn [map snd]; congruence.
  - pose proof (exec_other k o a C) as S'. cbn [ControllerModel.run]. destruct (exec o a) as [ba a']. cbn [snd] in S'.
    assert (same k a' b) as Sb by (destruct S, S'; split; congruence).
    specialize (IH a' b Sb). destruct (run ops a') as [ra a'']. cbn [fst snd] in *. destruct IH as [I1 I2]. split; [|exact I2].
    destruct o; try exact I1. unfold outputs in *. cbn [filter fst]. cbn [concerns] in C. rewrite C. exact I1.
Qed.
(** C96: what a key gives depends on its own calls and those that concern all keys, and on nothing else. *)
Theorem C96_independent k ops st : outputs k (fst (run ops st)) = outputs k (fst (run (filter (concerns k) ops) st)).
Proof. apply run_same. split; reflexivity. Qed.

(** ** Without smoothing *)
Lemma unsmoothed_none k ops : (smooth (params_of k) <= 0)%Z -> forall st, smoothers st k = None -> smoothers (snd (run ops st)) k = None.
Proof.
  intros Sm. induction ops as [|o ops IH]; intros st N; [exact N|]. cbn [ControllerModel.run]. destruct (exec o st) as [b st'] eqn:E.
  assert (smoothers st' k = None) as N'.
  { change st' with (snd (b, st')). rewrite <- E. destruct o as [j v m|j v m n|r|m]; cbn [ControllerModel.exec snd].
    - unfold init. destruct (Z.eq_dec j k) as [->|Nj].
      + assert ((0 <? smooth (params_of k))%Z = false) as -> by (apply Z.ltb_ge; lia). cbn [smoothers]. apply put_eq.
      + destruct (0 <? _)%Z; cbn [smoothers]; rewrite put_neq; congruence.
    - unfold ControllerModel.generate. destruct (block _ v m n) as [bl sh]. destruct (smoothers st j) as [s|] eqn:Ej; [|exact N].
      destruct (process exact bl sh s) as [o s']. cbn [snd smoothers]. rewrite put_neq; congruence.
    - unfold setSampleRate. destruct (Qeq_bool _ _); [exact N|]. cbn [smoothers]. now rewrite N.
    - cbn [resetSmoothers smoothers]. now rewrite N. }
  specialize (IH st' N'). destruct (run ops st') as [bs st'']. exact IH.
Qed.
(** C96: without smoothing, a controller that belongs to voices gives each voice its own value over the whole block,
    through the curve and in steps, whatever happened before; and 0 if there is no voice. *)
Theorem C96_unsmoothed k ops r v m n x : (smooth (params_of k) <= 0)%Z -> meaning (cc (params_of k)) v m = Some x ->
  let st := snd (run ops (fresh r)) in
  (exists y, fst (generate k (Some v) m n st) = repeat y n /\ snapped (step (params_of k)) (shaped (params_of k) x) y) /\
  (exists y, fst (generate k None m n st) = repeat y n /\ snapped (step (params_of k)) (shaped (params_of k) 0) y).
Proof.
  intros Sm M. cbv zeta. unfold ControllerModel.generate. rewrite (unsmoothed_none k ops Sm (fresh r) eq_refl).
  rewrite (block_voice _ v m n x M), (block_none _ v m n x M). split; eexists; (split; [reflexivity|apply quant_snapped]).
Qed.
(** C96: without smoothing and steps, any other controller gives the line through its events. *)
Theorem C96_events k ops r v m n e evs i : (smooth (params_of k) <= 0)%Z -> step (params_of k) == 0 ->
  (forall w, meaning (cc (params_of k)) w m = None) -> ccEvents m (cc (params_of k)) = e :: evs ->
  delay e = 0%nat -> increasing 0 evs -> Forall (fun e => delay e < n)%nat evs -> (i < n)%nat ->
  nth i (fst (generate k v m n (snd (run ops (fresh r))))) 0
    == follow (map (fun e => (delay e, shaped (params_of k) (value e))) evs) 0 (shaped (params_of k) (value e)) i.
Proof.
  intros Sm St M E D Inc F L. unfold ControllerModel.generate. rewrite (unsmoothed_none k ops Sm (fresh r) eq_refl).
  rewrite (block_events _ v m n M), E. cbn [fst]. unfold quantisedEnvelope.
  assert (Qeq_bool (step (params_of k)) 0 = true) as -> by now apply Qeq_bool_iff.
  apply (C36_linear (shaped (params_of k)) e evs n i D Inc F L).
Qed.

(** ** With smoothing *)
Section Bounds.
Variable k : Z.
Variables lo hi : Q.
Notation p := (params_of k).
(** All that the calls of [k] give, in the interval. *)
Definition inside (x : Q) : Prop := lo <= x <= hi.
Definition allowed (o : op) : Prop :=
  match o with
  | Init j _ m => j = k -> inside (evalCurve (curve p) (getCCValue m (cc p)))
  | ResetAll m => inside (evalCurve (curve p) (getCCValue m (cc p)))
  | SetRate _ => True
  | Generate j v m n => j = k ->
      (v = None -> inside (shaped p 0)) /\
      (forall w x, v = Some w -> meaning (cc p) w m = Some x -> inside (shaped p x)) /\
      ((forall w, meaning (cc p) w m = None) -> Forall (fun e => inside (shaped p (value e))) (ccEvents m (cc p)) /\
        match ccEvents m (cc p) with [] => False | e :: evs => delay e = 0%nat /\ increasing 0 evs end)
  end.
Hypothesis St : 0 <= step p.
(** Steps are cut towards 0. *)
Hypothesis Zero : 0 < step p -> inside 0.

Lemma snapped_inside x y : inside x -> snapped (step p) x y -> inside y.
Proof.
  unfold snapped, inside in *. destruct (Qltb 0 (step p)) eqn:E; [|intros H ->; exact H]. unfold Qltb in E. apply negb_true_iff in E.
  assert (0 < step p) as Hp. { apply Qnot_le_lt. intros H. apply Qle_bool_iff in H. congruence. }
  specialize (Zero Hp). intros X (z & _ & A & _ & C). clear Hp E.
  destruct (Qlt_le_dec x 0) as [L|L].
  - rewrite (Qabs_neg x) in A by lra. assert (y <= 0) by nra. rewrite Qabs_neg in A by assumption. lra.
  - rewrite (Qabs_pos x) in A by lra. pose proof (Qle_Qabs y). assert (- y <= Qabs y) by (rewrite <- (Qabs_opp y); apply Qle_Qabs).
    destruct (Qlt_le_dec y 0) as [L'|L']; [|lra]. assert (x == 0) by nra. lra.
Qed.
Lemma meaning_kind c w w' m m' : meaning c w m = None -> meaning c w' m' = None.
Proof. unfold meaning. repeat match goal with |- context [if ?b then _ else _] => destruct b end; congruence. Qed.
Lemma meaning_cases c m : (forall w, meaning c w m = None) \/ (forall w, exists x, meaning c w m = Some x).
Proof.
  destruct (meaning c (Voice NoteOn 0 0 0 0 0 0 0) m) eqn:E.
  - right. intros w. destruct (meaning c w m) as [x|] eqn:F; [now exists x|]. rewrite (meaning_kind _ _ _ _ _ F) in E. discriminate.
  - left. intros w. apply (meaning_kind _ _ _ _ _ E).
Qed.
Lemma quant_events_inside e evs n : delay e = 0%nat -> increasing 0 evs -> Forall (fun e => inside (shaped p (value e))) (e :: evs) ->
  Forall inside (samples (quantisedEnvelope (shaped p) (step p) (e :: evs) n)).
Proof.
  intros D Inc F. destruct (Qlt_le_dec 0 (step p)) as [Hp|Hp].
  - assert (Forall (fun e => inside (quant p (shaped p (value e)))) (e :: evs)) as Fq.
    { eapply Forall_impl; [|exact F]. cbn beta. intros e' Ie. exact (snapped_inside _ _ Ie (quant_snapped p _)). }
    clear F St Zero. remember (step p) as s eqn:Es.
    assert (forall z, inside (inject_Z z * s) <-> (- Qfloor (- (lo / s)) <= z <= Qfloor (hi / s))%Z) as G.
    { intros z. assert (lo == lo / s * s) as El by (field; lra). assert (hi == hi / s * s) as Eh by (field; lra).
      unfold inside. rewrite El, Eh at 1. clear El Eh. remember (lo / s) as a eqn:Ea. remember (hi / s) as b eqn:Eb. clear - Hp. split.
      - intros [A B]. assert (a <= inject_Z z) by nra. assert (inject_Z z <= b) by nra. split.
        + assert (- z <= Qfloor (- a))%Z; [|lia]. rewrite <- (Qfloor_Z (- z)). apply Qfloor_resp_le. rewrite inject_Z_opp. lra.
        + rewrite <- (Qfloor_Z z). now apply Qfloor_resp_le.
      - intros [A B]. rewrite Zle_Qle in A, B. rewrite inject_Z_opp in A. pose proof (Qfloor_le (- a)). pose proof (Qfloor_le b). split; nra. }
    pose proof (C36_quantised (shaped p) s Hp (- Qfloor (- (lo / s))) (Qfloor (hi / s)) e evs n D Inc) as H. destruct H as [_ H].
    + eapply Forall_impl; [|exact Fq]. cbn beta. intros e' Iq.
      assert (quant p (shaped p (value e')) = quantize s (shaped p (value e'))) as Eq.
      { unfold quant. rewrite <- Es. assert (Qltb 0 s = true) as ->; [|reflexivity]. unfold Qltb. apply negb_true_iff. apply not_true_is_false. rewrite Qle_bool_iff. lra. }
      rewrite Eq in Iq. unfold quantize in *. exists (Qtrunc (shaped p (value e') / s)). split; [reflexivity|]. now apply G.
    + eapply Forall_impl; [|exact H]. cbn beta. intros y (z & Ey & Bz). apply G in Bz. unfold grid in Ey. unfold inside in *. rewrite Ey. exact Bz.
  - assert (Qeq_bool (step p) 0 = true) as E0 by (apply Qeq_bool_iff; lra). unfold quantisedEnvelope. rewrite E0.
    apply (C36_between (shaped p) lo hi (e :: evs) n F). now split.
Qed.
Lemma block_inside v m n : allowed (Generate k v m n) -> Forall inside (fst (block p v m n)).
Proof.
  cbn [allowed]. intros H. destruct (H eq_refl) as (A & B & C). destruct (meaning_cases (cc p) m) as [N|Y].
  - rewrite (block_events p v m n N). cbn [fst]. destruct (C N) as [F D]. destruct (ccEvents m (cc p)) as [|e evs]; [destruct D|]. now apply quant_events_inside.
  - destruct v as [w|].
    + destruct (Y w) as [x M]. rewrite (block_voice p w m n x M). cbn [fst].
      apply Forall_forall. intros z I. apply repeat_spec in I. subst z. exact (snapped_inside _ _ (B _ _ eq_refl M) (quant_snapped p _)).
    + destruct (Y (Voice NoteOn 0 0 0 0 0 0 0)) as [x M]. rewrite (block_none p _ m n x M). cbn [fst].
      apply Forall_forall. intros z I. apply repeat_spec in I. subst z. exact (snapped_inside _ _ (A eq_refl) (quant_snapped p _)).
Qed.
Definition fine (s : option smoother) : Prop := match s with Some s => wf (fun _ => True) s /\ inside (s_current s) | None => True end.
Lemma exec_fine o st : allowed o -> fine (smoothers st k) -> fine (smoothers (snd (exec o st)) k) /\
  (forall v m n, o = Generate k v m n -> Forall inside (fst (exec o st))).
Proof.
  intros A H. destruct (concerns k o) eqn:C; [|destruct (exec_other k o st C) as [_ ->]; split; [exact H|intros; subst o; cbn in C; rewrite Z.eqb_refl in C; discriminate]].
  assert (forall v s, inside v -> fine (Some (reset v s))) as R.
  { intros v s I. split; [|exact I]. unfold wf, reset. cbn [s_current s_target s_step]. repeat split; auto; intros; lra. }
  destruct o as [j v m|j v m n|r|m]; cbn [concerns] in C; cbn [ControllerModel.exec fst snd].
  - split; [|intros; discriminate]. apply Z.eqb_eq in C. subst j. cbn [allowed] in A. specialize (A eq_refl). unfold init. destruct (0 <? _)%Z; cbn [smoothers]; rewrite put_eq; [now apply R|exact Logic.I].
  - apply Z.eqb_eq in C. subst j. pose proof (block_inside v m n A) as Bi. unfold ControllerModel.generate. destruct (block p v m n) as [b sh]. cbn [fst] in Bi.
    destruct (smoothers st k) as [s|] eqn:E.
    + destruct (process exact b sh s) as [o s'] eqn:P. cbn [fst snd smoothers]. rewrite put_eq. destruct H as [W Ic].
      destruct (C48_no_overshoot exact (fun _ => True)) with (input := b) (short := sh) (s := s) (l := o) (s' := s') (lo := lo) (hi := hi) as (F & _ & Cs & Ws & _); auto.
      * intros x _. reflexivity.
      * apply Forall_forall. auto.
      * split; [split; assumption|]. intros. exact F.
    + cbn [fst snd]. rewrite E. split; [exact Logic.I|]. intros. exact Bi.
  - split; [|intros; discriminate]. unfold setSampleRate. destruct (Qeq_bool _ _); [exact H|]. cbn [smoothers]. destruct (smoothers st k) as [s|]; [|exact Logic.I]. exact H.
  - split; [|intros; discriminate]. cbn [allowed] in A. cbn [resetSmoothers smoothers]. destruct (smoothers st k) as [s|]; [now apply R|exact Logic.I].
Qed.
(** C96: whatever is called, and in whatever order: if an interval holds the values of the controller of a key (and 0,
    when they are cut to steps), it holds all that the key gives. *)
Theorem C96_bounded ops r : Forall allowed ops -> Forall (Forall inside) (outputs k (fst (run ops (fresh r)))).
Proof.
  assert (forall ops st, Forall allowed ops -> fine (smoothers st k) -> Forall (Forall inside) (outputs k (fst (run ops st)))) as H; [|intros A; now apply H].
  clear ops. induction ops as [|o ops IH]; intros st A H; [constructor|]. inversion A as [|? ? A1 A2]; subst.
  destruct (exec_fine o st A1 H) as [F O]. cbn [ControllerModel.run]. destruct (exec o st) as [b st']. cbn [fst snd] in F, O.
  specialize (IH st' A2 F). destruct (run ops st') as [bs st'']. cbn [fst] in *. destruct o; try exact IH.
  unfold outputs in *. cbn [filter fst]. destruct (Z.eqb k0 k) eqn:Ek; [|exact IH]. apply Z.eqb_eq in Ek. subst k0. cbn [map snd]. constructor; [|exact IH]. eapply O. reflexivity.
Qed.
End Bounds.

(** ** Arriving *)
Section Glide.
Variable k : Z.
Notation p := (params_of k).
(** The controller holds [x] all over a block. *)
Definition holds (v : option voice) (m : midi) (x : Q) : Prop :=
  (exists w, v = Some w /\ meaning (cc p) w m = Some x) \/
  ((forall w, meaning (cc p) w m = None) /\ ccEvents m (cc p) = [Event 0 x]).
(** The smoothing time in frames. *)
Definition frames (r : Q) : Z := Qtrunc ((inject_Z (smooth p) / 1000) * r).
Definition no_rate (o : op) : Prop := match o with SetRate _ => False | _ => True end.
(** Calls of other keys, and blocks of this key while the controller holds [x]. *)
Definition holding (x : Q) (o : op) : Prop :=
  match o with Generate j v m _ => j = k -> holds v m x | Init j _ _ => j <> k | _ => False end.
Definition made (ops : list op) : nat := fold_right (fun o n => match o with Generate j _ _ l => if Z.eqb j k then l + n else n | _ => n end)%nat 0%nat ops.

Lemma block_holds v m x n : 0 <= step p -> holds v m x -> fst (block p v m n) = repeat (quant p (shaped p x)) n.
Proof.
  intros St [(w & -> & M)|[N E]]; [now rewrite (block_voice p w m n x M)|]. rewrite (block_events p v m n N), E. cbn [fst].
  unfold quantisedEnvelope, quant. destruct n as [|n]; [destruct (Qeq_bool (step p) 0); reflexivity|].
  destruct (Qeq_bool (step p) 0) eqn:E0.
  - apply Qeq_bool_iff in E0. assert (Qltb 0 (step p) = false) as ->. { unfold Qltb. apply negb_false_iff. apply Qle_bool_iff. lra. }
    unfold linearEnvelope, samples. cbn [linear_loop app map snd concat delay value]. rewrite app_nil_r. now rewrite Nat.sub_0_r.
  - assert (Qltb 0 (step p) = true) as ->.
    { unfold Qltb. apply negb_true_iff. apply not_true_is_false. rewrite Qle_bool_iff. intros H. assert (step p == 0) as H0 by lra. apply Qeq_bool_iff in H0. congruence. }
    unfold samples. cbn [quantised_loop app map snd concat delay value]. rewrite app_nil_r. now rewrite Nat.sub_0_r.
Qed.
Definition arriving (r : Q) (s : option smoother) : Prop := match s with Some s => occurs s /\ s_frames s = frames r | None => True end.
Lemma process_frames b sh s : s_frames (snd (process exact b sh s)) = s_frames s.
Proof.
  unfold process. destruct b as [|x b]; [reflexivity|]. destruct ((s_frames s <? 2)%Z || _); [reflexivity|]. generalize (length (x :: b)). intros f. generalize (x :: b). clear.
  revert s. induction f as [|f IH]; intros s l; [reflexivity|]. destruct l as [|x l]; [reflexivity|]. cbn [groups]. remember (firstn 16 (x :: l)) as g.
  destruct (group exact (length g) (last g 0) s) as [o s1] eqn:E. specialize (IH s1 (skipn 16 (x :: l))). destruct (groups exact f (skipn 16 (x :: l)) s1) as [r s2].
  cbn [snd] in *. rewrite IH. clear - E. unfold group in E.
  repeat match type of E with (if ?b then _ else _) = _ => destruct b end; try (destruct (glide _ _ _ _ _ _)); injection E as <- <-; reflexivity.
Qed.
Lemma run_arriving r ops : Forall no_rate ops -> forall st, rate st = r -> arriving r (smoothers st k) ->
  rate (snd (run ops st)) = r /\ arriving r (smoothers (snd (run ops st)) k).
Proof.
  induction ops as [|o ops IH]; intros N st R A; [now split|]. inversion N as [|? ? N1 N2]; subst.
  assert (rate (snd (exec o st)) = rate st /\ arriving (rate st) (smoothers (snd (exec o st)) k)) as [R' A'].
  { destruct (concerns k o) eqn:C; [|destruct (exec_other k o st C) as [-> ->]; auto].
    destruct o as [j v m|j v m n|r|m]; cbn [concerns] in C; cbn [ControllerModel.exec snd]; [..|destruct N1|].
    - apply Z.eqb_eq in C. subst j. unfold init. destruct (0 <? _)%Z; cbn [rate smoothers]; rewrite put_eq; (split; [reflexivity|]); [|exact Logic.I].
      split; [apply C48_occurs|reflexivity].
    - apply Z.eqb_eq in C. subst j. unfold ControllerModel.generate. destruct (block p v m n) as [b sh]. destruct (smoothers st k) as [s|] eqn:E; [|cbn [snd]; rewrite E; auto].
      destruct (process exact b sh s) as [o s'] eqn:P. cbn [snd rate smoothers]. rewrite put_eq. split; [reflexivity|]. destruct A as [O F].
      pose proof (proj2 C48_occurs b sh s O) as O'. pose proof (process_frames b sh s) as F'. rewrite P in O', F'. split; [exact O'|]. cbn [snd] in F'. congruence.
    - split; [reflexivity|]. cbn [resetSmoothers smoothers]. destruct (smoothers st k) as [s|]; [|exact Logic.I]. split; [apply C48_occurs|]. apply A. }
  cbn [ControllerModel.run]. destruct (exec o st) as [b st']. cbn [snd] in R', A'. specialize (IH N2 st' R' A').
  destruct (run ops st') as [bs st'']. exact IH.
Qed.
Lemma run_holding x ops : 0 <= step p -> Forall (holding x) ops -> forall st,
  match smoothers st k with
  | Some s => exists bl, total bl = made ops /\ smoothers (snd (run ops st)) k = Some (constant (quant p (shaped p x)) bl s)
  | None => smoothers (snd (run ops st)) k = None
  end.
Proof.
  intros St. induction ops as [|o ops IH]; intros H st; [destruct (smoothers st k) eqn:E; [exists []; split; [reflexivity|exact E]|exact E]|].
  inversion H as [|? ? H1 H2]; subst. cbn [ControllerModel.run made fold_right]. fold (made ops).
  assert (concerns k o = false \/ exists v m n, o = Generate k v m n /\ holds v m x) as [C|(v & m & n & -> & Hx)].
  { destruct o as [j v m|j v m n| |]; cbn [holding concerns] in *; [| |destruct H1|destruct H1].
    - left. now apply Z.eqb_neq.
    - destruct (Z.eqb_spec j k) as [->|Nj]; [right; exists v, m, n; split; [reflexivity|now apply H1]|now left]. }
  - pose proof (exec_other k o st C) as [_ S]. destruct (exec o st) as [b st']. cbn [snd] in S. specialize (IH H2 st').
    destruct (run ops st') as [bs st'']. cbn [snd] in *. rewrite S in IH. destruct (smoothers st k); [|exact IH]. destruct IH as (bl & T & E).
    exists bl. split; [|exact E]. rewrite T. destruct o; cbn [concerns] in C; try rewrite C; reflexivity.
  - cbn [ControllerModel.exec]. unfold ControllerModel.generate. pose proof (block_holds v m x n St Hx) as B. destruct (block p v m n) as [b sh]. cbn [fst] in B. subst b.
    rewrite Z.eqb_refl. destruct (smoothers st k) as [s|] eqn:Es.
    + destruct (process exact (repeat (quant p (shaped p x)) n) sh s) as [o s'] eqn:P. specialize (IH H2 (Source (rate st) (put k (Some s') (smoothers st)))).
      cbn [smoothers] in IH. rewrite put_eq in IH. destruct IH as (bl & T & E). exists ((n, sh) :: bl). destruct (run ops _) as [bs st'']. cbn [snd] in *.
      split; [cbn [total fold_right fst]; fold (total bl); lia|]. cbn [constant]. rewrite P. exact E.
    + specialize (IH H2 st). rewrite Es in IH. destruct (run ops st) as [bs st'']. exact IH.
Qed.
Lemma arrives_from st r post x v m n : 0 <= step p -> arriving r (smoothers st k) -> Forall (holding x) post ->
  (Z.max 16 (frames r) <= Z.of_nat (made post))%Z -> holds v m x ->
  exists y, snapped (step p) (shaped p x) y /\ Forall (fun o => o == y) (fst (generate k v m n (snd (run post st)))).
Proof.
  intros St A Hp T Hx. exists (quant p (shaped p x)). split; [apply quant_snapped|].
  pose proof (run_holding x post St Hp st) as H. unfold ControllerModel.generate.
  pose proof (block_holds v m x n St Hx) as B. destruct (block p v m n) as [b sh]. cbn [fst] in B. subst b.
  remember (quant p (shaped p x)) as t eqn:Et. clear Et.
  destruct (smoothers st k) as [s|].
  - destruct H as (bl & Tb & ->). destruct A as [O F]. assert (s_current (constant t bl s) == t) as C. { apply C48_reaches; [exact O|]. unfold span. rewrite F. lia. }
    assert (occurs (constant t bl s)) as [W1 W2].
    { clear - O. revert s O. induction bl as [|[n sh] bl IH]; intros s O; [exact O|]. cbn [constant]. apply IH. now apply C48_occurs. }
    destruct (process exact (repeat t n) sh (constant t bl s)) as [o s'] eqn:P. cbn [fst].
    destruct (C48_no_overshoot exact (fun _ => True)) with (input := repeat t n) (short := sh) (s := constant t bl s) (l := o) (s' := s') (lo := t) (hi := t) as (G & _); auto.
    + intros y _. reflexivity.
    + apply exact_wf. split; intros L; [apply (proj1 (W1 L))|apply (proj1 (W2 L))].
    + apply Forall_forall. auto.
    + rewrite C. lra.
    + apply Forall_forall. intros y I. apply repeat_spec in I. subst y. lra.
    + eapply Forall_impl; [|exact G]. cbn beta. intros y Y. lra.
  - rewrite H. cbn [fst]. apply Forall_forall. intros y I. apply repeat_spec in I. subst y. reflexivity.
Qed.
(** C96: after any calls, when the controller stops moving, the key gives the value of the controller (through the
    curve, in steps) once the smoothing time has gone by (16 frames at least), and keeps to it; whatever other keys do. *)
Theorem C96_arrives pre post r x v m n : 0 <= step p -> Forall no_rate pre -> Forall (holding x) post ->
  (Z.max 16 (frames r) <= Z.of_nat (made post))%Z -> holds v m x ->
  exists y, snapped (step p) (shaped p x) y /\
    Forall (fun o => o == y) (fst (generate k v m n (snd (run post (snd (run pre (fresh r))))))).
Proof.
  intros St Np Hp T Hx. destruct (run_arriving r pre Np (fresh r) eq_refl Logic.I) as [_ A]. now apply (arrives_from _ r).
Qed.
Lemma Qtrunc_eq a b : a == b -> Qtrunc a = Qtrunc b.
Proof.
  intros E. unfold Qtrunc. replace (Qle_bool 0 b) with (Qle_bool 0 a).
  - destruct (Qle_bool 0 a); [now apply Qfloor_comp|]. f_equal. apply Qfloor_comp. now rewrite E.
  - apply eq_true_iff_eq. rewrite !Qle_bool_iff. now rewrite E.
Qed.
Definition timed (st : source) : Prop := match smoothers st k with Some s => s_frames s = frames (rate st) | None => True end.
Lemma run_timed ops : forall st, timed st -> timed (snd (run ops st)).
Proof.
  induction ops as [|o ops IH]; intros st A; [exact A|].
  assert (timed (snd (exec o st))) as A'.
  { unfold timed in *. destruct (concerns k o) eqn:C; [|destruct (exec_other k o st C) as [-> ->]; auto].
    destruct o as [j v m|j v m n|r|m]; cbn [concerns] in C; cbn [ControllerModel.exec snd].
    - apply Z.eqb_eq in C. subst j. unfold init. destruct (0 <? _)%Z; cbn [rate smoothers]; rewrite put_eq; [reflexivity|exact Logic.I].
    - apply Z.eqb_eq in C. subst j. unfold ControllerModel.generate. destruct (block p v m n) as [b sh]. destruct (smoothers st k) as [s|] eqn:E; [|cbn [snd]; now rewrite E].
      destruct (process exact b sh s) as [o s'] eqn:P. cbn [snd rate smoothers]. rewrite put_eq.
      pose proof (process_frames b sh s) as F'. rewrite P in F'. cbn [snd] in F'. congruence.
    - unfold setSampleRate. destruct (Qeq_bool _ _); [exact A|]. cbn [rate smoothers]. now destruct (smoothers st k).
    - cbn [resetSmoothers smoothers rate]. now destruct (smoothers st k). }
  cbn [ControllerModel.run]. destruct (exec o st) as [b st']. cbn [snd] in A'. specialize (IH st' A').
  destruct (run ops st') as [bs st'']. exact IH.
Qed.
Lemma run_last ops o st : snd (run (ops ++ [o]) st) = snd (exec o (snd (run ops st))).
Proof.
  revert st. induction ops as [|a ops IH]; intros st; cbn [app ControllerModel.run snd]; [destruct (exec o st); now destruct o|].
  destruct (exec a st) as [b st']. specialize (IH st'). destruct (run (ops ++ [o]) st'). destruct (run ops st'). exact IH.
Qed.
(** C96: after a change of the sample rate and a reset, the smoothing time is that at the new rate, whatever came before. *)
Theorem C96_new_rate pre mid post r r' m0 x v m n : 0 <= step p -> Forall no_rate mid -> Forall (holding x) post ->
  (Z.max 16 (frames r') <= Z.of_nat (made post))%Z -> holds v m x ->
  exists y, snapped (step p) (shaped p x) y /\
    Forall (fun o => o == y) (fst (generate k v m n (snd (run post (snd (run mid (snd (run (pre ++ [SetRate r'; ResetAll m0]) (fresh r))))))))).
Proof.
  intros St Nm Hp T Hx. replace (pre ++ [SetRate r'; ResetAll m0]) with ((pre ++ [SetRate r']) ++ [ResetAll m0]) by (now rewrite <- app_assoc).
  rewrite run_last. remember (snd (run (pre ++ [SetRate r']) (fresh r))) as st eqn:Est.
  assert (timed st) as A by (subst st; apply run_timed; exact Logic.I). assert (rate st == r') as R.
  { subst st. rewrite run_last. cbn [ControllerModel.exec snd]. unfold setSampleRate. destruct (Qeq_bool _ _) eqn:E; [now apply Qeq_bool_iff|reflexivity]. }
  clear Est. remember (snd (exec (ResetAll m0) st)) as st' eqn:Est. assert (rate st' = rate st /\ arriving (rate st) (smoothers st' k)) as [R' A'].
  { subst st'. cbn [ControllerModel.exec snd resetSmoothers rate smoothers]. split; [reflexivity|]. unfold timed in A. destruct (smoothers st k) as [s|]; [|exact Logic.I].
    split; [apply C48_occurs|exact A]. }
  clear Est. pose proof A' as A''. rewrite <- R' in A''. clear A'. rename A'' into A'. destruct (run_arriving (rate st') mid Nm st' eq_refl A') as [_ B]. apply (arrives_from _ (rate st')); auto.
  replace (frames (rate st')) with (frames r'); [exact T|]. unfold frames. apply Qtrunc_eq. rewrite R', R. reflexivity.
Qed.
End Glide.

(** C96: a controller of voices, other than the aftertouch of keys, gives each voice of a cycle its own value, if it is not smoothed. *)
Theorem C96_readings k ops r vs m n w : (smooth (params_of k) <= 0)%Z -> meaning (cc (params_of k)) w m <> None -> cc (params_of k) <> 130%Z ->
  Forall2 (fun v b => exists x y, meaning (cc (params_of k)) v m = Some x /\ snapped (step (params_of k)) (shaped (params_of k) x) y /\ b = repeat y n)
    vs (readings params_of evalCurve k vs m n (snd (run ops (fresh r)))).
Proof.
  intros Sm Cw Cp. assert (ccModulationIsPerVoice (cc (params_of k)) = true) as C.
  { clear - Cw Cp. unfold ccModulationIsPerVoice. cbn [existsb]. unfold meaning in Cw. apply Z.eqb_neq in Cp. rewrite Cp in Cw.
    repeat match type of Cw with (if ?b then _ else _) <> _ => destruct b end; rewrite ?orb_true_r; try reflexivity. congruence. }
  clear Cw Cp. unfold readings. rewrite C. pose proof (unsmoothed_none k ops Sm (fresh r) eq_refl) as N.
  remember (snd (run ops (fresh r))) as st eqn:Est. clear Est.
  induction vs as [|v vs IH]; [constructor|]. cbn [map ControllerModel.run ControllerModel.exec]. unfold ControllerModel.generate at 1. rewrite N.
  assert (exists x, meaning (cc (params_of k)) v m = Some x) as [x M].
  { unfold ccModulationIsPerVoice in C. cbn [existsb] in C. unfold meaning. clear - C.
    repeat match goal with |- exists _, (if ?b then _ else _) = _ => destruct b eqn:?; [eexists; reflexivity|] end. cbn in C. congruence. }
  rewrite (block_voice _ v m n x M). destruct (run (map _ vs) st) as [bs st']. cbn [fst map snd] in *. constructor; [|exact IH].
  exists x, (quant (params_of k) (shaped (params_of k) x)). split; [exact M|]. split; [apply quant_snapped|reflexivity].
Qed.
(** C96: a controller that is not one of voices and goes through a curve is at its value from the first frame after the
    key was initialised. *)
Theorem C96_starts k pre r v w m x n : step (params_of k) == 0 -> uncurved (cc (params_of k)) = false ->
  (forall w, meaning (cc (params_of k)) w m = None) -> ccEvents m (cc (params_of k)) = [Event 0 x] ->
  Forall (fun o => o == evalCurve (curve (params_of k)) x)
    (fst (generate k v m n (snd (exec (Init k w m) (snd (run pre (fresh r))))))).
Proof.
  intros St U N E. assert (fst (block (params_of k) v m n) = repeat (evalCurve (curve (params_of k)) x) n) as B.
  { rewrite (block_holds k v m x n); [|lra|right; auto]. unfold quant, shaped. rewrite U. assert (Qltb 0 (step (params_of k)) = false) as ->; [|reflexivity].
    unfold Qltb. apply negb_false_iff. apply Qle_bool_iff. lra. }
  unfold ControllerModel.generate. destruct (block (params_of k) v m n) as [b sh]. cbn [fst] in B. subst b.
  cbn [ControllerModel.exec snd]. unfold init. destruct (0 <? smooth (params_of k))%Z; cbn [smoothers]; rewrite put_eq.
  - remember (reset _ _) as s eqn:Es. destruct (process exact _ sh s) as [o s'] eqn:P. cbn [fst].
    unfold getLastTransformedValue, getCCValue in Es. rewrite E in Es. cbn [last value] in Es. remember (evalCurve (curve (params_of k)) x) as t eqn:Et. clear Et.
    destruct (C48_no_overshoot exact (fun _ => True)) with (input := repeat t n) (short := sh) (s := s) (l := o) (s' := s') (lo := t) (hi := t) as (G & _); auto.
    + intros y _. reflexivity.
    + subst s. apply exact_wf. unfold reset. cbn [s_current s_target s_step]. split; intros _; apply Qle_refl.
    + apply Forall_forall. auto.
    + subst s. unfold reset. cbn [s_current]. lra.
    + apply Forall_forall. intros y I. apply repeat_spec in I. subst y. lra.
    + eapply Forall_impl; [|exact G]. cbn beta. intros y Y. lra.
  - cbn [fst]. apply Forall_forall. intros y I. apply repeat_spec in I. subst y. reflexivity.
Qed.
End Source.

(** ** Cases *)
(** Keys 0 and 1: controller 1 with 1 ms of smoothing, the second through a falling curve.  2: velocity with smoothing.
    3: pitch bend with smoothing and the falling curve.  4: aftertouch of keys.  5: velocity in steps of 1/4.
    6: distance of keys, absolute.  7: controller 1 in steps of 1/4, not smoothed.
    8: controller 1 through the falling curve, not smoothed. *)
Definition keys (k : Z) : params :=
  if (k =? 0)%Z then Params 1 0 1 0 else if (k =? 1)%Z then Params 1 1 1 0 else if (k =? 2)%Z then Params 131 0 1 0
  else if (k =? 3)%Z then Params 128 1 1 0 else if (k =? 4)%Z then Params 130 0 0 0 else if (k =? 5)%Z then Params 131 0 0 (1 # 4)
  else if (k =? 6)%Z then Params 141 0 0 0 else if (k =? 7)%Z then Params 1 0 0 (1 # 4) else Params 1 1 0 0.
Definition curves (c : Z) (x : Q) : Q := if (c =? 1)%Z then 1 - x else x.
Definition note (n : Z) (vel : Q) : voice := Voice NoteOn n vel 0 0 0 0 (- (3)).
(** A midi state with the given value of controller 1 and of the velocity of the last note. *)
Definition state (x vel : Q) : midi :=
  Midi (fun c => if (c =? 1)%Z then [Event 0 x] else if (c =? 131)%Z then [Event 0 vel] else [Event 0 0]) (fun n => if (n =? 60)%Z then 3 # 4 else 1 # 4).
Notation runK := (run keys curves).
Notation generateK := (generate keys curves).
Definition red (bs : list (Z * list Q)) : list (Z * list Q) := map (fun b => (fst b, map Qred (snd b))) bs.

Example C96_ex :
  let m0 := state 0 0 in let m1 := state 1 0 in
  (* the glide of key 0 over 32 frames, key 1 on its own *)
  red (fst (runK [Init 0 None m0; Init 1 None m0; Generate 0 None m1 2; Generate 1 None m0 2; Generate 0 None m1 2] (fresh 32000)))
    = [(0%Z, [1 # 32; 1 # 16]); (1%Z, [1; 1]); (0%Z, [3 # 32; 1 # 8])].
Proof. vm_compute. reflexivity. Qed.
Example C96_unsmoothed_ex :
  let m := state 0 0 in let v := note 60 (7 # 8) in
  meaning (cc (keys 5)) v m = Some (7 # 8) /\ map Qred (fst (generateK 5 (Some v) m 3 (fresh 1))) = [3 # 4; 3 # 4; 3 # 4] /\
  meaning (cc (keys 6)) v m = Some 3 /\ fst (generateK 6 (Some v) m 2 (fresh 1)) = [3; 3] /\ fst (generateK 5 None m 1 (fresh 1)) = [0 * (1 # 4)] /\
  ccModulationIsPerVoice (cc (keys 5)) = true /\
  map (map Qred) (readings keys curves 5 [v; note 61 (1 # 2)] m 2 (fresh 1)) = [[3 # 4; 3 # 4]; [1 # 2; 1 # 2]].
Proof. vm_compute. repeat split. Qed.
Example C96_events_ex :
  let m := Midi (fun _ => [Event 0 0; Event 2 1; Event 4 (1 # 2)]) (fun _ => 0) in
  increasing 0 [Event 2 1; Event 4 (1 # 2)] /\ meaning (cc (keys 8)) (note 60 1) m = None /\
  map Qred (fst (generateK 8 None m 6 (fresh 1))) = [1; 1 # 2; 0; 1 # 4; 1 # 2; 1 # 2].
Proof. cbv zeta. split; [cbn; lia|]. vm_compute. repeat split. Qed.
Example C96_bounded_ex :
  let ops := [Init 7 None (state 1 0); Generate 7 None (state (7 # 8) 0) 20; Generate 7 None (state (1 # 8) 0) 20; SetRate 3] in
  0 <= step (keys 7) /\ Forall (allowed keys curves 7 0 1) ops /\ length (outputs 7 (fst (runK ops (fresh 32000)))) = 2%nat.
Proof.
  cbv zeta. split; [discriminate|]. split; [|reflexivity].
  repeat (apply Forall_cons; [cbn [allowed]|]); try apply Forall_nil; try exact Logic.I; intros _; unfold inside; [cbn; lra|..];
    (split; [intros _; cbn; lra|]); (split; [intros w x _; cbn; discriminate|]); intros _; (split; [repeat constructor; cbn; lra|cbn; auto]).
Qed.
Example C96_arrives_ex :
  let pre := [Init 0 None (state 0 0); Init 1 None (state 0 0); Generate 0 None (state (1 # 2) 0) 5] in
  let post := [Generate 0 None (state 1 0) 20; Init 1 None (state 0 0); Generate 1 None (state 1 0) 3; Generate 0 None (state 1 0) 12] in
  let out := fst (generateK 0 None (state 1 0) 4 (snd (runK post (snd (runK pre (fresh 32000)))))) in
  Forall no_rate pre /\ Forall (holding keys 0 1) post /\ Z.max 16 (frames keys 0 32000) = 32%Z /\ made 0 post = 32%nat /\ map Qred out = [1; 1; 1; 1].
Proof.
  cbv zeta. split; [repeat constructor|]. split; [|split; [|split]; vm_compute; reflexivity].
  repeat (apply Forall_cons; [cbn [holding]|]); try apply Forall_nil; try lia; intros _; right; split; reflexivity.
Qed.

(** From 16 to 32 kHz: 10 frames on the way, then 32 frames from the reset. *)
Example C96_new_rate_ex :
  let pre := [Init 0 None (state 0 0); Generate 0 None (state 1 0) 10] in
  let post := [Generate 0 None (state 1 0) 20; Generate 0 None (state 1 0) 12] in
  let at_ post := fst (generateK 0 None (state 1 0) 1 (snd (runK post (snd (runK (pre ++ [SetRate 32000; ResetAll (state 0 0)]) (fresh 16000)))))) in
  Forall (holding keys 0 1) post /\ Z.max 16 (frames keys 0 32000) = 32%Z /\ made 0 post = 32%nat /\ map Qred (at_ post) = [1] /\
  map Qred (at_ [Generate 0 None (state 1 0) 20]) = [21 # 32].
Proof.
  cbv zeta. split; [|split; [|split; [|split]]; vm_compute; reflexivity].
  repeat (apply Forall_cons; [cbn [holding]|]); try apply Forall_nil; try lia; intros _; right; split; reflexivity.
Qed.

(** C96: a smoothed controller of voices is shared by the voices of a region: the start of another voice takes the first
    one back to the value of the new note, and its blocks move it as well. *)
Theorem C96_voices_refuted :
  let m := state 0 (1 # 2) in let v1 := note 60 1 in let v2 := note 62 (1 # 2) in
  let before := [Init 2 (Some v1) (state 0 1); Generate 2 (Some v1) (state 0 1) 64] in
  let next ops := map Qred (fst (generateK 2 (Some v1) m 3 (snd (runK (before ++ ops) (fresh 32000))))) in
  ccModulationIsPerVoice (cc (keys 2)) = true /\ next [] = [1; 1; 1] /\
  next [Init 2 (Some v2) m] = [33 # 64; 17 # 32; 35 # 64] /\ next [Generate 2 (Some v2) m 64] = [33 # 64; 17 # 32; 35 # 64].
Proof. vm_compute. repeat split. Qed.
(** C96: a smoothed pitch bend with a curve starts from the value of the curve, which is not applied to it otherwise: a
    bend at rest gives a glide from 1 to 0. *)
Theorem C96_start_refuted :
  let m := state 0 0 in
  let first := fst (generateK 3 None m 2 (snd (runK [Init 3 None m] (fresh 32000)))) in
  getCCValue m 128 = 0 /\ uncurved 128 = true /\ fst (generateK 3 None m 2 (fresh 32000)) = [0; 0] /\ map Qred first = [31 # 32; 15 # 16].
Proof. vm_compute. repeat split. Qed.
(** C96: the aftertouch of keys is not treated as a controller of voices: each voice of a cycle reads that of the key of
    the voice rendered first. *)
Theorem C96_poly_refuted :
  let m := state 0 0 in let v1 := note 60 1 in let v2 := note 62 1 in
  meaning 130 v1 m = Some (3 # 4) /\ meaning 130 v2 m = Some (1 # 4) /\
  readings keys curves 4 [v1; v2] m 1 (fresh 1) = [[3 # 4]; [3 # 4]] /\ readings keys curves 4 [v2; v1] m 1 (fresh 1) = [[1 # 4]; [1 # 4]].
Proof. vm_compute. repeat split. Qed.
(** C96: a change of the sample rate on the way leaves the step as it was: at 16 kHz the rest of a glide of 32 frames
    still takes 28 frames, where the smoothing time is 16. *)
Theorem C96_rate_refuted :
  let pre := [Init 0 None (state 0 0); Generate 0 None (state 1 0) 4; SetRate 16000] in
  let at_ n := fst (generateK 0 None (state 1 0) 1 (snd (runK (pre ++ [Generate 0 None (state 1 0) n]) (fresh 32000)))) in
  Z.max 16 (frames keys 0 16000) = 16%Z /\ map Qred (at_ 16%nat) = [21 # 32] /\ map Qred (at_ 26%nat) = [31 # 32] /\ map Qred (at_ 27%nat) = [1].
Proof. vm_compute. repeat split. Qed.
