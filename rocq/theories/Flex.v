(** Flex envelopes: the output does not depend on the blocks (C71), and follows the points (C72). *)
From Coq Require Import ZArith QArith Qround Lqa List Bool Lia.
From Verif Require Import FlexModel.
Import ListNotations.
Local Open Scope nat_scope.

Section FlexProofs.
  Variable rnd : Q -> Q.
  Variable period : Q.
  Variable d : desc.
  Let advanceTo := advanceTo d.
  Let finished := finished d.
  Let transitions := transitions d.
  Let stageFrames := stageFrames rnd period.
  Let loop := loop rnd period d.
  Let process := process rnd period d.
  Let blocks := blocks rnd period d.
  Let size := List.length (d_points d).

  (** The same state at another time of its stage. *)
  Definition at_ (s : flex) (time level : Q) (until : option nat) : flex :=
    Flex (f_delay s) (f_src s) (f_tgt s) (f_time s) (f_sustained s) (f_curve s)
      (f_stage s) level time until (f_released s) (f_free s).
  Definition less (until : option nat) (k : nat) : option nat :=
    match until with Some r => Some (r - k) | None => None end.
  Definition value (s : flex) (time : Q) : Q :=
    levelAt rnd (f_curve s) (f_src s) (f_tgt s) (f_time s) time.

  (** One frame at a time. *)
  Definition step (s : flex) : Q * flex :=
    match f_delay s with
    | S k =>
        (0%Q, Flex k (f_src s) (f_tgt s) (f_time s) (f_sustained s) (f_curve s)
              (f_stage s) (f_level s) (f_now s) (f_until s) (f_released s) (f_free s))
    | O =>
        if finished s then (0%Q, s)
        else
          let '(ok, s1) := transitions s in
          if ok then
            let t := rnd (f_now s1 + period) in
            (value s1 t, at_ s1 t (value s1 t) (less (f_until s1) 1))
          else (0%Q, s1)
    end.
  Fixpoint steps (n : nat) (s : flex) : list Q * flex :=
    match n with
    | O => ([], s)
    | S n' => let '(x, s1) := step s in let '(out, s2) := steps n' s1 in (x :: out, s2)
    end.
  Lemma steps_app a : forall b s, steps (a + b) s =
    (fst (steps a s) ++ fst (steps b (snd (steps a s))), snd (steps b (snd (steps a s)))).
  Proof.
    induction a as [|a IH]; intros b s; cbn [Nat.add steps].
    - cbn [fst snd app]. destruct (steps b s); reflexivity.
    - destruct (step s) as [x s1]. rewrite IH. destruct (steps a s1) as [o s2]. reflexivity.
  Qed.
  Lemma steps_length n : forall s, List.length (fst (steps n s)) = n.
  Proof.
    induction n as [|n IH]; intros s; cbn [steps]; [reflexivity|].
    destruct (step s) as [x s1]. specialize (IH s1). destruct (steps n s1). cbn [fst List.length] in *. lia.
  Qed.

  Lemma advance_spec n s ok s1 : advanceTo n s = (ok, s1) ->
    f_stage s1 = n /\ f_delay s1 = f_delay s /\ f_free s1 = f_free s /\ f_until s1 = f_until s /\
    f_released s1 = f_released s /\ ok = Nat.ltb n size.
  Proof.
    unfold advanceTo, FlexModel.advanceTo. destruct (nth_error (d_points d) n) as [p|] eqn:N; intros [= <- <-];
      cbn [f_stage f_delay f_free f_until f_released];
      refine (conj eq_refl (conj eq_refl (conj eq_refl (conj eq_refl (conj eq_refl _))))).
    - symmetry. apply Nat.ltb_lt. apply nth_error_Some. congruence.
    - symmetry. apply Nat.ltb_ge. apply nth_error_None. exact N.
  Qed.

  Record kept (s s1 : flex) : Prop := Kept {
    kp_delay : f_delay s1 = f_delay s;
    kp_free : f_free s1 = f_free s;
    kp_until : f_until s1 = f_until s;
    kp_released : f_released s1 = f_released s }.
  Lemma kept_trans a b c : kept a b -> kept b c -> kept a c.
  Proof. intros [] []. constructor; congruence. Qed.

  Lemma forward_spec fuel : forall s ok s1, fastForward d fuel s = (ok, s1) ->
    f_stage s < size -> size < fuel + f_stage s ->
    kept s s1 /\ f_stage s <= f_stage s1 /\ (ok = true -> d_sustain d < f_stage s1 < size) /\
    (ok = false -> size <= f_stage s1).
  Proof.
    induction fuel as [|fuel IH]; intros s ok s1 F L M; [lia|]. cbn [fastForward] in F.
    destruct (Nat.leb_spec (f_stage s) (d_sustain d)).
    - destruct (FlexModel.advanceTo d (S (f_stage s)) s) as [ok2 s2] eqn:A.
      apply advance_spec in A. destruct A as (A1 & A2 & A3 & A4 & A5 & A6).
      assert (K : kept s s2) by (constructor; assumption).
      destruct ok2.
      + symmetry in A6. apply Nat.ltb_lt in A6.
        destruct (IH _ _ _ F) as (B1 & B2 & B3 & B4); [lia|lia|].
        split; [exact (kept_trans _ _ _ K B1)|]. split; [lia|]. split; assumption.
      + injection F as <- <-. symmetry in A6. apply Nat.ltb_ge in A6.
        split; [exact K|]. split; [lia|]. split; [discriminate|lia].
    - injection F as <- <-. split; [constructor; reflexivity|]. split; [lia|]. split; [lia|discriminate].
  Qed.
  (** Nothing to do at the start of a frame. *)
  Definition waits (s : flex) : Prop :=
    (negb (f_sustained s) || f_free s) && Qle_bool (f_time s) (f_now s) = false.
  Lemma pass_spec fuel : forall s ok s1, passDone d fuel s = (ok, s1) ->
    f_stage s < size -> size < fuel + f_stage s ->
    kept s s1 /\ f_stage s <= f_stage s1 /\ (ok = true -> f_stage s1 < size /\ waits s1) /\
    (ok = false -> size <= f_stage s1).
  Proof.
    induction fuel as [|fuel IH]; intros s ok s1 F L M; [lia|]. cbn [passDone] in F.
    destruct ((negb (f_sustained s) || f_free s) && Qle_bool (f_time s) (f_now s)) eqn:C.
    - remember (if Qeq_bool (f_time s) 0 then _ else s) as s0 eqn:E0 in F.
      assert (K0 : kept s s0 /\ f_stage s0 = f_stage s).
      { rewrite E0. destruct (Qeq_bool (f_time s) 0); split; try reflexivity; constructor; reflexivity. }
      destruct K0 as [K0 S0]. clear E0.
      destruct (FlexModel.advanceTo d (S (f_stage s0)) s0) as [ok2 s2] eqn:A.
      apply advance_spec in A. destruct A as (A1 & A2 & A3 & A4 & A5 & A6).
      assert (K : kept s s2) by (apply (kept_trans _ _ _ K0); constructor; assumption).
      destruct ok2.
      + symmetry in A6. apply Nat.ltb_lt in A6.
        destruct (IH _ _ _ F) as (B1 & B2 & B3 & B4); [lia|lia|].
        split; [exact (kept_trans _ _ _ K B1)|]. split; [lia|]. split; assumption.
      + injection F as <- <-. symmetry in A6. apply Nat.ltb_ge in A6.
        split; [exact K|]. split; [lia|]. split; [discriminate|lia].
    - injection F as <- <-. split; [constructor; reflexivity|]. split; [lia|].
      split; [intros _; split; [lia|exact C]|discriminate].
  Qed.

  (** Ready to give a frame of its stage. *)
  Record ready (s : flex) : Prop := Ready {
    rd_stage : f_stage s < size;
    rd_until : f_until s <> Some 0;
    rd_release : f_released s = true -> d_sustain d < f_stage s;
    rd_waits : waits s }.
  Lemma ready_still s : ready s -> transitions s = (true, s).
  Proof.
    intros [R1 R2 R3 R4]. unfold transitions, FlexModel.transitions, checkRelease.
    assert (C : (match f_until s with
      | Some 0 => Flex (f_delay s) (f_src s) (f_tgt s) (f_time s) (f_sustained s) (f_curve s)
          (f_stage s) (f_level s) (f_now s) None true (f_free s)
      | _ => s end) = s).
    { destruct (f_until s) as [[|k]|]; [destruct (R2 eq_refl)|reflexivity|reflexivity]. }
    rewrite C. unfold rounds.
    assert (P : passDone d (S (S (List.length (d_points d)))) s = (true, s)).
    { cbn [passDone]. unfold waits in R4. rewrite R4. reflexivity. }
    destruct (f_released s).
    - cbn [fastForward]. specialize (R3 eq_refl). destruct (Nat.leb_spec (f_stage s) (d_sustain d)); [lia|]. exact P.
    - exact P.
  Qed.
  Lemma transitions_spec s ok s1 : transitions s = (ok, s1) -> f_stage s < size ->
    f_delay s1 = f_delay s /\ f_free s1 = f_free s /\ f_stage s <= f_stage s1 /\
    (ok = true -> ready s1) /\ (ok = false -> size <= f_stage s1).
  Proof.
    unfold transitions, FlexModel.transitions. intros T L.
    remember (checkRelease s) as c eqn:Ec.
    assert (C : f_delay c = f_delay s /\ f_free c = f_free s /\ f_stage c = f_stage s /\ f_until c <> Some 0).
    { rewrite Ec. unfold checkRelease. destruct (f_until s) as [[|k]|] eqn:U;
        cbn [f_delay f_free f_stage f_until]; refine (conj eq_refl (conj eq_refl (conj eq_refl _))); congruence. }
    destruct C as (C1 & C2 & C3 & C4). clear Ec.
    remember (if f_released c then fastForward d (rounds d) c else (true, c)) as r eqn:Er.
    destruct r as [ok2 s2].
    assert (F : kept c s2 /\ f_stage c <= f_stage s2 /\
      (ok2 = true -> f_stage s2 < size /\ (f_released s2 = true -> d_sustain d < f_stage s2)) /\
      (ok2 = false -> size <= f_stage s2)).
    { destruct (f_released c) eqn:R; symmetry in Er.
      - destruct (forward_spec _ _ _ _ Er) as (A1 & A2 & A3 & A4); [lia|unfold rounds; subst size; lia|].
        split; [exact A1|]. split; [exact A2|]. split; [|exact A4]. intros Q. specialize (A3 Q). split; lia.
      - injection Er as Eo Es. rewrite <- Eo, <- Es. split; [constructor; reflexivity|]. split; [lia|].
        split; [|discriminate]. intros _. split; [lia|intros X; congruence]. }
    destruct F as (F1 & F2 & F3 & F4). clear Er.
    destruct ok2.
    - destruct (F3 eq_refl) as [F5 F6].
      destruct (pass_spec _ _ _ _ T) as (A1 & A2 & A3 & A4); [lia|unfold rounds; subst size; lia|].
      destruct F1 as [K1 K2 K3 K4]. destruct A1 as [J1 J2 J3 J4].
      split; [congruence|]. split; [congruence|]. split; [lia|]. split; [|exact A4].
      intros Q. destruct (A3 Q) as [A5 A6]. constructor; [exact A5|congruence| |exact A6].
      intros R. rewrite J4 in R. specialize (F6 R). lia.
    - injection T as <- <-. destruct F1 as [K1 K2 K3 K4].
      split; [congruence|]. split; [congruence|]. split; [lia|]. split; [discriminate|exact F4].
  Qed.

  Lemma step_ready s s1 : f_delay s = 0 -> f_stage s < size -> transitions s = (true, s1) -> step s = step s1.
  Proof.
    intros D L T. destruct (transitions_spec _ _ _ T L) as (A1 & A2 & A3 & A4 & _).
    specialize (A4 eq_refl). unfold step. rewrite A1, D.
    assert (F : forall x, f_stage x < size -> finished x = false).
    { intros x X. unfold finished, FlexModel.finished. apply Nat.leb_gt. exact X. }
    rewrite (F s L), (F s1 (rd_stage _ A4)), T, (ready_still _ A4). reflexivity.
  Qed.
  Lemma steps_ready n s s1 : f_delay s = 0 -> f_stage s < size -> transitions s = (true, s1) ->
    0 < n -> steps n s = steps n s1.
  Proof. intros D L T N. destruct n; [lia|]. cbn [steps]. rewrite (step_ready _ _ D L T). reflexivity. Qed.

  Lemma waits_at s time level until : f_free s = false ->
    Qltb time (f_time s) || f_sustained s = true -> waits (at_ s time level until).
  Proof.
    intros F C. unfold waits, at_. cbn [f_sustained f_free f_time f_now]. rewrite F, orb_false_r.
    destruct (f_sustained s); [reflexivity|]. rewrite orb_false_r in C. unfold Qltb in C.
    apply negb_true_iff in C. cbn [negb andb]. exact C.
  Qed.
  Lemma frames_steps n : forall s time level out t l,
    stageFrames s n time level = (out, (t, l)) ->
    forall until, f_delay s = 0 -> f_free s = false -> f_stage s < size ->
    (f_released s = true -> d_sustain d < f_stage s) ->
    match until with Some r => n <= r | None => True end ->
    List.length out <= n /\
    steps (List.length out) (at_ s time level until) = (out, at_ s t l (less until (List.length out))).
  Proof.
    induction n as [|n IH]; intros s time level out t l Q until D F L R U;
      unfold stageFrames in Q; cbn [FlexModel.stageFrames] in Q.
    - injection Q as <- <- <-. split; [apply le_n|]. cbn [List.length steps]. f_equal. f_equal.
      unfold less. destruct until; [f_equal; lia|reflexivity].
    - destruct (Qltb time (f_time s) || f_sustained s) eqn:C.
      + remember (levelAt rnd (f_curve s) (f_src s) (f_tgt s) (f_time s) (rnd (time + period))) as v eqn:V.
        destruct (FlexModel.stageFrames rnd period s n (rnd (time + period)) v) as [o [t' l']] eqn:B.
        injection Q as <- <- <-.
        destruct (IH s _ _ _ _ _ B (less until 1) D F L R) as (I1 & I2).
        { destruct until as [r|]; cbn [less]; [lia|exact Logic.I]. }
        split; [cbn [List.length]; lia|]. cbn [List.length steps].
        assert (Y : ready (at_ s time level until)).
        { constructor; cbn [at_ f_stage f_until f_released]; auto.
          - destruct until as [[|k]|]; [lia|discriminate|discriminate].
          - apply waits_at; assumption. }
        assert (St : step (at_ s time level until) = (v, at_ s (rnd (time + period)) v (less until 1))).
        { unfold step. cbn [at_ f_delay]. rewrite D.
          replace (finished (at_ s time level until)) with false
            by (symmetry; unfold finished, FlexModel.finished; apply Nat.leb_gt; exact L).
          rewrite (ready_still _ Y). cbn [at_ f_now f_until]. unfold value.
          cbn [at_ f_curve f_src f_tgt f_time]. rewrite <- V. unfold at_.
          cbn [f_delay f_src f_tgt f_time f_sustained f_curve f_stage f_released f_free]. reflexivity. }
        rewrite St, I2. f_equal. f_equal. unfold less. destruct until; [f_equal; lia|reflexivity].
      + injection Q as <- <- <-. split; [cbn [List.length]; lia|]. cbn [List.length steps].
        f_equal. f_equal. unfold less. destruct until; [f_equal; lia|reflexivity].
  Qed.
  Lemma steps_finished n s : f_delay s = 0 -> size <= f_stage s -> steps n s = (repeat 0%Q n, s).
  Proof.
    intros D L. induction n as [|n IH]; [reflexivity|]. cbn [steps repeat].
    assert (S1 : step s = (0%Q, s)).
    { unfold step. rewrite D. replace (finished s) with true; [reflexivity|].
      symmetry. unfold finished, FlexModel.finished. apply Nat.leb_le. exact L. }
    rewrite S1, IH. reflexivity.
  Qed.

  Lemma at_same s : at_ s (f_now s) (f_level s) (f_until s) = s.
  Proof. destruct s; reflexivity. Qed.
  Lemma loop_steps fuel : forall n s, n <= fuel -> f_delay s = 0 -> f_free s = false -> f_stage s < size ->
    loop fuel n s = steps n s.
  Proof.
    induction fuel as [|fuel IH]; intros n s N D F L.
    - assert (n = 0) by lia. subst n. reflexivity.
    - destruct n as [|n]; [reflexivity|]. unfold loop. cbn [FlexModel.loop].
      destruct (FlexModel.transitions d s) as [ok s1] eqn:T.
      destruct (transitions_spec _ _ _ T L) as (A1 & A2 & A3 & A4 & A5).
      destruct ok.
      + specialize (A4 eq_refl). pose proof A4 as [R1 R2 R3 R4].
        rewrite (steps_ready (S n) s s1 D L T) by lia.
        remember (match f_until s1 with Some r => Nat.min (S n) r | None => S n end) as max eqn:Em.
        assert (M : 0 < max <= S n /\ match f_until s1 with Some r => max <= r | None => True end).
        { rewrite Em. destruct (f_until s1) as [[|r]|]; [congruence|lia|lia]. }
        destruct M as [M1 M2].
        destruct (FlexModel.stageFrames rnd period s1 max (f_now s1) (f_level s1)) as [out [t l]] eqn:B.
        destruct (frames_steps max _ _ _ _ _ _ B (f_until s1)) as (I1 & I2); try assumption; try congruence.
        rewrite at_same in I2.
        assert (P : 0 < List.length out).
        { destruct max as [|max]; [lia|]. cbn [FlexModel.stageFrames] in B.
          assert (C : Qltb (f_now s1) (f_time s1) || f_sustained s1 = true).
          { unfold waits in R4. rewrite A2, F, orb_false_r in R4. unfold Qltb.
            destruct (f_sustained s1); [apply orb_true_r|]. cbn [negb andb] in R4. rewrite R4. reflexivity. }
          rewrite C in B. destruct (FlexModel.stageFrames _ _ _ _ _ _) as [o [? ?]].
          injection B as <- _ _. cbn [List.length]. lia. }
        replace (S n) with (List.length out + (S n - List.length out)) at 2 by lia.
        rewrite steps_app, I2. cbn [fst snd].
        change (Flex (f_delay s1) (f_src s1) (f_tgt s1) (f_time s1) (f_sustained s1) (f_curve s1)
                 (f_stage s1) l t (match f_until s1 with Some r => Some (r - List.length out) | None => None end)
                 (f_released s1) (f_free s1)) with (at_ s1 t l (less (f_until s1) (List.length out))).
        fold loop. rewrite IH; [|lia|cbn [at_ f_delay]; congruence|cbn [at_ f_free]; congruence|exact R1].
        destruct (steps (S n - List.length out) (at_ s1 t l (less (f_until s1) (List.length out)))); reflexivity.
      + specialize (A5 eq_refl). cbn [steps]. unfold step. rewrite D.
        replace (finished s) with false by (symmetry; unfold finished, FlexModel.finished; apply Nat.leb_gt; exact L).
        unfold transitions. rewrite T. rewrite steps_finished by (try congruence; assumption). reflexivity.
  Qed.

  Definition moved (s : flex) (k : nat) : flex :=
    Flex k (f_src s) (f_tgt s) (f_time s) (f_sustained s) (f_curve s)
      (f_stage s) (f_level s) (f_now s) (f_until s) (f_released s) (f_free s).
  Lemma steps_delay k : forall s, k <= f_delay s -> steps k s = (repeat 0%Q k, moved s (f_delay s - k)).
  Proof.
    induction k as [|k IH]; intros s L; cbn [steps repeat].
    - rewrite Nat.sub_0_r. destruct s; reflexivity.
    - unfold step. destruct (f_delay s) as [|m] eqn:D; [lia|].
      change (Flex m (f_src s) (f_tgt s) (f_time s) (f_sustained s) (f_curve s)
              (f_stage s) (f_level s) (f_now s) (f_until s) (f_released s) (f_free s)) with (moved s m).
      rewrite IH by (cbn [moved f_delay]; lia). reflexivity.
  Qed.
  Theorem process_steps n s : f_free s = false -> process n s = steps n s.
  Proof.
    intros F. unfold process, FlexModel.process.
    change (Flex (f_delay s - Nat.min n (f_delay s)) (f_src s) (f_tgt s) (f_time s) (f_sustained s) (f_curve s)
              (f_stage s) (f_level s) (f_now s) (f_until s) (f_released s) (f_free s))
      with (moved s (f_delay s - Nat.min n (f_delay s))).
    remember (Nat.min n (f_delay s)) as k eqn:K.
    replace (steps n s) with (steps (k + (n - k)) s) by (f_equal; lia). rewrite steps_app.
    rewrite (steps_delay k s) by lia. cbn [fst snd].
    destruct (Nat.eq_dec (n - k) 0) as [Z|Z].
    - rewrite Z. cbn [repeat steps fst snd FlexModel.loop].
      destruct (FlexModel.finished d _); reflexivity.
    - destruct (FlexModel.finished d (moved s (f_delay s - k))) eqn:Fi.
      + unfold FlexModel.finished in Fi. apply Nat.leb_le in Fi.
        rewrite (steps_finished (n - k)); [reflexivity|cbn [moved f_delay]; lia|exact Fi].
      + unfold FlexModel.finished in Fi. apply Nat.leb_gt in Fi.
        fold loop. rewrite loop_steps; [|lia|cbn [moved f_delay]; lia|exact F|exact Fi].
        destruct (steps (n - k) _); reflexivity.
  Qed.
  Lemma step_free s : f_free (snd (step s)) = f_free s.
  Proof.
    unfold step. destruct (f_delay s) as [|k]; [|reflexivity].
    destruct (finished s) eqn:Fi; [reflexivity|]. unfold finished, FlexModel.finished in Fi. apply Nat.leb_gt in Fi.
    destruct (transitions s) as [ok s1] eqn:T. destruct (transitions_spec _ _ _ T Fi) as (_ & A & _).
    destruct ok; cbn [snd at_ f_free]; exact A.
  Qed.
  Lemma steps_free n : forall s, f_free (snd (steps n s)) = f_free s.
  Proof.
    induction n as [|n IH]; intros s; cbn [steps]; [reflexivity|].
    pose proof (step_free s) as A. destruct (step s) as [x s1]. cbn [snd] in A.
    specialize (IH s1). destruct (steps n s1) as [o s2]. cbn [snd] in *. congruence.
  Qed.

  (** C71: cutting the frames into blocks changes nothing, from any state, for any rounding. *)
  Theorem C71_blocks l : forall s, f_free s = false -> blocks l s = process (fold_right Nat.add 0 l) s.
  Proof.
    induction l as [|n l IH]; intros s F.
    - cbn [fold_right]. rewrite process_steps by exact F. reflexivity.
    - cbn [fold_right]. unfold blocks. cbn [FlexModel.blocks]. fold process blocks.
      rewrite !process_steps by exact F. rewrite steps_app.
      pose proof (steps_free n s) as G. destruct (steps n s) as [a s1]. cbn [fst snd] in *.
      rewrite IH by congruence. rewrite process_steps by congruence. destruct (steps _ s1). reflexivity.
  Qed.

  (** What a listener expects.  The times of the frames of a stage: *)
  Fixpoint tick (j : nat) : Q := match j with O => 0%Q | S k => rnd (tick k + period) end.
  (** the value of a stage towards [p] that began at the level [l], after [j] frames; *)
  Definition valueOf (p : point) (l : Q) (j : nat) : Q :=
    let x := if Qeq_bool (pt_time p) 0 then 1%Q else rnd (tick j * rnd (1 / pt_time p)) in
    rnd (l + rnd (pt_curve p x * rnd (pt_level p - l))).
  (** its first [n] frames; *)
  Definition frames (p : point) (l : Q) (n : nat) : list Q := map (valueOf p l) (seq 1 n).
  (** a stage lasts until the time reaches that of the point; *)
  Definition lasts (p : point) (n : nat) : Prop :=
    (0 <= pt_time p <= tick n)%Q /\ forall j, j < n -> (tick j < pt_time p)%Q.
  (** it leaves the level of its last frame, or that of the point when it has none; *)
  Definition leaves (p : point) (l : Q) (n : nat) : Q :=
    match n with O => pt_level p | _ => valueOf p l n end.
  (** and the stages follow each other. *)
  Inductive plays : list point -> Q -> list Q -> Q -> Prop :=
  | plays_end l : plays [] l [] l
  | plays_point p ps l n out l' : lasts p n -> plays ps (leaves p l n) out l' ->
      plays (p :: ps) l (frames p l n ++ out) l'.

  Record entered (i : nat) (l : Q) (rel : bool) (s : flex) : Prop := Entered {
    en_delay : f_delay s = 0; en_free : f_free s = false; en_until : f_until s = None;
    en_released : f_released s = rel; en_stage : f_stage s = i;
    en_point : forall p, nth_error (d_points d) i = Some p ->
      f_src s = l /\ f_tgt s = pt_level p /\ f_time s = pt_time p /\
      f_sustained s = Nat.eqb i (d_sustain d) /\ f_curve s = pt_curve p /\ f_level s = l /\ f_now s = 0%Q }.
  Lemma advance_entered i s ok s1 : advanceTo i s = (ok, s1) -> f_delay s = 0 -> f_free s = false ->
    f_until s = None -> entered i (f_level s) (f_released s) s1.
  Proof.
    unfold advanceTo, FlexModel.advanceTo. intros A D F U. destruct (nth_error (d_points d) i) as [p|] eqn:N;
      injection A as <- <-; constructor; cbn [f_delay f_free f_until f_released f_stage f_src f_tgt f_time
        f_sustained f_curve f_level f_now]; auto; intros q Q; [|congruence].
    rewrite N in Q. injection Q as <-. repeat split.
  Qed.
  Definition levelAfter (p : point) (l : Q) (n : nat) : Q := match n with O => l | _ => valueOf p l n end.
  Lemma tick_waits i l rel s p n : entered i l rel s -> nth_error (d_points d) i = Some p ->
    (i = d_sustain d \/ (tick n < pt_time p)%Q) -> forall v, waits (at_ s (tick n) v None).
  Proof.
    intros E Np C v. destruct (en_point _ _ _ _ E p Np) as (_ & _ & E3 & E4 & _).
    unfold waits, at_. cbn [f_sustained f_free f_time f_now]. rewrite (en_free _ _ _ _ E), E3, E4, orb_false_r.
    destruct C as [->|C]; [rewrite Nat.eqb_refl; reflexivity|].
    destruct (Nat.eqb i (d_sustain d)); [reflexivity|]. cbn [negb andb].
    destruct (Qle_bool (pt_time p) (tick n)) eqn:B; [|reflexivity].
    apply Qle_bool_iff in B. exfalso. apply (Qlt_irrefl (tick n)). apply Qlt_le_trans with (pt_time p); assumption.
  Qed.
  Lemma entered_frames i l rel s p : entered i l rel s -> nth_error (d_points d) i = Some p ->
    (rel = true -> d_sustain d < i) -> forall n,
    (forall j, j < n -> i = d_sustain d \/ (tick j < pt_time p)%Q) ->
    steps n s = (frames p l n, at_ s (tick n) (levelAfter p l n) None).
  Proof.
    intros E Np R. destruct (en_point _ _ _ _ E p Np) as (E1 & E2 & E3 & E4 & E5 & E6 & E7).
    pose proof E as [D F U Re St _].
    induction n as [|n IH]; intros C.
    - cbn [steps tick levelAfter]. unfold frames. cbn [map seq]. f_equal.
      unfold at_. rewrite <- E7, <- E6, <- U at 1. destruct s; reflexivity.
    - replace (S n) with (n + 1) at 1 by lia. rewrite steps_app, IH by (intros j J; apply C; lia). cbn [fst snd].
      assert (Y : ready (at_ s (tick n) (levelAfter p l n) None)).
      { constructor; cbn [at_ f_stage f_until f_released].
        - rewrite St. apply nth_error_Some. congruence.
        - discriminate.
        - rewrite Re, St. exact R.
        - apply (tick_waits _ _ _ _ _ n E Np). apply C. lia. }
      assert (X : step (at_ s (tick n) (levelAfter p l n) None) =
        (valueOf p l (S n), at_ s (tick (S n)) (levelAfter p l (S n)) None)).
      { unfold step. cbn [at_ f_delay]. rewrite D.
        replace (finished (at_ s (tick n) (levelAfter p l n) None)) with false
          by (symmetry; unfold finished, FlexModel.finished; apply Nat.leb_gt; exact (rd_stage _ Y)).
        rewrite (ready_still _ Y). cbn [at_ f_now f_until less]. unfold value, levelAt.
        cbn [at_ f_curve f_src f_tgt f_time]. rewrite E1, E2, E3, E5. reflexivity. }
      cbn [steps]. rewrite X. cbn [fst snd]. unfold frames. f_equal.
      rewrite seq_S, map_app. reflexivity.
  Qed.

  Lemma pass_more fuel : forall s ok s1, passDone d fuel s = (ok, s1) ->
    f_stage s < size -> size < fuel + f_stage s -> passDone d (S fuel) s = (ok, s1).
  Proof.
    induction fuel as [|fuel IH]; intros s ok s1 F L M; [lia|].
    cbn [passDone] in F. remember (S fuel) as f1 eqn:Ef. cbn [passDone].
    destruct ((negb (f_sustained s) || f_free s) && Qle_bool (f_time s) (f_now s)); [|exact F].
    remember (if Qeq_bool (f_time s) 0 then _ else s) as s0 eqn:E0 in F.
    rewrite <- E0.
    assert (S0 : f_stage s0 = f_stage s) by (rewrite E0; destruct (Qeq_bool (f_time s) 0); reflexivity).
    clear E0. destruct (FlexModel.advanceTo d (S (f_stage s0)) s0) as [ok2 s2] eqn:A.
    destruct ok2; [|exact F]. apply advance_spec in A. destruct A as (A1 & _ & _ & _ & _ & A6).
    symmetry in A6. apply Nat.ltb_lt in A6. apply IH; [exact F|lia|lia].
  Qed.
  (** A state whose next step continues in another. *)
  Lemma same_step s t : step s = step t -> forall m, fst (steps m s) = fst (steps m t).
  Proof. intros S [|m]; [reflexivity|]. cbn [steps]. rewrite S. reflexivity. Qed.
  Lemma not_finished s : f_stage s < size -> finished s = false.
  Proof. intros L. unfold finished, FlexModel.finished. apply Nat.leb_gt. exact L. Qed.
  Lemma is_finished s : size <= f_stage s -> finished s = true.
  Proof. intros L. unfold finished, FlexModel.finished. apply Nat.leb_le. exact L. Qed.
  Lemma pass_transitions s : f_until s = None -> (f_released s = true -> d_sustain d < f_stage s) ->
    transitions s = passDone d (rounds d) s.
  Proof.
    intros U R. unfold transitions, FlexModel.transitions, checkRelease. rewrite U.
    destruct (f_released s); [|reflexivity]. unfold rounds at 1. cbn [fastForward].
    specialize (R eq_refl). destruct (Nat.leb_spec (f_stage s) (d_sustain d)); [lia|reflexivity].
  Qed.
  Lemma step_fail s s1 : f_delay s = 0 -> f_stage s < size -> transitions s = (false, s1) ->
    step s = step s1.
  Proof.
    intros D L T. destruct (transitions_spec _ _ _ T L) as (A1 & _ & _ & _ & A5). specialize (A5 eq_refl).
    unfold step. rewrite A1, D, (not_finished _ L), (is_finished _ A5), T. reflexivity.
  Qed.
  Lemma step_ok s t : f_delay s = 0 -> f_delay t = 0 -> f_stage s < size -> f_stage t < size ->
    transitions s = transitions t -> step s = step t.
  Proof.
    intros D D' L L' T. unfold step. rewrite D, D', (not_finished _ L), (not_finished _ L'), T. reflexivity.
  Qed.

  Lemma entered_end i l rel s p n : entered i l rel s -> nth_error (d_points d) i = Some p ->
    (rel = true -> d_sustain d < i) -> i <> d_sustain d -> lasts p n ->
    exists t, entered (S i) (leaves p l n) rel t /\
      forall m, fst (steps m (at_ s (tick n) (levelAfter p l n) None)) = fst (steps m t).
  Proof.
    intros E Np R Ns [[T0 T1] T2]. destruct (en_point _ _ _ _ E p Np) as (E1 & E2 & E3 & E4 & E5 & E6 & E7).
    destruct E as [D F U Re St _].
    remember (at_ s (tick n) (levelAfter p l n) None) as e eqn:Ee.
    assert (L : f_stage e < size).
    { rewrite Ee. cbn [at_ f_stage]. rewrite St. apply nth_error_Some. congruence. }
    assert (T : transitions e = passDone d (rounds d) e).
    { apply pass_transitions; rewrite Ee; cbn [at_ f_until f_released f_stage]; [reflexivity|].
      rewrite Re, St. exact R. }
    assert (G : (negb (f_sustained e) || f_free e) && Qle_bool (f_time e) (f_now e) = true).
    { rewrite Ee. cbn [at_ f_sustained f_free f_time f_now]. rewrite E4, E3.
      replace (Nat.eqb i (d_sustain d)) with false by (symmetry; apply Nat.eqb_neq; exact Ns).
      cbn [negb orb andb]. apply Qle_bool_iff. exact T1. }
    unfold rounds in T. remember (S (List.length (d_points d))) as f1 eqn:Ef. cbn [passDone] in T.
    rewrite G in T.
    remember (if Qeq_bool (f_time e) 0 then _ else e) as e1 eqn:E1' in T.
    assert (V : f_level e1 = leaves p l n /\ f_stage e1 = i /\ f_delay e1 = 0 /\ f_free e1 = false /\
      f_until e1 = None /\ f_released e1 = rel).
    { assert (Z : Qeq_bool (f_time e) 0 = Nat.eqb n 0).
      { rewrite Ee. cbn [at_ f_time]. rewrite E3. destruct n as [|n].
        - apply Qeq_bool_iff. cbn [tick] in T1. apply Qle_antisym; assumption.
        - cbn [Nat.eqb]. destruct (Qeq_bool (pt_time p) 0) eqn:B; [|reflexivity].
          apply Qeq_bool_iff in B. specialize (T2 0 ltac:(lia)). cbn [tick] in T2. rewrite B in T2.
          destruct (Qlt_irrefl _ T2). }
      rewrite Z in E1'. destruct n as [|n]; cbn [Nat.eqb] in E1'; rewrite E1', Ee;
        cbn [at_ f_level f_tgt f_stage f_delay f_free f_until f_released leaves levelAfter];
        repeat split; assumption. }
    destruct V as (V1 & V2 & V3 & V4 & V5 & V6).
    destruct (FlexModel.advanceTo d (S (f_stage e1)) e1) as [ok t] eqn:A.
    exists t. pose proof (advance_entered _ _ _ _ A V3 V4 V5) as En. rewrite V1, V6, V2 in En.
    split; [exact En|]. apply same_step.
    pose proof A as A'. apply advance_spec in A'. destruct A' as (A1 & _ & _ & _ & _ & A6).
    assert (De : f_delay e = 0) by (rewrite Ee; exact D).
    destruct ok.
    - symmetry in A6. apply Nat.ltb_lt in A6.
      apply step_ok; [exact De|exact (en_delay _ _ _ _ En)|exact L|lia|].
      rewrite T. rewrite (pass_transitions t).
      + unfold rounds. symmetry. rewrite <- Ef. destruct (passDone d f1 t) as [o x] eqn:P.
        apply pass_more; [exact P|lia|subst size; lia].
      + exact (en_until _ _ _ _ En).
      + rewrite (en_released _ _ _ _ En), A1, V2. intros Q. specialize (R Q). lia.
    - apply step_fail; assumption.
  Qed.

  Lemma skipn_cons {A} i (l : list A) x r : skipn i l = x :: r -> nth_error l i = Some x /\ skipn (S i) l = r.
  Proof.
    revert l. induction i as [|i IH]; intros [|y l] H; try discriminate.
    - cbn [skipn nth_error] in *. injection H as -> ->. split; reflexivity.
    - cbn [skipn] in H. apply IH in H. exact H.
  Qed.
  Lemma plays_steps ps l out l' : plays ps l out l' -> forall i rel s, entered i l rel s ->
    (rel = true -> d_sustain d < i) -> (rel = false -> i + List.length ps <= d_sustain d) ->
    firstn (List.length ps) (skipn i (d_points d)) = ps ->
    exists t, entered (i + List.length ps) l' rel t /\
      forall m, fst (steps (List.length out + m) s) = out ++ fst (steps m t).
  Proof.
    induction 1 as [l|p ps l n out l' La P IH]; intros i rel s E R1 R2 Fi.
    - exists s. cbn [List.length]. rewrite Nat.add_0_r. split; [exact E|]. intros m. reflexivity.
    - cbn [List.length] in *. destruct (skipn i (d_points d)) as [|q qs] eqn:Sk; [discriminate|].
      cbn [firstn] in Fi. injection Fi as -> Fi. destruct (skipn_cons _ _ _ _ Sk) as [Np Sk'].
      assert (Ns : i <> d_sustain d) by (destruct rel; [specialize (R1 eq_refl)|specialize (R2 eq_refl)]; lia).
      destruct (entered_end _ _ _ _ _ n E Np R1 Ns La) as (t & Et & St).
      destruct (IH (S i) rel t Et) as (u & Eu & Su).
      { intros Q. specialize (R1 Q). lia. }
      { intros Q. specialize (R2 Q). lia. }
      { rewrite Sk'. exact Fi. }
      exists u. replace (i + S (List.length ps)) with (S i + List.length ps) by lia. split; [exact Eu|].
      intros m. rewrite app_length. unfold frames at 1. rewrite map_length, seq_length.
      replace (n + List.length out + m) with (n + (List.length out + m)) by lia.
      rewrite steps_app.
      rewrite (entered_frames _ _ _ _ _ E Np R1 n) by (intros j J; right; apply (proj2 La); exact J).
      cbn [fst snd]. rewrite St, Su. rewrite app_assoc. reflexivity.
  Qed.

  Lemma start_entered delay : entered 0 0%Q false (moved (start d false delay) 0).
  Proof.
    unfold start, FlexModel.advanceTo. destruct (nth_error (d_points d) 0) as [p|] eqn:N; constructor;
      cbn [snd moved f_delay f_free f_until f_released f_stage f_src f_tgt f_time
        f_sustained f_curve f_level f_now]; auto; intros q Q; [|congruence].
    rewrite N in Q. injection Q as <-. repeat split.
  Qed.
  Lemma start_delay delay : f_delay (start d false delay) = delay /\ f_free (start d false delay) = false.
  Proof. unfold start, FlexModel.advanceTo. destruct (nth_error (d_points d) 0); split; reflexivity. Qed.
  Lemma start_steps delay m : fst (steps (delay + m) (start d false delay)) =
    repeat 0%Q delay ++ fst (steps m (moved (start d false delay) 0)).
  Proof.
    rewrite steps_app, steps_delay by (rewrite (proj1 (start_delay delay)); lia). cbn [fst snd].
    rewrite (proj1 (start_delay delay)), Nat.sub_diag. reflexivity.
  Qed.

  (** C72: silence during the delay, the points before the sustained one, and then its stage. *)
  Theorem C72_attack delay p out l : nth_error (d_points d) (d_sustain d) = Some p ->
    plays (firstn (d_sustain d) (d_points d)) 0 out l -> forall m,
    fst (process (delay + (List.length out + m)) (start d false delay)) =
      repeat 0%Q delay ++ out ++ frames p l m.
  Proof.
    intros Np P m. rewrite process_steps by apply start_delay. rewrite start_steps.
    assert (Ln : List.length (firstn (d_sustain d) (d_points d)) = d_sustain d).
    { apply firstn_length_le. apply Nat.lt_le_incl. apply nth_error_Some. congruence. }
    destruct (plays_steps _ _ _ _ P 0 false _ (start_entered delay)) as (t & Et & St).
    { discriminate. } { intros _. lia. } { cbn [skipn]. rewrite Ln. reflexivity. }
    rewrite St. rewrite Ln, Nat.add_0_l in Et.
    rewrite (entered_frames _ _ _ _ _ Et Np ltac:(discriminate) m) by (intros; left; reflexivity).
    reflexivity.
  Qed.
  (** Without a sustained point all of them are played, and then there is silence. *)
  Theorem C72_unsustained delay out l : List.length (d_points d) <= d_sustain d ->
    plays (d_points d) 0 out l -> forall m,
    fst (process (delay + (List.length out + m)) (start d false delay)) =
      repeat 0%Q delay ++ out ++ repeat 0%Q m.
  Proof.
    intros Sz P m. rewrite process_steps by apply start_delay. rewrite start_steps.
    destruct (plays_steps _ _ _ _ P 0 false _ (start_entered delay)) as (t & Et & St).
    { discriminate. } { intros _. lia. } { cbn [skipn]. apply firstn_all. }
    rewrite St. rewrite steps_finished; [reflexivity|exact (en_delay _ _ _ _ Et)|].
    rewrite (en_stage _ _ _ _ Et). subst size. lia.
  Qed.

  (** Releasing. *)
  Definition setu (u : option nat) (s : flex) : flex := at_ s (f_now s) (f_level s) u.
  Lemma advance_setu u n s : advanceTo n (setu u s) = (fst (advanceTo n s), setu u (snd (advanceTo n s))).
  Proof. unfold advanceTo, FlexModel.advanceTo. destruct (nth_error (d_points d) n); reflexivity. Qed.
  Lemma pass_setu u fuel : forall s, passDone d fuel (setu u s) =
    (fst (passDone d fuel s), setu u (snd (passDone d fuel s))).
  Proof.
    induction fuel as [|fuel IH]; intros s; [reflexivity|]. cbn [passDone].
    change (f_sustained (setu u s)) with (f_sustained s). change (f_free (setu u s)) with (f_free s).
    change (f_time (setu u s)) with (f_time s). change (f_now (setu u s)) with (f_now s).
    destruct ((negb (f_sustained s) || f_free s) && Qle_bool (f_time s) (f_now s)); [|reflexivity].
    remember (if Qeq_bool (f_time s) 0 then
              Flex (f_delay s) (f_src s) (f_tgt s) (f_time s) (f_sustained s) (f_curve s)
                (f_stage s) (f_tgt s) (f_now s) (f_until s) (f_released s) (f_free s)
            else s) as s0 eqn:E0.
    match goal with |- context [FlexModel.advanceTo d (S (f_stage ?y)) ?y] =>
      lazymatch y with s0 => fail | _ => replace y with (setu u s0) by
        (rewrite E0; destruct (Qeq_bool (f_time s) 0); reflexivity) end end.
    change (f_stage (setu u s0)) with (f_stage s0).
    fold advanceTo. rewrite advance_setu. destruct (advanceTo (S (f_stage s0)) s0) as [ok s2]. cbn [fst snd].
    destruct ok; [apply IH|reflexivity].
  Qed.
  (** The states before a release. *)
  Record before (s : flex) : Prop := Before {
    bf_delay : f_delay s = 0; bf_free : f_free s = false; bf_until : f_until s = None;
    bf_released : f_released s = false; bf_stage : f_stage s <= d_sustain d;
    bf_sustained : f_stage s < size -> f_sustained s = Nat.eqb (f_stage s) (d_sustain d) }.
  Lemma pass_before fuel : forall s, before s -> f_stage s < size -> d_sustain d < size ->
    before (snd (passDone d fuel s)).
  Proof.
    induction fuel as [|fuel IH]; intros s B L Z; [exact B|]. cbn [passDone].
    destruct ((negb (f_sustained s) || f_free s) && Qle_bool (f_time s) (f_now s)) eqn:C; [|exact B].
    remember (if Qeq_bool (f_time s) 0 then
              Flex (f_delay s) (f_src s) (f_tgt s) (f_time s) (f_sustained s) (f_curve s)
                (f_stage s) (f_tgt s) (f_now s) (f_until s) (f_released s) (f_free s)
            else s) as s0 eqn:E0.
    destruct B as [B1 B2 B3 B4 B5 B6]. rewrite B2, orb_false_r, (B6 L) in C.
    assert (Q : f_stage s0 = f_stage s /\ f_delay s0 = 0 /\ f_free s0 = false /\ f_until s0 = None /\ f_released s0 = false).
    { rewrite E0; destruct (Qeq_bool (f_time s) 0); repeat split; assumption. }
    destruct Q as (Q1 & Q2 & Q3 & Q4 & Q5). clear E0.
    destruct (Nat.eqb_spec (f_stage s) (d_sustain d)) as [Y|Y]; [discriminate|].
    destruct (FlexModel.advanceTo d (S (f_stage s0)) s0) as [ok s2] eqn:A.
    assert (B' : before s2).
    { pose proof (advance_entered _ _ _ _ A Q2 Q3 Q4) as [D1 D2 D3 D4 D5 D6]. constructor; try congruence.
      - lia.
      - intros X. rewrite D5 in *. destruct (nth_error (d_points d) (S (f_stage s0))) as [p|] eqn:N.
        + destruct (D6 p eq_refl) as (_ & _ & _ & D & _). exact D.
        + apply nth_error_None in N. change size with (List.length (d_points d)) in *. lia. }
    pose proof A as A'. apply advance_spec in A'. destruct A' as (A1 & _ & _ & _ & _ & A6).
    destruct ok; [|exact B']. symmetry in A6. apply Nat.ltb_lt in A6. apply IH; [exact B'|lia|exact Z].
  Qed.
  Lemma transitions_before s : before s -> forall u, u <> Some 0 ->
    transitions (setu u s) = (fst (passDone d (rounds d) s), setu u (snd (passDone d (rounds d) s))).
  Proof.
    intros B u U. unfold transitions, FlexModel.transitions.
    assert (C : checkRelease (setu u s) = setu u s).
    { unfold checkRelease. cbn [setu at_ f_until]. destruct u as [[|k]|]; [congruence|reflexivity|reflexivity]. }
    rewrite C. change (f_released (setu u s)) with (f_released s). rewrite (bf_released _ B). apply pass_setu.
  Qed.
  Lemma setu_none s : f_until s = None -> setu None s = s.
  Proof. intros U. unfold setu. rewrite <- U. apply at_same. Qed.
  Lemma step_before s : before s -> d_sustain d < size ->
    before (snd (step s)) /\ f_level (snd (step s)) = fst (step s) /\
    forall r, step (setu (Some (S r)) s) = (fst (step s), setu (Some r) (snd (step s))).
  Proof.
    intros B Z. assert (L : f_stage s < size) by (pose proof (bf_stage _ B); lia).
    pose proof (transitions_before s B None ltac:(discriminate)) as T.
    rewrite (setu_none s (bf_until _ B)) in T.
    assert (Bp : before (snd (passDone d (rounds d) s))) by (apply pass_before; assumption).
    rewrite (setu_none _ (bf_until _ Bp)) in T.
    destruct (passDone d (rounds d) s) as [ok s1] eqn:P. cbn [fst snd] in *.
    destruct (transitions_spec _ _ _ T L) as (_ & _ & _ & _ & A5).
    assert (Ok : ok = true).
    { destruct ok; [reflexivity|]. specialize (A5 eq_refl). pose proof (bf_stage _ Bp). lia. }
    subst ok. destruct Bp as [B1 B2 B3 B4 B5 B6].
    assert (E : step s = (value s1 (rnd (f_now s1 + period)),
      at_ s1 (rnd (f_now s1 + period)) (value s1 (rnd (f_now s1 + period))) None)).
    { unfold step. rewrite (bf_delay _ B), (not_finished _ L), T, B3. reflexivity. }
    rewrite E. cbn [fst snd at_ f_level]. split; [constructor; first [reflexivity|assumption]|]. split; [reflexivity|].
    intros r. unfold step. change (f_delay (setu (Some (S r)) s)) with (f_delay s). rewrite (bf_delay _ B).
    rewrite not_finished by exact L. rewrite (transitions_before s B) by discriminate. rewrite P. cbn [fst snd].
    unfold setu, value. cbn [at_ f_now f_level f_until less f_delay f_src f_tgt f_time f_sustained f_curve f_stage f_released f_free].
    rewrite Nat.sub_succ, Nat.sub_0_r. reflexivity.
  Qed.
  Lemma steps_before n : forall s, before s -> d_sustain d < size ->
    before (snd (steps n s)) /\ f_level (snd (steps n s)) = last (fst (steps n s)) (f_level s) /\
    steps n (setu (Some n) s) = (fst (steps n s), setu (Some 0) (snd (steps n s))).
  Proof.
    induction n as [|n IH]; intros s B Z.
    - cbn [steps fst snd last]. repeat split; try apply B; reflexivity.
    - cbn [steps]. destruct (step_before s B Z) as (B1 & B2 & B3). rewrite (B3 n).
      destruct (step s) as [x s1]. cbn [fst snd] in *. destruct (IH s1 B1 Z) as (C1 & C2 & C3). rewrite C3.
      destruct (steps n s1) as [o s2]. cbn [fst snd] in *. split; [exact C1|]. split; [|reflexivity].
      rewrite C2, B2. destruct o as [|y o]; [reflexivity|]. cbn [last]. clear.
      revert y. induction o as [|z o IH]; intros y; [reflexivity|]. cbn [last] in *. apply IH.
  Qed.

  Lemma forward_entered fuel : forall s t, fastForward d fuel s = (true, t) -> f_delay s = 0 -> f_free s = false ->
    f_until s = None -> f_released s = true -> f_stage s <= d_sustain d ->
    entered (S (d_sustain d)) (f_level s) true t.
  Proof.
    induction fuel as [|fuel IH]; intros s t F D Fr U R L; [discriminate|]. cbn [fastForward] in F.
    destruct (Nat.leb_spec (f_stage s) (d_sustain d)); [|lia].
    destruct (FlexModel.advanceTo d (S (f_stage s)) s) as [ok s2] eqn:A. destruct ok; [|discriminate].
    pose proof (advance_entered _ _ _ _ A D Fr U) as E. rewrite R in E.
    pose proof A as A'. apply advance_spec in A'. destruct A' as (A1 & _ & _ & _ & _ & A6).
    symmetry in A6. apply Nat.ltb_lt in A6.
    assert (Lv : f_level s2 = f_level s).
    { destruct (nth_error (d_points d) (S (f_stage s))) as [p|] eqn:N.
      - destruct (en_point _ _ _ _ E p N) as (_ & _ & _ & _ & _ & V & _). exact V.
      - apply nth_error_None in N. change size with (List.length (d_points d)) in *. lia. }
    destruct (Nat.eq_dec (S (f_stage s)) (S (d_sustain d))) as [Q|Q].
    - assert (t = s2).
      { destruct fuel; [discriminate|]. cbn [fastForward] in F.
        destruct (Nat.leb_spec (f_stage s2) (d_sustain d)); [lia|]. congruence. }
      subst t. rewrite <- Q. exact E.
    - rewrite <- Lv. apply (IH s2 t F); [apply E|apply E|apply E|apply E|lia].
  Qed.
  Lemma released_steps s ps out l' : before s -> d_sustain d < size -> ps = skipn (S (d_sustain d)) (d_points d) ->
    plays ps (f_level s) out l' -> forall m,
    fst (steps (List.length out + m) (setu (Some 0) s)) = out ++ repeat 0%Q m.
  Proof.
    intros B Z Eps P m. remember (setu (Some 0) s) as e eqn:Ee.
    assert (L : f_stage e < size) by (rewrite Ee; pose proof (bf_stage _ B); cbn [setu at_ f_stage]; lia).
    assert (De : f_delay e = 0) by (rewrite Ee; exact (bf_delay _ B)).
    remember (Flex (f_delay s) (f_src s) (f_tgt s) (f_time s) (f_sustained s) (f_curve s)
          (f_stage s) (f_level s) (f_now s) None true (f_free s)) as c eqn:Ec.
    assert (T : transitions e = let '(ok, t) := fastForward d (rounds d) c in
       if ok then passDone d (rounds d) t else (false, t)).
    { unfold transitions, FlexModel.transitions. rewrite Ee. unfold checkRelease, setu at 1.
      cbn [at_ f_until]. unfold setu. cbn [at_ f_delay f_src f_tgt f_time f_sustained f_curve f_stage f_level f_now f_free f_released].
      rewrite <- Ec. replace (f_released c) with true by (rewrite Ec; reflexivity). reflexivity. }
    destruct (fastForward d (rounds d) c) as [ok t] eqn:F.
    assert (Lc : f_stage c < size) by (rewrite Ec; pose proof (bf_stage _ B); cbn [f_stage]; lia).
    destruct (forward_spec _ _ _ _ F Lc) as (K & _ & K1 & K2); [unfold rounds; change size with (List.length (d_points d)) in *; lia|].
    destruct ok.
    - specialize (K1 eq_refl).
      assert (E : entered (S (d_sustain d)) (f_level s) true t).
      { replace (f_level s) with (f_level c) by (rewrite Ec; reflexivity).
        apply (forward_entered _ _ _ F); rewrite Ec; cbn [f_delay f_free f_until f_released f_stage]; try apply B; reflexivity. }
      assert (Sm : forall k, fst (steps k e) = fst (steps k t)).
      { apply same_step. apply step_ok; [exact De|apply E|exact L|lia|].
        rewrite T, pass_transitions; [reflexivity|apply E|intros _; lia]. }
      rewrite Sm. destruct (plays_steps _ _ _ _ P _ _ _ E) as (u & Eu & Su).
      { lia. } { discriminate. } { rewrite <- Eps. apply firstn_all. }
      rewrite Su, steps_finished; [reflexivity|apply Eu|]. rewrite (en_stage _ _ _ _ Eu), Eps, skipn_length.
      change size with (List.length (d_points d)) in *. lia.
    - specialize (K2 eq_refl).
      assert (Sm : forall k, fst (steps k e) = fst (steps k t)).
      { apply same_step. apply step_fail; assumption. }
      rewrite Sm. rewrite steps_finished; [|destruct K as [K _ _ _]; rewrite K, Ec; exact (bf_delay _ B)|exact K2].
      assert (Np : ps = []).
      { destruct (Nat.le_gt_cases size (S (d_sustain d))) as [G|G].
        - rewrite Eps. apply skipn_all2. exact G.
        - exfalso.
          assert (H : forall fuel c t, fastForward d fuel c = (false, t) -> f_stage c < size -> size < fuel + f_stage c ->
            f_stage c <= S (d_sustain d) -> S (d_sustain d) < size -> False).
          { induction fuel as [|fuel IH]; intros x y F1 L1 L2 L3 L4; [lia|]. cbn [fastForward] in F1.
            destruct (Nat.leb_spec (f_stage x) (d_sustain d)); [|discriminate].
            destruct (FlexModel.advanceTo d (S (f_stage x)) x) as [o z] eqn:A.
            apply advance_spec in A. destruct A as (A1 & _ & _ & _ & _ & A6).
            destruct o; [apply (IH _ _ F1); lia|]. symmetry in A6. apply Nat.ltb_ge in A6. lia. }
          apply (H _ _ _ F Lc); [unfold rounds; change size with (List.length (d_points d)) in *; lia| |exact G].
          rewrite Ec. cbn [f_stage]. pose proof (bf_stage _ B). lia. }
      rewrite Np in P. inversion P; subst. reflexivity.
  Qed.

  (** After the release, the points that follow the sustained one, from the level reached, and
      then silence for ever. *)
  Theorem C72_release delay n r out l' : d_sustain d < List.length (d_points d) ->
    let attack := fst (process (delay + n + r) (start d false delay)) in
    let s := snd (process (delay + n) (start d false delay)) in
    plays (skipn (S (d_sustain d)) (d_points d)) (last attack 0%Q) out l' -> forall m,
    fst (process (delay + n) (start d false delay)) ++ fst (process (r + (List.length out + m)) (release r s)) =
      attack ++ out ++ repeat 0%Q m.
  Proof.
    intros Z. cbv zeta. rewrite !process_steps by apply start_delay. intros P m.
    remember (start d false delay) as s0 eqn:E0.
    assert (B0 : before (moved s0 0)).
    { rewrite E0. pose proof (start_entered delay) as [D1 D2 D3 D4 D5 D6]. constructor; try assumption.
      - rewrite D5. lia.
      - intros Q. rewrite D5 in *. destruct (nth_error (d_points d) 0) as [p|] eqn:N.
        + destruct (D6 p eq_refl) as (_ & _ & _ & D & _). exact D.
        + apply nth_error_None in N. change size with (List.length (d_points d)) in *. lia. }
    assert (Fr : f_free s0 = false) by (rewrite E0; apply start_delay).
    assert (Sd : steps (delay + n) s0 = (repeat 0%Q delay ++ fst (steps n (moved s0 0)), snd (steps n (moved s0 0)))).
    { rewrite steps_app, steps_delay by (rewrite E0, (proj1 (start_delay delay)); lia). cbn [fst snd].
      rewrite E0, (proj1 (start_delay delay)), Nat.sub_diag. reflexivity. }
    rewrite (steps_app (delay + n) r) in P |- *. rewrite Sd in P |- *. cbn [fst snd] in *.
    destruct (steps_before n _ B0 Z) as (B1 & V1 & _).
    remember (snd (steps n (moved s0 0))) as s1 eqn:E1.
    destruct (steps_before r _ B1 Z) as (B2 & V2 & U2).
    rewrite process_steps by exact (bf_free _ B1).
    change (release r s1) with (setu (Some r) s1).
    rewrite steps_app, U2. cbn [fst snd].
    assert (Lv : last ((repeat 0%Q delay ++ fst (steps n (moved s0 0))) ++ fst (steps r s1)) 0%Q = f_level (snd (steps r s1))).
    { assert (La : forall (a b : list Q) x, last (a ++ b) x = last b (last a x)).
      { intros a b x. revert b. induction a as [|y a IH] using rev_ind; intros b; [reflexivity|].
        rewrite <- app_assoc, IH. rewrite last_last. clear. destruct b as [|z b]; [reflexivity|].
        cbn [app last]. revert z. induction b as [|w b IH]; intros z; [reflexivity|]. cbn [last] in *. apply IH. }
      rewrite !La, V2, V1.
      replace (f_level (moved s0 0)) with 0%Q.
      - f_equal. f_equal. clear. destruct delay; [reflexivity|]. 
        induction delay as [|k IH]; [reflexivity|]. exact IH.
      - rewrite E0. unfold start, FlexModel.advanceTo. destruct (nth_error (d_points d) 0); reflexivity. }
    rewrite Lv in P.
    rewrite (released_steps _ _ _ _ B2 Z eq_refl P). rewrite <- !app_assoc. reflexivity.
  Qed.

  (** A release that is taken back before it starts was none. *)
  Theorem C72_cancel_pending s k : f_until s = None -> forall m, process m (cancelRelease d (release k s)) = process m s.
  Proof. intros U m. destruct s as [a b c d0 e g h i j u r fr]. cbn [FlexModel.f_until] in U. subst u. reflexivity. Qed.

  (** A release that is taken back leaves the level where it is. *)
  Theorem C72_cancel s : f_delay s = 0 -> f_free s = false -> f_until s = None -> f_released s = true ->
    d_sustain d < List.length (d_points d) ->
    (forall x y, x == y -> rnd x == rnd y)%Q -> (rnd 0 == 0)%Q -> (rnd (f_level s) == f_level s)%Q ->
    forall m, Forall (fun x => x == f_level s)%Q (fst (process m (cancelRelease d s))).
  Proof.
    intros D F U R Z Rq R0 Rl m. unfold cancelRelease. rewrite U, R.
    remember (Flex (f_delay s) (f_src s) (f_tgt s) (f_time s) (f_sustained s) (f_curve s)
       (f_stage s) (f_level s) (f_now s) None false (f_free s)) as s0 eqn:E0.
    destruct (FlexModel.advanceTo d (d_sustain d) s0) as [ok s1] eqn:A. cbn [snd].
    assert (E : entered (d_sustain d) (f_level s) false s1).
    { pose proof (advance_entered _ _ _ _ A) as H. rewrite E0 in H. cbn [f_delay f_free f_until f_level f_released] in H.
      apply H; auto. }
    destruct (nth_error (d_points d) (d_sustain d)) as [p|] eqn:N; [|apply nth_error_None in N; lia].
    destruct (en_point _ _ _ _ E p N) as (E1 & E2 & E3 & E4 & E5 & E6 & E7).
    destruct E as [D1 D2 D3 D4 D5 _].
    remember (Flex (f_delay s1) (f_src s1) (f_level s1) (f_time s1) (f_sustained s1) (f_curve s1)
            (f_stage s1) (f_level s1) (f_now s1) (f_until s1) (f_released s1) (f_free s1)) as h eqn:Eh.
    rewrite process_steps by (rewrite Eh; exact D2).
    assert (G : forall m time level, Forall (fun x => x == f_level s)%Q (fst (steps m (at_ h time level None)))).
    { clear m. induction m as [|m IH]; intros time level; cbn [steps]; [constructor|].
      assert (Y : ready (at_ h time level None)).
      { rewrite Eh. constructor; cbn [at_ f_stage f_until f_released].
        - rewrite D5. exact Z.
        - discriminate.
        - congruence.
        - unfold waits. cbn [at_ f_sustained f_free f_time f_now]. rewrite E4, Nat.eqb_refl, D2. reflexivity. }
      assert (X : step (at_ h time level None) = (value h (rnd (time + period)),
        at_ h (rnd (time + period)) (value h (rnd (time + period))) None)).
      { unfold step. cbn [at_ f_delay]. replace (f_delay h) with 0 by (rewrite Eh; symmetry; exact D1).
        rewrite (not_finished _ (rd_stage _ Y)), (ready_still _ Y). reflexivity. }
      rewrite X. specialize (IH (rnd (time + period)) (value h (rnd (time + period)))).
      destruct (steps m _) as [o s2]. cbn [fst] in *. constructor; [|exact IH].
      unfold value, levelAt. rewrite Eh. cbn [f_curve f_src f_tgt f_time]. rewrite E1, E6.
      transitivity (rnd (f_level s)); [|exact Rl]. apply Rq.
      transitivity (f_level s + 0)%Q; [|ring]. apply Qplus_comp; [reflexivity|].
      transitivity (rnd 0%Q); [|exact R0]. apply Rq. transitivity ((if Qeq_bool (f_time s1) 0 then f_curve s1 1%Q
        else f_curve s1 (rnd (rnd (time + period) * rnd (1 / f_time s1)))) * 0)%Q; [|ring].
      apply Qmult_comp; [destruct (Qeq_bool (f_time s1) 0); reflexivity|].
      transitivity (rnd 0%Q); [apply Rq; ring|exact R0]. }
    specialize (G m (f_now h) (f_level h)). replace (at_ h (f_now h) (f_level h) None) with h in G; [exact G|].
    rewrite Eh. cbn [f_now f_level]. unfold at_. cbn [f_delay f_src f_tgt f_time f_sustained f_curve f_stage f_released f_free].
    rewrite D3. reflexivity.
  Qed.
End FlexProofs.

(** In exact arithmetic. *)
Section Exact.
  Variable period : Q.
  Variable d : desc.
  Let id (x : Q) : Q := x.

  Lemma tick_exact j : (tick id period j == inject_Z (Z.of_nat j) * period)%Q.
  Proof.
    induction j as [|j IH]; [cbn [tick]; ring|]. cbn [tick]. unfold id at 1. rewrite IH.
    rewrite Nat2Z.inj_succ. unfold Z.succ. rewrite inject_Z_plus. ring.
  Qed.
  (** A stage lasts the smallest number of frames that reaches its time. *)
  Theorem C72_length p : (0 < period)%Q -> (0 <= pt_time p)%Q ->
    lasts id period p (Z.to_nat (Qceiling (pt_time p / period))).
  Proof.
    intros P T. set (c := Qceiling (pt_time p / period)).
    assert (C0 : (pt_time p <= inject_Z c * period)%Q).
    { assert (H : (pt_time p / period <= inject_Z c)%Q) by apply Qle_ceiling.
      apply (Qmult_le_compat_r _ _ period) in H; [|apply Qlt_le_weak; exact P].
      assert (E : (pt_time p / period * period == pt_time p)%Q).
      { field. intros Q. rewrite Q in P. destruct (Qlt_irrefl _ P). }
      rewrite E in H. exact H. }
    assert (Cp : (0 <= c)%Z).
    { apply Z.le_ngt. intros N. assert (H : (inject_Z c < inject_Z 0)%Q) by (rewrite <- Zlt_Qlt; exact N).
      assert (G : (inject_Z c * period < 0 * period)%Q) by (apply Qmult_lt_compat_r; [exact P|exact H]).
      rewrite Qmult_0_l in G. apply (Qlt_irrefl 0). apply Qle_lt_trans with (pt_time p); [exact T|].
      apply Qle_lt_trans with (inject_Z c * period)%Q; assumption. }
    split; [split; [exact T|]|].
    - rewrite tick_exact, Z2Nat.id by exact Cp. exact C0.
    - intros j J. rewrite tick_exact. assert (L : (Z.of_nat j <= c - 1)%Z) by lia.
      assert (H : (inject_Z (c - 1) < pt_time p / period)%Q) by apply Qceiling_lt.
      apply Qle_lt_trans with (inject_Z (c - 1) * period)%Q.
      + apply Qmult_le_compat_r; [rewrite <- Zle_Qle; exact L|apply Qlt_le_weak; exact P].
      + apply (Qmult_lt_compat_r _ _ period) in H; [|exact P].
        assert (E : (pt_time p / period * period == pt_time p)%Q).
        { field. intros Q. rewrite Q in P. destruct (Qlt_irrefl _ P). }
        rewrite E in H. exact H.
  Qed.
  (** Hence points with times that are not negative can always be played. *)
  Theorem C72_total ps : (0 < period)%Q -> Forall (fun p => 0 <= pt_time p)%Q ps ->
    forall l, exists out l', plays id period ps l out l'.
  Proof.
    intros P. induction 1 as [|p ps T _ IH]; intros l; [exists [], l; constructor|].
    pose proof (C72_length p P T) as L.
    destruct (IH (leaves id period p l (Z.to_nat (Qceiling (pt_time p / period))))) as (out & l' & H).
    eexists _, l'. econstructor; [exact L|exact H].
  Qed.
  (** A stage ends at the level of its point, and a sustained one stays there. *)
  Theorem C72_reaches p l n : (forall x, 1 <= x -> pt_curve p x == 1)%Q -> (0 <= pt_time p)%Q ->
    (pt_time p <= tick id period n)%Q -> (leaves id period p l n == pt_level p)%Q /\
    (valueOf id period p l n == pt_level p)%Q.
  Proof.
    intros C T0 T1.
    assert (V : (valueOf id period p l n == pt_level p)%Q).
    { unfold valueOf. unfold id at 1 2 3.
      match goal with |- context [pt_curve p ?x] => assert (H : (pt_curve p x == 1)%Q) end.
      { apply C. destruct (Qeq_bool (pt_time p) 0) eqn:B; [apply Qle_refl|].
        change (id (1 / pt_time p)) with (1 / pt_time p)%Q. assert (N : ~ (pt_time p == 0)%Q) by (intros Q; apply Qeq_bool_iff in Q; congruence).
        assert (Pp : (0 < pt_time p)%Q) by (apply Qle_lteq in T0; destruct T0 as [H|H]; [exact H|destruct N; symmetry; exact H]).
        setoid_replace 1%Q with (pt_time p * (1 / pt_time p))%Q at 1 by (field; exact N).
        apply Qmult_le_compat_r; [exact T1|]. apply Qle_shift_div_l; [exact Pp|]. lra. }
      rewrite H. unfold id. ring. }
    split; [|exact V]. destruct n; [reflexivity|exact V].
  Qed.

  (** The levels stay between those of the points and silence. *)
  Variables lo hi : Q.
  Definition within (x : Q) : Prop := (lo <= x <= hi)%Q.
  Definition shaped (p : point) : Prop := within (pt_level p) /\ forall x, (0 <= pt_curve p x <= 1)%Q.
  Inductive act := Run (n : nat) | Release (r : nat) | Cancel.
  Fixpoint run (l : list act) (s : flex) : list Q :=
    match l with
    | [] => []
    | Run n :: l' => fst (process id period d n s) ++ run l' (snd (process id period d n s))
    | Release r :: l' => run l' (release r s)
    | Cancel :: l' => run l' (cancelRelease d s)
    end.
  Record sane (s : flex) : Prop := Sane {
    sn_src : within (f_src s); sn_tgt : within (f_tgt s); sn_level : within (f_level s);
    sn_curve : forall x, (0 <= f_curve s x <= 1)%Q; sn_free : f_free s = false }.
  Hypothesis points : Forall shaped (d_points d).
  Lemma advance_sane n s : sane s -> sane (snd (advanceTo d n s)).
  Proof.
    intros [S1 S2 S3 S4 S5]. unfold advanceTo. destruct (nth_error (d_points d) n) as [p|] eqn:N; constructor;
      cbn [snd f_src f_tgt f_level f_curve f_free]; try assumption;
      apply nth_error_In in N; rewrite Forall_forall in points; apply points; exact N.
  Qed.
  Lemma forward_sane fuel : forall s, sane s -> sane (snd (fastForward d fuel s)).
  Proof.
    induction fuel as [|fuel IH]; intros s H; [exact H|]. cbn [fastForward].
    destruct (Nat.leb (f_stage s) (d_sustain d)); [|exact H].
    pose proof (advance_sane (S (f_stage s)) s H) as A. destruct (advanceTo d (S (f_stage s)) s) as [[] s1]; [|exact A].
    apply IH. exact A.
  Qed.
  Lemma pass_sane fuel : forall s, sane s -> sane (snd (passDone d fuel s)).
  Proof.
    induction fuel as [|fuel IH]; intros s H; [exact H|]. cbn [passDone].
    destruct ((negb (f_sustained s) || f_free s) && Qle_bool (f_time s) (f_now s)); [|exact H].
    remember (if Qeq_bool (f_time s) 0 then
              Flex (f_delay s) (f_src s) (f_tgt s) (f_time s) (f_sustained s) (f_curve s)
                (f_stage s) (f_tgt s) (f_now s) (f_until s) (f_released s) (f_free s)
            else s) as s0 eqn:E0.
    assert (H0 : sane s0).
    { rewrite E0. destruct (Qeq_bool (f_time s) 0); [|exact H]. destruct H. constructor; assumption. }
    pose proof (advance_sane (S (f_stage s0)) s0 H0) as A.
    destruct (advanceTo d (S (f_stage s0)) s0) as [[] s1]; [|exact A]. apply IH. exact A.
  Qed.
  Lemma transitions_sane s : sane s -> sane (snd (transitions d s)).
  Proof.
    intros H. unfold transitions.
    assert (C : sane (checkRelease s)).
    { unfold checkRelease. destruct (f_until s) as [[|k]|]; [|exact H|exact H]. destruct H. constructor; assumption. }
    assert (F : sane (snd (if f_released (checkRelease s) then fastForward d (rounds d) (checkRelease s) else (true, checkRelease s)))).
    { destruct (f_released (checkRelease s)); [apply forward_sane|]; exact C. }
    destruct (if f_released (checkRelease s) then fastForward d (rounds d) (checkRelease s) else (true, checkRelease s))
      as [[] s1]; [apply pass_sane|]; exact F.
  Qed.
  Hypothesis silence : within 0%Q.
  Lemma mix_within a b c : within a -> within b -> (0 <= c <= 1)%Q -> within (a + c * (b - a))%Q.
  Proof. unfold within. intros A B C. split; nra. Qed.
  Lemma step_sane s : sane s -> within (fst (step id period d s)) /\ sane (snd (step id period d s)).
  Proof.
    intros H. unfold step. destruct (f_delay s) as [|k].
    - destruct (finished d s); [split; [exact silence|exact H]|].
      pose proof (transitions_sane s H) as T. destruct (transitions d s) as [[] s1]; cbn [fst snd] in *.
      + assert (V : within (value id s1 (id (f_now s1 + period)))).
        { unfold value, levelAt. unfold id at 1 2 3. apply mix_within; apply T. }
        split; [exact V|]. destruct T. constructor; try assumption.
      + split; [exact silence|exact T].
    - split; [exact silence|]. destruct H. constructor; assumption.
  Qed.
  Lemma steps_sane n : forall s, sane s -> Forall within (fst (steps id period d n s)) /\ sane (snd (steps id period d n s)).
  Proof.
    induction n as [|n IH]; intros s H; cbn [steps]; [split; [constructor|exact H]|].
    destruct (step_sane s H) as [V H1]. destruct (step id period d s) as [x s1]. cbn [fst snd] in *.
    destruct (IH s1 H1) as [W H2]. destruct (steps id period d n s1) as [o s2]. cbn [fst snd] in *.
    split; [constructor; assumption|exact H2].
  Qed.
  Theorem C72_range delay l : Forall within (run l (start d false delay)).
  Proof.
    assert (G : forall l s, sane s -> Forall within (run l s)).
    { clear l. induction l as [|a l IH]; intros s H; [constructor|]. destruct a as [n|r|]; cbn [run].
      - rewrite process_steps by apply H. destruct (steps_sane n s H) as [A B]. apply Forall_app.
        split; [exact A|apply IH; exact B].
      - apply IH. destruct H. constructor; assumption.
      - apply IH. unfold cancelRelease. destruct (f_until s) eqn:U; [destruct H; constructor; assumption|].
        destruct (f_released s); [|exact H].
        remember (Flex (f_delay s) (f_src s) (f_tgt s) (f_time s) (f_sustained s) (f_curve s)
          (f_stage s) (f_level s) (f_now s) None false (f_free s)) as s0 eqn:E0.
        assert (H0 : sane s0) by (rewrite E0; destruct H; constructor; assumption).
        pose proof (advance_sane (d_sustain d) s0 H0) as A. destruct (advanceTo d (d_sustain d) s0) as [ok s1].
        cbn [snd] in *. destruct A as [A1 A2 A3 A4 A5]. constructor; [exact A1|exact A3|exact A3|exact A4|exact A5]. }
    apply G. apply advance_sane. constructor; cbn [f_src f_tgt f_level f_curve f_free]; try exact silence; try reflexivity.
    intros x. cbn. split; discriminate.
  Qed.
End Exact.

(** Examples and what does not hold.  One frame per second. *)
Definition linear (x : Q) : Q := if Qle_bool x 0 then 0 else if Qle_bool 1 x then 1 else x.
Definition ex_desc : desc :=
  Desc 2 [Point 0 (1#4) linear; Point 2 1 linear; Point 1 (1#2) linear; Point 2 0 linear].
Definition plain (x : Q) : Q := x.
Definition shown (l : list Q) : list Q := map Qred l.

Example C71_ex : blocks plain 1 ex_desc [1; 2; 0; 3] (start ex_desc false 1) = process plain 1 ex_desc 6 (start ex_desc false 1) /\
  shown (fst (process plain 1 ex_desc 6 (start ex_desc false 1))) = [0; 5#8; 1; 1#2; 1#2; 1#2]%Q.
Proof. split; [exact (C71_blocks plain 1 ex_desc [1; 2; 0; 3] (start ex_desc false 1) eq_refl)|vm_compute; reflexivity]. Qed.
(** A free-running envelope leaves its sustained stage only between two blocks. *)
Theorem C71_free_running_refuted :
  ~ (forall d s l, fst (blocks plain 1 d l s) = fst (process plain 1 d (fold_right Nat.add 0 l) s)).
Proof.
  intros H. specialize (H (Desc 0 [Point 1 1 linear; Point 1 0 linear]) (start (Desc 0 [Point 1 1 linear; Point 1 0 linear]) true 0) [2; 2]).
  vm_compute in H. discriminate.
Qed.

Example C72_attack_ex : exists out l, plays plain 1 (firstn 2 (d_points ex_desc)) 0 out l /\ shown out = [5#8; 1]%Q /\
  shown (fst (process plain 1 ex_desc 5 (start ex_desc false 1))) = [0; 5#8; 1; 1#2; 1#2]%Q.
Proof.
  eexists _, _. split.
  - apply (plays_point plain 1 _ _ _ 0); [split; [split; discriminate|intros j J; lia]|].
    apply (plays_point plain 1 _ _ _ 2); [|apply plays_end].
    split; [split; discriminate|]. intros [|[|j]] J; [reflexivity|reflexivity|lia].
  - vm_compute. split; reflexivity.
Qed.
Example C72_release_ex : let s := snd (process plain 1 ex_desc 3 (start ex_desc false 1)) in
  shown (fst (process plain 1 ex_desc 6 (release 2 s))) = [1#2; 1#2; 1#4; 0; 0; 0]%Q.
Proof. vm_compute. reflexivity. Qed.
Example C72_unsustained_ex :
  shown (fst (process plain 1 (Desc 9 (d_points ex_desc)) 8 (start (Desc 9 (d_points ex_desc)) false 1))) =
    [0; 5#8; 1; 1#2; 1#4; 0; 0; 0]%Q.
Proof. vm_compute. reflexivity. Qed.
Example C72_cancel_ex : let s := snd (process plain 1 ex_desc 3 (release 2 (snd (process plain 1 ex_desc 3 (start ex_desc false 1))))) in
  f_released s = true /\ f_until s = None /\
  shown (fst (process plain 1 ex_desc 3 (cancelRelease ex_desc s))) = [1#4; 1#4; 1#4]%Q.
Proof. vm_compute. repeat split. Qed.
Example C72_range_ex : Forall (shaped 0 1) (d_points ex_desc) /\
  shown (run 1 ex_desc [Run 3; Release 1; Run 2; Cancel; Run 2] (start ex_desc false 1)) =
    [0; 5#8; 1; 1#2; 1#4; 1#4; 1#4]%Q.
Proof.
  split; [|vm_compute; reflexivity].
  assert (L : forall x, (0 <= linear x <= 1)%Q).
  { intros x. unfold linear. destruct (Qle_bool x 0) eqn:A; [split; discriminate|].
    destruct (Qle_bool 1 x) eqn:B; [split; discriminate|].
    split; apply Qlt_le_weak; apply Qnot_le_lt; intros C; apply Qle_bool_iff in C; congruence. }
  repeat constructor; try discriminate; apply L.
Qed.
Example C72_reaches_ex : (forall x, 1 <= x -> linear x == 1)%Q /\
  Qred (valueOf plain 1 (Point 2 1 linear) (1#4) 2) = 1%Q.
Proof.
  split; [|vm_compute; reflexivity]. intros x X. unfold linear. destruct (Qle_bool x 0) eqn:A.
  - apply Qle_bool_iff in A. exfalso. lra.
  - apply Qle_bool_iff in X. rewrite X. reflexivity.
Qed.

(** A point whose time is below zero (the controllers may take it there) is passed without its
    level; with a time of zero its level is taken. *)
Theorem C72_negative_refuted : exists t, (t < 0)%Q /\
  let held t := let d := Desc 2 [Point t 1 linear; Point 2 0 linear; Point 1 0 linear] in
    shown (fst (process plain 1 d 2 (start d false 0))) in
  held 0%Q = [1#2; 0]%Q /\ held t = [0; 0]%Q.
Proof. exists (-(1))%Q. vm_compute. repeat split. Qed.
(** A release that falls within the delay comes late: its frames are counted from the end of the
    delay. *)
Theorem C72_delayed_release_refuted : exists d delay r n, r < delay /\
  Forall (fun p => pt_level p = 0%Q) (skipn (S (d_sustain d)) (d_points d)) /\
  shown (fst (process plain 1 d n (release r (start d false delay)))) = [0; 0; 0; 1; 1; 0]%Q.
Proof.
  exists (Desc 0 [Point 0 1 linear; Point 1 0 linear]), 3, 2, 6. split; [lia|].
  split; [repeat constructor|vm_compute; reflexivity].
Qed.
(** Taking back the release of an envelope that has ended brings back its last level. *)
Theorem C72_ended_cancel_refuted : exists d s, finished d s = true /\
  shown (fst (process plain 1 d 3 s)) = [0; 0; 0]%Q /\
  shown (fst (process plain 1 d 3 (cancelRelease d s))) = [1#2; 1#2; 1#2]%Q.
Proof.
  exists (Desc 0 [Point 0 1 linear; Point 1 (1#2) linear]).
  eexists (snd (process plain 1 (Desc 0 [Point 0 1 linear; Point 1 (1#2) linear]) 3
    (release 0 (start (Desc 0 [Point 0 1 linear; Point 1 (1#2) linear]) false 0)))).
  vm_compute. repeat split.
Qed.
