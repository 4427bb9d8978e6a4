(** What the voice stealers take (C73). *)
From Coq Require Import ZArith QArith List Bool Lia Permutation Sorted.
Import ListNotations.
From Verif Require Import MidiModel LayerModel VoiceModel VoiceExamples.
Local Open Scope Z_scope.

(** ** The algorithms that look at the voices once *)
Lemma generic_fold cond better l : forall a n,
  fold_left (generic_step cond better) l (a, n) =
  (fold_left (fun b v => match b with None => Some v | Some c => if better v c then Some v else Some c end) (filter cond l) a,
   n + Z.of_nat (length (filter cond l))).
Proof.
  induction l as [|v l IH]; intros a n; cbn [fold_left filter]; [rewrite Z.add_0_r; reflexivity|].
  unfold generic_step at 2. destruct (cond v); cbn [fst snd].
  - rewrite IH. cbn [fold_left length]. f_equal. lia.
  - apply IH.
Qed.
Definition pick (better : nat -> nat -> bool) (l : list nat) : option nat :=
  fold_left (fun b v => match b with None => Some v | Some c => if better v c then Some v else Some c end) l None.
Lemma generic_pick cond better l p : genericPolyphonyCheck cond better l p =
  if p <=? Z.of_nat (length (filter cond l)) then pick better (filter cond l) else None.
Proof. unfold genericPolyphonyCheck. rewrite generic_fold. reflexivity. Qed.
Lemma pick_first l : pick (fun _ _ => false) l = hd_error l.
Proof.
  destruct l as [|v l]; [reflexivity|]. cbn [pick fold_left hd_error]. unfold pick. cbn [fold_left].
  induction l as [|w l IH]; [reflexivity|exact IH].
Qed.
Lemma pick_oldest (f : nat -> Z) l : l <> [] -> exists pre c post, l = pre ++ c :: post /\
  pick (fun v c => f c <? f v) l = Some c /\ Forall (fun i => f i < f c) pre /\ Forall (fun i => f i <= f c) post.
Proof.
  induction l as [|v l IH] using rev_ind; [intros N; now elim N|]. intros _.
  unfold pick. rewrite fold_left_app. cbn [fold_left]. fold (pick (fun v c => f c <? f v) l).
  destruct l as [|w l].
  - exists [], v, []. repeat split; constructor.
  - destruct IH as (pre & c & post & E & Hp & H1 & H2); [discriminate|]. rewrite Hp, E.
    destruct (Z.ltb_spec (f c) (f v)).
    + exists (pre ++ c :: post), v, []. refine (conj eq_refl (conj eq_refl (conj _ _))); [|constructor].
      apply Forall_app. split; [eapply Forall_impl; [|exact H1]; cbv beta; lia|].
      constructor; [lia|]. eapply Forall_impl; [|exact H2]. cbv beta. lia.
    + exists pre, c, (post ++ [v]). rewrite <- app_assoc. refine (conj eq_refl (conj eq_refl (conj H1 _))).
      apply Forall_app. split; [exact H2|]. constructor; [lia|constructor].
Qed.

(** C73: nothing is taken below the limit; at the limit, "first" takes the earliest voice, "oldest" the
    earliest of those with the largest age. *)
Theorem C73_below I m cond l p : Z.of_nat (length (filter cond l)) < p -> steal I m cond l p = Some None.
Proof.
  intros H. unfold steal. rewrite !generic_pick. destruct (Z.leb_spec p (Z.of_nat (length (filter cond l)))); [lia|].
  destruct (i_stealer I); reflexivity.
Qed.
Theorem C73_first I m cond l p : i_stealer I = SFirst -> p <= Z.of_nat (length (filter cond l)) ->
  forall c, steal I m cond l p = Some (Some c) <-> exists pre post, l = pre ++ c :: post /\ cond c = true /\ forallb (fun i => negb (cond i)) pre = true.
Proof.
  intros S H c. unfold steal. rewrite S, generic_pick. destruct (Z.leb_spec p (Z.of_nat (length (filter cond l)))); [|lia].
  rewrite pick_first. clear - l. split.
  - intros E. injection E as E. induction l as [|v l IH]; [discriminate|]. cbn [filter] in E. destruct (cond v) eqn:C.
    + injection E as ->. exists [], l. repeat split. exact C.
    + destruct (IH E) as (pre & post & -> & H1 & H2). exists (v :: pre), post. repeat split; [exact H1|]. cbn [forallb]. rewrite C. exact H2.
  - intros (pre & post & -> & H1 & H2). f_equal. induction pre as [|v pre IH]; cbn [app filter].
    + rewrite H1. reflexivity.
    + cbn [forallb] in H2. apply andb_prop in H2. destruct H2 as [H2 H3]. apply negb_true_iff in H2. rewrite H2. exact (IH H3).
Qed.
Theorem C73_oldest I m cond l p : i_stealer I = SOldest -> 0 < Z.of_nat (length (filter cond l)) -> p <= Z.of_nat (length (filter cond l)) ->
  exists pre c post, steal I m cond l p = Some (Some c) /\ filter cond l = pre ++ c :: post /\
    Forall (fun i => age m i < age m c) pre /\ Forall (fun i => age m i <= age m c) post.
Proof.
  intros S N H. unfold steal. rewrite S, generic_pick. destruct (Z.leb_spec p (Z.of_nat (length (filter cond l)))); [|lia].
  destruct (pick_oldest (age m) (filter cond l)) as (pre & c & post & E & Hp & H1 & H2).
  - intros E. rewrite E in N. cbn in N. lia.
  - exists pre, c, post. rewrite Hp. repeat split; assumption.
Qed.

(** ** Envelope and age *)
Lemma insert_perm lt x l : Permutation (x :: l) (insert_by lt x l).
Proof.
  induction l as [|y l IH]; [reflexivity|]. cbn [insert_by]. destruct (lt x y); [reflexivity|].
  rewrite perm_swap. constructor. exact IH.
Qed.
Lemma sort_perm lt l : Permutation l (sort_by lt l).
Proof.
  unfold sort_by. assert (G : forall l a, Permutation (l ++ a) (fold_left (fun acc x => insert_by lt x acc) l a)).
  { clear. induction l as [|x l IH]; intros a; cbn [fold_left app]; [reflexivity|].
    rewrite <- IH, <- (insert_perm lt x a). apply Permutation_middle. }
  specialize (G l []). rewrite app_nil_r in G. exact G.
Qed.
Definition older (m : vman) (a b : nat) : Prop := age m b <= age m a.
Lemma ordering_age m a b : voiceOrdering m a b = true -> age m b <= age m a.
Proof. unfold voiceOrdering. cbv zeta. destruct (Z.eqb_spec (age m a) (age m b)); cbn [negb]; [lia|]. intros H. apply Z.ltb_lt in H. lia. Qed.
Lemma ordering_not m a b : voiceOrdering m a b = false -> age m a <= age m b.
Proof.
  unfold voiceOrdering. cbv zeta. destruct (Z.eqb_spec (age m a) (age m b)); cbn [negb]; [lia|]. intros H. apply Z.ltb_ge in H. exact H.
Qed.
Lemma insert_sorted m x l : StronglySorted (older m) l -> StronglySorted (older m) (insert_by (voiceOrdering m) x l).
Proof.
  induction 1 as [|y l S IH F]; [repeat constructor|]. cbn [insert_by]. destruct (voiceOrdering m x y) eqn:E.
  - apply ordering_age in E. constructor; [constructor; assumption|]. constructor; [exact E|].
    eapply Forall_impl; [|exact F]. unfold older. intros. lia.
  - apply ordering_not in E. constructor; [exact IH|].
    apply (Permutation_Forall (insert_perm (voiceOrdering m) x l)). constructor; [exact E|exact F].
Qed.
Lemma sort_sorted m l : StronglySorted (older m) (sort_by (voiceOrdering m) l).
Proof.
  unfold sort_by. assert (G : forall l a, StronglySorted (older m) a -> StronglySorted (older m) (fold_left (fun acc x => insert_by (voiceOrdering m) x acc) l a)).
  { clear. induction l as [|x l IH]; intros a H; [exact H|]. cbn [fold_left]. apply IH, insert_sorted, H. }
  apply G. constructor.
Qed.

Local Open Scope Q_scope.
Definition total_power (m : vman) (l : list nat) : Q := fold_right (fun i p => power m i + p) 0 l.
Lemma total_perm m l l' : Permutation l l' -> total_power m l == total_power m l'.
Proof.
  induction 1 as [|x l l' P IH|x y l|l l' l'' P IH P' IH']; cbn [total_power fold_right]; try reflexivity.
  - unfold total_power in IH. rewrite IH. reflexivity.
  - ring.
  - rewrite IH. exact IH'.
Qed.
Lemma sum_total m l : fold_left (fun p i => p + power m i) l 0 == total_power m l.
Proof.
  assert (G : forall l a, fold_left (fun p i => p + power m i) l a == a + total_power m l).
  { clear. induction l as [|x l IH]; intros a; cbn [fold_left total_power fold_right]; [ring|]. rewrite IH. unfold total_power. ring. }
  rewrite G. ring.
Qed.
(** A voice is quiet among [l] when all voices of its event are below half the mean power of [l]. *)
Definition quiet_among (m : vman) (l : list nat) (i : nat) : Prop := exists ring, ring_of i m = Some ring /\
  0 < total_power m l /\ Forall (fun j => power m j * (2 * inject_Z (Z.of_nat (length l))) < total_power m l) ring.

Lemma max_lt m ring : forall a t, fold_left (fun p i => if Qle_bool p (power m i) then power m i else p) ring a < t <->
  a < t /\ Forall (fun j => power m j < t) ring.
Proof.
  induction ring as [|j ring IH]; intros a t; cbn [fold_left].
  - split; [intros H; split; [exact H|constructor]|intros [H _]; exact H].
  - rewrite IH. split.
    + intros [H1 H2]. destruct (Qle_bool a (power m j)) eqn:E.
      * apply Qle_bool_iff in E. split; [eapply Qle_lt_trans; eassumption|]. constructor; assumption.
      * assert (power m j < a) by (apply Qnot_le_lt; intros X; apply Qle_bool_iff in X; congruence).
        split; [exact H1|]. constructor; [eapply Qlt_trans; eassumption|exact H2].
    + intros [H1 H2]. inversion H2; subst. split; [|assumption]. destruct (Qle_bool a (power m j)); assumption.
Qed.
Lemma Qlt_bool_iff a b : Qlt_bool a b = true <-> a < b.
Proof.
  unfold Qlt_bool. rewrite negb_true_iff. split; intros H.
  - apply Qnot_le_lt. intros X. apply Qle_bool_iff in X. congruence.
  - apply not_true_is_false. intros X. apply Qle_bool_iff in X. apply Qlt_not_le in H. exact (H X).
Qed.
Lemma threshold_quiet m l s ring i : s == total_power m l -> l <> [] -> ring_of i m = Some ring ->
  (Qlt_bool (fold_left (fun p i => if Qle_bool p (power m i) then power m i else p) ring 0)
    (s / inject_Z (Z.of_nat (length l)) * (1 # 2)) = true <-> quiet_among m l i).
Proof.
  intros Hs N R. rewrite Qlt_bool_iff, max_lt.
  set (n := inject_Z (Z.of_nat (length l))).
  assert (Pn : 0 < n). { unfold n. change 0 with (inject_Z 0). rewrite <- Zlt_Qlt. destruct l; [now elim N|cbn [length]; lia]. }
  assert (P2 : 0 < 2 * n) by (setoid_replace (2 * n) with (n + n) by ring; setoid_replace 0 with (0 + 0) by ring; apply Qplus_lt_le_compat; [exact Pn|apply Qlt_le_weak; exact Pn]).
  assert (Ht : s / n * (1#2) == total_power m l / (2 * n)).
  { rewrite Hs. field. intros X. rewrite X in Pn. discriminate. }
  assert (K : forall x, x < s / n * (1#2) <-> x * (2 * n) < total_power m l).
  { intros x. rewrite Ht. split; intros H.
    - apply (Qmult_lt_r _ _ (2 * n) P2) in H. setoid_replace (total_power m l / (2 * n) * (2 * n)) with (total_power m l) in H by (field; intros X; rewrite X in Pn; discriminate). exact H.
    - apply Qlt_shift_div_l; assumption. }
  split.
  - intros [H1 H2]. exists ring. refine (conj R (conj _ _)).
    + apply K in H1. rewrite Qmult_0_l in H1. exact H1.
    + eapply Forall_impl; [|exact H2]. intros j Hj. apply K. exact Hj.
  - intros (ring' & R' & H1 & H2). rewrite R in R'. injection R' as <-. split.
    + apply K. rewrite Qmult_0_l. exact H1.
    + eapply Forall_impl; [|exact H2]. intros j Hj. apply K. exact Hj.
Qed.
Local Open Scope Z_scope.
Lemma drop_while_split f l : exists a, l = a ++ drop_while f l /\ Forall (fun x => f x = true) a.
Proof.
  induction l as [|x l [a [E H]]]; [exists []; split; [reflexivity|constructor]|]. cbn [drop_while]. destruct (f x) eqn:F.
  - exists (x :: a). split; [cbn [app]; f_equal; exact E|constructor; assumption].
  - exists []. split; [reflexivity|constructor].
Qed.
Lemma sorted_app_r {A} (R : A -> A -> Prop) a b : StronglySorted R (a ++ b) -> StronglySorted R b.
Proof. induction a as [|x a IH]; [auto|]. cbn [app]. intros H. inversion H; subst. auto. Qed.

Lemma steal_loop_spec m front thr limit (Quiet : nat -> Prop) :
  forall l fuel, (length l <= fuel)%nat -> StronglySorted (older m) l ->
  (forall i, In i l -> exists ring, ring_of i m = Some ring /\
     (Qlt_bool (fold_left (fun p i => if Qle_bool p (power m i) then power m i else p) ring 0%Q) thr = true <-> Quiet i)) ->
  (forall a b, In a l -> In b l -> sisterVoices m a b = true -> Quiet b -> Quiet a) ->
  exists c, steal_loop fuel m front thr limit l = Some c /\
    ((In c l /\ Quiet c /\ limit < age m c /\ forall i, In i l -> Quiet i -> age m i <= age m c) \/
     (c = front /\ forall i, In i l -> limit < age m i -> ~ Quiet i)).
Proof.
  intros l fuel. revert l. induction fuel as [|fuel IH]; intros l Len Srt Rings Sis.
  - destruct l as [|x l]; [|cbn [length] in Len; lia]. exists front. split; [reflexivity|]. right. split; [reflexivity|]. intros i [].
  - destruct l as [|ref rest]; [exists front; split; [reflexivity|]; right; split; [reflexivity|intros i []]|].
    cbn [steal_loop]. inversion Srt as [|? ? Srt' Fo]; subst.
    destruct (Z.leb_spec (age m ref) limit) as [Hl|Hl].
    + exists front. split; [reflexivity|]. right. split; [reflexivity|]. intros i [->|Hi] Ha; [lia|].
      rewrite Forall_forall in Fo. specialize (Fo i Hi). unfold older in Fo. lia.
    + destruct (Rings ref (or_introl eq_refl)) as (ring & Rr & Rq). rewrite Rr.
      destruct (Qlt_bool (fold_left (fun p i => if Qle_bool p (power m i) then power m i else p) ring 0%Q) thr) eqn:Eq.
      * exists ref. split; [reflexivity|]. left. refine (conj (or_introl eq_refl) (conj (proj1 Rq eq_refl) (conj Hl _))).
        intros i [->|Hi] _; [lia|]. rewrite Forall_forall in Fo. exact (Fo i Hi).
      * assert (Nq : ~ Quiet ref) by (intros X; apply Rq in X; congruence).
        destruct (drop_while_split (sisterVoices m ref) rest) as (a & E & Ha).
        set (d := drop_while (sisterVoices m ref) rest) in *.
        assert (Inc : forall i, In i d -> In i rest) by (intros i Hi; rewrite E; apply in_or_app; right; exact Hi).
        assert (Na : forall i, In i a -> ~ Quiet i).
        { intros i Hi X. rewrite Forall_forall in Ha. apply Nq. apply (Sis ref i); [left; reflexivity|right; rewrite E; apply in_or_app; left; exact Hi|apply Ha; exact Hi|exact X]. }
        destruct (IH d) as (c & Ec & Hc).
        -- assert (length rest = length a + length d)%nat by (rewrite <- app_length, <- E; reflexivity). cbn [length] in Len. lia.
        -- rewrite E in Srt'. apply sorted_app_r in Srt'. exact Srt'.
        -- intros i Hi. apply Rings. right. apply Inc. exact Hi.
        -- intros x y Hx Hy. apply Sis; right; apply Inc; assumption.
        -- exists c. split; [exact Ec|]. destruct Hc as [(H1 & H2 & H3 & H4)|[H1 H2]].
           ++ left. refine (conj (or_intror (Inc c H1)) (conj H2 (conj H3 _))). intros i [->|Hi] Qi; [elim (Nq Qi)|].
              rewrite E in Hi. apply in_app_or in Hi. destruct Hi as [Hi|Hi]; [elim (Na i Hi Qi)|exact (H4 i Hi Qi)].
           ++ right. split; [exact H1|]. intros i [->|Hi] Ai; [exact Nq|].
              rewrite E in Hi. apply in_app_or in Hi. destruct Hi as [Hi|Hi]; [exact (Na i Hi)|exact (H2 i Hi Ai)].
Qed.

(** C73: "envelope and age" takes the oldest quiet voice, if one is older than half the age of the oldest voice;
    else a voice of the largest age. *)
Theorem C73_envelope I m cond l p : i_stealer I = SEnvelope -> 0 < Z.of_nat (length (filter cond l)) -> p <= Z.of_nat (length (filter cond l)) ->
  (forall i, In i l -> cond i = true -> ring_of i m <> None) ->
  (forall a b, In a l -> In b l -> cond a = true -> cond b = true -> sisterVoices m a b = true ->
     quiet_among m (filter cond l) b -> quiet_among m (filter cond l) a) ->
  exists c oldest, steal I m cond l p = Some (Some c) /\ In c l /\ cond c = true /\ In oldest l /\ cond oldest = true /\
    (forall i, In i l -> cond i = true -> age m i <= age m oldest) /\
    ((quiet_among m (filter cond l) c /\ Z.quot (age m oldest) 2 < age m c /\
      (forall i, In i l -> cond i = true -> quiet_among m (filter cond l) i -> age m i <= age m c)) \/
     (c = oldest /\ forall i, In i l -> cond i = true -> Z.quot (age m oldest) 2 < age m i -> ~ quiet_among m (filter cond l) i)).
Proof.
  intros S N H Rings Sis. unfold steal. rewrite S. set (t := filter cond l) in *.
  destruct (Z.leb_spec p (Z.of_nat (length t))); [|lia]. unfold stealEnvelopeAndAge. cbv zeta.
  pose proof (sort_perm (voiceOrdering m) t) as Pm. pose proof (sort_sorted m t) as Srt.
  remember (sort_by (voiceOrdering m) t) as q eqn:Eq. clear Eq.
  assert (Mem : forall i, In i q <-> In i l /\ cond i = true).
  { intros i. unfold t in Pm. rewrite <- filter_In. split; apply Permutation_in; [symmetry|]; exact Pm. }
  assert (Len : length q = length t) by (symmetry; apply Permutation_length; exact Pm).
  destruct q as [|front q']; [cbn in Len; lia|]. rewrite Len.
  set (thr := (fold_left (fun p i => p + power m i)%Q (front :: q') 0%Q / inject_Z (Z.of_nat (length t)) * (1 # 2))%Q).
  assert (Ht : fold_left (fun p i => p + power m i)%Q (front :: q') 0%Q == total_power m t).
  { rewrite sum_total. apply total_perm. symmetry. exact Pm. }
  destruct (steal_loop_spec m front thr (Z.quot (age m front) 2) (quiet_among m t) (front :: q') (length t)) as (c & Ec & Hc).
  - rewrite Len. lia.
  - exact Srt.
  - intros i Hi. apply Mem in Hi. destruct Hi as [Hi Ci]. specialize (Rings i Hi Ci). destruct (ring_of i m) as [ring|] eqn:Er; [|now elim Rings].
    exists ring. split; [reflexivity|]. apply threshold_quiet; [exact Ht|intros X; rewrite X in N; cbn in N; lia|exact Er].
  - intros a b Ha Hb. apply Mem in Ha, Hb. apply Sis; tauto.
  - exists c, front. rewrite Ec. cbn [option_map].
    assert (Fr : In front l /\ cond front = true) by (apply Mem; left; reflexivity).
    assert (Old : forall i, In i l -> cond i = true -> age m i <= age m front).
    { intros i Hi Ci. assert (Hq : In i (front :: q')) by (apply Mem; tauto). destruct Hq as [->|Hq]; [lia|].
      inversion Srt as [|? ? _ Fo]; subst. rewrite Forall_forall in Fo. exact (Fo i Hq). }
    assert (Cl : In c l /\ cond c = true).
    { destruct Hc as [(H1 & _)|[-> _]]; [apply Mem; exact H1|exact Fr]. }
    refine (conj eq_refl (conj (proj1 Cl) (conj (proj2 Cl) (conj (proj1 Fr) (conj (proj2 Fr) (conj Old _)))))).
    destruct Hc as [(_ & H2 & H3 & H4)|[H1 H2]].
    + left. refine (conj H2 (conj H3 _)). intros i Hi Ci. apply H4. apply Mem. tauto.
    + right. split; [exact H1|]. intros i Hi Ci. apply H2. apply Mem. tauto.
Qed.

(** The age counts frames from the block after the one in which the voice started. *)
Theorem C73_age first d blocks t : 0 <= d <= first ->
  t_age (fold_left (fun t n => v_age n t) (first :: blocks) (VTime 0 (Some d) t)) = fold_right Z.add 0 blocks.
Proof.
  intros D. cbn [fold_left]. unfold v_age at 2. cbn [t_age t_trigger t_stamp]. rewrite Z.min_r by lia.
  assert (G : forall l a, t_age (fold_left (fun t n => v_age n t) l (VTime a None t)) = a + fold_right Z.add 0 l).
  { clear. induction l as [|n l IH]; intros a; cbn [fold_left fold_right]; [cbn; lia|].
    unfold v_age at 2. cbn [t_trigger t_age t_stamp]. rewrite IH. lia. }
  apply G.
Qed.
(** So two notes of the same block are equally old, however far apart they started. *)
Theorem C73_same_block_refuted : exists first d d' t t', 0 <= d < d' /\ d' <= first /\
  forall blocks, t_age (fold_left (fun t n => v_age n t) (first :: blocks) (VTime 0 (Some d) t)) =
    t_age (fold_left (fun t n => v_age n t) (first :: blocks) (VTime 0 (Some d') t')).
Proof.
  exists 1024, 0, 1000, 0, 1000. refine (conj _ (conj _ _)); [lia|lia|]. intros blocks. rewrite !C73_age by lia. reflexivity.
Qed.
(** With a limit of zero and no voice, "envelope and age" takes the front of an empty list. *)
Theorem C73_empty_refuted : exists I, i_stealer I = SEnvelope /\ i_glimit I 0 = 0 /\ xrun I 1 4 [xop (ONoteOn 0 60 1%Q)] = None.
Proof. exists (xinstr SEnvelope 0 256 [(xa, xi)]). vm_compute. repeat split. Qed.

(** ** Examples: four notes, with the ages and powers of this table. *)
Definition xv (i : nat) : voice :=
  nth i (map (fun p : Z * Z * Q => let '(n, a, w) := p in
           Voice VPlaying (Some O) (TE ENoteOn n 1%Q) false (Hold false false SoUp) (VTime a None 0) (Amp false 0 w) (Z.to_nat (n - 60)) (Z.to_nat (n - 60)))
     [(60, 500, 1%Q); (61, 900, (4#5)%Q); (62, 700, (1#10)%Q); (63, 900, 1%Q)]) (fresh_voice i).
Definition xm : vman := VMan 4 xv [0; 1; 2; 3]%nat (fun _ => []) (fun _ => 0) (fun _ => []) 4.
Example C73_ex :
  let i3 s := steal (xinstr s 256 256 [(xa, xi)]) xm (live xm) (m_active xm) in
  i3 SFirst 4 = Some (Some 0%nat) /\ i3 SOldest 4 = Some (Some 1%nat) /\ i3 SEnvelope 4 = Some (Some 2%nat) /\
  i3 SFirst 5 = Some None /\ i3 SOldest 5 = Some None /\ i3 SEnvelope 5 = Some None.
Proof. vm_compute. repeat split. Qed.
(** The hypotheses of C73_envelope hold there. *)
Example C73_envelope_ex :
  (forall i, In i (m_active xm) -> live xm i = true -> ring_of i xm <> None) /\
  (forall a b, In a (m_active xm) -> In b (m_active xm) -> live xm a = true -> live xm b = true -> sisterVoices xm a b = true ->
     quiet_among xm (filter (live xm) (m_active xm)) b -> quiet_among xm (filter (live xm) (m_active xm)) a) /\
  quiet_among xm (filter (live xm) (m_active xm)) 2.
Proof.
  refine (conj _ (conj _ _)).
  - intros i Hi _. repeat (destruct Hi as [<-|Hi]; [vm_compute; discriminate|]). destruct Hi.
  - intros a b Ha Hb _ _ Hs. repeat (destruct Ha as [<-|Ha]; [repeat (destruct Hb as [<-|Hb]; [solve [auto]||(vm_compute in Hs; discriminate)|]); destruct Hb|]). destruct Ha.
  - exists [2%nat]. refine (conj _ (conj _ _)); [vm_compute; reflexivity..|]. repeat constructor.
Qed.

(** The age of a voice from its start on, also when the first blocks are shorter than the delay of its event. *)
Lemma age_run l : forall t, t_trigger t = None -> t_age (fold_left (fun t n => v_age n t) l t) = t_age t + fold_right Z.add 0 l.
Proof.
  induction l as [|n l IH]; intros t T; cbn [fold_left fold_right]; [lia|].
  rewrite IH; unfold v_age; rewrite T; [cbn [t_age]; lia|reflexivity].
Qed.
Theorem C73_start_age I md si k d ev i m m' first blocks :
  v_state (m_voice m i) = VIdle -> t_age (v_time (m_voice m i)) = 0 -> v_start I md si k d ev i m = (m', true) ->
  t_age (fold_left (fun t n => v_age n t) (first :: blocks) (v_time (m_voice m' i))) =
    (if first <? Z.max d 0 then first - Z.max d 0 else 0) + fold_right Z.add 0 blocks.
Proof.
  intros S A E. unfold v_start in E. cbv zeta in E.
  destruct (vi_disabled (i_info I k)); [discriminate|]. destruct (negb (si_file si)); [discriminate|]. injection E as <-.
  assert (P : forall m i v, m_voice (put m i v) i = v) by (intros; cbn [put m_voice]; unfold updn; rewrite Nat.eqb_refl; reflexivity).
  rewrite P. cbn [set_amp set_hold v_time].
  match goal with |- context [switchState I i VPlaying ?x] => remember x as m2 eqn:E2 end.
  assert (V : v_time (m_voice m2 i) = VTime 0 (Some (Z.max d 0)) (u32 (internalClock md + (Z.max d 0 + si_delay si))) /\ v_state (m_voice m2 i) = VIdle /\ v_region (m_voice m2 i) = Some k).
  { rewrite E2, P. cbn [set_time v_time v_state v_region]. rewrite A. repeat split. exact S. }
  destruct V as (V1 & V2 & V3).
  assert (W : v_time (m_voice (switchState I i VPlaying m2) i) = v_time (m_voice m2 i)).
  { unfold switchState. rewrite V2. cbn [state_eqb]. unfold listener. rewrite P. cbn [set_state v_region]. rewrite V3. cbn [lists m_voice]. rewrite P. reflexivity. }
  rewrite W, V1. cbn [fold_left]. rewrite age_run by reflexivity. unfold v_age. cbn [t_age t_trigger]. f_equal.
  destruct (Z.ltb_spec first (Z.max d 0)); lia.
Qed.
Example C73_start_age_ex : forall m', v_start (xinstr SOldest 256 256 [(xa, xi)]) midi_init (SInfo 0 true 0) 0 100 (TE ENoteOn 60 1%Q) 4 xm = (m', true) ->
  t_age (fold_left (fun t n => v_age n t) [64; 64; 64] (v_time (m_voice m' 4))) = 92.
Proof. intros m' H. rewrite (C73_start_age _ _ _ _ _ _ 4%nat xm _ _ _ eq_refl eq_refl H). reflexivity. Qed.
