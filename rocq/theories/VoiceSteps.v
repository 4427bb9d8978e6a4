(** Predicates kept by the voice operations are kept by every call of the API. *)
From Coq Require Import ZArith QArith List Bool Lia Arith Permutation.
From Verif Require Import ContainersModel MidiModel LayerModel VoiceModel VoiceRings VoiceInv.
Import ListNotations.
Local Open Scope nat_scope.

Lemma bind_inv : forall A B (x : option A) (f : A -> option B) y,
  bind x f = Some y -> exists a, x = Some a /\ f a = Some y.
Proof. intros A B [a|] f y H; [eauto|discriminate]. Qed.

Lemma some_inj : forall A (a b : A), Some a = Some b -> a = b.
Proof. intros. congruence. Qed.

(** * Checks *)
Lemma steal_and_off_quiet : forall I d cond l p m m', ring_ok m -> (forall i, In i l -> i < m_n m) ->
  steal_and_off I d cond l p m = Some m' -> quiet m m'.
Proof.
  intros I d cond l p m m' R B H. unfold steal_and_off in H. apply bind_inv in H as (c & E & H).
  apply steal_spec in E. eapply offAllSisters_quiet; eauto. intros i ->. apply B. apply E.
Qed.
Lemma note_loop_quiet : forall I d l c t m m', ring_ok m -> (forall i, In i l -> i < m_n m) ->
  note_loop I d l c t m = Some m' -> quiet m m'.
Proof.
  intros I d l. induction l as [|v l IH]; intros c t m m' R B H; cbn [note_loop] in H.
  - injection H as <-. apply quiet_refl.
  - destruct (t <? c)%Z; [|injection H as <-; apply quiet_refl].
    apply bind_inv in H as (m1 & E & H).
    assert (Q : quiet m m1).
    { destruct (live m v).
      - eapply offAllSisters_quiet; [exact R| |exact E]. intros i Hi. injection Hi as <-. apply B. now left.
      - injection E as <-. apply quiet_refl. }
    eapply quiet_trans; [exact Q|]. eapply IH; [| |exact H].
    + eapply same_links_ring_ok; [apply quiet_links; exact Q|exact R].
    + intros i Hi. rewrite (q_n _ _ Q). apply B. now right.
Qed.
Lemma vinv_active_lt : forall I m i, vinv I m -> In i (m_active m) -> i < m_n m.
Proof. intros. eapply list_ok_lt; [apply (iv_active _ _ H)|auto]. Qed.
Lemma checkNote_quiet : forall I k d e m m', vinv I m ->
  checkNotePolyphony I k d e m = Some m' -> quiet m m'.
Proof.
  intros I k d e m m' V H. unfold checkNotePolyphony in H. cbv zeta in H.
  destruct (vi_notePoly _); [|injection H as <-; apply quiet_refl].
  eapply note_loop_quiet; [apply V| |exact H]. intros i Hi.
  assert (Hf : forall f g lt, In i (sort_by lt (filter f (filter g (m_active m)))) -> i < m_n m).
  { intros f g lt Hj. eapply Permutation_in in Hj; [|apply sort_by_perm].
    apply filter_In in Hj as [Hj _]. apply filter_In in Hj as [Hj _]. eapply vinv_active_lt; eauto. }
  destruct (vi_mask _); eapply Hf; eauto.
Qed.
Lemma checkSet_quiet : forall I d ss m m', vinv I m ->
  checkSetPolyphony I ss d m = Some m' -> quiet m m'.
Proof.
  intros I d ss. induction ss as [|s ss IH]; intros m m' V H; cbn [checkSetPolyphony] in H.
  - injection H as <-. apply quiet_refl.
  - apply bind_inv in H as (m1 & E & H).
    assert (Q : quiet m m1).
    { eapply steal_and_off_quiet; [apply V| |exact E]. intros i Hi.
      eapply list_ok_lt; [apply (iv_set _ _ V s)|auto]. }
    eapply quiet_trans; [exact Q|]. eapply IH; [|exact H]. eapply quiet_vinv; eauto.
Qed.
Lemma checkPolyphony_quiet : forall I k d e m m', vinv I m ->
  checkPolyphony I k d e m = Some m' -> quiet m m'.
Proof.
  intros I k d e m m' V H. unfold checkPolyphony in H.
  apply bind_inv in H as (m1 & E1 & H). apply bind_inv in H as (m2 & E2 & H).
  apply bind_inv in H as (m3 & E3 & H). apply bind_inv in H as (m4 & E4 & H).
  assert (Q1 : quiet m m1) by (eapply checkNote_quiet; eauto).
  assert (V1 : vinv I m1) by (eapply quiet_vinv; eauto).
  assert (Q2 : quiet m1 m2).
  { eapply steal_and_off_quiet; [apply V1| |exact E2]. intros i. apply (vinv_active_lt I). exact V1. }
  assert (V2 : vinv I m2) by (eapply quiet_vinv; eauto).
  assert (Q3 : quiet m2 m3).
  { eapply steal_and_off_quiet; [apply V2| |exact E3]. intros i Hi.
    eapply list_ok_lt; [apply (iv_group _ _ V2 (vi_group (i_info I k)))|exact Hi]. }
  assert (V3 : vinv I m3) by (eapply quiet_vinv; eauto).
  assert (Q4 : quiet m3 m4) by (eapply checkSet_quiet; eauto).
  assert (V4 : vinv I m4) by (eapply quiet_vinv; eauto).
  assert (Q5 : quiet m4 m').
  { eapply steal_and_off_quiet; [apply V4| |exact H]. intros i. apply (vinv_active_lt I). exact V4. }
  eauto using quiet_trans.
Qed.

(** They do not fail: rings end, and stealers find a voice when the limits are positive. *)
Definition limits_ok (I : instr) (m : vman) : Prop :=
  i_stealer I = SEnvelope ->
  ((forall k, 1 <= vi_poly (i_info I k)) /\ (forall g, 1 <= i_glimit I g)
   /\ (forall s, 1 <= i_slimit I s) /\ 1 <= m_required m)%Z.
Lemma steal_and_off_some : forall I d cond l p m, ring_ok m -> (forall i, In i l -> i < m_n m) ->
  (i_stealer I = SEnvelope -> (1 <= p)%Z) -> exists m', steal_and_off I d cond l p m = Some m'.
Proof.
  intros I d cond l p m R B HP. unfold steal_and_off.
  destruct (steal_some I m cond l p R B HP) as [c E]. rewrite E. cbn [bind].
  destruct c as [i|]; [|cbn; eauto]. apply steal_spec in E.
  destruct (offAllSisters_some I d m i R) as (x & m' & _ & E' & _); [apply B; apply E|]. eauto.
Qed.
Lemma note_loop_some : forall I d l c t m, ring_ok m -> (forall i, In i l -> i < m_n m) ->
  exists m', note_loop I d l c t m = Some m'.
Proof.
  intros I d l. induction l as [|v l IH]; intros c t m R B; cbn [note_loop]; eauto.
  destruct (t <? c)%Z; eauto. destruct (live m v).
  - destruct (offAllSisters_some I d m v R) as (x & m' & _ & E & Q & _); [apply B; now left|].
    rewrite E. cbn [bind]. apply IH.
    + eapply same_links_ring_ok; [apply quiet_links; exact Q|exact R].
    + intros i Hi. rewrite (q_n _ _ Q). apply B. now right.
  - apply IH; auto. intros i Hi. apply B. now right.
Qed.
Lemma checkNote_some : forall I k d e m, vinv I m -> exists m', checkNotePolyphony I k d e m = Some m'.
Proof.
  intros I k d e m V. unfold checkNotePolyphony. cbv zeta.
  destruct (vi_notePoly _); eauto. apply note_loop_some; [apply V|]. intros i Hi.
  assert (Hf : forall f g lt, In i (sort_by lt (filter f (filter g (m_active m)))) -> i < m_n m).
  { intros f g lt Hj. eapply Permutation_in in Hj; [|apply sort_by_perm].
    apply filter_In in Hj as [Hj _]. apply filter_In in Hj as [Hj _]. eapply vinv_active_lt; eauto. }
  destruct (vi_mask _); eapply Hf; eauto.
Qed.
Lemma checkSet_some : forall I d ss m, vinv I m -> (i_stealer I = SEnvelope -> forall s, (1 <= i_slimit I s)%Z) ->
  exists m', checkSetPolyphony I ss d m = Some m'.
Proof.
  intros I d ss. induction ss as [|s ss IH]; intros m V HP; cbn [checkSetPolyphony]; eauto.
  assert (B : forall i, In i (m_slist m s) -> i < m_n m).
  { intros i Hi. eapply list_ok_lt; [apply (iv_set _ _ V s)|auto]. }
  destruct (steal_and_off_some I d (live m) (m_slist m s) (i_slimit I s) m) as [m1 E].
  { apply V. } { exact B. } { intros Hs. apply HP. auto. }
  rewrite E. cbn [bind]. apply IH; auto. eapply quiet_vinv; [|exact V]. eapply steal_and_off_quiet; [apply V|exact B|exact E].
Qed.
Lemma limits_ok_quiet : forall I m m', quiet m m' -> limits_ok I m -> limits_ok I m'.
Proof. intros I m m' Q H S. rewrite (q_required _ _ Q). auto. Qed.
Lemma checkPolyphony_some : forall I k d e m, vinv I m -> limits_ok I m ->
  exists m', checkPolyphony I k d e m = Some m'.
Proof.
  intros I k d e m V L. unfold checkPolyphony.
  destruct (checkNote_some I k d e m V) as [m1 E1]. rewrite E1; cbn [bind].
  assert (Q1 : quiet m m1) by (eapply checkNote_quiet; eauto).
  assert (V1 : vinv I m1) by (eapply quiet_vinv; eauto).
  assert (A1 : forall i, In i (m_active m1) -> i < m_n m1) by (intros i; apply (vinv_active_lt I); exact V1).
  unfold checkRegionPolyphony.
  destruct (steal_and_off_some I d (fun i => live m1 i && of_region m1 k i) (m_active m1)
    (vi_poly (i_info I k)) m1 (iv_ring _ _ V1) A1) as [m2 E2].
  { intros S. apply (L S). }
  rewrite E2; cbn [bind].
  assert (Q2 : quiet m1 m2) by (eapply steal_and_off_quiet; [apply V1|exact A1|exact E2]).
  assert (V2 : vinv I m2) by (eapply quiet_vinv; eauto).
  unfold checkGroupPolyphony. cbv zeta.
  set (g := vi_group (i_info I k)).
  assert (A2 : forall i, In i (m_glist m2 g) -> i < m_n m2).
  { intros i Hi. eapply list_ok_lt; [apply (iv_group _ _ V2 g)|exact Hi]. }
  destruct (steal_and_off_some I d (live m2) (m_glist m2 g) (i_glimit I g) m2 (iv_ring _ _ V2) A2)
    as [m3 E3].
  { intros S. apply (L S). }
  rewrite E3; cbn [bind].
  assert (Q3 : quiet m2 m3) by (eapply steal_and_off_quiet; [apply V2|exact A2|exact E3]).
  assert (V3 : vinv I m3) by (eapply quiet_vinv; eauto).
  destruct (checkSet_some I d (vi_sets (i_info I k)) m3 V3) as [m4 E4]. { intros S. apply (L S). }
  rewrite E4; cbn [bind].
  assert (Q4 : quiet m3 m4) by (eapply checkSet_quiet; eauto).
  assert (V4 : vinv I m4) by (eapply quiet_vinv; eauto).
  unfold checkEnginePolyphony. apply steal_and_off_some; [apply V4| |].
  - intros i. apply (vinv_active_lt I). exact V4.
  - intros S. assert (QQ : quiet m m4) by eauto using quiet_trans.
    rewrite (q_required _ _ QQ). apply (L S).
Qed.

(** * Starts *)
Lemma find_free_in : forall m l b i, find_free m l b = Some i ->
  (b = Some i \/ (In i l /\ live m i = false)).
Proof.
  intros m l. induction l as [|x l IH]; intros b i H; cbn [find_free] in H; auto.
  cbv zeta in H. destruct (state_eqb_spec VIdle (v_state (m_voice m x))) as [E|E].
  - injection H as <-. right. split; [now left|]. unfold live, offedOrFree. now rewrite <- E.
  - destruct (offedOrFree (m_voice m x)) eqn:O.
    + apply IH in H as [H|[H1 H2]]; [|right; split; [now right|auto]].
      destruct b as [b|]; [destruct (_ <? _)%Z|]; auto; injection H as <-;
        right; (split; [now left|]); unfold live; now rewrite O.
    + apply IH in H as [H|[H1 H2]]; auto. right. split; [now right|auto].
Qed.
Lemma findFreeVoice_in : forall m i, findFreeVoice m = Some i -> i < m_n m /\ live m i = false.
Proof.
  intros m i H. apply find_free_in in H as [H|[H1 H2]]; [discriminate|].
  apply in_seq in H1. split; auto. lia.
Qed.
Lemma find_free_none : forall m l b, find_free m l b = None -> b = None /\ forall i, In i l -> live m i = true.
Proof.
  intros m l. induction l as [|x l IH]; intros b H; cbn [find_free] in H.
  - split; [exact H|intros i []].
  - cbv zeta in H. destruct (state_eqb_spec VIdle (v_state (m_voice m x))) as [E|E]; [discriminate|].
    destruct (offedOrFree (m_voice m x)) eqn:O.
    + apply IH in H as [H _]. destruct b as [b|]; [destruct (_ <? _)%Z|]; discriminate.
    + apply IH in H as [H1 H2]. split; auto. intros i [->|Hi]; auto. unfold live. now rewrite O.
Qed.

(** The voice part of startVoice. *)
Definition vm_start (I : instr) (md : midi) (si : sinfo) (k : nat) (d : Z) (e : tevent)
  (ring : option nat) (m : vman) : option (vman * option nat) :=
  match checkPolyphony I k d e m with
  | None => None
  | Some m1 =>
    match findFreeVoice m1 with
    | None => Some (m1, ring)
    | Some i =>
      let '(m3, ok) := v_start I md si k d e i (v_reset I i m1) in
      if ok then Some (addVoiceToRing i ring m3) else Some (m3, ring)
    end
  end.
Lemma f_startVoice_vm : forall I E k d e s ring,
  f_startVoice I E k d e (s, ring) =
  match vm_start I (s_midi (f_sys s)) (e_start E (f_tick s)) k d e ring (f_vm s) with
  | None => None
  | Some (m, ring') =>
    Some (FSys (emit (f_sys s) (Start k (te_type e) (te_num e) (te_val e))) m
            (match checkPolyphony I k d e (f_vm s) with
             | Some m1 => match findFreeVoice m1 with None => f_tick s | Some _ => S (f_tick s) end
             | None => f_tick s end), ring')
  end.
Proof.
  intros I E k d e s ring. unfold f_startVoice, vm_start. cbn [put_sys f_vm f_sys f_tick].
  destruct (checkPolyphony I k d e (f_vm s)) as [m1|] eqn:C; [|reflexivity].
  cbn [bind]. destruct (findFreeVoice m1) as [i|]; [|reflexivity].
  change (s_midi (emit (f_sys s) (Start k (te_type e) (te_num e) (te_val e)))) with (s_midi (f_sys s)).
  destruct (v_start _ _ _ _ _ _ _ _) as [m3 [|]]; reflexivity.
Qed.

Record started (I : instr) (si : sinfo) (k : nat) (e : tevent) (i : nat) (m1 m' : vman)
  : Prop := Started {
  sd_lt : i < m_n m1;
  sd_free : live m1 i = false;
  sd_n : m_n m' = m_n m1;
  sd_required : m_required m' = m_required m1;
  sd_other : forall j, j <> i -> core (m_voice m' j) = core (m_voice m1 j);
  sd_rg : rg m' i = Some k;
  sd_type : te_type (ev m' i) = te_type e;
  sd_num : te_num (ev m' i) = start_num I k e;
  sd_offed : offed m' i = false;
  sd_st : st m' i = if negb (vi_disabled (i_info I k)) && si_file si then VPlaying else VClean }.

Lemma vm_start_spec : forall I md si k d e ring m m' ring', vinv I m -> head_ok m ring ->
  vm_start I md si k d e ring m = Some (m', ring') ->
  exists m1, checkPolyphony I k d e m = Some m1 /\ quiet m m1 /\ vinv I m' /\ head_ok m' ring'
  /\ m_n m' = m_n m
  /\ ((findFreeVoice m1 = None /\ m' = m1 /\ ring' = ring)
      \/ exists i, findFreeVoice m1 = Some i /\ started I si k e i m1 m').
Proof.
  intros I md si k d e ring m m' ring' V HO H. unfold vm_start in H.
  destruct (checkPolyphony I k d e m) as [m1|] eqn:C; [|discriminate].
  assert (Q : quiet m m1) by (eapply checkPolyphony_quiet; eauto).
  assert (V1 : vinv I m1) by (eapply quiet_vinv; eauto).
  assert (HO1 : head_ok m1 ring).
  { destruct ring; cbn in *; auto. rewrite (q_n _ _ Q). auto. }
  exists m1. split; [reflexivity|]. split; [exact Q|].
  destruct (findFreeVoice m1) as [i|] eqn:F.
  - destruct (findFreeVoice_in _ _ F) as [Hi Hl].
    pose proof (v_reset_spec I i m1 V1 Hi) as RS.
    destruct (v_start I md si k d e i (v_reset I i m1)) as [m3 ok] eqn:ES.
    assert (SS : start_spec I si k e i (v_reset I i m1) m3 ok).
    { eapply v_start_spec; [apply RS| | |exact ES]; [rewrite (rs_n _ _ _ _ RS); auto|apply RS]. }
    assert (L3 : m_n m3 = m_n m1) by (rewrite (ss_n _ _ _ _ _ _ _ _ SS); apply RS).
    assert (HO3 : head_ok m3 ring) by (destruct ring; cbn in *; auto; rewrite L3; auto).
    assert (NX : nx m3 i = i).
    { destruct (ss_links _ _ _ _ _ _ _ _ SS) as [_ SL]. destruct (SL i) as [-> _].
      apply RS. }
    assert (ST : started I si k e i m1 m3).
    { constructor; auto.
      - rewrite (ss_required _ _ _ _ _ _ _ _ SS). apply RS.
      - intros j Hj. rewrite (ss_other _ _ _ _ _ _ _ _ SS) by auto. apply RS. auto.
      - apply SS.
      - apply SS.
      - apply SS.
      - rewrite (ss_offed _ _ _ _ _ _ _ _ SS). apply RS.
      - rewrite (ss_st _ _ _ _ _ _ _ _ SS), (ss_ok _ _ _ _ _ _ _ _ SS). reflexivity. }
    destruct ok.
    + destruct (addVoiceToRing i ring m3) as [m4 r4] eqn:EA. injection H as <- <-.
      assert (E4 : m4 = fst (addVoiceToRing i ring m3)) by now rewrite EA.
      assert (R4 : r4 = Some (match ring with Some h => h | None => i end)).
      { unfold addVoiceToRing in EA. injection EA as _ <-. reflexivity. }
      split; [rewrite E4; apply add_vinv; auto; [apply SS|rewrite L3; auto]|].
      split; [rewrite R4; cbn [head_ok]; rewrite E4, n_add, L3; destruct ring; cbn in *; auto; rewrite <- L3; auto|].
      split; [rewrite E4, n_add, L3; apply Q|].
      right. exists i. split; auto. destruct ST. rewrite E4.
      pose proof (core_st _ _ _ (core_add i ring m3 i)) as (X1 & X2 & X3 & X4 & _).
      constructor; auto; try congruence.
      intros j Hj. rewrite core_add. auto.
    + injection H as <- <-. split; [apply SS|]. split; [exact HO3|]. split; [rewrite L3; apply Q|].
      right. exists i. auto.
  - injection H as <- <-. split; auto. split; auto. split; [apply Q|]. left. auto.
Qed.
Lemma vm_start_some : forall I md si k d e ring m, vinv I m -> limits_ok I m ->
  exists r, vm_start I md si k d e ring m = Some r.
Proof.
  intros I md si k d e ring m V L. unfold vm_start.
  destruct (checkPolyphony_some I k d e m V L) as [m1 E]. rewrite E.
  destruct (findFreeVoice m1); eauto. destruct (v_start _ _ _ _ _ _ _ _) as [m3 [|]]; eauto.
Qed.

(** * Closed predicates *)
Record closed (I : instr) (T : ev_type -> Prop) (P : vman -> Prop) : Prop := Closed {
  cl_inv : forall m, P m -> vinv I m;
  cl_quiet : forall m m', quiet m m' -> P m -> P m';
  cl_start : forall md si k d e ring m m' ring', T (te_type e) -> P m -> head_ok m ring ->
    vm_start I md si k d e ring m = Some (m', ring') -> P m' }.

Lemma ofold_inv : forall A B (f : A -> B -> option A) (Q : A -> Prop) l a a',
  (forall a b a', In b l -> Q a -> f a b = Some a' -> Q a') -> Q a -> ofold f l a = Some a' -> Q a'.
Proof.
  intros A B f Q l. induction l as [|b l IH]; intros a a' Hf Ha H; cbn [ofold] in H.
  - injection H as <-. exact Ha.
  - apply bind_inv in H as (a1 & E & H). eapply IH; [| |exact H].
    + intros. eapply Hf; [right; eauto| |]; eauto.
    + eapply Hf; [left; reflexivity| |]; eauto.
Qed.
Lemma omap_fst_inv : forall o s, omap_fst o = Some s -> exists r, o = Some (s, r).
Proof. intros [[s0 r]|] s H; [injection H as <-; eauto|discriminate]. Qed.

Section CLOSED.
Variable I : instr.
Variable E : env.
Variable T : ev_type -> Prop.
Variable P : vman -> Prop.
Hypothesis C : closed I T P.
Variable N : nat.

Definition vm_ok (s : fsys) : Prop := P (f_vm s) /\ m_n (f_vm s) = N.
Definition acc_ok (a : fsys * option nat) : Prop :=
  vm_ok (fst a) /\ match snd a with Some h => h < N | None => True end.

Lemma vm_ok_sys : forall s x, vm_ok s -> vm_ok (put_sys s x).
Proof. intros s x H. exact H. Qed.
Lemma vm_ok_tick : forall s, vm_ok s -> vm_ok (tick s).
Proof. intros s H. exact H. Qed.
Lemma vm_ok_quiet : forall s m, vm_ok s -> quiet (f_vm s) m -> vm_ok (put_vm s m).
Proof.
  intros s m [A B] Q. split; cbn [put_vm f_vm].
  - eapply cl_quiet; eauto.
  - rewrite (q_n _ _ Q). exact B.
Qed.
Lemma startVoice_ok : forall k d e a a', T (te_type e) -> acc_ok a ->
  f_startVoice I E k d e a = Some a' -> acc_ok a'.
Proof.
  intros k d e [s ring] [s' ring'] HT [[HP HN] HR] H. rewrite f_startVoice_vm in H.
  destruct (vm_start _ _ _ _ _ _ _ _) as [[m r]|] eqn:EV; [|discriminate].
  injection H as <- <-. cbn [fst snd] in *.
  assert (HO : head_ok (f_vm s) ring) by (destruct ring; cbn; rewrite ?HN; auto).
  assert (HP' : P m) by (eapply cl_start; eauto).
  destruct (vm_start_spec _ _ _ _ _ _ _ _ _ _ (cl_inv _ _ _ C _ HP) HO EV) as (m1 & _ & _ & _ & H1 & H2 & _).
  split; [split; [exact HP'|cbn [fst f_vm]; congruence]|].
  cbn [snd]. destruct r; cbn in *; [rewrite H2, HN in H1|]; auto.
Qed.

Lemma off_group_step_ok : forall dispatch other d n byCC s i s',
  (forall n v s s', byCC = false -> vm_ok s -> dispatch n v s = Some s' -> vm_ok s') ->
  vm_ok s -> off_group_step I dispatch other d n byCC s i = Some s' -> vm_ok s'.
Proof.
  intros dispatch other d n byCC s i s' HD HS H. unfold off_group_step in H.
  destruct (off_group I s other n i); [|injection H as <-; auto]. cbv zeta in H.
  assert (H1 : vm_ok (put_vm s (v_off I d i (f_vm s)))).
  { apply vm_ok_quiet; auto. apply v_off_quiet. }
  destruct byCC.
  - rewrite andb_false_r in H. injection H as <-. auto.
  - destruct (_ && _); [|injection H as <-; auto]. eapply HD; eauto.
Qed.
Lemma checkOffGroups_ok : forall dispatch other d n byCC s s',
  (forall n v s s', byCC = false -> vm_ok s -> dispatch n v s = Some s' -> vm_ok s') ->
  vm_ok s -> checkOffGroups I dispatch other d n byCC s = Some s' -> vm_ok s'.
Proof.
  intros dispatch other d n byCC s s' HD HS H. unfold checkOffGroups in H.
  eapply ofold_inv; [|exact HS|exact H]. intros. eapply off_group_step_ok; eauto.
Qed.

Lemma noteOff_ok : T ENoteOff -> forall fuel d n v s s', vm_ok s ->
  f_noteOffDispatch fuel I E d n v s = Some s' -> vm_ok s'.
Proof.
  intros HT fuel. induction fuel as [|fuel IH]; intros d n v s s' HS H; cbn [f_noteOffDispatch] in H;
    [discriminate|]. cbv zeta in H.
  apply omap_fst_inv in H as [r H].
  enough (A : acc_ok (s', r)) by apply A.
  eapply ofold_inv with (Q := acc_ok); [| |exact H].
  - intros [s0 r0] k [s1 r1] _ [HA HR] HH. unfold f_off_layer in HH.
    destruct (off_layer _ _ _ _ _ _) as [x t]. destruct t.
    + apply bind_inv in HH as (s2 & E2 & HH). eapply startVoice_ok; [|split|exact HH]; auto.
      cbn [fst]. eapply checkOffGroups_ok; [|apply vm_ok_sys; exact HA|exact E2].
      intros. eapply IH; eauto.
    + injection HH as <- <-. split; auto.
  - split; cbn [fst snd]; auto.
Qed.

Hypothesis TA : forall t, T t.
Lemma f_on_layer_ok : forall d n vel rnd a k a', acc_ok a ->
  f_on_layer I E d n vel rnd a k = Some a' -> acc_ok a'.
Proof.
  intros d n vel rnd [s r] k a' HA H. unfold f_on_layer in H.
  destruct (nth_error _ _) as [[rr l]|]; [|injection H as <-; auto].
  destruct (negb _); [injection H as <-; auto|].
  destruct (registerNoteOn _ _ _ _ _ _) as [l' t]. cbv zeta in H. destruct (_ && _).
  - apply bind_inv in H as (s2 & E2 & H). eapply startVoice_ok; [apply TA| |exact H].
    split; [|apply HA]. cbn [fst]. eapply checkOffGroups_ok; [| |exact E2].
    + intros. eapply noteOff_ok; eauto.
    + apply vm_ok_sys. apply HA.
  - injection H as <-. split; [|apply HA]. apply vm_ok_sys, HA.
Qed.
Lemma noteOn_ok : forall d n vel s s', vm_ok s ->
  f_noteOnDispatch I E d n vel s = Some s' -> vm_ok s'.
Proof.
  intros d n vel s s' HS H. unfold f_noteOnDispatch in H. cbv zeta in H.
  apply bind_inv in H as (s3 & E3 & H). injection H as <-. apply vm_ok_sys.
  apply omap_fst_inv in E3 as [r E3]. enough (A : acc_ok (s3, r)) by apply A.
  refine (ofold_inv _ _ _ acc_ok _ _ _ _ _ E3); [|split; cbn [fst snd]; [exact HS|exact Logic.I]].
  intros. eapply f_on_layer_ok; eauto.
Qed.
Lemma f_delayed_ok : forall k d r l clear a a', acc_ok a ->
  f_delayed I E k d r l clear a = Some a' -> acc_ok a'.
Proof.
  intros k d r l clear a a' HA H. unfold f_delayed in H. apply bind_inv in H as (a1 & E1 & H).
  injection H as <-.
  assert (H1 : acc_ok a1).
  { destruct (_ && _); [injection E1 as <-; auto|].
    eapply ofold_inv with (Q := acc_ok); [|exact HA|exact E1].
    intros. cbv beta in *. eapply startVoice_ok; [apply TA| |eassumption]. assumption. }
  split; [apply vm_ok_sys; apply H1|apply H1].
Qed.
Lemma f_cc_layer_ok : forall d cc v rnd ext a k a', acc_ok a ->
  f_cc_layer I E d cc v rnd ext a k = Some a' -> acc_ok a'.
Proof.
  intros d cc v rnd ext a k a' HA H. unfold f_cc_layer in H.
  destruct (nth_error _ _) as [[r l]|]; [|injection H as <-; auto].
  destruct (in_cc_list r cc); [|injection H as <-; auto].
  apply bind_inv in H as (a1 & E1 & H). apply bind_inv in H as (a2 & E2 & H).
  assert (A1 : acc_ok a1).
  { unfold f_cc_sustain in E1. destruct (nth_error _ _) as [[r1 l1]|]; [|injection E1 as <-; auto].
    destruct (_ && _); [|injection E1 as <-; auto]. eapply f_delayed_ok; eauto. }
  assert (A2 : acc_ok a2).
  { unfold f_cc_sostenuto in E2. destruct (nth_error _ _) as [[r1 l1]|]; [|injection E2 as <-; auto].
    destruct (_ && _); [|injection E2 as <-; auto]. destruct (l_sustain l1).
    - injection E2 as <-. split; [apply vm_ok_sys|]; apply A1.
    - eapply f_delayed_ok; eauto. }
  destruct a2 as [s2 r2]. unfold f_cc_register in H.
  destruct (nth_error _ _) as [[r1 l1]|]; [|injection H as <-; auto].
  destruct (registerCC _ _ _ _ _ _ _) as [l' t]. cbv zeta in H. destruct (_ && _).
  - apply bind_inv in H as (s3 & E3 & H). eapply startVoice_ok; [apply TA| |exact H].
    split; [|apply A2]. cbn [fst]. eapply checkOffGroups_ok; [|apply vm_ok_sys; apply A2|exact E3].
    intros; discriminate.
  - injection H as <-. split; [|apply A2]. apply vm_ok_sys. apply A2.
Qed.
Lemma f_ccDispatch_ok : forall d cc v ext s s', vm_ok s ->
  f_ccDispatch I E d cc v ext s = Some s' -> vm_ok s'.
Proof.
  intros d cc v ext s s' HS H. unfold f_ccDispatch in H. cbv zeta in H.
  apply omap_fst_inv in H as [r H]. enough (A : acc_ok (s', r)) by apply A.
  refine (ofold_inv _ _ _ acc_ok _ _ _ _ _ H); [|split; cbn [fst snd]; [exact HS|exact Logic.I]].
  intros. eapply f_cc_layer_ok; eauto.
Qed.
Lemma f_perform_ok : forall d cc v ext s s', vm_ok s ->
  f_perform I E d cc v ext s = Some s' -> vm_ok s'.
Proof.
  intros d cc v ext s s' HS H. unfold f_perform in H. cbv zeta in H.
  apply bind_inv in H as (s2 & E2 & H). apply bind_inv in H as (x & E3 & H). injection H as <-.
  apply vm_ok_sys. eapply f_ccDispatch_ok; [|exact E2]. apply vm_ok_quiet; auto.
  unfold each_voice. apply fold_quiet. intros. apply v_registerCC_quiet.
Qed.
End CLOSED.

(** Predicates also kept by resets and new voices. *)
Record closed_all (I : instr) (P : vman -> Prop) : Prop := ClosedAll {
  ca_closed : closed I (fun _ => True) P;
  ca_reset : forall m i, i < m_n m -> P m -> P (v_reset I i m);
  ca_new : forall n stamps, P (new_voices n stamps) }.

Lemma v_reset_n : forall I i m, m_n (v_reset I i m) = m_n m.
Proof.
  intros. unfold v_reset. cbv zeta. rewrite n_remove. unfold put. cbn [m_n]. apply switchState_n.
Qed.
Lemma v_render_quiet : forall I frames ri i m, st m i <> VIdle -> quiet m (v_render I frames ri i m).
Proof.
  intros I frames ri i m S. unfold v_render. destruct (v_region _) as [k|]; [|apply quiet_refl].
  destruct (vi_disabled _); [apply quiet_refl|]. cbv zeta.
  match goal with |- context [switchState I i VClean ?x] => set (m1 := x) end.
  assert (Q1 : quiet m m1) by (subst m1; destruct (ri_end ri); [apply v_off_quiet|apply quiet_refl]).
  match goal with |- quiet m (put ?x i _) => set (m2 := x) end.
  assert (Q2 : quiet m m2).
  { subst m2. destruct (ri_done ri); auto. eapply quiet_trans; [exact Q1|].
    apply switchState_clean. rewrite (quiet_idle _ _ _ Q1). exact S. }
  eapply quiet_trans; [exact Q2|]. apply quiet_put. unfold qvoice. cbn. intuition.
Qed.

Section ALL.
Variable I : instr.
Variable P : vman -> Prop.
Hypothesis CA : closed_all I P.
Let C : closed I (fun _ => True) P := ca_closed _ _ CA.
Let TA : forall t, (fun _ : ev_type => True) t := fun _ => Logic.I.

Lemma each_voice_ok : forall (f : vman -> nat -> vman),
  (forall m i, i < m_n m -> P m -> P (f m i) /\ m_n (f m i) = m_n m) ->
  forall m, P m -> P (each_voice f m) /\ m_n (each_voice f m) = m_n m.
Proof.
  intros f Hf m HP. unfold each_voice.
  assert (G : forall l m0, (forall i, In i l -> i < m_n m0) -> P m0 ->
     P (fold_left f l m0) /\ m_n (fold_left f l m0) = m_n m0).
  { induction l as [|i l IH]; intros m0 HB H0; cbn [fold_left]; auto.
    destruct (Hf m0 i) as [A B]; auto. { apply HB. now left. }
    destruct (IH (f m0 i)) as [A' B']; auto.
    - intros j Hj. rewrite B. apply HB. now right.
    - split; auto. congruence. }
  apply G; auto. intros i Hi. apply in_seq in Hi. lia.
Qed.
Lemma reset_all_ok : forall m, P m -> P (f_reset_all I m) /\ m_n (f_reset_all I m) = m_n m.
Proof.
  intros m HP. apply each_voice_ok; auto. intros m0 i Hi H0. split; [now apply CA|apply v_reset_n].
Qed.
Lemma render_voice_ok : forall frames ri m i, i < m_n m -> P m ->
  P (render_voice I frames ri m i) /\ m_n (render_voice I frames ri m i) = m_n m.
Proof.
  intros frames ri m i Hi HP. unfold render_voice.
  destruct (state_eqb_spec VIdle (v_state (m_voice m i))) as [E|E]; auto. cbv zeta.
  assert (Q : quiet m (v_render I frames (ri i) i m)).
  { apply v_render_quiet. unfold st. congruence. }
  assert (HP1 : P (v_render I frames (ri i) i m)) by (eapply cl_quiet; eauto).
  destruct (state_eqb VClean _).
  - split; [|rewrite v_reset_n; apply Q]. apply CA; auto. rewrite (q_n _ _ Q). auto.
  - split; auto. apply Q.
Qed.

Lemma fstep_closed : forall E defaults s o s', P (f_vm s) -> fstep I E defaults s o = Some s' ->
  P (f_vm s').
Proof.
  intros E defaults s o s' HP H. unfold fstep in H. cbv zeta in H.
  assert (VO : vm_ok P (m_n (f_vm s)) s) by (split; auto).
  assert (G : forall x, vm_ok P (m_n (f_vm s)) x -> P (f_vm x)) by (intros x Hx; apply Hx).
  destruct o as [o rands ri| |n].
  - destruct o.
    + apply bind_inv in H as (x1 & _ & H). apply G.
      eapply (noteOn_ok I E (fun _ => True) P C _ TA); [|exact H]. exact VO.
    + apply bind_inv in H as (x1 & _ & H). apply G. unfold top_dispatch in H.
      eapply (noteOff_ok I E (fun _ => True) P C _ Logic.I); [|exact H].
      apply (vm_ok_quiet I _ P C); [exact VO|].
      unfold each_voice. apply fold_quiet. intros. apply v_registerNoteOff_quiet.
    + destruct (cc =? 121)%Z.
      * apply bind_inv in H as (x1 & _ & H). apply some_inj in H. rewrite <- H. cbn [f_vm put_vm].
        eapply cl_quiet; [exact C| |exact HP]. unfold each_voice. apply fold_quiet. intros.
        apply fold_quiet. intros. apply v_registerCC_quiet.
      * destruct (_ || _).
        -- apply bind_inv in H as (x1 & _ & H). injection H as <-. cbn [f_vm put_vm].
           now apply reset_all_ok.
        -- apply G. eapply (f_perform_ok I E (fun _ => True) P C _ TA); eauto.
    + apply G. eapply (f_perform_ok I E (fun _ => True) P C _ TA); [|exact H]. exact VO.
    + apply G. eapply (f_perform_ok I E (fun _ => True) P C _ TA); [|exact H]. exact VO.
    + apply G. eapply (f_perform_ok I E (fun _ => True) P C _ TA); [|exact H]. exact VO.
    + apply G. eapply (f_perform_ok I E (fun _ => True) P C _ TA); [|exact H]. exact VO.
    + injection H as <-. exact HP.
    + injection H as <-. exact HP.
    + apply bind_inv in H as (x1 & _ & H). injection H as <-. cbn [f_vm put_vm].
      apply each_voice_ok; auto. intros. now apply render_voice_ok.
  - injection H as <-. cbn [f_vm put_vm]. now apply reset_all_ok.
  - destruct (_ =? _)%Z; injection H as <-; auto. apply CA.
Qed.
Lemma frun_closed : forall E defaults os s s', P (f_vm s) -> frun I E defaults s os = Some s' ->
  P (f_vm s').
Proof.
  intros E defaults os. induction os as [|o os IH]; intros s s' HP H; cbn [frun] in H.
  - injection H as <-. exact HP.
  - apply bind_inv in H as (s1 & E1 & H). eapply IH; [|exact H]. eapply fstep_closed; eauto.
Qed.
End ALL.

Lemma vinv_closed : forall I, closed_all I (vinv I).
Proof.
  intros I. constructor.
  - constructor; auto.
    + intros. eapply quiet_vinv; eauto.
    + intros. eapply vm_start_spec in H2 as (m1 & _ & _ & A & _); eauto.
  - intros. now apply v_reset_spec.
  - intros. apply new_voices_vinv.
Qed.
Lemma frun_vinv : forall I E defaults md sw bps count n os s,
  frun I E defaults (f_load I md sw bps count n) os = Some s -> vinv I (f_vm s).
Proof.
  intros. eapply frun_closed; [apply vinv_closed| |exact H]. apply new_voices_vinv.
Qed.
