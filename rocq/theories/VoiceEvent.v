(** C21: the voices started by one note-on form one ring; examples and counter-examples for C19,
    C21 and C45. *)
From Coq Require Import ZArith QArith List Bool Lia Arith Permutation.
From Verif Require Import ContainersModel MidiModel LayerModel VoiceModel VoiceRings VoiceInv VoiceSteps
  VoiceProps VoiceExamples.
Import ListNotations.
Local Open Scope nat_scope.

Lemma find_free_idle : forall m l b i, (exists j, In j l /\ st m j = VIdle) ->
  find_free m l b = Some i -> st m i = VIdle.
Proof.
  intros m l. induction l as [|x l IH]; intros b i (j & Hj & Sj) H; [destruct Hj|].
  cbn [find_free] in H. cbv zeta in H.
  destruct (state_eqb_spec VIdle (v_state (m_voice m x))) as [E|E].
  - injection H as <-. unfold st. auto.
  - destruct Hj as [->|Hj]; [unfold st in Sj; congruence|].
    destruct (offedOrFree _); eapply IH; eauto.
Qed.
Lemma find_free_exists : forall m l b, (exists j, In j l /\ st m j = VIdle) ->
  exists i, find_free m l b = Some i.
Proof.
  intros m l. induction l as [|x l IH]; intros b (j & Hj & Sj); [destruct Hj|].
  cbn [find_free]. cbv zeta. destruct (state_eqb_spec VIdle (v_state (m_voice m x))); eauto.
  destruct Hj as [->|Hj]; [unfold st in Sj; congruence|].
  destruct (offedOrFree _); apply IH; eauto.
Qed.

Definition idle_voices (m : vman) : list nat :=
  filter (fun i => state_eqb VIdle (v_state (m_voice m i))) (seq 0 (m_n m)).
Lemma idle_voices_in : forall m i, In i (idle_voices m) <-> i < m_n m /\ st m i = VIdle.
Proof.
  intros m i. unfold idle_voices. rewrite filter_In, in_seq. unfold st.
  destruct (state_eqb_spec VIdle (v_state (m_voice m i))); intuition; try congruence; lia.
Qed.
Lemma idle_voices_nodup : forall m, NoDup (idle_voices m).
Proof. intros. apply NoDup_filter, seq_NoDup. Qed.
Lemma idle_voices_quiet : forall m m', quiet m m' -> length (idle_voices m') = length (idle_voices m).
Proof.
  intros m m' Q. apply Permutation_length. apply NoDup_Permutation; try apply idle_voices_nodup.
  intros i. rewrite !idle_voices_in, (q_n _ _ Q), (quiet_idle _ _ _ Q). tauto.
Qed.

(** One start when a voice is idle and the file is there. *)
Lemma start_on_idle : forall I md si k d e ring m m' ring', vinv I m -> head_ok m ring ->
  0 < length (idle_voices m) -> vi_disabled (i_info I k) = false -> si_file si = true ->
  vm_start I md si k d e ring m = Some (m', ring') ->
  exists i, i < m_n m /\ st m i = VIdle /\ st m' i <> VIdle /\ rg m' i = Some k
  /\ (forall j, j <> i -> st m' j = VIdle <-> st m j = VIdle)
  /\ (forall j, j <> i -> rg m' j = rg m j)
  /\ S (length (idle_voices m')) = length (idle_voices m)
  /\ ring' = Some (match ring with Some h => h | None => i end)
  /\ (ring = None -> is_ring m' [i])
  /\ (forall h t, ring = Some h -> is_ring m (h :: t) -> ~ In i (h :: t) -> is_ring m' (h :: t ++ [i])).
Proof.
  intros I md si k d e ring m m' ring' V HO HL D F H.
  pose proof (vm_start_spec _ _ _ _ _ _ _ _ _ _ V HO H) as (m1 & EC & Q & _ & _ & LN & _).
  unfold vm_start in H. rewrite EC in H.
  assert (V1 : vinv I m1) by (eapply quiet_vinv; eauto).
  assert (EX : exists j, In j (seq 0 (m_n m1)) /\ st m1 j = VIdle).
  { rewrite <- (idle_voices_quiet _ _ Q) in HL.
    destruct (idle_voices m1) as [|j r] eqn:EI; [cbn in HL; lia|].
    exists j. assert (Hj : In j (idle_voices m1)) by (rewrite EI; now left).
    apply idle_voices_in in Hj as [A B]. rewrite in_seq. split; auto; lia. }
  destruct (find_free_exists m1 (seq 0 (m_n m1)) None EX) as [i EF].
  pose proof (find_free_idle _ _ _ _ EX EF) as SI.
  fold (findFreeVoice m1) in EF. destruct (findFreeVoice_in _ _ EF) as [Hi _].
  rewrite EF in H.
  destruct (v_start I md si k d e i (v_reset I i m1)) as [m3 ok] eqn:ES.
  pose proof (v_reset_spec I i m1 V1 Hi) as RS.
  assert (SS : start_spec I si k e i (v_reset I i m1) m3 ok).
  { eapply v_start_spec; [apply RS| | |exact ES]; [rewrite v_reset_n; auto|apply RS]. }
  rewrite (ss_ok _ _ _ _ _ _ _ _ SS), D, F in H. cbn [negb andb] in H.
  assert (L3 : m_n m3 = m_n m1) by (rewrite (ss_n _ _ _ _ _ _ _ _ SS); apply v_reset_n).
  assert (E1 : m' = fst (addVoiceToRing i ring m3)) by (apply some_inj in H; now rewrite H).
  assert (E2 : ring' = snd (addVoiceToRing i ring m3)) by (apply some_inj in H; now rewrite H).
  pose proof (core_st _ _ _ (core_add i ring m3 i)) as (X1 & X2 & _). rewrite <- E1 in X1, X2.
  assert (ST3 : st m3 i = VPlaying).
  { rewrite (ss_st _ _ _ _ _ _ _ _ SS), (ss_ok _ _ _ _ _ _ _ _ SS), D, F. reflexivity. }
  assert (OJ : forall j, j <> i -> st m' j = st m1 j /\ rg m' j = rg m1 j).
  { intros j Hj. pose proof (core_st _ _ _ (core_add i ring m3 j)) as (Y1 & Y2 & _).
    rewrite <- E1 in Y1, Y2. rewrite Y1, Y2. unfold st, rg.
    rewrite (ss_other _ _ _ _ _ _ _ _ SS j Hj).
    pose proof (core_st _ _ _ (rs_core _ _ _ _ RS j Hj)) as (Z1 & Z2 & _). auto. }
  assert (Hi0 : i < m_n m) by (rewrite <- (q_n _ _ Q); auto).
  assert (SI0 : st m i = VIdle) by (apply (quiet_idle _ _ _ Q); auto).
  assert (SN : st m' i <> VIdle) by congruence.
  assert (IDL : forall j, j <> i -> st m' j = VIdle <-> st m j = VIdle).
  { intros j Hj. destruct (OJ j Hj) as [-> _]. apply (quiet_idle _ _ _ Q). }
  exists i. split; auto. split; auto. split; auto. split; [rewrite X2; apply SS|]. split; auto.
  split. { intros j Hj. destruct (OJ j Hj) as [_ ->]. apply quiet_rg. auto. }
  split.
  { assert (P : Permutation (i :: idle_voices m') (idle_voices m)).
    { apply NoDup_Permutation; [|apply idle_voices_nodup|].
      - constructor; [|apply idle_voices_nodup]. rewrite idle_voices_in. intros [_ Hc]. contradiction.
      - intros j. cbn [In]. rewrite !idle_voices_in, LN. destruct (Nat.eq_dec j i) as [->|Hj].
        + tauto.
        + rewrite (IDL j Hj). intuition congruence. }
    apply Permutation_length in P. exact P. }
  split. { rewrite E2. reflexivity. }
  assert (AL : nx m3 i = i /\ pv m3 i = i).
  { destruct (ss_links _ _ _ _ _ _ _ _ SS) as [_ SL]. destruct (SL i) as [-> ->]. apply RS. }
  split.
  - intros ->. rewrite add_none in E1. destruct (nx_add_self m3 i i (proj1 AL) (proj2 AL)) as [A B].
    cbn [is_ring chain]. split; [repeat constructor; auto|]. split.
    + intros x [<-|[]]. rewrite LN. auto.
    + rewrite E1, A, B. exact AL.
  - intros h t -> HR HN. rewrite E1.
    assert (R3 : is_ring m3 (h :: t)).
    { eapply same_links_is_ring; [apply SS|].
      assert (RR : is_ring m1 (h :: t)) by (eapply same_links_is_ring; [apply quiet_links; exact Q|auto]).
      assert (Hhi : h <> i) by (intros ->; apply HN; now left).
      pose proof (reset_ring I i h m1 t V1 Hi Hhi RR) as R2.
      rewrite remove_id in R2; auto. intros Hc. apply HN. now right. }
    apply ring_add; auto.
    + apply SS.
    + rewrite L3. auto.
    + rewrite L3, (q_n _ _ Q). exact HO.
    + intros ->. apply HN. now left.
    + apply AL.
Qed.

(** ** Note-on without off_by *)
Lemma off_group_none : forall I s other n i, (forall k, vi_offBy (i_info I k) = None) ->
  off_group I s other n i = false.
Proof.
  intros I s other n i H. unfold off_group. cbv zeta. destruct (v_region _) as [k|]; auto.
  rewrite H. now rewrite andb_false_r.
Qed.
Lemma checkOffGroups_none : forall I dispatch other d n byCC s,
  (forall k, vi_offBy (i_info I k) = None) -> checkOffGroups I dispatch other d n byCC s = Some s.
Proof.
  intros I dispatch other d n byCC s H. unfold checkOffGroups.
  induction (seq 0 (m_n (f_vm s))) as [|x l IH]; cbn [ofold]; auto.
  unfold off_group_step. rewrite off_group_none by auto. cbn [bind]. exact IH.
Qed.

(** The voices [vs] were idle in [m0], now have the regions of the starts [new], and are the
    ring of the builder. *)
Record event_inv (I : instr) (m0 : vman) (out0 : list start) (budget : nat) (s : fsys)
  (ring : option nat) : Prop := EventInv {
  ei_vinv : vinv I (f_vm s);
  ei_n : m_n (f_vm s) = m_n m0;
  ei_idle : budget <= length (idle_voices (f_vm s));
  ei_voices : exists vs new, s_out (f_sys s) = out0 ++ new
    /\ length vs = length new
    /\ NoDup vs
    /\ (forall v, In v vs -> v < m_n m0 /\ st m0 v = VIdle)
    /\ map (rg (f_vm s)) vs = map (fun x => Some (st_layer x)) new
    /\ (forall v, In v vs -> st (f_vm s) v <> VIdle)
    /\ (forall v, v < m_n m0 -> ~ In v vs -> st (f_vm s) v = VIdle <-> st m0 v = VIdle)
    /\ match vs with
       | [] => ring = None
       | h :: t => ring = Some h /\ is_ring (f_vm s) (h :: t)
       end }.
Lemma event_start : forall I E m0 out0 b s ring k d e s' ring',
  (forall k, vi_disabled (i_info I k) = false) -> (forall t, si_file (e_start E t) = true) ->
  event_inv I m0 out0 (S b) s ring ->
  f_startVoice I E k d e (s, ring) = Some (s', ring') -> event_inv I m0 out0 b s' ring'.
Proof.
  intros I E m0 out0 b s ring k d e s' ring' HD HF [V N B (vs & new & O & L & ND & W0 & MR & W1 & W2 & RG)] H.
  rewrite f_startVoice_vm in H.
  destruct (vm_start _ _ _ _ _ _ _ _) as [[m' r']|] eqn:EV; [|discriminate].
  apply some_inj in H.
  assert (HO : head_ok (f_vm s) ring).
  { destruct vs as [|h t]; [rewrite RG; exact Logic.I|]. destruct RG as [-> RG]. cbn [head_ok].
    apply RG. now left. }
  destruct (start_on_idle _ _ _ _ _ _ _ _ _ _ V HO ltac:(lia) (HD k) (HF _) EV)
    as (i & Hi & SI & SN & RI & IDL & RJ & CNT & ER & R0 & R1).
  destruct (vm_start_spec _ _ _ _ _ _ _ _ _ _ V HO EV) as (_ & _ & _ & V' & _ & LN & _).
  pose proof (f_equal fst H) as H1. pose proof (f_equal snd H) as H2. cbn [fst snd] in H1, H2.
  subst ring'. rewrite <- H1. clear H H1.
  assert (NI : ~ In i vs) by (intros Hc; apply (W1 i Hc); exact SI).
  constructor; cbn [f_vm f_sys].
  - exact V'.
  - congruence.
  - lia.
  - exists (vs ++ [i]), (new ++ [Start k (te_type e) (te_num e) (te_val e)]).
    split; [cbn [emit s_out]; rewrite O, app_assoc; reflexivity|].
    split; [rewrite !app_length, L; reflexivity|].
    split; [eapply Permutation_NoDup; [apply Permutation_cons_append|]; constructor; auto|].
    split.
    { intros v Hv. apply in_app_iff in Hv as [Hv|[<-|[]]]; auto. rewrite <- N. split; auto.
      apply (W2 i); auto. rewrite <- N. auto. }
    split.
    { rewrite !map_app, <- MR. cbn [map st_layer]. f_equal; [|now rewrite RI].
      apply map_ext_in. intros v Hv. apply RJ. intros ->. contradiction. }
    split.
    { intros v Hv. apply in_app_iff in Hv as [Hv|[<-|[]]]; auto. rewrite IDL; auto.
      intros ->. contradiction. }
    split.
    { intros v Hv Hn. rewrite IDL. 2: { intros ->. apply Hn, in_app_iff. cbn; auto. }
      apply W2; auto. intros Hc. apply Hn, in_app_iff. auto. }
    destruct vs as [|h t]; cbn [app].
    + rewrite ER, RG. split; auto.
    + destruct RG as [RE RG]. rewrite ER, RE. split; auto.
Qed.

(** A note-on in a reachable state with enough idle voices: the started voices are idle voices,
    they play the regions that were asked to start, in order, and are one ring. *)
Theorem C21_note_on_ring : forall I E defaults md sw bps count n os s d key vel rands ri s',
  (forall k, vi_disabled (i_info I k) = false) -> (forall k, vi_offBy (i_info I k) = None) ->
  (forall t, si_file (e_start E t) = true) ->
  frun I E defaults (f_load I md sw bps count n) os = Some s ->
  length (s_layers (f_sys s)) <= length (idle_voices (f_vm s)) ->
  fstep I E defaults s (FOp (ONoteOn d key vel) rands ri) = Some s' ->
  exists vs new, s_out (f_sys s') = s_out (f_sys s) ++ new
    /\ NoDup vs /\ (forall v, In v vs -> v_state (m_voice (f_vm s) v) = VIdle)
    /\ (forall v, v < m_n (f_vm s) -> (In v vs <-> v_state (m_voice (f_vm s) v) = VIdle
                                        /\ v_state (m_voice (f_vm s') v) <> VIdle))
    /\ map (fun v => v_region (m_voice (f_vm s') v)) vs = map (fun x => Some (st_layer x)) new
    /\ forall h t, vs = h :: t -> ring_of h (f_vm s') = Some (t ++ [h]).
Proof.
  intros I E defaults md sw bps count n os s d key vel rands ri s' HD HB HF HR HL H.
  pose proof (frun_vinv _ _ _ _ _ _ _ _ _ _ HR) as V. clear HR.
  unfold fstep in H. cbv zeta in H. apply bind_inv in H as (x1 & EX & H).
  assert (OX : s_out x1 = s_out (f_sys s) /\ length (s_layers x1) = length (s_layers (f_sys s))).
  { destruct (is_last_switch (f_sys s) key); [injection EX as <-; auto|].
    unfold opt_sys in EX. destruct (noteOnEvent _ _ _ _ _ _); [|discriminate].
    injection EX as <-. auto. }
  destruct OX as [OX LX].
  unfold f_noteOnDispatch in H. cbv zeta in H. apply bind_inv in H as (s3 & E3 & H).
  apply some_inj in H. apply omap_fst_inv in E3 as [r E3].
  cbn [f_sys put_sys tick f_vm] in E3.
  match type of E3 with ofold _ (seq 0 (length (s_layers ?x2))) _ = _ => set (x2' := x2) in E3 end.
  assert (O2 : s_out x2' = s_out (f_sys s) /\ length (s_layers x2') = length (s_layers (f_sys s))).
  { rewrite <- OX, <- LX. subst x2'. destruct (is_last_switch x1 key); cbn [s_out s_layers all_layers with_layers];
      rewrite ?map_length; auto. }
  destruct O2 as [O2 L2]. clearbody x2'.
  assert (G : event_inv I (f_vm s) (s_out (f_sys s)) 0 s3 r).
  { remember (length (s_layers x2')) as len eqn:EL.
    assert (G : forall l acc acc', ofold (f_on_layer I E d key vel (e_rand E (f_tick (put_sys (tick (tick s)) x1)))) l acc = Some acc' ->
       event_inv I (f_vm s) (s_out (f_sys s)) (length l) (fst acc) (snd acc) ->
       event_inv I (f_vm s) (s_out (f_sys s)) 0 (fst acc') (snd acc')).
    { induction l as [|k l IH]; intros acc acc' HO HI; cbn [ofold] in HO.
      - apply some_inj in HO. subst acc'. exact HI.
      - apply bind_inv in HO as (acc1 & EA & HO). eapply IH; [exact HO|].
        destruct acc as [sa ra]. cbn [fst snd length] in HI.
        assert (WK : event_inv I (f_vm s) (s_out (f_sys s)) (length l) sa ra).
        { destruct HI. constructor; auto; lia. }
        unfold f_on_layer in EA. destruct (nth_error _ _) as [[rr ll]|].
        2: { apply some_inj in EA. subst acc1. exact WK. }
        destruct (negb _); [apply some_inj in EA; subst acc1; exact WK|].
        destruct (registerNoteOn _ _ _ _ _ _) as [l' t]. cbv zeta in EA.
        match type of EA with context [put_sys sa ?y] => set (sb := put_sys sa y) in EA end.
        assert (HI' : forall b, event_inv I (f_vm s) (s_out (f_sys s)) b sa ra ->
                        event_inv I (f_vm s) (s_out (f_sys s)) b sb ra).
        { intros b []. constructor; auto. }
        clearbody sb.
        destruct (_ && _).
        + rewrite checkOffGroups_none in EA by auto. cbn [bind] in EA. destruct acc1 as [sc rc].
          eapply event_start; [exact HD|exact HF|apply HI'; exact HI|exact EA].
        + apply some_inj in EA. subst acc1. apply HI'. exact WK. }
    change s3 with (fst (s3, r)). change r with (snd (s3, r)) at 2. eapply G; [exact E3|].
    rewrite seq_length, L2. constructor; cbn [fst snd f_vm f_sys tick put_sys]; auto.
    exists [], []. rewrite app_nil_r. cbn [map length].
    split; [exact O2|]. split; auto. split; [constructor|]. split; [intros v []|]. split; auto.
    split; [intros v []|]. split; [tauto|auto]. }
  destruct G as [V3 N3 _ (vs & new & O & L & ND & W0 & MR & W1 & W2 & RG)].
  exists vs, new. subst s'. cbn [f_sys f_vm put_sys s_out all_layers with_layers].
  split; [exact O|]. split; auto. split; [intros v Hv; now apply W0|].
  split.
  { intros v Hv. split.
    - intros Hin. split; [now apply W0|now apply W1].
    - intros [A B]. destruct (in_dec Nat.eq_dec v vs); auto. exfalso. apply B.
      apply (W2 v Hv); auto. }
  split; [exact MR|]. intros h t ->. apply ring_of_visit. apply RG.
Qed.

(** * Examples *)
Lemma option_map_inv : forall A B (f : A -> B) o y, option_map f o = Some y ->
  exists x, o = Some x /\ f x = y.
Proof. intros A B f [x|] y H; [|discriminate]. exists x. split; auto. now apply some_inj in H. Qed.
Arguments option_map_inv {A B f o y}.
Local Open Scope Z_scope.
Definition two_layers : instr := xinstr SOldest 256 256 [(xa, xi); (xa, xi); (xr, xinfo 3 None 256 None true)].
Definition two_layers_ops : list fop :=
  [xop (ONoteOn 0 60 1%Q); xop (OBlock 64); xop (ONoteOff 3 60 0%Q)].

Example C19_ex :
  (forall k, vi_disabled (i_info two_layers k) = false) /\
  option_map (fun s => let m := f_vm s in (show m, m_active m, m_glist m 0, m_glist m 3, m_slist m O))
    (xrun two_layers 3 8 two_layers_ops)
  = Some ([(0%nat, VPlaying, Some 0%nat, 60, false); (1%nat, VPlaying, Some 1%nat, 60, false);
           (2%nat, VPlaying, Some 2%nat, 60, false)],
          [0%nat; 1%nat; 2%nat], [0%nat; 1%nat], [2%nat], [0%nat; 1%nat; 2%nat]).
Proof.
  split; [|vm_compute; reflexivity]. intros k. do 3 (destruct k as [|k]; [reflexivity|]).
  destruct k; reflexivity.
Qed.

(** A region whose sample is empty (end=0): its voice is not idle but in no list. *)
Theorem C19_disabled_refuted : exists I os s,
  xrun I 1 4 os = Some s /\ v_state (m_voice (f_vm s) 0) <> VIdle /\ m_active (f_vm s) = [].
Proof.
  pose (I := xinstr SOldest 256 256 [(xa, xdisabled)]). pose (os := [xop (ONoteOn 0 60 1%Q)]).
  assert (H : option_map (fun s => (v_state (m_voice (f_vm s) 0), m_active (f_vm s))) (xrun I 1 4 os)
              = Some (VClean, [])) by (vm_compute; reflexivity).
  exists I, os. destruct (xrun I 1 4 os) as [s|]; [|discriminate].
  exists s. cbn [option_map] in H. apply some_inj in H.
  split; [reflexivity|]. split; [|now apply (f_equal snd) in H].
  apply (f_equal fst) in H. cbn [fst] in H. rewrite H. discriminate.
Qed.

Example C21_ex :
  option_map (fun s => (ring_of 0 (f_vm s), ring_of 1 (f_vm s), ring_of 2 (f_vm s), ring_of 3 (f_vm s)))
    (xrun two_layers 3 8 two_layers_ops)
  = Some (Some [1%nat; 0%nat], Some [0%nat; 1%nat], Some [2%nat], Some [3%nat]).
Proof. vm_compute. reflexivity. Qed.
Example C21_walk_ex :
  option_map (fun s => option_map (fun m => (show m, ring_of 0 m, ring_of 1 m)) (applyToRing (v_reset two_layers) 0 (f_vm s)))
    (xrun two_layers 3 8 two_layers_ops)
  = Some (Some ([(2%nat, VPlaying, Some 2%nat, 60, false)], Some [0%nat], Some [1%nat])).
Proof. vm_compute. reflexivity. Qed.

(** When the first voice of an event is stolen by the same event, its voices are in two rings:
    six regions, one voice. *)
Theorem C21_stolen_head_refuted : exists I s,
  xrun I 6 1 [xop (ONoteOn 0 60 1%Q)] = Some s
  /\ ring_of 0 (f_vm s) = Some [0%nat] /\ ring_of 1 (f_vm s) = Some [2%nat; 3%nat; 4%nat; 1%nat]
  /\ forall i, In i (seq 0 5) -> v_region (m_voice (f_vm s) i) <> None.
Proof.
  pose (I := xinstr SOldest 256 256 (repeat (xa, xi) 6)).
  assert (H : option_map (fun s => (ring_of 0 (f_vm s), ring_of 1 (f_vm s),
       map (fun i => v_region (m_voice (f_vm s) i)) (seq 0 5))) (xrun I 6 1 [xop (ONoteOn 0 60 1%Q)])
     = Some (Some [0%nat], Some [2%nat; 3%nat; 4%nat; 1%nat],
             [Some 5%nat; Some 1%nat; Some 2%nat; Some 3%nat; Some 4%nat])) by (vm_compute; reflexivity).
  exists I. destruct (xrun I 6 1 _) as [s|]; [|discriminate]. exists s. cbn [option_map] in H.
  apply some_inj in H. split; [reflexivity|].
  pose proof (f_equal fst (f_equal fst H)) as H1. pose proof (f_equal snd (f_equal fst H)) as H2.
  pose proof (f_equal snd H) as H3. cbn [fst snd] in H1, H2, H3. split; auto. split; auto.
  intros i Hi Hc. cbn [seq map] in H3. injection H3 as A0 A1 A2 A3 A4.
  cbn in Hi. destruct Hi as [<-|[<-|[<-|[<-|[<-|[]]]]]]; congruence.
Qed.

Example C45_ex :
  option_map (fun s => (show (f_vm s), m_active (f_vm s), m_glist (f_vm s) 3, ring_of 0 (f_vm s)))
    (xrun two_layers 3 8 (two_layers_ops ++ [FAllSoundOff]))
  = Some ([], [], [], Some [0%nat]).
Proof. vm_compute. reflexivity. Qed.

(** Release samples delayed by the sustain pedal survive allSoundOff: lifting the pedal afterwards
    starts a voice although no key was struck since. *)
Theorem C45_delayed_release_refuted : exists I pre post s s',
  xrun I 2 8 (pre ++ [FAllSoundOff]) = Some s /\ xrun I 2 8 (pre ++ FAllSoundOff :: post) = Some s'
  /\ m_active (f_vm s) = [] /\ post = [xop (OCC 0 64 0%Q)] /\ m_active (f_vm s') <> [].
Proof.
  pose (I := xinstr SOldest 256 256 [(xa, xi); (xr, xi)]).
  pose (pre := [xop (OCC 0 64 1%Q); xop (ONoteOn 0 60 1%Q); xop (ONoteOff 0 60 0%Q)]).
  assert (H1 : option_map (fun s => m_active (f_vm s)) (xrun I 2 8 (pre ++ [FAllSoundOff])) = Some [])
    by (vm_compute; reflexivity).
  assert (H2 : option_map (fun s => m_active (f_vm s)) (xrun I 2 8 (pre ++ FAllSoundOff :: [xop (OCC 0 64 0%Q)])) = Some [0%nat])
    by (vm_compute; reflexivity).
  apply option_map_inv in H1 as (s & R1 & A1). apply option_map_inv in H2 as (s' & R2 & A2).
  exists I, pre, [xop (OCC 0 64 0%Q)], s, s'. split; [exact R1|]. split; [exact R2|].
  split; [exact A1|]. split; [reflexivity|]. rewrite A2. discriminate.
Qed.

Example C21_note_on_ring_ex :
  (forall k, vi_disabled (i_info two_layers k) = false) /\ (forall k, vi_offBy (i_info two_layers k) = None)
  /\ (forall t, si_file (e_start xenv t) = true)
  /\ option_map (fun s => (length (s_layers (f_sys s)), length (idle_voices (f_vm s))))
       (xrun two_layers 3 8 two_layers_ops) = Some (3%nat, 17%nat)
  /\ option_map (fun s => (ring_of 3 (f_vm s), ring_of 4 (f_vm s)))
       (xrun two_layers 3 8 (two_layers_ops ++ [xop (ONoteOn 1 62 1%Q)]))
     = Some (Some [4%nat; 3%nat], Some [3%nat; 4%nat]).
Proof.
  split. { intros k. do 3 (destruct k as [|k]; [reflexivity|]). destruct k; reflexivity. }
  split. { intros k. do 3 (destruct k as [|k]; [reflexivity|]). destruct k; reflexivity. }
  split; [reflexivity|]. split; vm_compute; reflexivity.
Qed.
