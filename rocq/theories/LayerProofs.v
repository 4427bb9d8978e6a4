(** Induction principles and frame lemmas for the dispatch. *)
From Coq Require Import ZArith QArith List Bool Lia.
From Verif Require Import MidiModel MidiProps LayerModel.
Import ListNotations.
Local Open Scope Z_scope.

(** * Induction on chokes *)
Section ChokeInd.
  Variable P : choke -> Prop.
  Hypothesis H : forall n v r a subs, Forall (Forall P) subs -> P (Choke n v r a subs).
  Fixpoint choke_ind' (c : choke) : P c :=
    match c with
    | Choke n v r a subs =>
      H n v r a subs
        ((fix f (subs : list (list choke)) : Forall (Forall P) subs :=
            match subs with
            | [] => Forall_nil _
            | cs :: t =>
              Forall_cons cs
                ((fix g (cs : list choke) : Forall P cs :=
                    match cs with
                    | [] => Forall_nil _
                    | c :: u => Forall_cons c (choke_ind' c) (g u)
                    end) cs) (f t)
            end) subs)
    end.
End ChokeInd.

(** Whatever the primitive moves of a note-off dispatch preserve is preserved by the whole
    dispatch, chokes included. *)
Section OffInd.
  Variable P : sys -> Prop.
  Hypothesis Hsw : forall s n, P s -> P (all_layers (switch_off n) s).
  Hypothesis Hoff : forall s k n vel rnd att, P s -> P (fst (off_layer k n vel rnd att s)).
  Hypothesis Hemit : forall s0 s k n vel rnd att, P s0 ->
    snd (off_layer k n vel rnd att s0) = true -> P s -> P (emit s (Start k ENoteOff n vel)).

  Lemma noteOff_ind c : forall s, P s -> P (noteOffDispatch c s).
  Proof.
    induction c as [n vel rnd att subs IH] using choke_ind'. intros s Hs.
    cbn [noteOffDispatch]. apply (Hsw s n) in Hs.
    revert Hs. generalize (all_layers (switch_off n) s). clear s. generalize O.
    induction subs as [|cs subs IHs]; intros k s Hs.
    - revert Hs. generalize (seq k (length (s_layers s) - k)). intros l. revert s.
      induction l as [|j l IHl]; intros s Hs; [exact Hs|]. cbn [fold_left]. apply IHl.
      pose proof (Hoff s j n vel rnd (att j) Hs) as H1.
      pose proof (Hemit s) as H2. specialize (H2) with (k := j) (n := n) (vel := vel) (rnd := rnd) (att := att j).
      destruct (off_layer j n vel rnd (att j) s) as [s1 t]. cbn [fst snd] in *.
      destruct t; auto.
    - inversion IH as [|? ? IH1 IH2]; subst.
      pose proof (Hoff s k n vel rnd (att k) Hs) as H1.
      pose proof (fun s' => Hemit s s' k n vel rnd (att k) Hs) as H2.
      destruct (off_layer k n vel rnd (att k) s) as [s1 t]. cbn [fst snd] in *.
      apply (IHs IH2). destruct t; auto. apply H2; auto. clear H2.
      revert s1 H1. induction cs as [|c cs IHc]; intros s1 H1; [exact H1|].
      inversion IH1; subst. apply IHc; auto.
  Qed.

  Lemma chokes_ind cs : forall s, P s -> P (run_chokes cs s).
  Proof.
    unfold run_chokes. induction cs as [|c cs IH]; intros s Hs; cbn; auto.
    apply IH. now apply noteOff_ind.
  Qed.
End OffInd.

(** * Frames *)
Lemma nth_error_map_at {A} (f : A -> A) l : forall k j,
  nth_error (map_at k f l) j = if Nat.eqb j k then option_map f (nth_error l j) else nth_error l j.
Proof.
  induction l as [|x l IH]; intros k j.
  - destruct k, j; cbn; try reflexivity. destruct (Nat.eqb j k); reflexivity.
  - destruct k, j; cbn; try reflexivity. apply IH.
Qed.
Lemma map_at_length {A} (f : A -> A) l : forall k, length (map_at k f l) = length l.
Proof. induction l; intros [|k]; cbn; auto. Qed.

(** The layer at [k]. *)
Definition lay (s : sys) (k : nat) : option (region * layer) := nth_error (s_layers s) k.

Lemma lay_on_layer k f s j :
  lay (on_layer k f s) j
  = if Nat.eqb j k then option_map (fun p => (fst p, f (fst p) (snd p))) (lay s j) else lay s j.
Proof. unfold lay, on_layer. cbn. apply nth_error_map_at. Qed.
Lemma lay_all f s j :
  lay (all_layers f s) j = option_map (fun p => (fst p, f (fst p) (snd p))) (lay s j).
Proof. unfold lay, all_layers. cbn. apply nth_error_map. Qed.
Lemma lay_emit s x j : lay (emit s x) j = lay s j.
Proof. reflexivity. Qed.

Lemma off_layer_other k n vel rnd att s :
  s_midi (fst (off_layer k n vel rnd att s)) = s_midi s /\
  s_switch (fst (off_layer k n vel rnd att s)) = s_switch s /\
  s_out (fst (off_layer k n vel rnd att s)) = s_out s /\
  length (s_layers (fst (off_layer k n vel rnd att s))) = length (s_layers s).
Proof.
  unfold off_layer. destruct (nth_error _ _) as [[r l]|]; cbn; auto.
  destruct (negb _); cbn; auto. destruct (registerNoteOff _ _ _ _ _ _) as [l' t]. cbn.
  now rewrite map_at_length.
Qed.
Lemma off_layer_lay k n vel rnd att s j :
  lay (fst (off_layer k n vel rnd att s)) j
  = match lay s j with
    | Some (r, l) =>
      if Nat.eqb j k && inZ (keyLo r) (keyHi r) n
      then Some (r, fst (registerNoteOff r (s_midi s) n vel rnd l)) else Some (r, l)
    | None => None
    end.
Proof.
  unfold off_layer. fold (lay s k). destruct (Nat.eqb_spec j k) as [->|Hne].
  - destruct (lay s k) as [[r l]|] eqn:E; cbn [fst]; [|now rewrite E].
    destruct (inZ (keyLo r) (keyHi r) n) eqn:Ei; cbn [negb andb fst].
    + destruct (registerNoteOff _ _ _ _ _ _) as [l' t]. cbn [fst].
      rewrite lay_on_layer, Nat.eqb_refl, E. reflexivity.
    + exact E.
  - cbn [andb]. destruct (lay s k) as [[r l]|] eqn:E; cbn [fst].
    + destruct (negb _); cbn [fst].
      * destruct (lay s j) as [[]|]; reflexivity.
      * destruct (registerNoteOff _ _ _ _ _ _) as [l' t]. cbn [fst].
        rewrite lay_on_layer. destruct (Nat.eqb_spec j k); [contradiction|].
        destruct (lay s j) as [[]|]; reflexivity.
    + destruct (lay s j) as [[]|]; reflexivity.
Qed.

(** A relation on layers kept by note-offs relates every layer before and after. *)
Record off_frame (R : region -> layer -> layer -> Prop) : Prop := OffFrame {
  of_refl : forall r l, R r l l;
  of_trans : forall r a b c, R r a b -> R r b c -> R r a c;
  of_switch : forall r l n, R r l (switch_off n r l);
  of_reg : forall r l m n vel rnd, R r l (fst (registerNoteOff r m n vel rnd l)) }.

Definition frame_of (R : region -> layer -> layer -> Prop) (s0 s : sys) : Prop :=
  s_midi s = s_midi s0 /\ s_switch s = s_switch s0 /\
  length (s_layers s) = length (s_layers s0) /\
  (forall k, match lay s0 k with
             | Some (r, l) => exists l', lay s k = Some (r, l') /\ R r l l'
             | None => lay s k = None
             end) /\
  exists o, s_out s = s_out s0 ++ o /\ Forall (fun x => st_type x = ENoteOff) o.

Lemma frame_refl R s : off_frame R -> frame_of R s s.
Proof.
  intros F. repeat (split; [reflexivity|]). split.
  - intros k. destruct (lay s k) as [[r l]|]; auto. exists l. split; auto. now apply of_refl.
  - exists []. split; [now rewrite app_nil_r|constructor].
Qed.
Lemma frame_trans R a b c : off_frame R -> frame_of R a b -> frame_of R b c -> frame_of R a c.
Proof.
  intros F (A1 & A2 & A3 & A4 & o1 & A5 & A6) (B1 & B2 & B3 & B4 & o2 & B5 & B6).
  split; [congruence|]. split; [congruence|]. split; [congruence|]. split.
  - intros k. specialize (A4 k). specialize (B4 k). destruct (lay a k) as [[r l]|].
    + destruct A4 as (l' & E & HR). rewrite E in B4. destruct B4 as (l'' & E' & HR').
      exists l''. split; auto. eapply of_trans; eauto.
    + now rewrite A4 in B4.
  - exists (o1 ++ o2). split; [rewrite B5, A5; now rewrite app_assoc|].
    apply Forall_app. now split.
Qed.
Lemma frame_all R f s : off_frame R -> (forall r l, R r l (f r l)) -> frame_of R s (all_layers f s).
Proof.
  intros F H. split; [reflexivity|]. split; [reflexivity|]. split; [cbn; now rewrite map_length|].
  split.
  - intros k. rewrite lay_all. destruct (lay s k) as [[r l]|]; cbn; eauto.
  - exists []. split; [cbn; now rewrite app_nil_r|constructor].
Qed.
Lemma frame_off R s k n vel rnd att : off_frame R ->
  frame_of R s (fst (off_layer k n vel rnd att s)).
Proof.
  intros F. destruct (off_layer_other k n vel rnd att s) as (A & B & C & D).
  repeat (split; [assumption|]). split.
  - intros j. rewrite off_layer_lay. destruct (lay s j) as [[r l]|]; auto.
    destruct (_ && _); eexists; (split; [reflexivity|]); [now apply of_reg|now apply of_refl].
  - exists []. split; [rewrite C; now rewrite app_nil_r|constructor].
Qed.
Lemma frame_emit R s k n vel : off_frame R -> frame_of R s (emit s (Start k ENoteOff n vel)).
Proof.
  intros F. repeat (split; [reflexivity|]). split.
  - intros j. rewrite lay_emit. destruct (lay s j) as [[r l]|]; auto.
    eexists; split; [reflexivity|now apply of_refl].
  - eexists; split; [reflexivity|repeat constructor].
Qed.
Lemma noteOff_frame R c s : off_frame R -> frame_of R s (noteOffDispatch c s).
Proof.
  intros F. apply (noteOff_ind (frame_of R s)).
  - intros s' n H. eapply frame_trans; eauto. apply frame_all; auto. intros. now apply of_switch.
  - intros. eapply frame_trans; eauto. now apply frame_off.
  - intros. eapply frame_trans; eauto. now apply frame_emit.
  - now apply frame_refl.
Qed.
Lemma chokes_frame R cs s : off_frame R -> frame_of R s (run_chokes cs s).
Proof.
  intros F. unfold run_chokes. revert s. induction cs as [|c cs IH]; intros s; cbn.
  - now apply frame_refl.
  - eapply frame_trans; [auto|apply noteOff_frame; auto|apply IH].
Qed.

(** * The loop of a note-on *)
Definition on_step := on_layer_loop.

Lemma on_loop_spec n vel rnd tim chk s k :
  match lay s k with
  | None => on_layer_loop n vel rnd tim chk s k = s
  | Some (r, l) =>
    if inZ (keyLo r) (keyHi r) n then
      let '(l', t) := registerNoteOn r (s_midi s) n vel rnd l in
      let s1 := on_layer k (fun _ _ => l') s in
      on_layer_loop n vel rnd tim chk s k
      = (if t && negb (useTimerRange r && negb (tim k))
         then emit (run_chokes (chk k) s1) (Start k ENoteOn n vel) else s1)
    else on_layer_loop n vel rnd tim chk s k = s
  end.
Proof.
  unfold on_layer_loop, lay. destruct (nth_error _ _) as [[r l]|]; [|reflexivity].
  destruct (inZ _ _ _); cbn [negb]; [|reflexivity].
  destruct (registerNoteOn _ _ _ _ _ _) as [l' t]. reflexivity.
Qed.

(** Effect of one iteration on the layer [j]. *)
Lemma on_loop_lay R n vel rnd tim chk s k : off_frame R ->
  let s' := on_layer_loop n vel rnd tim chk s k in
  s_midi s' = s_midi s /\ s_switch s' = s_switch s /\ length (s_layers s') = length (s_layers s) /\
  forall j, match lay s j with
            | None => lay s' j = None
            | Some (r, l) =>
              exists l', lay s' j = Some (r, l') /\
                R r (if Nat.eqb j k && inZ (keyLo r) (keyHi r) n
                     then fst (registerNoteOn r (s_midi s) n vel rnd l) else l) l'
            end.
Proof.
  intros F s'. pose proof (on_loop_spec n vel rnd tim chk s k) as H. fold s' in H.
  assert (Same : s' = s -> (forall r l, lay s k = Some (r, l) -> inZ (keyLo r) (keyHi r) n = false) ->
    s_midi s' = s_midi s /\ s_switch s' = s_switch s /\ length (s_layers s') = length (s_layers s) /\
    forall j, match lay s j with
            | None => lay s' j = None
            | Some (r, l) =>
              exists l', lay s' j = Some (r, l') /\
                R r (if Nat.eqb j k && inZ (keyLo r) (keyHi r) n
                     then fst (registerNoteOn r (s_midi s) n vel rnd l) else l) l'
            end).
  { intros -> Hk. repeat (split; [reflexivity|]). intros j.
    destruct (lay s j) as [[r l]|] eqn:E; auto. exists l. split; auto.
    destruct (Nat.eqb_spec j k) as [->|]; cbn [andb]; [rewrite (Hk r l E)|]; now apply of_refl. }
  destruct (lay s k) as [[r l]|] eqn:E.
  2:{ apply Same; auto. discriminate. }
  destruct (inZ (keyLo r) (keyHi r) n) eqn:Ei.
  2:{ apply Same; auto. intros r0 l0 E0. injection E0 as <- <-. exact Ei. }
  clear Same. destruct (registerNoteOn r (s_midi s) n vel rnd l) as [l' t] eqn:Er.
  cbv zeta in H.
  set (s1 := on_layer k (fun _ _ => l') s) in *.
  assert (H1 : frame_of R s1 (run_chokes (chk k) s1)) by now apply chokes_frame.
  assert (L1 : forall j, lay s1 j = if Nat.eqb j k then Some (r, l') else lay s j).
  { intros j. unfold s1. rewrite lay_on_layer. destruct (Nat.eqb_spec j k) as [->|]; auto.
    rewrite E. reflexivity. }
  assert (Len : length (s_layers s1) = length (s_layers s)) by (cbn; now rewrite map_at_length).
  assert (G : exists s2, frame_of R s1 s2 /\ s_midi s' = s_midi s2 /\ s_switch s' = s_switch s2 /\
                length (s_layers s') = length (s_layers s2) /\ forall j, lay s' j = lay s2 j).
  { rewrite H. destruct (_ && _).
    - exists (run_chokes (chk k) s1). split; [exact H1|]. repeat split; reflexivity.
    - exists s1. split; [now apply frame_refl|]. repeat split; reflexivity. }
  destruct G as (s2 & (A1 & A2 & A3 & A4 & _) & B1 & B2 & B3 & B4).
  split; [rewrite B1, A1; reflexivity|]. split; [rewrite B2, A2; reflexivity|].
  split; [congruence|]. intros j. rewrite B4. specialize (A4 j). rewrite L1 in A4.
  destruct (Nat.eqb_spec j k) as [Hj|Hne]; cbn [andb].
  - rewrite Hj in A4 |- *. rewrite E, Ei, Er. exact A4.
  - destruct (lay s j) as [[rj lj]|]; exact A4.
Qed.

(** The whole note-on dispatch on layer [j]: keyswitches, then (possibly after chokes of other
    layers) one registration if the key is in range, then chokes, then sw_previous. *)
Lemma noteOn_lay R n vel rnd tim chk s : off_frame R ->
  let s' := noteOnDispatch n vel rnd tim chk s in
  s_midi s' = s_midi s /\
  s_switch s' = (if is_last_switch s n then Some n else s_switch s) /\
  length (s_layers s') = length (s_layers s) /\
  forall j, match lay s j with
  | None => lay s' j = None
  | Some (r, l) =>
    exists l1 l2,
      R r (switch_on (s_switch s) (is_last_switch s n) n r l) l1 /\
      R r (if inZ (keyLo r) (keyHi r) n
           then fst (registerNoteOn r (s_midi s) n vel rnd l1) else l1) l2 /\
      lay s' j = Some (r, register_prev n r l2)
  end.
Proof.
  intros F. unfold noteOnDispatch.
  set (sw := is_last_switch s n).
  set (s1 := all_layers (switch_on (s_switch s) sw n) s).
  set (s2 := if sw then Sys (s_midi s1) (s_layers s1) (Some n) (s_out s1) else s1).
  assert (M2 : s_midi s2 = s_midi s) by (unfold s2; destruct sw; reflexivity).
  assert (W2 : s_switch s2 = if sw then Some n else s_switch s) by (unfold s2; destruct sw; reflexivity).
  assert (N2 : length (s_layers s2) = length (s_layers s)).
  { unfold s2; destruct sw; cbn; apply map_length. }
  assert (L2 : forall j, lay s2 j = option_map (fun p => (fst p, switch_on (s_switch s) sw n (fst p) (snd p))) (lay s j)).
  { intros j. rewrite <- lay_all. unfold s2. destruct sw; reflexivity. }
  (* the loop *)
  assert (Loop : forall len st s3, s_midi s3 = s_midi s ->
    let s4 := fold_left (on_layer_loop n vel rnd tim chk) (seq st len) s3 in
    s_midi s4 = s_midi s3 /\ s_switch s4 = s_switch s3 /\ length (s_layers s4) = length (s_layers s3) /\
    forall j, match lay s3 j with
      | None => lay s4 j = None
      | Some (r, l) =>
        exists l1 l2, R r l l1 /\
         R r (if inZ (keyLo r) (keyHi r) n && (st <=? j)%nat && (j <? st + len)%nat
              then fst (registerNoteOn r (s_midi s) n vel rnd l1) else l1) l2 /\
         lay s4 j = Some (r, l2)
      end).
  { induction len as [|len IH]; intros st s3 Hm; cbn [seq fold_left].
    - repeat (split; [reflexivity|]). intros j. destruct (lay s3 j) as [[r l]|] eqn:E; auto.
      exists l, l. split; [now apply of_refl|]. split; [|auto].
      replace (_ && _) with false; [now apply of_refl|].
      destruct (Nat.leb_spec st j), (Nat.ltb_spec j (st + 0)); try lia;
        now rewrite ?andb_false_r.
    - destruct (on_loop_lay R n vel rnd tim chk s3 st F) as (A1 & A2 & A3 & A4).
      specialize (IH (S st) (on_layer_loop n vel rnd tim chk s3 st) ltac:(congruence)).
      destruct IH as (B1 & B2 & B3 & B4).
      split; [congruence|]. split; [congruence|]. split; [congruence|].
      intros j. specialize (A4 j). specialize (B4 j).
      destruct (lay s3 j) as [[r l]|]; [|now rewrite A4 in B4].
      destruct A4 as (l' & E & HR). rewrite E in B4.
      destruct B4 as (l1 & l2 & C1 & C2 & C3).
      rewrite Hm in HR.
      destruct (Nat.eqb_spec j st) as [->|Hne]; cbn [andb] in HR.
      + replace (inZ (keyLo r) (keyHi r) n && (S st <=? st)%nat && (st <? S st + len)%nat)
          with false in C2.
        2:{ destruct (Nat.leb_spec (S st) st); [lia|]. now rewrite andb_false_r. }
        exists l, l2. split; [now apply of_refl|].
        replace (inZ (keyLo r) (keyHi r) n && (st <=? st)%nat && (st <? st + S len)%nat)
          with (inZ (keyLo r) (keyHi r) n).
        2:{ destruct (Nat.leb_spec st st), (Nat.ltb_spec st (st + S len)); try lia.
            now rewrite !andb_true_r. }
        split; auto. eapply of_trans; [exact F|exact HR|]. eapply of_trans; eauto.
      + exists l1, l2. split; [eapply of_trans; eauto|]. split; [|auto].
        replace (inZ (keyLo r) (keyHi r) n && (st <=? j)%nat && (j <? st + S len)%nat)
          with (inZ (keyLo r) (keyHi r) n && (S st <=? j)%nat && (j <? S st + len)%nat); auto.
        destruct (Nat.leb_spec st j), (Nat.leb_spec (S st) j), (Nat.ltb_spec j (S st + len)),
          (Nat.ltb_spec j (st + S len)); try lia; auto. }
  specialize (Loop (length (s_layers s2)) O s2 M2). cbv zeta in Loop.
  destruct Loop as (A1 & A2 & A3 & A4).
  cbv zeta. split; [cbn; congruence|]. split; [cbn; congruence|].
  split; [cbn; rewrite map_length; congruence|].
  intros j. rewrite lay_all. specialize (A4 j). rewrite L2 in A4.
  destruct (lay s j) as [[r l]|] eqn:E; cbn [option_map fst snd] in A4.
  - destruct A4 as (l1 & l2 & B1 & B2 & B3). exists l1, l2. split; [exact B1|]. split.
    + replace (inZ (keyLo r) (keyHi r) n && (0 <=? j)%nat && (j <? 0 + length (s_layers s2))%nat)
        with (inZ (keyLo r) (keyHi r) n) in B2; auto.
      assert (j < length (s_layers s))%nat by (apply nth_error_Some; unfold lay in E; congruence).
      rewrite N2. destruct (Nat.leb_spec 0 j), (Nat.ltb_spec j (0 + length (s_layers s))); try lia.
      now rewrite !andb_true_r.
    + rewrite B3. reflexivity.
  - rewrite A4. reflexivity.
Qed.

(** * Controllers *)
Lemma emit_all_lay k d : forall s j, lay (emit_all k d s) j = lay s j.
Proof. unfold emit_all. induction d; intros s j; cbn; auto. rewrite IHd. apply lay_emit. Qed.
Lemma emit_all_other k d : forall s,
  s_midi (emit_all k d s) = s_midi s /\ s_switch (emit_all k d s) = s_switch s /\
  s_layers (emit_all k d s) = s_layers s /\
  s_out (emit_all k d s) = s_out s ++ map (fun x => Start k ENoteOff (fst x) (snd x)) d.
Proof.
  unfold emit_all. induction d as [|x d IH]; intros s; cbn.
  - now rewrite app_nil_r.
  - destruct (IH (emit s (Start k ENoteOff (fst x) (snd x)))) as (A & B & C & D).
    rewrite A, B, C, D. cbn. rewrite <- app_assoc. auto.
Qed.

(** The transformation of the layer by one controller event. *)
Definition cc_pedals (r : region) (cc : Z) (v : Q) (l : layer) : layer :=
  let l1 := if checkSustain r && (cc =? sustainCC r) && negb (Qle_bool (sustainThreshold r) v)
            then set_dsus l [] else l in
  if checkSostenuto r && (cc =? sostenutoCC r) && negb (Qle_bool (sostenutoThreshold r) v)
  then if l_sustain l1
       then set_dsos (fold_left (fun l x => delaySustainRelease r (fst x) (snd x) l) (l_dsos l1) l1) []
       else set_dsos l1 []
  else l1.
Definition cc_layer_effect (r : region) (m : midi) (cc : Z) (v rnd : Q) (ext : Z) (l : layer)
  : layer :=
  if in_cc_list r cc then fst (registerCC r m cc v rnd ext (cc_pedals r cc v l)) else l.

Lemma sustain_part_other cc v att s k :
  let s' := cc_sustain_part cc v att s k in
  s_midi s' = s_midi s /\ s_switch s' = s_switch s /\ length (s_layers s') = length (s_layers s) /\
  forall j, lay s' j = match lay s j with
    | None => None
    | Some (r, l) =>
      Some (r, if Nat.eqb j k && (checkSustain r && (cc =? sustainCC r)
                                  && negb (Qle_bool (sustainThreshold r) v))
               then set_dsus l [] else l)
    end.
Proof.
  cbv zeta. unfold cc_sustain_part. fold (lay s k).
  destruct (lay s k) as [[r l]|] eqn:E.
  2:{ repeat (split; [reflexivity|]). intros j. destruct (lay s j) as [[rj lj]|] eqn:Ej; auto.
      destruct (Nat.eqb_spec j k) as [->|]; [congruence|reflexivity]. }
  destruct (_ && _) eqn:C.
  - unfold startDelayedSustain.
    set (s0 := if negb (rtDead r) && negb (att k) then s else emit_all k (l_dsus l) s).
    assert (H0 : s_midi s0 = s_midi s /\ s_switch s0 = s_switch s /\ s_layers s0 = s_layers s).
    { unfold s0. destruct (negb (rtDead r) && negb (att k)); auto. destruct (emit_all_other k (l_dsus l) s) as (A & B & D & _). auto. }
    destruct H0 as (A & B & D). split; [exact A|]. split; [exact B|].
    split; [cbn; rewrite map_at_length; congruence|]. intros j. rewrite lay_on_layer.
    unfold lay. rewrite D. fold (lay s j). destruct (Nat.eqb_spec j k) as [->|]; cbn [andb].
    + rewrite E. cbn. now rewrite C.
    + destruct (lay s j) as [[]|]; reflexivity.
  - repeat (split; [reflexivity|]). intros j. destruct (lay s j) as [[rj lj]|] eqn:Ej; auto.
    destruct (Nat.eqb_spec j k) as [->|]; cbn [andb]; auto.
    rewrite Ej in E. injection E as -> ->. now rewrite C.
Qed.
Lemma sostenuto_part_other cc v att s k :
  let s' := cc_sostenuto_part cc v att s k in
  s_midi s' = s_midi s /\ s_switch s' = s_switch s /\ length (s_layers s') = length (s_layers s) /\
  forall j, lay s' j = match lay s j with
    | None => None
    | Some (r, l) =>
      Some (r, if Nat.eqb j k && (checkSostenuto r && (cc =? sostenutoCC r)
                                  && negb (Qle_bool (sostenutoThreshold r) v))
               then if l_sustain l
                    then set_dsos (fold_left (fun l x => delaySustainRelease r (fst x) (snd x) l)
                                             (l_dsos l) l) []
                    else set_dsos l []
               else l)
    end.
Proof.
  cbv zeta. unfold cc_sostenuto_part. fold (lay s k).
  destruct (lay s k) as [[r l]|] eqn:E.
  2:{ repeat (split; [reflexivity|]). intros j. destruct (lay s j) as [[rj lj]|] eqn:Ej; auto.
      destruct (Nat.eqb_spec j k) as [->|]; [congruence|reflexivity]. }
  destruct (_ && _) eqn:C.
  - destruct (l_sustain l) eqn:Sus.
    + split; [reflexivity|]. split; [reflexivity|].
      split; [cbn; apply map_at_length|]. intros j. rewrite lay_on_layer.
      destruct (Nat.eqb_spec j k) as [->|]; cbn [andb].
      * rewrite E. cbn [option_map fst snd]. now rewrite C, Sus.
      * destruct (lay s j) as [[]|]; reflexivity.
    + unfold startDelayedSostenuto.
      set (s0 := if negb (rtDead r) && negb (att k) then s else emit_all k (l_dsos l) s).
      assert (H0 : s_midi s0 = s_midi s /\ s_switch s0 = s_switch s /\ s_layers s0 = s_layers s).
      { unfold s0. destruct (negb (rtDead r) && negb (att k)); auto.
        destruct (emit_all_other k (l_dsos l) s) as (A & B & D & _). auto. }
      destruct H0 as (A & B & D). split; [exact A|]. split; [exact B|].
      split; [cbn; rewrite map_at_length; congruence|]. intros j. rewrite lay_on_layer.
      unfold lay. rewrite D. fold (lay s j). destruct (Nat.eqb_spec j k) as [->|]; cbn [andb].
      * rewrite E. cbn [option_map fst snd]. now rewrite C, Sus.
      * destruct (lay s j) as [[]|]; reflexivity.
  - repeat (split; [reflexivity|]). intros j. destruct (lay s j) as [[rj lj]|] eqn:Ej; auto.
    destruct (Nat.eqb_spec j k) as [->|]; cbn [andb]; auto.
    rewrite Ej in E. injection E as -> ->. now rewrite C.
Qed.
Lemma register_part_other cc v rnd ext tim s k :
  let s' := cc_register_part cc v rnd ext tim s k in
  s_midi s' = s_midi s /\ s_switch s' = s_switch s /\ length (s_layers s') = length (s_layers s) /\
  forall j, lay s' j = match lay s j with
    | None => None
    | Some (r, l) =>
      Some (r, if Nat.eqb j k then fst (registerCC r (s_midi s) cc v rnd ext l) else l)
    end.
Proof.
  cbv zeta. unfold cc_register_part. fold (lay s k).
  destruct (lay s k) as [[r l]|] eqn:E.
  2:{ repeat (split; [reflexivity|]). intros j. destruct (lay s j) as [[rj lj]|] eqn:Ej; auto.
      destruct (Nat.eqb_spec j k) as [->|]; [congruence|reflexivity]. }
  destruct (registerCC r (s_midi s) cc v rnd ext l) as [l' t] eqn:Er.
  assert (G : forall s', (s' = on_layer k (fun _ _ => l') s \/
                          s' = emit (on_layer k (fun _ _ => l') s) (Start k ECC cc v)) ->
    s_midi s' = s_midi s /\ s_switch s' = s_switch s /\ length (s_layers s') = length (s_layers s) /\
    forall j, lay s' j = match lay s j with
    | None => None
    | Some (r, l) =>
      Some (r, if Nat.eqb j k then fst (registerCC r (s_midi s) cc v rnd ext l) else l)
    end).
  { intros s' Hs. assert (L : forall j, lay s' j = lay (on_layer k (fun _ _ => l') s) j)
      by (destruct Hs as [-> | ->]; reflexivity).
    split; [destruct Hs as [-> | ->]; reflexivity|].
    split; [destruct Hs as [-> | ->]; reflexivity|].
    split; [destruct Hs as [-> | ->]; cbn; apply map_at_length|].
    intros j. rewrite L, lay_on_layer. destruct (Nat.eqb_spec j k) as [->|].
    - rewrite E. cbn [option_map fst]. now rewrite Er.
    - destruct (lay s j) as [[]|]; reflexivity. }
  destruct (_ && _); apply G; auto.
Qed.
Lemma cc_layer_other cc v rnd ext att1 att2 tim s k :
  let s' := cc_layer cc v rnd ext att1 att2 tim s k in
  s_midi s' = s_midi s /\ s_switch s' = s_switch s /\ length (s_layers s') = length (s_layers s) /\
  forall j, lay s' j = match lay s j with
    | None => None
    | Some (r, l) =>
      Some (r, if Nat.eqb j k then cc_layer_effect r (s_midi s) cc v rnd ext l else l)
    end.
Proof.
  cbv zeta. unfold cc_layer. fold (lay s k).
  destruct (lay s k) as [[r l]|] eqn:E.
  2:{ repeat (split; [reflexivity|]). intros j. destruct (lay s j) as [[rj lj]|] eqn:Ej; auto.
      destruct (Nat.eqb_spec j k) as [->|]; [congruence|reflexivity]. }
  destruct (in_cc_list r cc) eqn:C.
  - destruct (sustain_part_other cc v att1 s k) as (A1 & A2 & A3 & A4).
    destruct (sostenuto_part_other cc v att2 (cc_sustain_part cc v att1 s k) k) as (B1 & B2 & B3 & B4).
    destruct (register_part_other cc v rnd ext tim
      (cc_sostenuto_part cc v att2 (cc_sustain_part cc v att1 s k) k) k) as (C1 & C2 & C3 & C4).
    split; [congruence|]. split; [congruence|]. split; [congruence|].
    intros j. rewrite C4, B4, A4, B1, A1.
    destruct (lay s j) as [[rj lj]|] eqn:Ej; auto.
    destruct (Nat.eqb_spec j k) as [->|]; cbn [andb]; auto.
    rewrite Ej in E. injection E as -> ->. unfold cc_layer_effect. rewrite C. reflexivity.
  - repeat (split; [reflexivity|]). intros j. destruct (lay s j) as [[rj lj]|] eqn:Ej; auto.
    destruct (Nat.eqb_spec j k) as [->|]; cbn [andb]; auto.
    rewrite Ej in E. injection E as -> ->. unfold cc_layer_effect. now rewrite C.
Qed.
Lemma ccDispatch_lay cc v rnd ext att1 att2 tim s :
  let s' := ccDispatch cc v rnd ext att1 att2 tim s in
  s_midi s' = s_midi s /\ s_switch s' = s_switch s /\ length (s_layers s') = length (s_layers s) /\
  forall j, lay s' j = match lay s j with
    | None => None
    | Some (r, l) => Some (r, cc_layer_effect r (s_midi s) cc v rnd ext l)
    end.
Proof.
  cbv zeta. unfold ccDispatch.
  assert (Loop : forall len st s3,
    let s4 := fold_left (cc_layer cc v rnd ext att1 att2 tim) (seq st len) s3 in
    s_midi s4 = s_midi s3 /\ s_switch s4 = s_switch s3 /\ length (s_layers s4) = length (s_layers s3) /\
    forall j, lay s4 j = match lay s3 j with
      | None => None
      | Some (r, l) => Some (r, if (st <=? j)%nat && (j <? st + len)%nat
                                then cc_layer_effect r (s_midi s3) cc v rnd ext l else l)
      end).
  { induction len as [|len IH]; intros st s3; cbn [seq fold_left].
    - repeat (split; [reflexivity|]). intros j. destruct (lay s3 j) as [[r l]|]; auto.
      destruct (Nat.leb_spec st j), (Nat.ltb_spec j (st + 0)); try lia; reflexivity.
    - destruct (cc_layer_other cc v rnd ext att1 att2 tim s3 st) as (A1 & A2 & A3 & A4).
      destruct (IH (S st) (cc_layer cc v rnd ext att1 att2 tim s3 st)) as (B1 & B2 & B3 & B4).
      split; [congruence|]. split; [congruence|]. split; [congruence|].
      intros j. rewrite B4, A4, A1. destruct (lay s3 j) as [[r l]|]; auto.
      destruct (Nat.eqb_spec j st), (Nat.leb_spec st j), (Nat.leb_spec (S st) j),
        (Nat.ltb_spec j (S st + len)), (Nat.ltb_spec j (st + S len)); try lia; reflexivity. }
  destruct (Loop (length (s_layers s)) O s) as (A1 & A2 & A3 & A4).
  repeat (split; [assumption|]). intros j. rewrite A4.
  destruct (lay s j) as [[r l]|] eqn:E; auto.
  assert (j < length (s_layers s))%nat by (apply nth_error_Some; unfold lay in E; congruence).
  destruct (Nat.leb_spec 0 j), (Nat.ltb_spec j (0 + length (s_layers s))); try lia. reflexivity.
Qed.
