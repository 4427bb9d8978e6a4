(** Exact effects of calls that choke no voice, and the releases emitted by controllers. *)
From Coq Require Import ZArith QArith List Bool Lia.
From Verif Require Import MidiModel MidiProps LayerModel LayerProofs LayerSteps LayerProps.
Import ListNotations.
Local Open Scope Z_scope.

(** Starts of layer [k] caused by note-offs. *)
Definition is_off (k : nat) (x : start) : bool :=
  Nat.eqb (st_layer x) k && match st_type x with ENoteOff => true | _ => false end.
Definition offs (k : nat) (o : list start) : list start := filter (is_off k) o.
Lemma offs_app k a b : offs k (a ++ b) = offs k a ++ offs k b.
Proof. apply filter_app. Qed.
Definition off_start (k : nat) (x : Z * Q) : start := Start k ENoteOff (fst x) (snd x).
Lemma offs_map k j d : offs j (map (off_start k) d) = if Nat.eqb k j then map (off_start k) d else [].
Proof.
  induction d as [|x d IH]; cbn; [destruct (Nat.eqb k j); reflexivity|].
  unfold is_off at 1. cbn. fold (offs j (map (off_start k) d)). rewrite IH.
  destruct (Nat.eqb k j); reflexivity.
Qed.

(** * Note-offs without chokes *)
Definition off_result (r : region) (m : midi) (n : Z) (vel rnd : Q) (l : layer) : layer :=
  let l1 := switch_off n r l in
  if inZ (keyLo r) (keyHi r) n then fst (registerNoteOff r m n vel rnd l1) else l1.
Definition off_starts (r : region) (m : midi) (n : Z) (vel rnd : Q) (att : bool) (l : layer) : bool :=
  inZ (keyLo r) (keyHi r) n && snd (registerNoteOff r m n vel rnd (switch_off n r l))
  && negb (match trig r with TRelease => negb (rtDead r) && negb att | _ => false end).

Definition off_one (n : Z) (vel rnd : Q) (att : nat -> bool) (s : sys) (k : nat) : sys :=
  let '(s1, t) := off_layer k n vel rnd (att k) s in
  if t then emit s1 (Start k ENoteOff n vel) else s1.

Lemma off_one_spec n vel rnd att s k :
  let s' := off_one n vel rnd att s k in
  s_midi s' = s_midi s /\ s_switch s' = s_switch s /\ length (s_layers s') = length (s_layers s) /\
  (forall j, lay s' j = match lay s j with
     | Some (r, l) =>
       Some (r, if Nat.eqb j k && inZ (keyLo r) (keyHi r) n
                then fst (registerNoteOff r (s_midi s) n vel rnd l) else l)
     | None => None end) /\
  exists o, s_out s' = s_out s ++ o /\
    forall j, offs j o =
      match lay s j with
      | Some (r, l) =>
        if Nat.eqb j k && (inZ (keyLo r) (keyHi r) n && snd (registerNoteOff r (s_midi s) n vel rnd l)
           && negb (match trig r with TRelease => negb (rtDead r) && negb (att k) | _ => false end))
        then [Start k ENoteOff n vel] else []
      | None => [] end.
Proof.
  cbv zeta. unfold off_one.
  pose proof (off_layer_other k n vel rnd (att k) s) as (A & B & C & D).
  pose proof (off_layer_lay k n vel rnd (att k) s) as L.
  assert (T : snd (off_layer k n vel rnd (att k) s) = match lay s k with
    | Some (r, l) => inZ (keyLo r) (keyHi r) n && snd (registerNoteOff r (s_midi s) n vel rnd l)
           && negb (match trig r with TRelease => negb (rtDead r) && negb (att k) | _ => false end)
    | None => false end).
  { unfold off_layer. fold (lay s k). destruct (lay s k) as [[r l]|]; [|reflexivity].
    destruct (inZ _ _ _); cbn [negb]; [|reflexivity].
    destruct (registerNoteOff r (s_midi s) n vel rnd l) as [l' t]. reflexivity. }
  destruct (off_layer k n vel rnd (att k) s) as [s1 t]. cbn [fst snd] in *.
  assert (L' : forall j, lay s1 j = match lay s j with
     | Some (r, l) =>
       Some (r, if Nat.eqb j k && inZ (keyLo r) (keyHi r) n
                then fst (registerNoteOff r (s_midi s) n vel rnd l) else l)
     | None => None end).
  { intros j. rewrite L. destruct (lay s j) as [[r l]|]; auto. destruct (_ && _); auto. }
  destruct t.
  - do 3 (split; [assumption|]). split; [intros j; rewrite lay_emit; apply L'|].
    exists [Start k ENoteOff n vel]. split; [cbn; now rewrite C|].
    intros j. destruct (lay s k) as [[r l]|] eqn:Ek; [|discriminate].
    unfold offs. cbn [filter]. unfold is_off. cbn [st_layer st_type].
    rewrite (Nat.eqb_sym k j). destruct (Nat.eqb_spec j k) as [Hj|Hj]; cbn [andb].
    + subst j. rewrite Ek, <- T. reflexivity.
    + destruct (lay s j) as [[]|]; reflexivity.
  - repeat (split; [assumption|]). exists []. rewrite app_nil_r. split; auto.
    intros j. destruct (Nat.eqb_spec j k) as [Hj|Hj]; cbn [andb].
    + subst j. destruct (lay s k) as [[r l]|]; auto. now rewrite <- T.
    + destruct (lay s j) as [[]|]; reflexivity.
Qed.

Lemma off_fold n vel rnd att : forall len st s,
  let s' := fold_left (off_one n vel rnd att) (seq st len) s in
  s_midi s' = s_midi s /\ s_switch s' = s_switch s /\ length (s_layers s') = length (s_layers s) /\
  (forall j, lay s' j = match lay s j with
     | Some (r, l) =>
       Some (r, if (st <=? j)%nat && (j <? st + len)%nat && inZ (keyLo r) (keyHi r) n
                then fst (registerNoteOff r (s_midi s) n vel rnd l) else l)
     | None => None end) /\
  exists o, s_out s' = s_out s ++ o /\
    forall j, offs j o =
      match lay s j with
      | Some (r, l) =>
        if (st <=? j)%nat && (j <? st + len)%nat
           && (inZ (keyLo r) (keyHi r) n && snd (registerNoteOff r (s_midi s) n vel rnd l)
           && negb (match trig r with TRelease => negb (rtDead r) && negb (att j) | _ => false end))
        then [Start j ENoteOff n vel] else []
      | None => [] end.
Proof.
  cbv zeta. induction len as [|len IH]; intros st s; cbn [seq fold_left].
  - repeat (split; [reflexivity|]). split.
    + intros j. destruct (lay s j) as [[r l]|]; auto.
      destruct (Nat.leb_spec st j), (Nat.ltb_spec j (st + 0)); try lia; reflexivity.
    + exists []. rewrite app_nil_r. split; auto. intros j. destruct (lay s j) as [[r l]|]; auto.
      destruct (Nat.leb_spec st j), (Nat.ltb_spec j (st + 0)); try lia; reflexivity.
  - destruct (off_one_spec n vel rnd att s st) as (A1 & A2 & A3 & A4 & o1 & A5 & A6).
    destruct (IH (S st) (off_one n vel rnd att s st)) as (B1 & B2 & B3 & B4 & o2 & B5 & B6).
    split; [congruence|]. split; [congruence|]. split; [congruence|]. split.
    + intros j. rewrite B4, A4, A1. destruct (lay s j) as [[r l]|]; auto.
      destruct (Nat.eqb_spec j st), (Nat.leb_spec st j), (Nat.leb_spec (S st) j),
        (Nat.ltb_spec j (S st + len)), (Nat.ltb_spec j (st + S len)); try lia; reflexivity.
    + exists (o1 ++ o2). split; [now rewrite B5, A5, app_assoc|]. intros j.
      rewrite offs_app, A6, B6, A4, A1. destruct (lay s j) as [[r l]|]; auto.
      destruct (Nat.eqb_spec j st) as [Hj|Hj], (Nat.leb_spec st j), (Nat.leb_spec (S st) j),
        (Nat.ltb_spec j (S st + len)), (Nat.ltb_spec j (st + S len)); try lia; cbn [andb];
        rewrite ?app_nil_r; auto. subst j. reflexivity.
Qed.

Lemma calm_off n vel rnd att s :
  let s' := noteOffDispatch (Choke n vel rnd att []) s in
  s_midi s' = s_midi s /\ s_switch s' = s_switch s /\
  exists o, s_out s' = s_out s ++ o /\
  forall j r l, lay s j = Some (r, l) ->
    lay s' j = Some (r, off_result r (s_midi s) n vel rnd l) /\
    offs j o = if off_starts r (s_midi s) n vel rnd (att j) l then [Start j ENoteOff n vel] else [].
Proof.
  cbv zeta. cbn [noteOffDispatch]. set (s1 := all_layers (switch_off n) s).
  assert (L1 : length (s_layers s1) = length (s_layers s)) by apply map_length.
  rewrite Nat.sub_0_r.
  destruct (off_fold n vel rnd att (length (s_layers s1)) 0 s1) as (A & B & C & D & o & E & F).
  unfold off_one in *. split; [exact A|]. split; [exact B|]. exists o. split; [exact E|].
  intros j r l Ej.
  assert (Lj : lay s1 j = Some (r, switch_off n r l)) by (apply lay_all_some; exact Ej).
  assert (Hj : (j < length (s_layers s1))%nat)
    by (rewrite L1; apply nth_error_Some; unfold lay in Ej; congruence).
  rewrite D, F, Lj. destruct (Nat.leb_spec 0 j), (Nat.ltb_spec j (0 + length (s_layers s1))); try lia.
  cbn [andb]. split; [|reflexivity]. unfold off_result. reflexivity.
Qed.

(** * Note-ons without chokes *)
Lemma calm_on_one n vel rnd tim chk s k : chk k = [] ->
  let s' := on_layer_loop n vel rnd tim chk s k in
  s_midi s' = s_midi s /\ s_switch s' = s_switch s /\ length (s_layers s') = length (s_layers s) /\
  (forall j, lay s' j = match lay s j with
     | Some (r, l) =>
       Some (r, if Nat.eqb j k && inZ (keyLo r) (keyHi r) n
                then fst (registerNoteOn r (s_midi s) n vel rnd l) else l)
     | None => None end) /\
  exists o, s_out s' = s_out s ++ o /\ forall j, offs j o = [].
Proof.
  cbv zeta. intros Hc. pose proof (on_loop_spec n vel rnd tim chk s k) as H.
  assert (Nil : s_out s = s_out s ++ [] /\ forall j, offs j [] = [])
    by (split; [now rewrite app_nil_r|reflexivity]).
  destruct (lay s k) as [[r l]|] eqn:Ek.
  2:{ rewrite H. repeat (split; [reflexivity|]). split.
      - intros j. destruct (lay s j) as [[rj lj]|] eqn:Ej; auto.
        destruct (Nat.eqb_spec j k) as [Hj|]; [subst; congruence|reflexivity].
      - exists []. exact Nil. }
  destruct (inZ (keyLo r) (keyHi r) n) eqn:Ei.
  2:{ rewrite H. repeat (split; [reflexivity|]). split.
      - intros j. destruct (lay s j) as [[rj lj]|] eqn:Ej; auto.
        destruct (Nat.eqb_spec j k) as [Hj|]; [|reflexivity]. subst.
        rewrite Ej in Ek. injection Ek as -> ->. now rewrite Ei.
      - exists []. exact Nil. }
  destruct (registerNoteOn r (s_midi s) n vel rnd l) as [l' t] eqn:Er. cbv zeta in H. rewrite Hc in H.
  cbn [run_chokes fold_left] in H.
  set (s1 := on_layer k (fun _ _ => l') s) in *.
  assert (L1 : forall j, lay s1 j = match lay s j with
     | Some (r, l) =>
       Some (r, if Nat.eqb j k && inZ (keyLo r) (keyHi r) n
                then fst (registerNoteOn r (s_midi s) n vel rnd l) else l)
     | None => None end).
  { intros j. unfold s1. rewrite lay_on_layer. destruct (Nat.eqb_spec j k) as [Hj|Hj]; cbn [andb].
    - subst j. rewrite Ek. cbn [option_map fst]. now rewrite Ei, Er.
    - destruct (lay s j) as [[]|]; reflexivity. }
  assert (Len : length (s_layers s1) = length (s_layers s)) by (cbn; apply map_at_length).
  destruct (t && _); rewrite H.
  - repeat (split; [reflexivity|]). split; [exact Len|]. split; [intros j; rewrite lay_emit; apply L1|].
    exists [Start k ENoteOn n vel]. split; [reflexivity|].
    intros j. cbn. unfold is_off. cbn. now rewrite andb_false_r.
  - repeat (split; [reflexivity|]). split; [exact Len|]. split; [exact L1|].
    exists []. exact Nil.
Qed.
Lemma calm_on_fold n vel rnd tim chk : (forall k, chk k = []) -> forall len st s,
  let s' := fold_left (on_layer_loop n vel rnd tim chk) (seq st len) s in
  s_midi s' = s_midi s /\ s_switch s' = s_switch s /\ length (s_layers s') = length (s_layers s) /\
  (forall j, lay s' j = match lay s j with
     | Some (r, l) =>
       Some (r, if (st <=? j)%nat && (j <? st + len)%nat && inZ (keyLo r) (keyHi r) n
                then fst (registerNoteOn r (s_midi s) n vel rnd l) else l)
     | None => None end) /\
  exists o, s_out s' = s_out s ++ o /\ forall j, offs j o = [].
Proof.
  intros Hc. cbv zeta. induction len as [|len IH]; intros st s; cbn [seq fold_left].
  - repeat (split; [reflexivity|]). split.
    + intros j. destruct (lay s j) as [[r l]|]; auto.
      destruct (Nat.leb_spec st j), (Nat.ltb_spec j (st + 0)); try lia; reflexivity.
    + exists []. now rewrite app_nil_r.
  - destruct (calm_on_one n vel rnd tim chk s st (Hc st)) as (A1 & A2 & A3 & A4 & o1 & A5 & A6).
    destruct (IH (S st) (on_layer_loop n vel rnd tim chk s st)) as (B1 & B2 & B3 & B4 & o2 & B5 & B6).
    split; [congruence|]. split; [congruence|]. split; [congruence|]. split.
    + intros j. rewrite B4, A4, A1. destruct (lay s j) as [[r l]|]; auto.
      destruct (Nat.eqb_spec j st), (Nat.leb_spec st j), (Nat.leb_spec (S st) j),
        (Nat.ltb_spec j (S st + len)), (Nat.ltb_spec j (st + S len)); try lia; reflexivity.
    + exists (o1 ++ o2). split; [now rewrite B5, A5, app_assoc|]. intros j.
      rewrite offs_app, A6, B6. reflexivity.
Qed.
Definition on_result (cur : option Z) (sw : bool) (r : region) (n : Z) (l : layer) : layer :=
  let l1 := switch_on cur sw n r l in
  register_prev n r (if inZ (keyLo r) (keyHi r) n then count_sequence r l1 else l1).
Lemma calm_on n vel rnd tim chk s : (forall k, chk k = []) ->
  let s' := noteOnDispatch n vel rnd tim chk s in
  s_midi s' = s_midi s /\
  exists o, s_out s' = s_out s ++ o /\
  forall j r l, lay s j = Some (r, l) ->
    lay s' j = Some (r, on_result (s_switch s) (is_last_switch s n) r n l) /\ offs j o = [].
Proof.
  intros Hc. cbv zeta. unfold noteOnDispatch. set (sw := is_last_switch s n).
  set (s1 := all_layers (switch_on (s_switch s) sw n) s).
  set (s2 := if sw then Sys (s_midi s1) (s_layers s1) (Some n) (s_out s1) else s1).
  assert (M2 : s_midi s2 = s_midi s) by (unfold s2; destruct sw; reflexivity).
  assert (O2 : s_out s2 = s_out s) by (unfold s2; destruct sw; reflexivity).
  assert (L2 : s_layers s2 = s_layers s1) by (unfold s2; destruct sw; reflexivity).
  destruct (calm_on_fold n vel rnd tim chk Hc (length (s_layers s2)) 0 s2)
    as (A & B & C & D & o & E & F).
  split; [rewrite <- M2, <- A; reflexivity|]. exists o. split; [rewrite <- O2, <- E; reflexivity|].
  intros j r l Ej. split; [|apply F].
  assert (Lj : lay s2 j = Some (r, switch_on (s_switch s) sw n r l)).
  { unfold lay. rewrite L2. apply (lay_all_some (switch_on (s_switch s) sw n)). exact Ej. }
  assert (Hj : (j < length (s_layers s2))%nat)
    by (apply nth_error_Some; unfold lay in Lj; congruence).
  erewrite lay_all_some.
  2:{ rewrite D, Lj. destruct (Nat.leb_spec 0 j), (Nat.ltb_spec j (0 + length (s_layers s2))); try lia.
      reflexivity. }
  cbn [andb]. rewrite registerNoteOn_fields. unfold on_result.
  destruct (inZ _ _ _); reflexivity.
Qed.

(** * Releases started by a controller *)
Definition pedal_up (check : bool) (num : Z) (thr : Q) (cc : Z) (v : Q) : bool :=
  check && (cc =? num) && negb (Qle_bool thr v).
Definition cc_offs (r : region) (cc : Z) (v : Q) (a1 a2 : bool) (l : layer) : list (Z * Q) :=
  if in_cc_list r cc then
    (if pedal_up (checkSustain r) (sustainCC r) (sustainThreshold r) cc v
        && negb (negb (rtDead r) && negb a1) then l_dsus l else []) ++
    (if pedal_up (checkSostenuto r) (sostenutoCC r) (sostenutoThreshold r) cc v
        && negb (l_sustain l) && negb (negb (rtDead r) && negb a2) then l_dsos l else [])
  else [].

Lemma cc_layer_out cc v rnd ext att1 att2 tim s k :
  exists o, s_out (cc_layer cc v rnd ext att1 att2 tim s k) = s_out s ++ o /\
    forall j, offs j o = match lay s k with
      | Some (r, l) => if Nat.eqb j k then map (off_start k) (cc_offs r cc v (att1 k) (att2 k) l) else []
      | None => [] end.
Proof.
  unfold cc_layer. fold (lay s k). destruct (lay s k) as [[r l]|] eqn:Ek.
  2:{ exists []. rewrite app_nil_r. auto. }
  unfold cc_offs. destruct (in_cc_list r cc) eqn:Ei.
  2:{ exists []. rewrite app_nil_r. split; auto. intros j. destruct (Nat.eqb j k); reflexivity. }
  destruct (sustain_part_other cc v att1 s k) as (_ & _ & _ & L1). specialize (L1 k). rewrite Ek in L1.
  rewrite Nat.eqb_refl in L1. cbn [andb] in L1. fold (pedal_up (checkSustain r) (sustainCC r) (sustainThreshold r) cc v) in L1.
  assert (O1 : s_out (cc_sustain_part cc v att1 s k) = s_out s ++
    map (off_start k) (if pedal_up (checkSustain r) (sustainCC r) (sustainThreshold r) cc v
        && negb (negb (rtDead r) && negb (att1 k)) then l_dsus l else [])).
  { unfold cc_sustain_part. fold (lay s k). rewrite Ek. unfold pedal_up.
    destruct (checkSustain r && (cc =? sustainCC r) && negb (Qle_bool (sustainThreshold r) v)); cbn [andb].
    - unfold startDelayedSustain. cbn [on_layer s_out].
      destruct (negb (rtDead r) && negb (att1 k)); cbn [negb map].
      + now rewrite app_nil_r.
      + apply emit_all_other.
    - now rewrite app_nil_r. }
  set (s1 := cc_sustain_part cc v att1 s k) in *.
  set (l1 := if pedal_up (checkSustain r) (sustainCC r) (sustainThreshold r) cc v
             then set_dsus l [] else l) in *.
  assert (S1 : l_sustain l1 = l_sustain l /\ l_dsos l1 = l_dsos l)
    by (unfold l1; destruct (pedal_up _ _ _ _ _); split; reflexivity).
  assert (O2 : s_out (cc_sostenuto_part cc v att2 s1 k) = s_out s1 ++
    map (off_start k) (if pedal_up (checkSostenuto r) (sostenutoCC r) (sostenutoThreshold r) cc v
        && negb (l_sustain l) && negb (negb (rtDead r) && negb (att2 k)) then l_dsos l else [])).
  { unfold cc_sostenuto_part. fold (lay s1 k). rewrite L1. destruct S1 as [S1 S2]. unfold pedal_up.
    destruct (checkSostenuto r && (cc =? sostenutoCC r) && negb (Qle_bool (sostenutoThreshold r) v)); cbn [andb].
    - rewrite S1. destruct (l_sustain l); cbn [negb andb].
      + cbn. now rewrite app_nil_r.
      + unfold startDelayedSostenuto. cbn [on_layer s_out]. rewrite S2.
        destruct (negb (rtDead r) && negb (att2 k)); cbn [negb map].
        * now rewrite app_nil_r.
        * apply emit_all_other.
    - now rewrite app_nil_r. }
  set (s2 := cc_sostenuto_part cc v att2 s1 k) in *.
  assert (O3 : exists o3, s_out (cc_register_part cc v rnd ext tim s2 k) = s_out s2 ++ o3 /\
    forall j, offs j o3 = []).
  { unfold cc_register_part. destruct (nth_error (s_layers s2) k) as [[r2 l2]|].
    2:{ exists []. now rewrite app_nil_r. }
    destruct (registerCC r2 (s_midi s2) cc v rnd ext l2) as [l' t].
    destruct (t && _).
    - exists [Start k ECC cc v]. split; [reflexivity|]. intros j. cbn. unfold is_off. cbn.
      now rewrite andb_false_r.
    - exists []. now rewrite app_nil_r. }
  destruct O3 as (o3 & O3 & F3). rewrite O3, O2, O1.
  eexists. split; [rewrite <- !app_assoc; reflexivity|].
  intros j. rewrite !offs_app, F3, !offs_map, app_nil_r, map_app, (Nat.eqb_sym k j).
  destruct (Nat.eqb j k); reflexivity.
Qed.

Lemma ccDispatch_out cc v rnd ext att1 att2 tim s :
  exists o, s_out (ccDispatch cc v rnd ext att1 att2 tim s) = s_out s ++ o /\
  forall j r l, lay s j = Some (r, l) ->
    offs j o = map (off_start j) (cc_offs r cc v (att1 j) (att2 j) l).
Proof.
  unfold ccDispatch.
  assert (Loop : forall len st s3, exists o,
    s_out (fold_left (cc_layer cc v rnd ext att1 att2 tim) (seq st len) s3) = s_out s3 ++ o /\
    forall j r l, lay s3 j = Some (r, l) ->
      offs j o = if (st <=? j)%nat && (j <? st + len)%nat
                 then map (off_start j) (cc_offs r cc v (att1 j) (att2 j) l) else []).
  { induction len as [|len IH]; intros st s3; cbn [seq fold_left].
    - exists []. rewrite app_nil_r. split; auto. intros j r l _.
      destruct (Nat.leb_spec st j), (Nat.ltb_spec j (st + 0)); try lia; reflexivity.
    - destruct (cc_layer_out cc v rnd ext att1 att2 tim s3 st) as (o1 & A1 & A2).
      destruct (cc_layer_other cc v rnd ext att1 att2 tim s3 st) as (_ & _ & _ & L).
      destruct (IH (S st) (cc_layer cc v rnd ext att1 att2 tim s3 st)) as (o2 & B1 & B2).
      exists (o1 ++ o2). split; [now rewrite B1, A1, app_assoc|].
      intros j r l Ej. rewrite offs_app, A2.
      specialize (L j). rewrite Ej in L. rewrite (B2 j r _ L).
      destruct (Nat.eqb_spec j st) as [Hj|Hj].
      + subst j. rewrite Ej. destruct (Nat.leb_spec st st), (Nat.leb_spec (S st) st),
          (Nat.ltb_spec st (st + S len)); try lia. cbn [andb]. now rewrite app_nil_r.
      + assert (Z : match lay s3 st with Some (r0, l0) => if false then map (off_start st)
           (cc_offs r0 cc v (att1 st) (att2 st) l0) else [] | None => [] end = [])
          by (destruct (lay s3 st) as [[]|]; reflexivity).
        rewrite Z. cbn [app].
        destruct (Nat.leb_spec st j), (Nat.leb_spec (S st) j),
        (Nat.ltb_spec j (S st + len)), (Nat.ltb_spec j (st + S len)); try lia; reflexivity. }
  destruct (Loop (length (s_layers s)) O s) as (o & A & B). exists o. split; [exact A|].
  intros j r l Ej. rewrite (B j r l Ej).
  assert (j < length (s_layers s))%nat by (apply nth_error_Some; unfold lay in Ej; congruence).
  destruct (Nat.leb_spec 0 j), (Nat.ltb_spec j (0 + length (s_layers s))); try lia. reflexivity.
Qed.

(** * One call, exactly *)
Definition calm (oo : op * oracle) : Prop :=
  o_subs (snd oo) = [] /\ forall k, o_chk (snd oo) k = [].

(** The controller a call sends to the regions, if any. *)
Definition cc_sent (o : op) : option (Z * Q) :=
  match o with
  | OCC _ cc v => if (cc =? 121) || (cc =? 123) || (cc =? 120) then None else Some (cc, v)
  | OAutomate _ cc v => Some (cc, v)
  | OPitch _ v => Some (128, v)
  | OChanAT _ v => Some (129, v)
  | OPolyAT _ _ v => Some (130, v)
  | _ => None
  end.

(** State of the MIDI memory seen by a note-off: the event is recorded before the dispatch. *)
Definition calm_step (defaults : Z -> Q) (s s' : sys) (oo : op * oracle) (j : nat) (r : region)
  (l l' : layer) (o : list start) : Prop :=
  let q := snd oo in
  match fst oo with
  | ONoteOn _ n _ => l' = on_result (s_switch s) (is_last_switch s n) r n l /\ o = []
  | ONoteOff _ n _ =>
    let m := s_midi s' in
    let v := lastNoteVelocities m n in
    l' = off_result r m n v (o_rnd q) l /\
    o = if off_starts r m n v (o_rnd q) (o_att q j) l then [Start j ENoteOff n v] else []
  | OCC _ cc v =>
    if cc =? 121 then (exists m, l' = update_all m defaults r l) /\ o = []
    else if (cc =? 123) || (cc =? 120) then l' = l /\ o = []
    else (exists m, l' = cc_layer_effect r m cc v (o_rnd q) (-1) l) /\
         o = map (off_start j) (cc_offs r cc v (o_att q j) (o_att2 q j) l)
  | OAutomate _ cc v => (exists m, l' = cc_layer_effect r m cc v (o_rnd q) (-1) l) /\
         o = map (off_start j) (cc_offs r cc v (o_att q j) (o_att2 q j) l)
  | OPitch _ v =>
    (exists m, l' = cc_layer_effect r m 128 v (o_rnd q) (-1) (registerPitchWheel r v l)) /\
    o = map (off_start j) (cc_offs r 128 v (o_att q j) (o_att2 q j) l)
  | OChanAT _ v =>
    (exists m, l' = cc_layer_effect r m 129 v (o_rnd q) (-1) (registerAftertouch r v l)) /\
    o = map (off_start j) (cc_offs r 129 v (o_att q j) (o_att2 q j) l)
  | OPolyAT _ n v =>
    (exists m, l' = cc_layer_effect r m 130 v (o_rnd q) n l) /\
    o = map (off_start j) (cc_offs r 130 v (o_att q j) (o_att2 q j) l)
  | OProgram p => l' = registerProgramChange r p l /\ o = []
  | OTempo _ | OBlock _ => l' = l /\ o = []
  end.

Lemma perform_cc_out d cc v ext o s s' : perform_cc d cc v ext o s = Some s' ->
  exists out, s_out s' = s_out s ++ out /\
  forall j r l, lay s j = Some (r, l) ->
    offs j out = map (off_start j) (cc_offs r cc v (o_att o j) (o_att2 o j) l).
Proof.
  unfold perform_cc, opt_sys. intros E.
  destruct (ccDispatch_out cc v (o_rnd o) ext (o_att o) (o_att2 o) (o_tim o) s) as (out & A & B).
  destruct (ccEvent _ _ _ _) as [m|]; [|discriminate]. apply some_inj in E as <-.
  exists out. split; [exact A|exact B].
Qed.

Lemma sstep_calm defaults s oo s' : calm oo -> sstep defaults s oo = Some s' ->
  exists out, s_out s' = s_out s ++ out /\
  forall j r l, lay s j = Some (r, l) ->
    exists l', lay s' j = Some (r, l') /\ calm_step defaults s s' oo j r l l' (offs j out).
Proof.
  intros [C1 C2] E. destruct oo as [op o]. cbn [snd] in *. cbn [sstep] in E.
  unfold calm_step. cbn [fst snd].
  destruct op.
  - assert (G : forall s0, s_layers s0 = s_layers s -> s_switch s0 = s_switch s -> s_out s0 = s_out s ->
      s' = noteOnDispatch n vel (o_rnd o) (o_tim o) (o_chk o) s0 ->
      exists out, s_out s' = s_out s ++ out /\
      forall j r l, lay s j = Some (r, l) -> exists l', lay s' j = Some (r, l') /\
        l' = on_result (s_switch s) (is_last_switch s n) r n l /\ offs j out = []).
    { intros s0 HL HS HO ->.
      destruct (calm_on n vel (o_rnd o) (o_tim o) (o_chk o) s0 C2) as (_ & out & A & B).
      exists out. split; [rewrite A, HO; reflexivity|]. intros j r l Ej.
      assert (Ej0 : lay s0 j = Some (r, l)) by (unfold lay in *; now rewrite HL).
      destruct (B j r l Ej0) as (B1 & B2). eexists. split; [exact B1|]. split; auto.
      assert (I : is_last_switch s0 n = is_last_switch s n) by (unfold is_last_switch; now rewrite HL).
      now rewrite HS, I. }
    destruct (is_last_switch s n) eqn:Isw.
    + apply some_inj in E. apply (G s); auto.
    + unfold opt_sys in E. destruct (noteOnEvent _ _ _ _ _ _) as [m|]; [|discriminate].
      apply some_inj in E. apply (G (with_midi s m)); auto.
  - assert (G : forall s0, s_layers s0 = s_layers s -> s_switch s0 = s_switch s -> s_out s0 = s_out s ->
      s' = noteOffDispatch (Choke n (lastNoteVelocities (s_midi s0) n) (o_rnd o) (o_att o) (o_subs o)) s0 ->
      exists out, s_out s' = s_out s ++ out /\
      forall j r l, lay s j = Some (r, l) -> exists l', lay s' j = Some (r, l') /\
      l' = off_result r (s_midi s') n (lastNoteVelocities (s_midi s') n) (o_rnd o) l /\
      offs j out = if off_starts r (s_midi s') n (lastNoteVelocities (s_midi s') n) (o_rnd o) (o_att o j) l
                   then [Start j ENoteOff n (lastNoteVelocities (s_midi s') n)] else []).
    { intros s0 HL HS HO ->. rewrite C1.
      destruct (calm_off n (lastNoteVelocities (s_midi s0) n) (o_rnd o) (o_att o) s0) as (M & _ & out & A & B).
      exists out. split; [rewrite A, HO; reflexivity|]. intros j r l Ej.
      assert (Ej0 : lay s0 j = Some (r, l)) by (unfold lay in *; now rewrite HL).
      destruct (B j r l Ej0) as (B1 & B2). rewrite M. eexists. split; [exact B1|]. split; auto. }
    destruct (is_last_switch s n) eqn:Isw.
    + apply some_inj in E. apply (G s); auto.
    + unfold opt_sys in E. destruct (noteOffEvent _ _ _ _ _ _) as [m|]; [|discriminate].
      apply some_inj in E. apply (G (with_midi s m)); auto.
  - destruct (cc =? 121) eqn:E1.
    + apply resetAll_some in E as (m & ->). exists []. split; [cbn; now rewrite app_nil_r|].
      intros j r l El. eexists. split; [apply lay_all_some; exact El|]. split; eauto.
    + destruct ((cc =? 123) || (cc =? 120)).
      * unfold opt_sys in E. destruct (allNotesOff _ _ _); [|discriminate]. apply some_inj in E as <-.
        exists []. split; [cbn; now rewrite app_nil_r|].
        intros j r l El. exists l. split; auto.
      * destruct (perform_cc_out _ _ _ _ _ _ _ E) as (out & A & B). exists out. split; [exact A|].
        apply perform_cc_lay in E as (_ & _ & C). intros j r l El. eexists. split; [apply C; exact El|].
        split; [eauto|]. now apply B.
  - destruct (perform_cc_out _ _ _ _ _ _ _ E) as (out & A & B). exists out. split; [exact A|].
    apply perform_cc_lay in E as (_ & _ & C). intros j r l El. eexists. split; [apply C; exact El|].
    split; [eauto|]. now apply B.
  - destruct (perform_cc_out _ _ _ _ _ _ _ E) as (out & A & B). exists out. split; [exact A|].
    apply perform_cc_lay in E as (_ & _ & C). intros j r l El.
    assert (El' := lay_all_some (fun r => registerPitchWheel r v)
                     (with_midi s (pitchBendEvent (s_midi s) d v)) j r l El).
    eexists. split; [apply C; exact El'|]. split; [eauto|]. rewrite (B _ _ _ El'). reflexivity.
  - destruct (perform_cc_out _ _ _ _ _ _ _ E) as (out & A & B). exists out. split; [exact A|].
    apply perform_cc_lay in E as (_ & _ & C). intros j r l El.
    assert (El' := lay_all_some (fun r => registerAftertouch r v)
                     (with_midi s (channelAftertouchEvent (s_midi s) d v)) j r l El).
    eexists. split; [apply C; exact El'|]. split; [eauto|]. rewrite (B _ _ _ El'). reflexivity.
  - destruct (perform_cc_out _ _ _ _ _ _ _ E) as (out & A & B). exists out. split; [exact A|].
    apply perform_cc_lay in E as (_ & _ & C). intros j r l El.
    assert (El' : lay (with_midi s (polyAftertouchEvent (s_midi s) d n v)) j = Some (r, l)) by exact El.
    eexists. split; [apply C; exact El'|]. split; [eauto|]. rewrite (B _ _ _ El'). reflexivity.
  - apply some_inj in E as <-. exists []. split; [cbn; now rewrite app_nil_r|]. intros j r l El.
    eexists. split; [apply (lay_all_some (fun r => registerProgramChange r p)); exact El|]. auto.
  - apply some_inj in E as <-. exists []. split; [cbn; now rewrite app_nil_r|]. eauto.
  - unfold opt_sys in E. destruct (advanceTime _ _); [|discriminate]. apply some_inj in E as <-.
    exists []. split; [cbn; now rewrite app_nil_r|]. intros j r l El. exists l. auto.
Qed.
