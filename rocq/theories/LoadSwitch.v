(** What the notes played make of the keyswitches: the current switch, and the switches that act
    while a key is down or up (C67). *)
From Coq Require Import ZArith List Bool String Ascii Lia.
From Verif Require Import ParserModel OpcodeModel LoadModel Load.
Import ListNotations.
Local Open Scope Z_scope.

(** Specification, over the notes from the last one back.  The current switch: the last key
    pressed on which some region has its switch. *)
Fixpoint lastPressed (isSwitch : Z -> bool) (first : option Z) (back : list (bool * Z)) : option Z :=
  match back with
  | [] => first
  | (on, key) :: r => if on && isSwitch key then Some key else lastPressed isSwitch first r
  end.
(** sw_down and sw_up: the last event on one of the two keys decides; on the first, a key down
    switches on, on the second a key up does. *)
Fixpoint momentary (down up : option Z) (first : bool) (back : list (bool * Z)) : bool :=
  match back with
  | [] => first
  | (on, key) :: r =>
      if isKey key down then on else if isKey key up then negb on else momentary down up first r
  end.

Section Switches.
  Variable X : Type.
  Variable newRest : nat -> text -> X.
  Variable parseRest : opcode -> X -> bool * X.
  Variable avail : X -> bool.
  Variable s : state X.
  Let isSwitch key := existsb (fun g => lastOn key (g_keys X g)) (st_layers X s).

  Lemma look_set id v : forall m m', setSwitch id v m = Some m' ->
    forall i, look i m' = if Nat.eqb i id then Some v else look i m.
  Proof.
    induction m as [|[j b] m IH]; intros m'; cbn [setSwitch]; [discriminate|].
    destruct (Nat.eqb_spec j id) as [->|N]; intros Q i.
    - injection Q as <-. cbn [look]. rewrite (PeanoNat.Nat.eqb_sym i id).
      destruct (Nat.eqb id i); reflexivity.
    - ob Q. injection Q as <-. cbn [look]. rewrite (IH _ eq_refl i).
      destruct (Nat.eqb_spec j i) as [->|M]; [|reflexivity].
      destruct (Nat.eqb_spec i id); [contradiction|reflexivity].
  Qed.
  Lemma look_sets v ids : forall m m', setSwitches ids v m = Some m' ->
    forall i, look i m' = if existsb (Nat.eqb i) ids then Some v else look i m.
  Proof.
    induction ids as [|id ids IH]; intros m m'; cbn [setSwitches existsb].
    - intros [= <-] i. reflexivity.
    - intros Q i. ob Q. rewrite (IH _ _ Q i), (look_set _ _ _ _ B i).
      destruct (Nat.eqb i id), (existsb _ ids); reflexivity.
  Qed.
  Lemma array_some lists key l : arrayAt lists key = Some l -> l = listAt lists key.
  Proof. unfold arrayAt. destruct (_ && _); [intros [= <-]; reflexivity|discriminate]. Qed.
  Lemma switch_ids key : isSwitch key = match idsWith X (lastOn key) (st_layers X s) with [] => false | _ => true end.
  Proof.
    destruct (isSwitch key) eqn:Q; unfold isSwitch in Q.
    - apply existsb_exists in Q. destruct Q as (g & I & O). apply In_nth_error in I. destruct I as (i & I).
      assert (J : In i (idsWith X (lastOn key) (st_layers X s))) by (apply idsWith_in; eauto).
      destruct (idsWith X _ _); [destruct J|reflexivity].
    - destruct (idsWith X _ _) as [|i l] eqn:W; [reflexivity|].
      assert (J : In i (idsWith X (lastOn key) (st_layers X s))) by (rewrite W; left; reflexivity).
      apply idsWith_in in J. destruct J as (g & N & O). apply nth_error_In in N.
      rewrite <- Q. apply existsb_exists. eauto.
  Qed.

  Lemma on_step note sm sm' : listed X s -> noteOnSwitches X s note sm = Some sm' ->
    fst sm' = (if isSwitch note then Some note else fst sm) /\
    forall i g, nth_error (st_layers X s) i = Some g ->
      look i (snd sm') =
        if isKey note (k_down (g_keys X g)) then Some true
        else if isKey note (k_up (g_keys X g)) then Some false
        else if lastOn note (g_keys X g) then Some true
        else if isSwitch note &&
                match fst sm with Some c => negb (c =? note) && lastOn c (g_keys X g) | None => false end
             then Some false
        else look i (snd sm).
  Proof.
    intros [_ L2 L3 L4 _] P. unfold noteOnSwitches in P. ob P. injection P as <-. cbn [fst snd].
    apply array_some in B. apply array_some in B2. apply array_some in B4.
    rewrite L2 in B. rewrite L3 in B2. rewrite L4 in B4. subst.
    rewrite switch_ids.
    assert (A : o = (match idsWith X (lastOn note) (st_layers X s) with [] => fst sm | _ => Some note end) /\
      forall i g, nth_error (st_layers X s) i = Some g -> look i l0 =
        if match idsWith X (lastOn note) (st_layers X s) with [] => false | _ => true end &&
           match fst sm with Some c => negb (c =? note) && lastOn c (g_keys X g) | None => false end
        then Some false else look i (snd sm)).
    { destruct (idsWith X (lastOn note) (st_layers X s)) as [|x xs].
      - injection B0 as ->. cbn [fst snd]. split; [reflexivity|]. intros; reflexivity.
      - cbn [andb]. ob B0. injection B0 as <- <-. split; [reflexivity|]. intros i g N.
        destruct (fst sm) as [c|].
        + destruct (Z.eqb_spec c note).
          * injection B as <-. reflexivity.
          * cbn [negb andb]. ob B. apply array_some in B0. rewrite L2 in B0. subst.
            rewrite (look_sets _ _ _ _ B i), (ids_exists X s _ _ _ N). reflexivity.
        + injection B as <-. reflexivity. }
    destruct A as [A1 A2]. split.
    - rewrite A1. destruct (idsWith X _ _); reflexivity.
    - intros i g N.
      rewrite (look_sets _ _ _ _ B5 i), (ids_exists X s _ _ _ N).
      rewrite (look_sets _ _ _ _ B3 i), (ids_exists X s _ _ _ N).
      rewrite (look_sets _ _ _ _ B1 i), (ids_exists X s _ _ _ N).
      rewrite (A2 i g N). reflexivity.
  Qed.
  Lemma off_step note sm sm' : listed X s -> noteOffSwitches X s note sm = Some sm' ->
    fst sm' = fst sm /\
    forall i g, nth_error (st_layers X s) i = Some g ->
      look i (snd sm') =
        if isKey note (k_down (g_keys X g)) then Some false
        else if isKey note (k_up (g_keys X g)) then Some true
        else look i (snd sm).
  Proof.
    intros [_ L2 L3 L4 _] P. unfold noteOffSwitches in P. ob P. injection P as <-. cbn [fst snd].
    apply array_some in B. apply array_some in B1. rewrite L3 in B. rewrite L4 in B1. subst.
    split; [reflexivity|]. intros i g N.
    rewrite (look_sets _ _ _ _ B2 i), (ids_exists X s _ _ _ N).
    rewrite (look_sets _ _ _ _ B0 i), (ids_exists X s _ _ _ N). reflexivity.
  Qed.

  Lemma events_app a : forall b sm, events X s (a ++ b) sm = bind (events X s a sm) (events X s b).
  Proof.
    induction a as [|[on n] a IH]; intros b sm; [reflexivity|]. cbn [app events].
    destruct (if on then _ else _); cbn [bind]; [apply IH|reflexivity].
  Qed.
  Lemma events_snoc evs on note sm sm' : events X s (evs ++ [(on, note)]) sm = Some sm' ->
    exists mid, events X s evs sm = Some mid /\
      (if on then noteOnSwitches X s note mid else noteOffSwitches X s note mid) = Some sm'.
  Proof.
    rewrite events_app. intros Q. ob Q. exists p. split; [reflexivity|]. cbn [events] in Q. ob Q.
    injection Q as <-. reflexivity.
  Qed.

  Theorem C67_current l evs sm sw m :
    onBlocks X newRest parseRest (cleared X) l = Some s -> events X s evs sm = Some (sw, m) ->
    sw = lastPressed (fun key => existsb (fun g => lastOn key (g_keys X g)) (st_layers X s))
           (fst sm) (rev evs).
  Proof.
    intros O. pose proof (listed_blocks X newRest parseRest l _ _ (listed_cleared X) O) as Li.
    revert sw m. induction evs as [|[on note] evs IH] using rev_ind; intros sw m E.
    - cbn in E. injection E as ->. reflexivity.
    - apply events_snoc in E. destruct E as ([sw1 m1] & E & T).
      rewrite rev_app_distr. cbn [rev app lastPressed]. rewrite <- (IH _ _ E).
      destruct on.
      + apply (on_step _ _ _ Li) in T. destruct T as [T _]. cbn [fst] in T. rewrite T. reflexivity.
      + apply (off_step _ _ _ Li) in T. destruct T as [T _]. exact T.
  Qed.

  (** A region with sw_down or sw_up and no sw_last, in any instrument. *)
  Theorem C67_momentary l evs sm sw m i g first :
    onBlocks X newRest parseRest (cleared X) l = Some s -> events X s evs sm = Some (sw, m) ->
    nth_error (st_layers X s) i = Some g -> look i (snd sm) = Some first ->
    k_last (g_keys X g) = None -> k_lastRange (g_keys X g) = None ->
    look i m = Some (momentary (k_down (g_keys X g)) (k_up (g_keys X g)) first (rev evs)).
  Proof.
    intros O E N F La Ra. pose proof (listed_blocks X newRest parseRest l _ _ (listed_cleared X) O) as Li.
    assert (Off : forall c, lastOn c (g_keys X g) = false) by (intros c; unfold lastOn; rewrite La, Ra; reflexivity).
    revert sw m E. induction evs as [|[on note] evs IH] using rev_ind; intros sw m E.
    - cbn in E. injection E as ->. exact F.
    - apply events_snoc in E. destruct E as ([sw1 m1] & E & T).
      rewrite rev_app_distr. cbn [rev app momentary]. specialize (IH _ _ E).
      destruct on.
      + apply (on_step _ _ _ Li) in T. destruct T as [_ T]. specialize (T i g N). cbn [fst snd] in T. rewrite T.
        rewrite Off. cbn [negb].
        replace (match sw1 with Some c => negb (c =? note) && lastOn c (g_keys X g) | None => false end) with false
          by (destruct sw1; [rewrite Off, andb_false_r|]; reflexivity).
        rewrite andb_false_r. destruct (isKey note (k_down _)); [reflexivity|].
        destruct (isKey note (k_up _)); [reflexivity|exact IH].
      + apply (off_step _ _ _ Li) in T. destruct T as [_ T]. specialize (T i g N). cbn [fst snd] in T. rewrite T.
        destruct (isKey note (k_down _)); [reflexivity|].
        destruct (isKey note (k_up _)); [reflexivity|exact IH].
  Qed.
End Switches.

Definition op (n v : string) : opcode := mkOpcode (str n) (str v).
Example C67_momentary_ex :
  let file := [(HRegion, [op "sw_down" "36"; op "key" "60"]); (HRegion, [op "sw_up" "36"; op "key" "60"]);
               (HRegion, [op "sw_last" "24"; op "key" "60"])] in
  exists s, onBlocks unit (fun _ _ => tt) (fun _ _ => (false, tt)) (cleared unit) file = Some s /\
    switches unit (fun _ => true) s = [(0%nat, false); (1%nat, true); (2%nat, false)] /\
    events unit s [(true, 36); (true, 24)] (None, switches unit (fun _ => true) s) =
      Some (Some 24, [(0%nat, true); (1%nat, false); (2%nat, true)]) /\
    events unit s [(true, 36); (true, 24); (false, 36)] (None, switches unit (fun _ => true) s) =
      Some (Some 24, [(0%nat, false); (1%nat, true); (2%nat, true)]).
Proof. eexists. split; [vm_compute; reflexivity|]. vm_compute. repeat split. Qed.
