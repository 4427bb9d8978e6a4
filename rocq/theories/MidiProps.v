(** C13, C14, C15, C49: MIDI state. *)
From Coq Require Import ZArith QArith List Bool Lia Sorted FinFun.
From Verif Require Import MidiModel.
Import ListNotations.
Local Open Scope Z_scope.

(** * Specification *)

(** The value recorded for exactly delay [d]. *)
Definition at_delay (l : list event) (d : Z) : option Q :=
  match find (fun e => e_delay e =? d) l with Some e => Some (e_value e) | None => None end.

(** Non-empty, begins at 0, strictly increasing delays. *)
Definition ordered (l : list event) : Prop :=
  (exists v r, l = Ev 0 v :: r) /\ StronglySorted (fun a b => e_delay a < e_delay b) l.

(** The delay an operation carries and whether the call is legal. *)
Definition legal (o : mop) : Prop :=
  match o with
  | MCC d cc _ => 0 <= d /\ 0 <= cc < 512
  | MNoteOn d _ _ _ _ | MNoteOff d _ _ _ _ | MAllNotesOff d _ | MPitch d _ | MChanAT d _
  | MPolyAT d _ _ => 0 <= d
  | _ => True
  end.

(** Value of the most recent event at or before delay [d]. *)
Definition most_recent (l : list event) (d : Z) (v : Q) : Prop :=
  exists e, In e l /\ e_delay e <= d /\ e_value e = v /\
            forall e', In e' l -> e_delay e' <= d -> e_delay e' <= e_delay e.

(** Is the key down according to the history? *)
Definition key_after (n : Z) (down : bool) (o : mop) : bool :=
  match o with
  | MNoteOn _ k _ _ _ => if k =? n then true else down
  | MNoteOff _ k _ _ _ => if k =? n then false else down
  | MAllNotesOff _ _ | MResetNotes => false
  | _ => down
  end.
Definition key_down (os : list mop) (n : Z) : bool := fold_left (key_after n) os false.
Definition keys : list Z := map Z.of_nat (seq 0 128).
Definition keys_down (os : list mop) : Z := Z.of_nat (length (filter (key_down os) keys)).

(** * Event vectors *)
Lemma insertEvent_in l : forall d v e, In e (insertEvent l d v) -> e = Ev d v \/ In e l.
Proof.
  induction l as [|x l IH]; cbn; intros d v e H; [intuition|].
  destruct (e_delay x <? d); [destruct H as [->|H]; auto; apply IH in H; tauto|].
  destruct (negb _); cbn in H; intuition.
Qed.

Lemma insertEvent_sorted l : forall d v,
  StronglySorted (fun a b => e_delay a < e_delay b) l ->
  StronglySorted (fun a b => e_delay a < e_delay b) (insertEvent l d v).
Proof.
  induction l as [|x l IH]; intros d v H; cbn; [repeat constructor|].
  inversion H as [|? ? H1 H2]; subst.
  destruct (Z.ltb_spec (e_delay x) d).
  - constructor; auto. apply Forall_forall. intros e He. apply insertEvent_in in He as [->|He].
    + cbn. lia.
    + rewrite Forall_forall in H2. now apply H2.
  - destruct (Z.eqb_spec (e_delay x) d) as [E|E]; cbn [negb].
    + subst d. constructor; auto.
    + constructor; auto. constructor; [cbn; lia|].
      eapply Forall_impl; [|exact H2]. cbn. intros. lia.
Qed.

Lemma insertEvent_head l d v : 0 <= d -> (exists w r, l = Ev 0 w :: r) ->
  exists w r, insertEvent l d v = Ev 0 w :: r.
Proof.
  intros Hd (w & r & ->). cbn.
  destruct (Z.ltb_spec 0 d); [eauto|]. assert (d = 0) as -> by lia. cbn. eauto.
Qed.

Lemma ordered_insert l d v : 0 <= d -> ordered l -> ordered (insertEvent l d v).
Proof. intros Hd [A B]. split; [now apply insertEvent_head|now apply insertEvent_sorted]. Qed.

Lemma at_delay_insert l d v d' :
  StronglySorted (fun a b => e_delay a < e_delay b) l ->
  at_delay (insertEvent l d v) d' = if d' =? d then Some v else at_delay l d'.
Proof.
  induction l as [|x l IH]; intros H.
  - unfold at_delay. cbn. rewrite (Z.eqb_sym d' d). destruct (d =? d'); reflexivity.
  - inversion H as [|? ? H1 H2]; subst. cbn [insertEvent].
    destruct (Z.ltb_spec (e_delay x) d).
    + unfold at_delay in *. cbn [find]. specialize (IH H1).
      destruct (Z.eqb_spec (e_delay x) d') as [<-|N].
      * destruct (Z.eqb_spec (e_delay x) d); [lia|]. reflexivity.
      * apply IH.
    + destruct (Z.eqb_spec (e_delay x) d) as [E|E]; cbn [negb].
      * subst d. unfold at_delay. cbn [find e_delay e_value].
        rewrite (Z.eqb_sym d'). destruct (e_delay x =? d'); reflexivity.
      * unfold at_delay. cbn [find e_delay e_value]. rewrite (Z.eqb_sym d').
        destruct (Z.eqb_spec d d'); reflexivity.
Qed.

Lemma ordered_single v : ordered [Ev 0 v].
Proof. split; [eauto|repeat constructor]. Qed.
Lemma ordered_nonempty l : ordered l -> l <> [].
Proof. intros [(v & r & ->) _]. discriminate. Qed.
Lemma ordered_flush l : ordered l -> ordered (flushTotal l).
Proof. intros [(v & r & ->) _]. cbn. apply ordered_single. Qed.

(** * The invariant *)
Definition Inv (s : midi) : Prop :=
  (forall k, ordered (ccEvents s k)) /\ ordered (pitchEvents s) /\
  ordered (channelAftertouchEvents s) /\ (forall k, ordered (polyAftertouchEvents s k)).

Ltac inv4 := split; [|split; [|split]].

Lemma upd_insert_ordered f k d v : 0 <= d ->
  (forall x, ordered (f x)) -> forall x, ordered (upd f k (insertEvent (f k) d v) x).
Proof.
  intros Hd H x. unfold upd. destruct (x =? k); auto. apply ordered_insert; auto.
Qed.

Lemma ccEvent_inv s d cc v : Inv s -> 0 <= d -> 0 <= cc < 512 ->
  exists s', ccEvent s d cc v = Some s' /\ Inv s'.
Proof.
  intros (A & B & C & D) Hd Hc. unfold ccEvent, numCCs.
  destruct (Z.leb_spec 0 cc), (Z.ltb_spec cc 512); try lia. cbn [andb].
  eexists; split; [reflexivity|]. inv4; cbn; auto.
  now apply upd_insert_ordered.
Qed.

Lemma ccEvent_all s d cc v s' : ccEvent s d cc v = Some s' ->
  ccEvents s' = upd (ccEvents s) cc (insertEvent (ccEvents s cc) d v) /\
  activeNotes s' = activeNotes s /\ noteStates s' = noteStates s /\
  noteOnTimes s' = noteOnTimes s /\ internalClock s' = internalClock s /\
  alternate s' = alternate s.
Proof.
  unfold ccEvent. destruct (_ && _); [|discriminate]. intros E. injection E as <-. cbn. auto 10.
Qed.
Lemma bind_some {A B} (o : option A) (f : A -> option B) r :
  bind o f = Some r -> exists a, o = Some a /\ f a = Some r.
Proof. destruct o; cbn; [eauto|discriminate]. Qed.
Lemma if_true {A} (b : bool) (x y : A) : b = true -> (if b then x else y) = x.
Proof. now intros ->. Qed.
Lemma in_127 n : 0 <= n < 128 -> (0 <=? n) && (n <? 128) = true.
Proof. intros H. destruct (Z.leb_spec 0 n), (Z.ltb_spec n 128); auto; lia. Qed.
Ltac cc_walk E :=
  repeat match type of E with
  | bind (ccEvent ?s ?d ?cc ?v) _ = _ =>
    let s' := fresh "t" in let F := fresh "F" in
    apply bind_some in E as (s' & F & E);
    apply ccEvent_all in F; cbn [ccEvents activeNotes noteStates noteOnTimes internalClock
      alternate noteOn_before noteOff_before add_active] in F; destruct F as (? & ? & ? & ? & ? & ?)
  end; injection E as <-;
  cbn [ccEvents activeNotes noteStates noteOnTimes internalClock alternate flip_alternate noteOff_after].

(** Changing fields other than the event lists. *)
Lemma Inv_same s s' : Inv s -> ccEvents s' = ccEvents s -> pitchEvents s' = pitchEvents s ->
  channelAftertouchEvents s' = channelAftertouchEvents s ->
  polyAftertouchEvents s' = polyAftertouchEvents s -> Inv s'.
Proof. unfold Inv. intros H -> -> -> ->. exact H. Qed.

Ltac cc_step :=
  match goal with
  | |- context [ccEvent ?s ?d ?cc ?v] =>
    let s' := fresh "s" in let E := fresh "E" in let I := fresh "I" in
    destruct (ccEvent_inv s d cc v) as (s' & E & I);
    [ first [assumption | eapply Inv_same; [eassumption|reflexivity..]]
    | assumption | unfold cc_noteOnVelocity, cc_noteOffVelocity, cc_keyboardNoteNumber,
        cc_keyboardNoteGate, cc_unipolarRandom, cc_bipolarRandom, cc_alternate, cc_keydelta,
        cc_absoluteKeydelta; lia | rewrite E; cbn [bind] ]
  end.

Lemma noteOn_inv s d n v r1 r2 : Inv s -> 0 <= d ->
  exists s', noteOnEvent s d n v r1 r2 = Some s' /\ Inv s'.
Proof.
  intros H Hd. unfold noteOnEvent. destruct (_ && _); [|eauto].
  do 8 cc_step. eexists; split; [reflexivity|].
  eapply Inv_same; [eassumption|reflexivity..].
Qed.
Lemma noteOff_inv s d n v r1 r2 : Inv s -> 0 <= d ->
  exists s', noteOffEvent s d n v r1 r2 = Some s' /\ Inv s'.
Proof.
  intros H Hd. unfold noteOffEvent. destruct (_ && _); [|eauto].
  do 4 cc_step. eexists; split; [reflexivity|].
  eapply Inv_same; [eassumption|reflexivity..].
Qed.
Lemma allNotesOff_from_inv rs : forall s d n, Inv s -> 0 <= d ->
  exists s', allNotesOff_from s d n rs = Some s' /\ Inv s'.
Proof.
  induction rs as [|[r1 r2] rs IH]; intros s d n H Hd; cbn; [eauto|].
  destruct (noteOff_inv s d n 0%Q r1 r2 H Hd) as (s' & E & I). rewrite E. cbn [bind]. auto.
Qed.

Lemma flushable f n : (forall k, ordered (f k)) -> all_flushable f n = true.
Proof.
  intros H. unfold all_flushable. apply forallb_forall. intros k _.
  destruct (H (Z.of_nat k)) as [(v & r & ->) _]. reflexivity.
Qed.
Lemma flush_inv s : Inv s -> exists s', flushEvents s = Some s' /\ Inv s'.
Proof.
  intros (A & B & C & D). unfold flushEvents. rewrite !flushable by auto.
  pose proof B as [(v & r & Ep) _]. pose proof C as [(v' & r' & Ec) _].
  rewrite Ep, Ec. cbn [andb]. rewrite <- Ep, <- Ec. eexists; split; [reflexivity|].
  inv4; cbn -[flushTotal]; intros; try apply ordered_flush; auto;
    try apply ordered_single.
Qed.

Lemma mstep_inv s o : Inv s -> legal o -> exists s', mstep s o = Some s' /\ Inv s'.
Proof.
  intros H L. destruct o; cbn [mstep legal] in *.
  - now apply noteOn_inv.
  - now apply noteOff_inv.
  - now apply allNotesOff_from_inv.
  - apply ccEvent_inv; tauto.
  - eexists; split; [reflexivity|]. destruct H as (A & B & C & D).
    inv4; cbn; auto. now apply ordered_insert.
  - eexists; split; [reflexivity|]. destruct H as (A & B & C & D).
    inv4; cbn; auto. now apply ordered_insert.
  - eexists; split; [reflexivity|]. unfold polyAftertouchEvent.
    destruct (_ || _); auto. destruct H as (A & B & C & D).
    inv4; cbn; auto. now apply upd_insert_ordered.
  - eexists; split; [reflexivity|]. eapply Inv_same; [eassumption|reflexivity..].
  - apply flush_inv. eapply Inv_same; [eassumption|reflexivity..].
  - now apply flush_inv.
  - eexists; split; [reflexivity|]. eapply Inv_same; [eassumption|reflexivity..].
  - eexists; split; [reflexivity|]. destruct H as (A & B & C & D).
    inv4; cbn -[upd]; auto. intros k. unfold upd.
    repeat match goal with |- context [if ?b then _ else _] => destruct b end;
      auto using ordered_single.
  - eexists; split; [reflexivity|].
    inv4; cbn; auto using ordered_single.
Qed.

Lemma init_inv : Inv midi_init.
Proof.
  assert (H : Inv (resetEventStates
    (Midi 0 (fun _ => 0) (fun _ => 0) (fun _ => false) (fun _ => 0%Q) 0%Q (-1)
       (fun _ => []) [] [] (fun _ => []) 0 0%Q 0))).
  { inv4; cbn; auto using ordered_single. }
  destruct (mstep_inv _ MResetNotes H I) as (s' & E & Hs).
  injection E as <-. exact Hs.
Qed.

Lemma mrun_inv os : forall s, Inv s -> Forall legal os ->
  exists s', mrun s os = Some s' /\ Inv s'.
Proof.
  induction os as [|o os IH]; intros s H L; cbn; [eauto|].
  inversion L; subst. destruct (mstep_inv s o) as (s' & E & I'); auto.
  rewrite E. cbn [bind]. auto.
Qed.

(** * C13 *)

(** No history of legal calls is undefined, and after it every list is ordered. *)
Theorem C13_event_lists_ordered os :
  Forall legal os ->
  exists s, mrun midi_init os = Some s /\
    (forall cc, 0 <= cc < 512 -> ordered (ccEvents s cc)) /\
    (forall n, 0 <= n < 128 -> ordered (polyAftertouchEvents s n)) /\
    ordered (pitchEvents s) /\ ordered (channelAftertouchEvents s).
Proof.
  intros L. destruct (mrun_inv os midi_init init_inv L) as (s & E & A & B & C & D).
  exists s. split; [exact E|]. inv4; intros; auto.
Qed.

Definition reachable (s : midi) : Prop :=
  exists os, Forall legal os /\ mrun midi_init os = Some s.
Lemma reachable_inv s : reachable s -> Inv s.
Proof.
  intros (os & L & E). destruct (mrun_inv os midi_init init_inv L) as (s' & E' & I').
  congruence.
Qed.

(** An event at a delay replaces what was there and nothing else. *)
Theorem C13_event_replaces s d cc v s' :
  reachable s -> 0 <= d -> 0 <= cc < 512 -> mstep s (MCC d cc v) = Some s' ->
  (forall cc' d', at_delay (ccEvents s' cc') d'
     = if (cc' =? cc) && (d' =? d) then Some v else at_delay (ccEvents s cc') d') /\
  pitchEvents s' = pitchEvents s /\
  channelAftertouchEvents s' = channelAftertouchEvents s /\
  polyAftertouchEvents s' = polyAftertouchEvents s.
Proof.
  intros R Hd Hc E. apply reachable_inv in R as (A & _). cbn in E. unfold ccEvent in E.
  destruct (_ && _); [|discriminate]. injection E as <-. cbn. repeat split.
  intros cc' d'. unfold upd. destruct (Z.eqb_spec cc' cc) as [->|]; cbn [andb]; auto.
  apply at_delay_insert. apply A.
Qed.
Theorem C13_pitch_event_replaces s d v s' :
  reachable s -> 0 <= d -> mstep s (MPitch d v) = Some s' ->
  (forall d', at_delay (pitchEvents s') d'
     = if d' =? d then Some v else at_delay (pitchEvents s) d') /\ ccEvents s' = ccEvents s.
Proof.
  intros R Hd E. apply reachable_inv in R as (_ & A & _). injection E as <-. cbn.
  split; auto. intros. apply at_delay_insert, A.
Qed.
Theorem C13_aftertouch_replaces s d v s' :
  reachable s -> 0 <= d -> mstep s (MChanAT d v) = Some s' ->
  (forall d', at_delay (channelAftertouchEvents s') d'
     = if d' =? d then Some v else at_delay (channelAftertouchEvents s) d')
  /\ ccEvents s' = ccEvents s /\ pitchEvents s' = pitchEvents s.
Proof.
  intros R Hd E. apply reachable_inv in R as (_ & _ & A & _). injection E as <-. cbn.
  repeat split; auto. intros. apply at_delay_insert, A.
Qed.
Theorem C13_poly_aftertouch_replaces s d n v s' :
  reachable s -> 0 <= d -> 0 <= n < 128 -> mstep s (MPolyAT d n v) = Some s' ->
  forall n' d', at_delay (polyAftertouchEvents s' n') d'
     = if (n' =? n) && (d' =? d) then Some v else at_delay (polyAftertouchEvents s n') d'.
Proof.
  intros R Hd Hn E n' d'. apply reachable_inv in R as (_ & _ & _ & A). injection E as <-.
  unfold polyAftertouchEvent.
  destruct (Z.ltb_spec n 0), (Z.leb_spec 128 n); try lia. cbn [orb polyAftertouchEvents].
  unfold upd. destruct (Z.eqb_spec n' n) as [->|]; cbn [andb]; auto. apply at_delay_insert, A.
Qed.

(** What a note records, and that it touches nothing else. *)
Definition note_on_cc (s : midi) (n : Z) (vel r1 r2 : Q) (cc : Z) : option Q :=
  if cc =? 131 then Some vel
  else if cc =? 133 then Some (inject_Z n / 127)%Q
  else if cc =? 135 then Some r1
  else if cc =? 136 then Some r2
  else if cc =? 134 then Some (if 0 <? activeNotes s then 1%Q else 0%Q)
  else if cc =? 140 then Some (inject_Z (if 0 <=? lastNotePlayed s then n - lastNotePlayed s else 0))
  else if cc =? 141 then
    Some (inject_Z (Z.abs (if 0 <=? lastNotePlayed s then n - lastNotePlayed s else 0)))
  else if cc =? 137 then Some (alternate s)
  else None.
Theorem C13_note_on_events s d n vel r1 r2 s' :
  reachable s -> 0 <= d -> 0 <= n < 128 ->
  mstep s (MNoteOn d n vel r1 r2) = Some s' ->
  forall cc d', at_delay (ccEvents s' cc) d'
    = match note_on_cc s n vel r1 r2 cc with
      | Some v => if d' =? d then Some v else at_delay (ccEvents s cc) d'
      | None => at_delay (ccEvents s cc) d'
      end.
Proof.
  intros R Hd Hn E cc d'. apply reachable_inv in R as (A & _).
  change (noteOnEvent s d n vel r1 r2 = Some s') in E. unfold noteOnEvent in E.
  rewrite if_true in E by now apply in_127.
  cc_walk E.
  repeat match goal with H : ?x = _ |- context [?x] => rewrite H end.
  unfold note_on_cc, normalize7Bits, keydelta_of.
  replace (Z.min (Z.max n 0) 127) with n by lia. clear - A.
  unfold upd, cc_noteOnVelocity, cc_noteOffVelocity, cc_keyboardNoteNumber,
    cc_keyboardNoteGate, cc_unipolarRandom, cc_bipolarRandom, cc_alternate, cc_keydelta,
    cc_absoluteKeydelta.
  repeat match goal with
  | |- context [cc =? ?b] => destruct (Z.eqb_spec cc b);
       [subst cc; cbn [Z.eqb Pos.eqb]; rewrite at_delay_insert by apply A; reflexivity|]
  end. reflexivity.
Qed.

(** A flush leaves one event, at delay 0, holding the latest value. *)
Theorem C13_flush_keeps_last s n s' :
  reachable s -> mstep s (MAdvance n) = Some s' ->
  forall cc, 0 <= cc < 512 -> exists v, getCCValue s cc = Some v /\ ccEvents s' cc = [Ev 0 v].
Proof.
  intros R E cc Hc. apply reachable_inv in R as (A & _).
  cbn in E. unfold advanceTime, flushEvents in E. destruct (_ && _); [|discriminate].
  injection E as <-. cbn [ccEvents set_clock]. unfold getCCValue, numCCs.
  destruct (Z.leb_spec 0 cc), (Z.ltb_spec cc 512); try lia. cbn [andb].
  destruct (A cc) as [(v & r & ->) _]. eexists; split; reflexivity.
Qed.

Example C13_ex :
  option_map (fun s => (ccEvents s 7, ccEvents s 131))
    (mrun midi_init [MCC 30 7 (1#2); MCC 10 7 (1#4); MCC 30 7 (3#4);
                     MNoteOn 5 60 (1#2) 0 0; MAdvance 64; MCC 3 7 1]%Q)
  = Some ([Ev 0 (3#4); Ev 3 1], [Ev 0 (1#2)]).
Proof. vm_compute. reflexivity. Qed.
Example C13_ex_legal : Forall legal
  [MCC 30 7 (1#2); MCC 10 7 (1#4); MCC 30 7 (3#4); MNoteOn 5 60 (1#2) 0 0; MAdvance 64; MCC 3 7 1]%Q.
Proof. repeat constructor; cbn; lia. Qed.

(** * C14 *)
Lemma last_cons {A} (l : list A) : forall y e, last (y :: l) e = last l y.
Proof.
  induction l as [|z l IH]; intros y e; [reflexivity|].
  transitivity (last (z :: l) e); [reflexivity|]. now rewrite !IH.
Qed.
Lemma last_in {A} (r : list A) (e : A) : In (last r e) (e :: r).
Proof.
  revert e; induction r as [|x r IH]; intros e; [left; reflexivity|].
  right. rewrite last_cons. apply IH.
Qed.
Lemma last_max l : forall e, StronglySorted (fun a b => e_delay a < e_delay b) (e :: l) ->
  forall x, In x (e :: l) -> e_delay x <= e_delay (last l e).
Proof.
  induction l as [|y l IH]; intros e H x Hx.
  - destruct Hx as [->|[]]. cbn. lia.
  - inversion H as [|? ? H1 H2]; subst. inversion H2; subst.
    rewrite last_cons.
    destruct Hx as [->|Hx].
    + specialize (IH y H1 y (or_introl eq_refl)). lia.
    + now apply IH.
Qed.

(** The current value is that of the latest event. *)
Theorem C14_current_value s cc d :
  reachable s -> 0 <= cc < 512 -> (forall e, In e (ccEvents s cc) -> e_delay e <= d) ->
  exists v, getCCValue s cc = Some v /\ most_recent (ccEvents s cc) d v.
Proof.
  intros R Hc Hd. apply reachable_inv in R as (A & _). unfold getCCValue, numCCs.
  destruct (Z.leb_spec 0 cc), (Z.ltb_spec cc 512); try lia. cbn [andb].
  destruct (A cc) as [(v & r & E) S]. rewrite E in *.
  eexists; split; [reflexivity|]. exists (last r (Ev 0 v)).
  split; [apply last_in|]. split; [apply Hd, last_in|]. split; [reflexivity|].
  intros e' He' _. now apply (last_max r (Ev 0 v)).
Qed.

Lemma lower_bound_exact l d e :
  StronglySorted (fun a b => e_delay a < e_delay b) l -> In e l -> e_delay e = d ->
  lower_bound l d = Some e.
Proof.
  intros S Hin Hd. unfold lower_bound.
  induction S as [|x l S IH HF]; [contradiction|]. cbn [find].
  destruct Hin as [->|Hin].
  - destruct (Z.ltb_spec (e_delay e) d); [lia|]. reflexivity.
  - rewrite Forall_forall in HF. specialize (HF e Hin).
    destruct (Z.ltb_spec (e_delay x) d); [|lia]. cbn [negb]. auto.
Qed.

(** Partial: right whenever there is an event exactly at the queried delay (this is how the
    engine uses it: at the delay of the note that has just been recorded), or no event after
    it.  Between two events the value of the next one is returned. *)
Theorem C14_value_at_partial s cc d :
  reachable s -> 0 <= cc < 512 ->
  (exists e, In e (ccEvents s cc) /\ e_delay e = d) \/
  (forall e, In e (ccEvents s cc) -> e_delay e <= d) ->
  exists v, getCCValueAt s cc d = Some v /\ most_recent (ccEvents s cc) d v.
Proof.
  intros R Hc H. pose proof R as R0. apply reachable_inv in R as (A & _).
  unfold getCCValueAt, numCCs.
  destruct (Z.leb_spec 0 cc), (Z.ltb_spec cc 512); try lia. cbn [andb].
  destruct (A cc) as [Hh S].
  destruct H as [(e & Hin & He)|H].
  - rewrite (lower_bound_exact _ _ e) by auto. eexists; split; [reflexivity|].
    exists e. repeat split; auto; lia.
  - destruct (lower_bound (ccEvents s cc) d) as [e|] eqn:E.
    + apply find_some in E as [Hin He]. apply negb_true_iff, Z.ltb_ge in He.
      specialize (H e Hin) as He2. eexists; split; [reflexivity|].
      exists e. repeat split; auto. intros e' Hin' Hd'. lia.
    + apply C14_current_value; auto.
Qed.

(** The value returned between two events is the one of the next event. *)
Theorem C14_value_at_next s cc d e :
  reachable s -> 0 <= cc < 512 -> In e (ccEvents s cc) -> d <= e_delay e ->
  (forall e', In e' (ccEvents s cc) -> d <= e_delay e' -> e_delay e <= e_delay e') ->
  getCCValueAt s cc d = Some (e_value e).
Proof.
  intros R Hc Hin He Hmin. apply reachable_inv in R as (A & _).
  unfold getCCValueAt, numCCs.
  destruct (Z.leb_spec 0 cc), (Z.ltb_spec cc 512); try lia. cbn [andb].
  destruct (A cc) as [_ S].
  replace (lower_bound (ccEvents s cc) d) with (Some e); [reflexivity|]. symmetry.
  revert Hin Hmin. generalize dependent (ccEvents s cc). intros l S.
  induction S as [|x l S IH HF]; intros Hin Hmin; [contradiction|]. unfold lower_bound.
  cbn [find]. rewrite Forall_forall in HF.
  destruct (Z.ltb_spec (e_delay x) d); cbn [negb].
  - destruct Hin as [->|Hin]; [lia|]. apply IH; auto. intros; apply Hmin; auto. now right.
  - destruct Hin as [->|Hin]; [reflexivity|]. specialize (HF e Hin).
    specialize (Hmin x (or_introl eq_refl) H1). lia.
Qed.

Lemma omap_some {A B} (f : A -> B) o b :
  option_map f o = Some b -> exists a, o = Some a /\ f a = b.
Proof. destruct o; cbn; intros H; [injection H as <-; eauto|discriminate]. Qed.
Theorem C14_between_events_refuted :
  exists os s v, Forall legal os /\ mrun midi_init os = Some s /\
    getCCValueAt s 7 5 = Some v /\ ~ most_recent (ccEvents s 7) 5 v.
Proof.
  pose (os := [MCC 0 7 (1#10); MCC 10 7 (9#10)]%Q).
  destruct (omap_some (fun s => (getCCValueAt s 7 5, ccEvents s 7)) (mrun midi_init os) _
              ltac:(vm_compute; reflexivity)) as (s & E & F).
  injection F as F1 F2. exists os, s, (9#10)%Q.
  split; [repeat constructor; cbn; lia|]. split; [exact E|].
  split; [exact F1|]. intros (e & Hin & Hd & Hv & _). rewrite F2 in Hin. cbn in Hin.
  destruct Hin as [<-|[<-|[]]]; cbn in *; [discriminate|lia].
Qed.

Example C14_ex :
  option_map (fun s => map (getCCValueAt s 7) [0; 10; 63])
    (mrun midi_init [MCC 0 7 (1#10); MCC 10 7 (9#10)]%Q)
  = Some [Some (1#10); Some (9#10); Some (9#10)]%Q.
Proof. vm_compute. reflexivity. Qed.

(** * C15 *)
Lemma ccEvent_fields s d cc v s' : ccEvent s d cc v = Some s' ->
  activeNotes s' = activeNotes s /\ noteStates s' = noteStates s /\
  noteOnTimes s' = noteOnTimes s /\ internalClock s' = internalClock s.
Proof.
  unfold ccEvent. destruct (_ && _); [|discriminate]. intros E. injection E as <-. cbn. auto.
Qed.
Lemma noteOn_fields s d n v r1 r2 s' : 0 <= n < 128 -> noteOnEvent s d n v r1 r2 = Some s' ->
  activeNotes s' = activeNotes s + 1 /\ (forall k, noteStates s' k = upd (noteStates s) n true k)
  /\ (forall k, noteOnTimes s' k = upd (noteOnTimes s) n (u32 (internalClock s + u32 d)) k)
  /\ internalClock s' = internalClock s.
Proof.
  intros Hn. unfold noteOnEvent. rewrite if_true by now apply in_127. intros E. cc_walk E.
  repeat split; intros; congruence.
Qed.
Lemma noteOff_fields s d n v r1 r2 s' : 0 <= n < 128 -> noteOffEvent s d n v r1 r2 = Some s' ->
  activeNotes s' = Z.max 0 (activeNotes s - 1) + Z.min 0 (activeNotes s) /\
  (forall k, noteStates s' k = upd (noteStates s) n false k)
  /\ noteOnTimes s' = noteOnTimes s /\ internalClock s' = internalClock s.
Proof.
  intros Hn. unfold noteOffEvent. rewrite if_true by now apply in_127. intros E. cc_walk E.
  split; [|repeat split; intros; congruence].
  match goal with |- (if 0 <? ?a then _ else _) = _ => assert (a = activeNotes s) as -> by congruence end.
  destruct (Z.ltb_spec 0 (activeNotes s)); lia.
Qed.
Lemma noteOff_out s d n v r1 r2 : ~ 0 <= n < 128 -> noteOffEvent s d n v r1 r2 = Some s.
Proof.
  intros Hn. unfold noteOffEvent. destruct (Z.leb_spec 0 n), (Z.ltb_spec n 128); try lia; auto.
Qed.
Lemma noteOn_out s d n v r1 r2 : ~ 0 <= n < 128 -> noteOnEvent s d n v r1 r2 = Some s.
Proof.
  intros Hn. unfold noteOnEvent. destruct (Z.leb_spec 0 n), (Z.ltb_spec n 128); try lia; auto.
Qed.

Lemma allOff_fields rs : forall s d n s', 0 <= n -> n + Z.of_nat (length rs) <= 128 ->
  0 <= activeNotes s -> allNotesOff_from s d n rs = Some s' ->
  activeNotes s' = Z.max 0 (activeNotes s - Z.of_nat (length rs)) /\
  (forall k, noteStates s' k
     = if (n <=? k) && (k <? n + Z.of_nat (length rs)) then false else noteStates s k)
  /\ noteOnTimes s' = noteOnTimes s /\ internalClock s' = internalClock s.
Proof.
  induction rs as [|[r1 r2] rs IH]; intros s d n s' Hn Hle Ha E; cbn in E.
  - injection E as <-. cbn [length Z.of_nat]. split; [lia|]. split; [|auto]. intros k.
    destruct (Z.leb_spec n k), (Z.ltb_spec k (n + 0)); try lia; reflexivity.
  - cbn [length] in *. destruct (noteOffEvent s d n 0 r1 r2) as [s1|] eqn:E1; [|discriminate].
    cbn [bind] in E. apply noteOff_fields in E1 as (A & B & C & D); [|lia].
    apply IH in E as (A' & B' & C' & D'); [|lia|lia|lia].
    split; [lia|]. split; [|split; congruence].
    intros k. rewrite B', B. unfold upd.
    destruct (Z.leb_spec (n + 1) k), (Z.ltb_spec k (n + 1 + Z.of_nat (length rs))),
      (Z.eqb_spec k n), (Z.leb_spec n k), (Z.ltb_spec k (n + Z.of_nat (S (length rs))));
      cbn [andb]; auto; lia.
Qed.

Lemma flush_fields s s' : flushEvents s = Some s' ->
  activeNotes s' = activeNotes s /\ noteStates s' = noteStates s /\
  noteOnTimes s' = noteOnTimes s /\ internalClock s' = internalClock s.
Proof.
  unfold flushEvents. destruct (_ && _); [|discriminate]. intros E. injection E as <-. cbn. auto.
Qed.

Lemma mrun_app os1 : forall s os2,
  mrun s (os1 ++ os2) = match mrun s os1 with Some s' => mrun s' os2 | None => None end.
Proof.
  induction os1 as [|o os1 IH]; intros s os2; cbn; auto.
  destruct (mstep s o); cbn [bind]; auto.
Qed.

Lemma key_down_snoc os o n : key_down (os ++ [o]) n = key_after n (key_down os n) o.
Proof. unfold key_down. now rewrite fold_left_app. Qed.

Lemma pressed_step s o s' n down : 0 <= activeNotes s -> 0 <= n < 128 ->
  mstep s o = Some s' -> noteStates s n = down ->
  noteStates s' n = key_after n down o /\ 0 <= activeNotes s'.
Proof.
  intros Ha Hn E H. destruct o; cbn [mstep key_after] in *.
  - destruct (Z.lt_decidable (-1) n0) as [G|G]; [destruct (Z.lt_decidable n0 128) as [G2|G2]|].
    + apply noteOn_fields in E as (A & B & _); [|lia]. rewrite B. unfold upd.
      rewrite (Z.eqb_sym n0 n). split; [|lia]. destruct (n =? n0); auto.
    + rewrite noteOn_out in E by lia. injection E as <-.
      destruct (Z.eqb_spec n0 n); [lia|auto].
    + rewrite noteOn_out in E by lia. injection E as <-.
      destruct (Z.eqb_spec n0 n); [lia|auto].
  - destruct (Z.lt_decidable (-1) n0) as [G|G]; [destruct (Z.lt_decidable n0 128) as [G2|G2]|].
    + apply noteOff_fields in E as (A & B & _); [|lia]. rewrite B. unfold upd.
      rewrite (Z.eqb_sym n0 n). split; [|lia]. destruct (n =? n0); auto.
    + rewrite noteOff_out in E by lia. injection E as <-.
      destruct (Z.eqb_spec n0 n); [lia|auto].
    + rewrite noteOff_out in E by lia. injection E as <-.
      destruct (Z.eqb_spec n0 n); [lia|auto].
  - unfold allNotesOff in E. apply allOff_fields in E as (A & B & _); auto.
    2: lia. 2:{ rewrite map_length, seq_length. cbn. lia. }
    rewrite map_length, seq_length in *. rewrite B.
    destruct (Z.leb_spec 0 n), (Z.ltb_spec n (0 + Z.of_nat 128)); try lia. cbn [andb].
    split; auto. lia.
  - apply ccEvent_fields in E as (A & B & _). rewrite A, B. auto.
  - injection E as <-. auto.
  - injection E as <-. auto.
  - injection E as <-. unfold polyAftertouchEvent. destruct (_ || _); auto.
  - injection E as <-. auto.
  - apply flush_fields in E as (A & B & _). rewrite A, B. auto.
  - apply flush_fields in E as (A & B & _). rewrite A, B. auto.
  - injection E as <-. auto.
  - injection E as <-. cbn. auto with zarith.
  - injection E as <-. auto.
Qed.

Lemma pressed_run os : forall s, mrun midi_init os = Some s ->
  0 <= activeNotes s /\ forall n, 0 <= n < 128 -> noteStates s n = key_down os n.
Proof.
  induction os as [|o os IH] using rev_ind; intros s E.
  - injection E as <-. cbn. split; [lia|]. auto.
  - rewrite mrun_app in E. destruct (mrun midi_init os) as [s1|]; [|discriminate].
    destruct (IH s1 eq_refl) as [Ha Hk]. cbn [mrun] in E.
    destruct (mstep s1 o) as [s2|] eqn:E2; [|discriminate]. injection E as <-.
    split.
    + apply (pressed_step s1 o s2 0 (noteStates s1 0)); auto; lia.
    + intros n Hn. rewrite key_down_snoc.
      apply (pressed_step s1 o s2 n (key_down os n)); auto.
Qed.

(** Which keys are down is exact after any history. *)
Theorem C15_pressed_keys os s n :
  mrun midi_init os = Some s -> 0 <= n < 128 -> noteStates s n = key_down os n.
Proof. intros E Hn. now apply pressed_run. Qed.

(** A keyboard: no note-on for a key already down, no note-off for a key that is up. *)
Definition keyboard (os : list mop) : Prop :=
  forall pre o post, os = pre ++ o :: post ->
    match o with
    | MNoteOn _ n _ _ _ => 0 <= n < 128 -> key_down pre n = false
    | MNoteOff _ n _ _ _ => 0 <= n < 128 -> key_down pre n = true
    | _ => True
    end.

Lemma count_upd (f g : Z -> bool) (l : list Z) n :
  NoDup l -> In n l -> (forall k, k <> n -> g k = f k) ->
  Z.of_nat (length (filter g l)) + (if f n then 1 else 0)
  = Z.of_nat (length (filter f l)) + (if g n then 1 else 0).
Proof.
  intros ND. induction ND as [|x l Hx ND IH]; intros Hin Hg; [contradiction|].
  cbn [filter]. destruct Hin as [->|Hin].
  - assert (E : filter g l = filter f l).
    { apply filter_ext_in. intros k Hk. apply Hg. intros ->. contradiction. }
    rewrite E. destruct (f n), (g n); cbn [length]; lia.
  - specialize (IH Hin Hg). rewrite Hg by (intros ->; contradiction).
    destruct (f x); cbn [length]; lia.
Qed.
Lemma keys_nodup : NoDup keys.
Proof.
  unfold keys. apply Injective_map_NoDup; [|apply seq_NoDup].
  intros a b H. now apply Nat2Z.inj.
Qed.
Lemma keys_in n : 0 <= n < 128 <-> In n keys.
Proof.
  unfold keys. rewrite in_map_iff. setoid_rewrite in_seq. split.
  - intros H. exists (Z.to_nat n). lia.
  - intros (k & <- & H). lia.
Qed.
Lemma keys_down_le os : 0 <= keys_down os <= 128.
Proof.
  unfold keys_down. split; [lia|].
  assert (length (filter (key_down os) keys) <= length keys)%nat.
  { clear. induction keys; cbn; [lia|]. destruct (key_down os a); cbn; lia. }
  assert (length keys = 128%nat) by reflexivity. lia.
Qed.
Lemma filter_false {A} (f : A -> bool) l : (forall x, In x l -> f x = false) -> filter f l = [].
Proof. induction l; cbn; intros H; auto. rewrite (H a) by auto. apply IHl. auto. Qed.

(** Partial: exact for the histories of a keyboard.  The counter does not compare with the
    state of the key, so a repeated note-on or a stray note-off makes it wrong for good. *)
Theorem C15_active_notes_partial os s :
  mrun midi_init os = Some s -> keyboard os -> activeNotes s = keys_down os.
Proof.
  revert s. induction os as [|o os IH] using rev_ind; intros s E K.
  - injection E as <-. reflexivity.
  - rewrite mrun_app in E. destruct (mrun midi_init os) as [s1|] eqn:E1; [|discriminate].
    assert (K1 : keyboard os).
    { intros pre x post ->. apply (K pre x (post ++ [o])). rewrite <- app_assoc. reflexivity. }
    specialize (IH s1 eq_refl K1).
    destruct (pressed_run os s1 E1) as [Ha _].
    specialize (K os o [] eq_refl). cbn [mrun] in E.
    destruct (mstep s1 o) as [s2|] eqn:E2; [|discriminate]. injection E as <-.
    assert (Same : (forall n, key_down (os ++ [o]) n = key_down os n) ->
                   keys_down (os ++ [o]) = keys_down os).
    { intros H. unfold keys_down. do 2 f_equal. apply filter_ext. exact H. }
    assert (Zero : (forall n, key_down (os ++ [o]) n = false) -> keys_down (os ++ [o]) = 0).
    { intros H. unfold keys_down. rewrite filter_false by auto. reflexivity. }
    destruct o; cbn [mstep] in E2.
    + destruct (Z.lt_decidable (-1) n) as [G|G]; [destruct (Z.lt_decidable n 128) as [G2|G2]|].
      * specialize (K ltac:(lia)). apply noteOn_fields in E2 as (A & _); [|lia].
        rewrite A, IH. unfold keys_down.
        pose proof (count_upd (key_down os) (key_down (os ++ [MNoteOn d n vel r1 r2])) keys n
                      keys_nodup ltac:(apply keys_in; lia)) as C.
        rewrite key_down_snoc in C. cbn [key_after] in C. rewrite K, Z.eqb_refl in C.
        rewrite <- (Z.add_0_r (Z.of_nat (length (filter (key_down (os ++ _)) keys)))).
        rewrite C; [lia|]. intros k Hk. rewrite key_down_snoc. cbn.
        destruct (Z.eqb_spec n k); [congruence|auto].
      * rewrite noteOn_out in E2 by lia. injection E2 as <-. rewrite IH.
        unfold keys_down. do 2 f_equal. apply filter_ext_in. intros k Hk. apply keys_in in Hk.
        rewrite key_down_snoc. cbn. destruct (Z.eqb_spec n k); [lia|auto].
      * rewrite noteOn_out in E2 by lia. injection E2 as <-. rewrite IH.
        unfold keys_down. do 2 f_equal. apply filter_ext_in. intros k Hk. apply keys_in in Hk.
        rewrite key_down_snoc. cbn. destruct (Z.eqb_spec n k); [lia|auto].
    + destruct (Z.lt_decidable (-1) n) as [G|G]; [destruct (Z.lt_decidable n 128) as [G2|G2]|].
      * specialize (K ltac:(lia)). apply noteOff_fields in E2 as (A & _); [|lia].
        pose proof (count_upd (key_down os) (key_down (os ++ [MNoteOff d n vel r1 r2])) keys n
                      keys_nodup ltac:(apply keys_in; lia)) as C.
        rewrite key_down_snoc in C. cbn [key_after] in C. rewrite K, Z.eqb_refl in C.
        assert (C' : keys_down (os ++ [MNoteOff d n vel r1 r2]) + 1 = keys_down os).
        { unfold keys_down. rewrite C; [lia|]. intros k Hk. rewrite key_down_snoc. cbn.
          destruct (Z.eqb_spec n k); [congruence|auto]. }
        pose proof (keys_down_le (os ++ [MNoteOff d n vel r1 r2])). lia.
      * rewrite noteOff_out in E2 by lia. injection E2 as <-. rewrite IH.
        unfold keys_down. do 2 f_equal. apply filter_ext_in. intros k Hk. apply keys_in in Hk.
        rewrite key_down_snoc. cbn. destruct (Z.eqb_spec n k); [lia|auto].
      * rewrite noteOff_out in E2 by lia. injection E2 as <-. rewrite IH.
        unfold keys_down. do 2 f_equal. apply filter_ext_in. intros k Hk. apply keys_in in Hk.
        rewrite key_down_snoc. cbn. destruct (Z.eqb_spec n k); [lia|auto].
    + unfold allNotesOff in E2. apply allOff_fields in E2 as (A & _); auto.
      2: lia. 2:{ rewrite map_length, seq_length. cbn. lia. }
      rewrite map_length, seq_length in A. rewrite A, IH.
      rewrite Zero by (intros; rewrite key_down_snoc; reflexivity).
      pose proof (keys_down_le os). change (Z.of_nat 128) with 128. lia.
    + apply ccEvent_fields in E2 as (A & _). rewrite A, IH, Same; auto.
      intros; rewrite key_down_snoc; reflexivity.
    + injection E2 as <-. cbn. rewrite IH, Same; auto. intros; rewrite key_down_snoc; reflexivity.
    + injection E2 as <-. cbn. rewrite IH, Same; auto. intros; rewrite key_down_snoc; reflexivity.
    + injection E2 as <-. unfold polyAftertouchEvent.
      destruct (_ || _); cbn; rewrite IH, Same; auto; intros; rewrite key_down_snoc; reflexivity.
    + injection E2 as <-. cbn. rewrite IH, Same; auto. intros; rewrite key_down_snoc; reflexivity.
    + apply flush_fields in E2 as (A & _). rewrite A. cbn. rewrite IH, Same; auto.
      intros; rewrite key_down_snoc; reflexivity.
    + apply flush_fields in E2 as (A & _). rewrite A. cbn. rewrite IH, Same; auto.
      intros; rewrite key_down_snoc; reflexivity.
    + injection E2 as <-. cbn. rewrite IH, Same; auto. intros; rewrite key_down_snoc; reflexivity.
    + injection E2 as <-. cbn. symmetry. apply Zero. intros; rewrite key_down_snoc; reflexivity.
    + injection E2 as <-. cbn. rewrite IH, Same; auto. intros; rewrite key_down_snoc; reflexivity.
Qed.

Definition C15_hist :=
  [MNoteOn 0 60 1 0 0; MNoteOn 0 64 1 0 0; MNoteOff 0 60 0 0 0; MAdvance 32]%Q.
Example C15_ex : option_map activeNotes (mrun midi_init C15_hist) = Some 1 /\
  keys_down C15_hist = 1 /\ keyboard C15_hist.
Proof.
  split; [vm_compute; reflexivity|]. split; [vm_compute; reflexivity|].
  unfold keyboard, C15_hist. intros pre o post H.
  do 4 (destruct pre as [|? pre]; cbn [app] in H;
        [injection H as <- _; cbn; auto | injection H as <- H]).
  now destruct pre.
Qed.

(** The same key struck twice counts as two. *)
Theorem C15_active_notes_refuted :
  exists os s, Forall legal os /\ mrun midi_init os = Some s /\ activeNotes s <> keys_down os.
Proof.
  pose (os := [MNoteOn 0 60 1 0 0; MNoteOn 0 60 1 0 0]%Q).
  destruct (omap_some activeNotes (mrun midi_init os) _ ltac:(vm_compute; reflexivity))
    as (s & E & F).
  exists os, s. split; [repeat constructor; cbn; lia|]. split; [exact E|].
  rewrite F. vm_compute. discriminate.
Qed.
(** A stray note-off hides a key that is down. *)
Theorem C15_stray_note_off_refuted :
  exists os s, Forall legal os /\ mrun midi_init os = Some s /\
    activeNotes s = 0 /\ keys_down os = 1.
Proof.
  pose (os := [MNoteOn 0 60 1 0 0; MNoteOff 0 62 1 0 0]%Q).
  destruct (omap_some activeNotes (mrun midi_init os) _ ltac:(vm_compute; reflexivity))
    as (s & E & F).
  exists os, s. split; [repeat constructor; cbn; lia|]. split; [exact E|].
  split; [exact F|reflexivity].
Qed.

(** * C49: the duration of a note is the time elapsed since its note-on *)
Definition elapsed_after (o : mop) : Z := match o with MAdvance n => n | _ => 0 end.
Definition elapsed (os : list mop) : Z := fold_right Z.add 0 (map elapsed_after os).
(** Operations that neither restrike the key nor restart the clock. *)
Definition keeps_note (n : Z) (o : mop) : Prop :=
  match o with
  | MNoteOn _ k _ _ _ => k <> n
  | MSetRate | MResetNotes => False
  | _ => True
  end.

Lemma keep_step s o s' n : 0 <= n < 128 -> keeps_note n o -> 0 <= activeNotes s ->
  mstep s o = Some s' ->
  noteOnTimes s' n = noteOnTimes s n /\ 0 <= activeNotes s' /\
  u32 (internalClock s') = u32 (internalClock s + elapsed_after o).
Proof.
  intros Hn K Ha E. unfold elapsed_after.
  assert (Hact : 0 <= activeNotes s') by (eapply (pressed_step s o s' 0); eauto; lia).
  destruct o; cbn [mstep keeps_note] in *; rewrite ?Z.add_0_r.
  - destruct (Z.lt_decidable (-1) n0) as [G|G]; [destruct (Z.lt_decidable n0 128) as [G2|G2]|].
    + apply noteOn_fields in E as (A & B & C & D); [|lia]. rewrite C, D. unfold upd.
      destruct (Z.eqb_spec n n0); [congruence|auto].
    + rewrite noteOn_out in E by lia. injection E as <-. auto.
    + rewrite noteOn_out in E by lia. injection E as <-. auto.
  - destruct (Z.lt_decidable (-1) n0) as [G|G]; [destruct (Z.lt_decidable n0 128) as [G2|G2]|].
    + apply noteOff_fields in E as (A & B & C & D); [|lia]. rewrite C, D. auto.
    + rewrite noteOff_out in E by lia. injection E as <-. auto.
    + rewrite noteOff_out in E by lia. injection E as <-. auto.
  - unfold allNotesOff in E. apply allOff_fields in E as (A & B & C & D); auto.
    2: lia. 2:{ rewrite map_length, seq_length. cbn. lia. }
    rewrite C, D. auto.
  - apply ccEvent_fields in E as (A & B & C & D). rewrite C, D. auto.
  - injection E as <-. auto.
  - injection E as <-. auto.
  - injection E as <-. revert Hact. unfold polyAftertouchEvent. destruct (_ || _); auto.
  - injection E as <-. auto.
  - apply flush_fields in E as (A & B & C & D). rewrite C, D. cbn [set_clock internalClock].
    repeat split; auto. unfold u32. now rewrite Z.mod_mod by lia.
  - apply flush_fields in E as (A & B & C & D). rewrite C, D. auto.
  - contradiction.
  - contradiction.
  - injection E as <-. auto.
Qed.

Theorem C49_note_duration pre os n d vel r1 r2 s d' :
  Forall legal (pre ++ MNoteOn d n vel r1 r2 :: os) -> 0 <= n < 128 ->
  Forall (keeps_note n) os ->
  mrun midi_init (pre ++ MNoteOn d n vel r1 r2 :: os) = Some s ->
  noteDurationSamples s n d' = (elapsed os + d' - d) mod 2 ^ 32.
Proof.
  intros _ Hn K E. rewrite mrun_app in E.
  destruct (mrun midi_init pre) as [s0|] eqn:E0; [|discriminate].
  apply pressed_run in E0 as [Ha _]. cbn [mrun mstep] in E.
  destruct (noteOnEvent s0 d n vel r1 r2) as [s1|] eqn:E1; [|discriminate]. cbn [bind] in E.
  apply noteOn_fields in E1 as (A & B & C & D); [|lia].
  assert (H1 : noteOnTimes s1 n = u32 (internalClock s0 + u32 d)).
  { rewrite C. unfold upd. now rewrite Z.eqb_refl. }
  assert (G : noteOnTimes s n = noteOnTimes s1 n /\
              u32 (internalClock s) = u32 (internalClock s1 + elapsed os)).
  { assert (Ha1 : 0 <= activeNotes s1) by lia. clear - K E Hn Ha1.
    revert s1 E Ha1. induction os as [|o os IH]; intros s1 E Ha1; cbn in E.
    - injection E as <-. cbn. rewrite Z.add_0_r. auto.
    - inversion K; subst. destruct (mstep s1 o) as [s2|] eqn:E2; [|discriminate].
      cbn [bind] in E. apply (keep_step _ _ _ n) in E2 as (A & B & C); auto.
      apply IH in E as [I1 I2]; auto. split; [congruence|]. rewrite I2.
      unfold elapsed in *. cbn [map fold_right].
      unfold u32 in *. rewrite Z.add_mod, C, <- Z.add_mod by lia. f_equal. lia. }
  destruct G as [G1 G2]. unfold noteDurationSamples.
  destruct (Z.ltb_spec n 0), (Z.leb_spec 128 n); try lia. cbn [orb].
  rewrite G1, H1. rewrite D in G2. unfold u32 in *.
  rewrite Zminus_mod, Z.mod_mod by lia.
  rewrite (Z.add_mod (internalClock s)), G2, Z.mod_mod by lia.
  rewrite <- (Z.add_mod _ d') by lia.
  rewrite (Z.add_mod_idemp_r (internalClock s0) d) by lia.
  rewrite <- Zminus_mod. f_equal. lia.
Qed.

(** After a sample rate change every note counts from the change until it is struck again. *)
Theorem C49_after_rate_change pre os n s d' :
  0 <= n < 128 -> Forall (keeps_note n) os ->
  mrun midi_init (pre ++ MSetRate :: os) = Some s ->
  noteDurationSamples s n d' = (elapsed os + d') mod 2 ^ 32.
Proof.
  intros Hn K E. rewrite mrun_app in E.
  destruct (mrun midi_init pre) as [s0|] eqn:E0; [|discriminate].
  apply pressed_run in E0 as [Ha _]. cbn [mrun mstep bind] in E.
  remember (setSampleRate s0) as s1 eqn:E1.
  assert (H1 : noteOnTimes s1 n = 0 /\ internalClock s1 = 0 /\ 0 <= activeNotes s1)
    by (subst s1; cbn [setSampleRate noteOnTimes internalClock activeNotes]; auto).
  destruct H1 as (T1 & C1 & A1). clear E1.
  assert (G : noteOnTimes s n = noteOnTimes s1 n /\
              u32 (internalClock s) = u32 (internalClock s1 + elapsed os)).
  { clear - K E Hn A1. revert s1 E A1. induction os as [|o os IH]; intros s1 E A1; cbn in E.
    - injection E as <-. cbn. rewrite Z.add_0_r. auto.
    - inversion K; subst. destruct (mstep s1 o) as [s2|] eqn:E2; [|discriminate].
      cbn [bind] in E. apply (keep_step _ _ _ n) in E2 as (A & B & C); auto.
      apply IH in E as [I1 I2]; auto. split; [congruence|]. rewrite I2.
      unfold elapsed in *. cbn [map fold_right].
      unfold u32 in *. rewrite Z.add_mod, C, <- Z.add_mod by lia. f_equal. lia. }
  destruct G as [G1 G2]. unfold noteDurationSamples.
  destruct (Z.ltb_spec n 0), (Z.leb_spec 128 n); try lia. cbn [orb].
  rewrite G1, T1. rewrite C1 in G2. unfold u32 in *.
  rewrite Z.sub_0_r, Z.add_mod_idemp_r by lia. cbn [Z.add] in G2.
  now rewrite Z.add_mod, G2, <- Z.add_mod by lia.
Qed.
Example C49_after_rate_change_ex :
  option_map (fun s => noteDurationSamples s 60 5)
    (mrun midi_init [MAdvance 100; MNoteOn 3 60 1%Q 0%Q 0%Q; MAdvance 50; MSetRate; MAdvance 32]) = Some 37.
Proof. vm_compute. reflexivity. Qed.
Example C49_ex :
  option_map (fun s => noteDurationSamples s 60 8)
    (mrun midi_init [MAdvance 1000; MNoteOn 16 60 1 0 0; MAdvance 256; MNoteOn 3 61 1 0 0;
                     MAdvance 256]%Q) = Some 504.
Proof. vm_compute. reflexivity. Qed.

Print Assumptions C13_event_lists_ordered.
Print Assumptions C13_event_replaces.
Print Assumptions C13_pitch_event_replaces.
Print Assumptions C13_aftertouch_replaces.
Print Assumptions C13_poly_aftertouch_replaces.
Print Assumptions C13_note_on_events.
Print Assumptions C13_flush_keeps_last.
Print Assumptions C14_current_value.
Print Assumptions C14_value_at_partial.
Print Assumptions C14_value_at_next.
Print Assumptions C14_between_events_refuted.
Print Assumptions C15_pressed_keys.
Print Assumptions C15_active_notes_partial.
Print Assumptions C15_active_notes_refuted.
Print Assumptions C15_stray_note_off_refuted.
Print Assumptions C49_note_duration.
