(** The modulations that opcodes give to a region (C93). *)
From Coq Require Import ZArith List Bool String Lia.
From Verif Require Import ParserModel OpcodeModel OpcodeNumbers OpcodeNames OpcodeCategory ModModel ModRegistry RegionModel RegionSafe RegionWell.
Import ListNotations.
Local Open Scope string_scope.
Local Open Scope list_scope.
Local Open Scope Z_scope.

(** * Specification *)
(** The parameters that controllers modulate: name, target, specification of the depth, and whether they are of a filter or equalizer *)
Definition direct : list (string * modid * string * bool) :=
  [("volume", MVolume, "volumeMod", false); ("amplitude", MAmplitude, "amplitudeMod", false); ("pan", MPan, "panMod", false);
   ("position", MPosition, "positionMod", false); ("width", MWidth, "widthMod", false); ("pitch", MPitch, "pitchMod", false);
   ("oscillator_detune", MOscillatorDetune, "oscillatorDetuneMod", false); ("oscillator_mod_depth", MOscillatorModDepth, "oscillatorModDepthMod", false);
   ("cutoff&", MFilCutoff, "filterCutoffMod", true); ("resonance&", MFilResonance, "filterResonanceMod", true); ("fil&_gain", MFilGain, "filterGainMod", true);
   ("eq&_gain", MEqGain, "eqGainMod", true); ("eq&_freq", MEqFrequency, "eqFrequencyMod", true); ("eq&_bw", MEqBandwidth, "eqBandwidthMod", true)].
(** The parameters that LFOs and envelopes modulate *)
Definition indirect : list (string * modid * string * bool) :=
  [("volume", MVolume, "volumeMod", false); ("amplitude", MAmplitude, "amplitudeMod", false); ("pan", MPan, "panMod", false);
   ("position", MPosition, "positionMod", false); ("width", MWidth, "widthMod", false); ("pitch", MPitch, "pitchMod", false);
   ("cutoff&", MFilCutoff, "filterCutoffMod", true); ("resonance&", MFilResonance, "filterResonanceMod", true); ("fil&gain", MFilGain, "filterGainMod", true);
   ("eq&gain", MEqGain, "eqGainMod", true); ("eq&freq", MEqFrequency, "eqFrequencyMod", true); ("eq&bw", MEqBandwidth, "eqBandwidthMod", true)].
Definition isName (a b : text) : bool := if list_eq_dec Z.eq_dec a b then true else false.
Definition isNumbers (a b : list Z) : bool := if list_eq_dec Z.eq_dec a b then true else false.
(** the numbers of elements in a name *)
Definition endsCC (L : text) : bool := starts_with [38; 99; 99] (rev L).
Definition indices (o : opcode) : list Z := if endsCC (getLetterOnlyName o) then removelast (o_params o) else o_params o.
Definition nums (el : bool) (n : Z) : list Z := if el then [n] else [].

Section Conn.
Variable V : Type.
Variable apply : string -> text -> V -> V.
Variable read : string -> text -> V.
Variable readStep : string -> text -> V.
Variable zero : V.
Variable readAmpeg : text -> bool.
Variable readSteps : text -> nat.
Notation region := (region V).
Notation connection := (connection V).
Notation parseOpcode := (parseOpcode V apply read readStep zero readAmpeg readSteps).
Notation parseOpcodes := (parseOpcodes V apply read readStep zero readAmpeg readSteps).

(** What a controller does to a parameter *)
Record modulation := Modulation { m_depth : V; m_curve : V; m_smooth : V; m_step : V }.
Definition none : modulation := Modulation zero zero zero zero.
(** An opcode [base]_oncc[cc], [base]_curvecc[cc] … says how the controller cc modulates the parameter [base]. *)
Definition says (base spec : string) (ns : list Z) (cc : Z) (m : option modulation) (o : opcode) : option modulation :=
  let old := match m with Some m => m | None => none end in
  if isNumbers (o_params o) (ns ++ [cc]) then
    if isName (getLetterOnlyName o) (str (append base "_oncc&")) then Some (Modulation (read spec (o_value o)) (m_curve old) (m_smooth old) (m_step old))
    else if isName (getLetterOnlyName o) (str (append base "_curvecc&")) then Some (Modulation (m_depth old) (read "curveCC" (o_value o)) (m_smooth old) (m_step old))
    else if isName (getLetterOnlyName o) (str (append base "_smoothcc&")) then Some (Modulation (m_depth old) (m_curve old) (read "smoothCC" (o_value o)) (m_step old))
    else if isName (getLetterOnlyName o) (str (append base "_stepcc&")) then Some (Modulation (m_depth old) (m_curve old) (m_smooth old) (readStep spec (o_value o)))
    else m
  else m.
Definition view (c : connection) : modulation :=
  match c_source V c with FromCC _ _ cu sm st => Modulation (c_depth V c) cu sm st | FromKey _ _ => Modulation (c_depth V c) zero zero zero end.
(** An opcode [lfo][i]_[base] or [eg][i]_[base] gives the depth of the LFO or envelope i. *)
Definition saysDepth (p base spec : string) (i : Z) (ns : list Z) (d : V) (o : opcode) : V :=
  if isNumbers (o_params o) (i :: ns) && isName (getLetterOnlyName o) (str (append p base)) then read spec (o_value o) else d.

(** * Steps *)
Inductive cstep := KS (s t : key) (f : connection -> connection) | CS (t : key) (spec : string).
Definition runStep (o : opcode) (l : list connection) (st : cstep) : list connection :=
  match st with
  | KS s t f => connectKey V zero s t f l
  | CS t spec =>
      match o_cat o with
      | Normal => l
      | _ => match back o with
             | Some cc => if 512 <=? cc then l else if isKey t then connectCC V zero cc t (writeCC V read readStep spec o) l else l
             | None => l
             end
      end
  end.
Definition runs (o : opcode) (ss : list cstep) (l : list connection) : list connection := fold_left (runStep o) ss l.
Lemma runs_app o a b l : runs o (a ++ b) l = runs o b (runs o a l).
Proof. apply fold_left_app. Qed.
Lemma generic_runs spec t o (r r' : region) : generic V read readStep zero spec t o r = Some r' ->
  r_id V r' = r_id V r /\ r_conns V r' = runs o [CS t spec] (r_conns V r).
Proof.
  unfold generic, runs. cbn [fold_left runStep]. destruct (o_cat o); [intros [= <-]; now split|..];
    (destruct (back o) as [cc|]; [|discriminate]; destruct (512 <=? cc); [intros [= <-]; now split|]; destruct (isKey t); intros [= <-]; now split).
Qed.

(** keys that the controllers of the first list do not modulate *)
Definition directId (t : modid) : bool := existsb (fun x => modid_eqb (snd (fst (fst x))) t) direct.
(** an LFO or envelope with a number *)
Definition numberedId (s : modid) : bool := match s with MLFO | MEnvelope => true | _ => false end.
Definition mildKey (f : connection -> connection) : Prop := forall c, c_source V (f c) = c_source V c /\ c_target V (f c) = c_target V c.
Definition depthless (f : connection -> connection) : Prop := mildKey f /\ forall c, c_depth V (f c) = c_depth V c.
(** the steps an opcode with letters L may make *)
Inductive allowed (L : text) (o : opcode) (r : region) : cstep -> Prop :=
| al_generic c t spec : In (c, Generic t spec) regionTable -> L = str c -> allowed L o r (CS (key0 V t r) spec)
| al_element c v t spec n : In (c, ElementGeneric v t spec) regionTable -> L = str c -> front o = Some n -> n <> 0 -> allowed L o r (CS (keyN V t (n - 1) r) spec)
| al_other t spec : directId (k_id t) = false -> allowed L o r (CS t spec)
| al_key s t f : numberedId (k_id s) = false -> mildKey f -> allowed L o r (KS s t f)
| al_depthless s t f : depthless f -> allowed L o r (KS s t f)
| al_lfo c t spec n : In (c, NTarget t spec) lfo2Table -> L = str c -> front o = Some n -> n <> 0 ->
    allowed L o r (KS (keyN V MLFO (n - 1) r) (key0 V t r) (setDepth V (read spec (o_value o))))
| al_lfoN c v t spec n m : In (c, NElem v t spec) lfo2Table -> L = str c -> front o = Some n -> n <> 0 -> second o = Some m -> m <> 0 ->
    allowed L o r (KS (keyN V MLFO (n - 1) r) (keyN V t (m - 1) r) (setDepth V (read spec (o_value o))))
| al_eg c t spec n : In (c, NTarget t spec) eg2Table -> L = str c -> front o = Some n -> n <> 0 ->
    allowed L o r (KS (keyN V MEnvelope (n - 1) r) (key0 V t r) (setDepth V (read spec (o_value o))))
| al_egN c v t spec n m : In (c, NElem v t spec) eg2Table -> L = str c -> front o = Some n -> n <> 0 -> second o = Some m -> m <> 0 ->
    allowed L o r (KS (keyN V MEnvelope (n - 1) r) (keyN V t (m - 1) r) (setDepth V (read spec (o_value o))))
| al_freq s n : k_id s = MEnvelope -> allowed L o r (KS s (keyN V MLFOFrequency n r) (setDepth V (read "lfoFreqMod" (o_value o)))).
Definition stepped (L : text) (o : opcode) (r r' : region) : Prop :=
  r_id V r' = r_id V r /\ exists ss, r_conns V r' = runs o ss (r_conns V r) /\ Forall (allowed L o r) ss.
Lemma stepped_same L o (r r' : region) : r_id V r' = r_id V r -> r_conns V r' = r_conns V r -> stepped L o r r'.
Proof. intros A B. split; [exact A|]. exists []. split; [exact B|constructor]. Qed.
Lemma allowed_id L o (r r' : region) s : r_id V r' = r_id V r -> allowed L o r' s -> allowed L o r s.
Proof.
  intros E H. destruct H; unfold key0, keyN; rewrite ?E;
    [ econstructor 1; eassumption | econstructor 2; eassumption | econstructor 3; eassumption | econstructor 4; eassumption | econstructor 5; eassumption
    | econstructor 6; eassumption | econstructor 7; eassumption | econstructor 8; eassumption | econstructor 9; eassumption | econstructor 10; eassumption ].
Qed.
Lemma stepped_trans L o (a b c : region) : stepped L o a b -> stepped L o b c -> stepped L o a c.
Proof.
  intros [A (s1 & B & C)] [D (s2 & F & G)]. split; [congruence|]. exists (s1 ++ s2). split; [now rewrite F, B, runs_app|].
  apply Forall_app. split; [exact C|]. eapply Forall_impl; [|exact G]. intros s. now apply allowed_id.
Qed.
Lemma stepped_one L o (r r' : region) st : r_id V r' = r_id V r -> r_conns V r' = runStep o (r_conns V r) st -> allowed L o r st -> stepped L o r r'.
Proof. intros A B C. split; [exact A|]. exists [st]. split; [exact B|now repeat constructor]. Qed.
Lemma stepped_generic L spec t o (r r0 r' : region) : generic V read readStep zero spec t o r0 = Some r' -> stepped L o r r0 -> allowed L o r (CS t spec) -> stepped L o r r'.
Proof.
  intros G S1 A. apply generic_runs in G. destruct G as [G1 G2]. apply stepped_trans with r0; [exact S1|]. apply stepped_one with (CS t spec); [exact G1|exact G2|].
  apply allowed_id with r; [destruct S1 as [S1 _]; congruence|exact A].
Qed.
Lemma stepped_connect L o (r : region) s t f : allowed L o r (KS s t f) -> stepped L o r (connect V zero s t f r).
Proof. intros A. now apply stepped_one with (KS s t f). Qed.
Lemma mk_depth d : mildKey (setDepth V d). Proof. intros c. now split. Qed.
Lemma dl_depthMod d : depthless (setDepthMod V d). Proof. split; [intros c; now split|reflexivity]. Qed.
Lemma dl_vel d : depthless (setVel V d). Proof. split; [intros c; now split|reflexivity]. Qed.
Lemma dl_id : depthless (fun c => c). Proof. split; [intros c; now split|reflexivity]. Qed.

Lemma setAll_conns ws o (r : region) : r_id V (setAll V apply ws o r) = r_id V r /\ r_conns V (setAll V apply ws o r) = r_conns V r.
Proof. destruct (setAll_fields V apply ws o r) as (A & _ & B & _). now split. Qed.
Lemma extend_conns v n (r r' : region) : extend V v n r = Some r' -> r_id V r' = r_id V r /\ r_conns V r' = r_conns V r /\ n <> 0.
Proof. intros H. destruct (extend_grown V v n r r' H) as ([A _] & B & _). split; [exact A|]. split; [exact B|]. intros ->. destruct v; discriminate. Qed.
Lemma runAct_steps c a L o (r : region) x r' : In (c, a) regionTable -> L = str c -> runAct V apply read readStep zero a o r = Some (x, r') -> stepped L o r r'.
Proof.
  intros I0 El H.
  assert (Rf : stepped L o r r) by (now apply stepped_same).
  pose proof goodAct_all as GA. rewrite forallb_forall in GA. specialize (GA _ I0). cbn [snd] in GA. unfold goodAct in GA. apply andb_true_iff in GA. destruct GA as [_ GS].
  destruct a as [ws|inc ws m sub f|spec|spec|v m f|v m sub f|t spec|v t spec|v s nb t spec]; cbn [runAct] in H.
  - injection H as _ <-. now apply stepped_same; apply setAll_conns.
  - destruct (back o) as [cc|]; [|discriminate]. destruct (if inc then 512 <? cc else 512 <=? cc); injection H as _ <-; [exact Rf|].
    apply stepped_same; apply setAll_conns.
  - destruct (back o) as [n|]; [|discriminate]. destruct (127 <? n); injection H as _ <-; [exact Rf|now apply stepped_same].
  - destruct (back o) as [n|]; [|discriminate]. destruct ((n =? 0) || (256 <? n)); [injection H as _ <-; exact Rf|]. cbv zeta in H. destruct (n <? _); [|discriminate]. injection H as _ <-. now apply stepped_same.
  - destruct (front o) as [n|]; [|discriminate]. destruct (extend V v n r) as [r1|] eqn:X; [|injection H as _ <-; exact Rf]. apply extend_conns in X. destruct X as (X1 & X2 & _).
    destruct (n - 1 <? _); [|discriminate]. injection H as _ <-. now apply stepped_same.
  - destruct (front o) as [n|]; [|discriminate]. destruct (back o) as [cc|]; [|discriminate]. destruct (extend V v n r) as [r1|] eqn:X; [|injection H as _ <-; exact Rf]. apply extend_conns in X. destruct X as (X1 & X2 & _).
    destruct (512 <=? cc); [injection H as _ <-; now apply stepped_same|]. destruct (n - 1 <? _); [|discriminate]. injection H as _ <-. now apply stepped_same.
  - destruct (generic _ _ _ _ _ _ _ _) as [r1|] eqn:Q; [|discriminate]. injection H as _ <-. apply (stepped_generic _ _ _ _ _ _ _ Q Rf). now apply al_generic with c.
  - destruct (front o) as [n|] eqn:F; [|discriminate]. destruct (extend V v n r) as [r1|] eqn:X; [|injection H as _ <-; exact Rf]. apply extend_conns in X. destruct X as (X1 & X2 & X3).
    destruct (generic _ _ _ _ _ _ _ _) as [r2|] eqn:Q; [|discriminate]. injection H as _ <-. apply (stepped_generic L _ _ _ r _ _ Q); [now apply stepped_same|].
    now apply al_element with c v.
  - destruct (front o) as [n|] eqn:F; [|discriminate]. destruct (extend V v n r) as [r1|] eqn:X; [|injection H as _ <-; exact Rf]. apply extend_conns in X. destruct X as (X1 & X2 & X3).
    injection H as _ <-. apply stepped_one with (KS (aftKey V s nb r) (keyN V t (n - 1) r) (setDepth V (read spec (o_value o)))); [exact X1|cbn [runStep connect r_conns withConns]; now rewrite X2|].
    apply al_key; [|apply mk_depth]. unfold aftKey. rewrite k_id_create. destruct s; try discriminate GS; reflexivity.
Qed.
Definition v1ids (v : v1) : bool := negb (numberedId (v_source v)) && negb (directId (v_depth v)) && negb (directId (v_freq v)).
Lemma v1ids_all : forallb v1ids [ampLFO; pitchLFO; filLFO; pitchEG; filEG] = true. Proof. vm_compute. reflexivity. Qed.
Lemma v1ids_eg : forallb (fun c => match snd c with E1Depth w | E1Vel w | E1DepthCC w => v1ids w | _ => true end) eg1Table = true. Proof. vm_compute. reflexivity. Qed.
Lemma v1ids_facts v : v1ids v = true -> numberedId (v_source v) = false /\ directId (v_depth v) = false /\ directId (v_freq v) = false.
Proof. unfold v1ids. rewrite !andb_true_iff, !negb_true_iff. tauto. Qed.
Lemma aft_numbered a : aftb a = true -> numberedId a = false.
Proof. destruct a; try discriminate; reflexivity. Qed.
Lemma parseLFO1_steps v L o (r r' : region) : In v [ampLFO; pitchLFO; filLFO] -> parseLFO1 V apply read readStep zero v o r = Some (Some r') -> stepped L o r r'.
Proof.
  intros Iv H. assert (Q0 : v1ids v = true) by (destruct Iv as [<-|[<-|[<-|[]]]]; reflexivity). destruct (v1ids_facts _ Q0) as (N1 & N2 & N3).
  unfold parseLFO1 in H. cbv zeta in H. destruct (caseOf lfo1Cases o) as [a|] eqn:E; [|discriminate]. apply case_in in E. destruct E as [c E].
  pose proof aft_lfo1 as Af. rewrite forallb_forall in Af. specialize (Af _ E). cbn [snd] in Af.
  destruct a as [m sp| | |a nb| |a nb].
  - injection H as <-. now apply stepped_same.
  - injection H as <-. apply stepped_connect, al_key; [exact N1|apply mk_depth].
  - destruct (generic _ _ _ _ _ _ _ _) as [r1|] eqn:Q; [|discriminate]. cbn in H. injection H as <-. apply (stepped_generic L _ _ _ r _ _ Q); [|apply al_other; exact N2].
    apply stepped_connect, al_key; [exact N1|apply dl_depthMod].
  - injection H as <-. eapply stepped_trans; apply stepped_connect.
    + apply al_key; [exact N1|apply dl_depthMod].
    + apply al_key; [exact (aft_numbered _ Af)|apply mk_depth].
  - destruct (generic _ _ _ _ _ _ _ _) as [r1|] eqn:Q; [|discriminate]. cbn in H. injection H as <-. apply (stepped_generic L _ _ _ r _ _ Q); [now apply stepped_same|apply al_other; exact N3].
  - injection H as <-. apply stepped_connect, al_key; [exact (aft_numbered _ Af)|apply mk_depth].
Qed.
Lemma parseEG1_steps v L o (r r' : region) : parseEG1 V apply read readStep zero v o r = Some (Some r') -> stepped L o r r'.
Proof.
  intros H. unfold parseEG1 in H. cbv zeta in H. destruct (caseOf eg1Table o) as [a|] eqn:E; [|discriminate]. apply case_in in E. destruct E as [c E].
  pose proof v1ids_eg as Q0. rewrite forallb_forall in Q0. specialize (Q0 _ E). cbn [snd] in Q0.
  destruct a as [m sp|m sub sp|w|w|w]; try apply v1ids_facts in Q0.
  - injection H as <-. now apply stepped_same.
  - destruct (back o) as [cc|]; [|discriminate]. destruct (512 <=? cc); [discriminate|]. injection H as <-. now apply stepped_same.
  - injection H as <-. apply stepped_connect, al_key; [apply Q0|apply mk_depth].
  - injection H as <-. apply stepped_connect, al_key; [apply Q0|apply dl_vel].
  - destruct (generic _ _ _ _ _ _ _ _) as [r1|] eqn:Q; [|discriminate]. cbn in H. injection H as <-. apply (stepped_generic L _ _ _ r _ _ Q); [|apply al_other; apply Q0].
    apply stepped_connect, al_key; [apply Q0|apply dl_depthMod].
Qed.
Lemma depth_direct s t : numberedId (k_id s) = true -> directId (k_id (getSourceDepthKey s t)) = false.
Proof. unfold getSourceDepthKey. destruct (k_id s); try discriminate; intros _; destruct (k_id t); reflexivity. Qed.
Lemma targetCC_steps L s t spec o (r r0 r' : region) : numberedId (k_id s) = true -> stepped L o r r0 -> targetCC V read readStep zero s t spec o r0 = Some r' -> stepped L o r r'.
Proof.
  intros Ns S1 H. unfold targetCC in H. cbv zeta in H. apply (stepped_generic L _ _ _ r _ _ H); [|apply al_other; now apply depth_direct].
  apply stepped_trans with r0; [exact S1|]. apply stepped_connect, al_depthless, dl_depthMod.
Qed.
Lemma runNumbered_steps p id n c table L o (r : region) a x r' :
  (p = "lfos." /\ id = MLFO /\ table = lfo2Table \/ p = "flexEGs." /\ id = MEnvelope /\ table = eg2Table) ->
  In (c, a) table -> L = str c -> front o = Some n -> n <> 0 ->
  runNumbered V apply read readStep zero readAmpeg readSteps p (keyN V id (n - 1) r) (n - 1) a o r = Some (x, r') -> stepped L o r r'.
Proof.
  intros Which I0 El F Nz H. assert (Rf : stepped L o r r) by (now apply stepped_same).
  assert (Ns : numberedId (k_id (keyN V id (n - 1) r)) = true) by (destruct Which as [(_ & -> & _)|(_ & -> & _)]; reflexivity).
  assert (Freq : a = NFreqLFO \/ a = NFreqLFOCC -> id = MEnvelope).
  { intros Ha. destruct Which as [(_ & _ & ->)|(_ & -> & _)]; [|reflexivity]. exfalso.
    assert (Q : forallb (fun c => match snd c with NFreqLFO | NFreqLFOCC => false | _ => true end) lfo2Table = true) by (vm_compute; reflexivity).
    rewrite forallb_forall in Q. specialize (Q _ I0). cbn [snd] in Q. destruct Ha as [-> | ->]; discriminate. }
  assert (Gn : forall t spec, a = NGeneric t spec -> directId t = false).
  { intros t spec ->. assert (Q : forallb (fun c => match snd c with NGeneric t _ => negb (directId t) | _ => true end) (lfo2Table ++ eg2Table) = true) by (vm_compute; reflexivity).
    rewrite forallb_forall in Q. specialize (Q (c, NGeneric t spec)). cbn [snd] in Q. apply negb_true_iff. apply Q. apply in_or_app. destruct Which as [(_ & _ & ->)|(_ & _ & ->)]; tauto. }
  destruct a as [m sp|m sp|t sp| |sp|m sp|m sp|m sp|t sp|t sp|v t sp|v t sp| | |]; cbn [runNumbered] in H.
  - injection H as _ <-. now apply stepped_same.
  - destruct (back o) as [cc|]; [|discriminate]. destruct (512 <? cc); injection H as _ <-; now apply stepped_same.
  - destruct (generic _ _ _ _ _ _ _ _) as [r1|] eqn:Q; [|discriminate]. injection H as _ <-. apply (stepped_generic L _ _ _ r _ _ Q Rf). apply al_other. exact (Gn t sp eq_refl).
  - injection H as _ <-. now apply stepped_same.
  - destruct (second o) as [k|]; [|discriminate]. destruct ((k =? 0) || (128 <? k)); injection H as _ <-; now apply stepped_same.
  - destruct (second o) as [k|]; [|discriminate]. destruct ((k =? 0) || (8 <? k)); injection H as _ <-; now apply stepped_same.
  - destruct (second o) as [k|]; [|discriminate]. injection H as _ <-. now apply stepped_same.
  - destruct (second o) as [k|]; [|discriminate]. destruct (back o) as [cc|]; [|discriminate]. cbv zeta in H. destruct (512 <=? cc); injection H as _ <-; now apply stepped_same.
  - injection H as _ <-. apply stepped_connect.
    destruct Which as [(_ & -> & ->)|(_ & -> & ->)]; [now apply al_lfo with c|now apply al_eg with c].
  - destruct (targetCC _ _ _ _ _ _ _ _ _) as [r1|] eqn:Q; [|discriminate]. injection H as _ <-. exact (targetCC_steps L _ _ _ _ r r _ Ns Rf Q).
  - destruct (second o) as [m|] eqn:Sc; [|discriminate]. destruct (extend V v m r) as [r1|] eqn:X; [|injection H as _ <-; exact Rf]. apply extend_conns in X. destruct X as (X1 & X2 & X3).
    injection H as _ <-. eapply stepped_one; [exact X1|cbn [target connect r_conns withConns]; rewrite X2; exact (eq_refl (runStep o (r_conns V r) (KS (keyN V id (n - 1) r) (keyN V t (m - 1) r) (setDepth V (read sp (o_value o))))))|].
    destruct Which as [(_ & -> & ->)|(_ & -> & ->)]; [now apply al_lfoN with c v|now apply al_egN with c v].
  - destruct (second o) as [m|] eqn:Sc; [|discriminate]. destruct (extend V v m r) as [r1|] eqn:X; [|injection H as _ <-; exact Rf]. apply extend_conns in X. destruct X as (X1 & X2 & X3).
    destruct (targetCC _ _ _ _ _ _ _ _ _) as [r2|] eqn:Q; [|discriminate]. injection H as _ <-. refine (targetCC_steps L _ _ _ _ r r1 _ Ns _ Q). now apply stepped_same.
  - cbv zeta in H. destruct (Bool.eqb _ _); injection H as _ <-; now apply stepped_same.
  - destruct (second o) as [m|] eqn:Sc; [|discriminate]. destruct ((m =? 0) || _); injection H as _ <-; [exact Rf|].
    apply stepped_connect. apply al_freq. now rewrite (Freq ltac:(tauto)).
  - destruct (second o) as [m|] eqn:Sc; [|discriminate]. destruct ((m =? 0) || _); [injection H as _ <-; exact Rf|].
    destruct (targetCC _ _ _ _ _ _ _ _ _) as [r2|] eqn:Q; [|discriminate]. injection H as _ <-. exact (targetCC_steps L _ _ _ _ r r _ Ns Rf Q).
Qed.
Lemma try_steps p L o f g (r : region) x r' : (forall r1, f = Some (Some r1) -> stepped L o r r1) -> (forall r1, stepped L o r1 (g r1)) ->
  try V p o f g r = Some (x, r') -> stepped L o r r'.
Proof.
  intros F C H. unfold try in H. destruct (starts_with _ _); [|injection H as _ <-; now apply stepped_same]. destruct f as [[r1|]|]; [|injection H as _ <-; now apply stepped_same|discriminate].
  injection H as _ <-. apply stepped_trans with (withV1 V p r1); [|apply C]. apply stepped_trans with r1; [now apply F|now apply stepped_same].
Qed.
Lemma connected_steps v L o (r : region) : In v [ampLFO; pitchLFO; filLFO; pitchEG; filEG] -> stepped L o r (connected V zero v r).
Proof.
  intros Iv. apply stepped_connect, al_depthless, dl_id.
Qed.
Lemma parse_steps L N o (r : region) x r' : named L N o -> no_collision L -> parseOpcode o r = Some (x, r') -> stepped L o r r'.
Proof.
  intros Hn Hc H. unfold RegionModel.parseOpcode in H. destruct (caseOf regionTable o) as [a|] eqn:E.
  { destruct (case_named _ _ _ _ _ incl_region Hn Hc E) as (c & Ic & El). now apply runAct_steps with c a x. }
  assert (Or : forall (r0 : region) y k x r', (forall x1 r1, y = Some (x1, r1) -> stepped L o r0 r1) -> (forall r1 x r', k r1 = Some (x, r') -> stepped L o r1 r') ->
    orElse V y k = Some (x, r') -> stepped L o r0 r').
  { intros r0 y k x0 r0' A B Q. destruct y as [[b r1]|]; [|discriminate]. specialize (A _ _ eq_refl). destruct b; cbn [orElse] in Q; [injection Q as _ <-; exact A|].
    apply stepped_trans with r1; [exact A|exact (B _ _ _ Q)]. }
  unfold parseDefault in H.
  refine (Or _ _ _ _ _ _ _ H); clear H; [intros x1 r1; apply try_steps; [intros r2; apply parseEG1_steps|intros r2; now apply stepped_same]|]; clear r r' x; intros r x r' H.
  do 2 (refine (Or _ _ _ _ _ _ _ H); clear H; [intros x1 r1; apply try_steps; [intros r2; apply parseEG1_steps|intros r2; apply connected_steps; cbn; tauto]|]; clear r r' x; intros r x r' H).
  do 3 (refine (Or _ _ _ _ _ _ _ H); clear H; [intros x1 r1; apply try_steps; [intros r2; apply parseLFO1_steps; cbn; tauto|intros r2; apply connected_steps; cbn; tauto]|]; clear r r' x; intros r x r' H).
  refine (Or _ _ _ _ _ _ _ H); clear H; [|clear r r' x; intros r x r' H].
  - intros x1 r1. destruct (starts_with _ _); [|intros [= _ <-]; now apply stepped_same]. unfold parseLFO2. destruct (front o) as [n|] eqn:F; [|discriminate].
    destruct (Z.eqb_spec n 0); [intros [= _ <-]; now apply stepped_same|]. cbv zeta. match goal with |- (if ?c then _ else _) = _ -> _ => destruct c end; [discriminate|].
    destruct (caseOf lfo2Table o) as [a|] eqn:E2; [|intros [= _ <-]; now apply stepped_same]. destruct (case_named _ _ _ _ _ incl_lfo2 Hn Hc E2) as (c & Ic & El).
    intros Q. refine (stepped_trans _ _ _ _ _ _ (runNumbered_steps _ _ n c lfo2Table L o _ a x1 r1 _ Ic El F n0 Q)); [now apply stepped_same|left; tauto].
  - destruct (starts_with _ _); [|injection H as _ <-; now apply stepped_same]. unfold parseEG2 in H. destruct (front o) as [n|] eqn:F; [|discriminate].
    destruct (Z.eqb_spec n 0); [injection H as _ <-; now apply stepped_same|]. cbv zeta in H. match type of H with (if ?c then _ else _) = _ => destruct c end; [discriminate|].
    destruct (caseOf eg2Table o) as [a|] eqn:E2; [|injection H as _ <-; now apply stepped_same]. destruct (case_named _ _ _ _ _ incl_eg2 Hn Hc E2) as (c & Ic & El).
    refine (stepped_trans _ _ _ _ _ _ (runNumbered_steps _ _ n c eg2Table L o _ a x r' _ Ic El F n0 H)); [now apply stepped_same|right; tauto].
Qed.

(** * Looking connections up *)
Notation getCC := (getConnectionFromCC V).
Notation getKey := (getConnection V).
Definition isCC (cc : Z) (t : key) (c : connection) : bool := match c_source V c with FromCC _ n _ _ _ => n =? cc | FromKey _ _ => false end && key_eqb (c_target V c) t.
Definition isK (s t : key) (c : connection) : bool := match c_source V c with FromKey _ k => key_eqb k s | FromCC _ _ _ _ _ => false end && key_eqb (c_target V c) t.
Lemma find_upd_same p f new l : p new = true -> (forall c, p (f c) = p c) ->
  find p (updFirst V p f new l) = Some (f (match find p l with Some c => c | None => new end)).
Proof.
  intros Pn Pf. induction l as [|c l IH]; cbn [updFirst find].
  - now rewrite Pf, Pn.
  - destruct (p c) eqn:E; cbn [find]; [now rewrite Pf, E|]. now rewrite E.
Qed.
Lemma find_upd_other p q f new l : (forall c, q (f c) = q c) -> (forall c, p c = true -> q c = false) -> p new = true -> find q (updFirst V p f new l) = find q l.
Proof.
  intros Qf D Pn. induction l as [|c l IH]; cbn [updFirst find].
  - now rewrite Qf, D.
  - destruct (p c) eqn:E; cbn [find]; [rewrite Qf, (D _ E); reflexivity|]. now rewrite IH.
Qed.
Lemma isCC_kind cc t c c' : kind V (c_source V c) = kind V (c_source V c') -> c_target V c = c_target V c' -> isCC cc t c = isCC cc t c'.
Proof. intros A B. unfold isCC. rewrite B. destruct (c_source V c), (c_source V c'); cbn in A; try discriminate; [|reflexivity]. injection A as ->. reflexivity. Qed.
Lemma isK_kind s t c c' : kind V (c_source V c) = kind V (c_source V c') -> c_target V c = c_target V c' -> isK s t c = isK s t c'.
Proof. intros A B. unfold isK. rewrite B. destruct (c_source V c), (c_source V c'); cbn in A; try discriminate; [reflexivity|]. injection A as ->. reflexivity. Qed.
Lemma mildKey_kind f : mildKey f -> forall c, kind V (c_source V (f c)) = kind V (c_source V c) /\ c_target V (f c) = c_target V c.
Proof. intros M c. destruct (M c) as [A B]. now rewrite A. Qed.
Lemma writeCC_kind spec o c : kind V (c_source V (writeCC V read readStep spec o c)) = kind V (c_source V c) /\ c_target V (writeCC V read readStep spec o c) = c_target V c.
Proof. destruct (mild_writeCC V read readStep spec o c) as (A & B & _). now split. Qed.
Lemma getCC_key cc t s' t' f l : mildKey f -> getCC cc t (connectKey V zero s' t' f l) = getCC cc t l.
Proof.
  intros M. rewrite connectKey_upd. apply (find_upd_other (isK s' t') (isCC cc t)).
  - intros c. destruct (mildKey_kind _ M c). now apply isCC_kind.
  - intros c. unfold isK, isCC. destruct (c_source V c); [discriminate|reflexivity].
  - unfold isK. cbn. now rewrite !key_eqb_refl.
Qed.
Definition freshCC (cc : Z) (t : key) : connection := Connect V (FromCC V cc zero zero zero) t zero noKey zero.
Lemma getCC_cc cc t cc' t' spec o l : getCC cc t (connectCC V zero cc' t' (writeCC V read readStep spec o) l) =
  if (cc' =? cc) && key_eqb t' t then Some (writeCC V read readStep spec o (match getCC cc t l with Some c => c | None => freshCC cc t end)) else getCC cc t l.
Proof.
  rewrite connectCC_upd. destruct ((cc' =? cc) && key_eqb t' t) eqn:E.
  - apply andb_true_iff in E. destruct E as [E1 E2]. apply Z.eqb_eq in E1. apply key_eqb_iff in E2. subst cc' t'.
    apply (find_upd_same (isCC cc t)).
    + unfold isCC. cbn. now rewrite Z.eqb_refl, key_eqb_refl.
    + intros c. destruct (writeCC_kind spec o c). now apply isCC_kind.
  - apply (find_upd_other (isCC cc' t') (isCC cc t)).
    + intros c. destruct (writeCC_kind spec o c). now apply isCC_kind.
    + intros c. unfold isCC. destruct (c_source V c) as [n cu sm st|]; [|discriminate]. rewrite andb_true_iff. intros [A B]. apply Z.eqb_eq in A. apply key_eqb_iff in B. subst n t'. exact E.
    + unfold isCC. cbn. now rewrite Z.eqb_refl, key_eqb_refl.
Qed.
Lemma getKey_cc s t cc' t' spec o l : getKey s t (connectCC V zero cc' t' (writeCC V read readStep spec o) l) = getKey s t l.
Proof.
  rewrite connectCC_upd. apply (find_upd_other (isCC cc' t') (isK s t)).
  - intros c. destruct (writeCC_kind spec o c). now apply isK_kind.
  - intros c. unfold isK, isCC. destruct (c_source V c); [reflexivity|discriminate].
  - unfold isCC. cbn. now rewrite Z.eqb_refl, key_eqb_refl.
Qed.
Definition freshKey (s t : key) : connection := Connect V (FromKey V s) t zero noKey zero.
Lemma getKey_key s t s' t' f l : mildKey f -> getKey s t (connectKey V zero s' t' f l) =
  if key_eqb s' s && key_eqb t' t then Some (f (match getKey s t l with Some c => c | None => freshKey s t end)) else getKey s t l.
Proof.
  intros M. rewrite connectKey_upd. destruct (key_eqb s' s && key_eqb t' t) eqn:E.
  - apply andb_true_iff in E. destruct E as [E1 E2]. apply key_eqb_iff in E1, E2. subst s' t'.
    apply (find_upd_same (isK s t)).
    + unfold isK. cbn. now rewrite !key_eqb_refl.
    + intros c. destruct (mildKey_kind _ M c). now apply isK_kind.
  - apply (find_upd_other (isK s' t') (isK s t)).
    + intros c. destruct (mildKey_kind _ M c). now apply isK_kind.
    + intros c. unfold isK. destruct (c_source V c) as [|k]; [discriminate|]. rewrite andb_true_iff. intros [A B]. apply key_eqb_iff in A, B. subst k t'. exact E.
    + unfold isK. cbn. now rewrite !key_eqb_refl.
Qed.

(** * Names *)
Lemma suffix_amp (X Y B e : text) : ~ In 38 e -> X ++ 38 :: Y = B ++ e -> exists B', Y = B' ++ e.
Proof.
  intros Ne. revert X. induction B as [|b B IH]; intros X H.
  - cbn in H. subst e. elim Ne. apply in_or_app. right. now left.
  - destruct X as [|x X]; cbn [app] in H; injection H as _ H; [now exists B|exact (IH _ H)].
Qed.
Lemma reads_tail n L N : reads n L N -> forall B e, ~ In 38 e -> no_ampersand n -> L = B ++ e ++ [38] -> exists b d, n = b ++ e ++ d /\ is_digits d.
Proof.
  induction 1 as [l Hl|l d r L N Hl Hd Hr R IH]; intros B e Ne A E.
  - exfalso. apply A. rewrite E. rewrite !in_app_iff. right. right. now left.
  - destruct (no_amp_app _ _ A) as [A1 A2]. destruct (no_amp_app _ _ A2) as [_ A3].
    destruct L as [|x L] using rev_ind.
    + inversion R; subst.
      * exists B, d. rewrite app_nil_r. split; [|exact Hd]. rewrite app_assoc in E. apply app_inj_tail in E. destruct E as [-> _]. now rewrite <- app_assoc.
      * destruct l0; discriminate.
    + clear IHL. assert (E' : (l ++ 38 :: L) ++ [x] = (B ++ e) ++ [38]) by (rewrite <- !app_assoc; exact E).
      apply app_inj_tail in E'. destruct E' as [E' ->]. destruct (suffix_amp _ _ _ _ Ne E') as [B' ->].
      destruct (IH B' e Ne A3) as (b & d' & -> & D'); [now rewrite <- app_assoc|].
      exists (l ++ d ++ b), d'. split; [now rewrite <- !app_assoc|exact D'].
Qed.
Lemma str_append a b : str (append a b) = str a ++ str b.
Proof. induction a as [|c a IH]; [reflexivity|]. cbn. now rewrite <- IH. Qed.
Lemma named_cat L N o c e B : named L N o -> ending c e -> c <> Normal -> L = B ++ e ++ [38] -> o_cat o = c.
Proof.
  intros (n & v & T & R & A & _ & ->) E C El. apply C56_opcode_category; [exact C|].
  destruct (reads_tail _ _ _ R B e) as (b & d & -> & D); [|exact A|exact El|].
  - destruct E; cbn; intuition discriminate.
  - exists b, e, d. split; [exact E|split; [exact D|reflexivity]].
Qed.
Definition suffixes : list (string * category) := [("_oncc&", OnCcN); ("_curvecc&", CurveCcN); ("_stepcc&", StepCcN); ("_smoothcc&", SmoothCcN)].
Lemma suffix_cat base sf c L N o : In (sf, c) suffixes -> named L N o -> L = str (append base sf) -> o_cat o = c.
Proof.
  intros H Hn El. rewrite str_append in El. destruct H as [[= <- <-]|[[= <- <-]|[[= <- <-]|[[= <- <-]|[]]]]].
  - apply (named_cat _ _ _ OnCcN (str "_oncc") (str base) Hn); [constructor|discriminate|exact El].
  - apply (named_cat _ _ _ CurveCcN (str "_curvecc") (str base) Hn); [constructor|discriminate|exact El].
  - apply (named_cat _ _ _ StepCcN (str "_stepcc") (str base) Hn); [constructor|discriminate|exact El].
  - apply (named_cat _ _ _ SmoothCcN (str "_smoothcc") (str base) Hn); [constructor|discriminate|exact El].
Qed.
Lemma lookup_find {A} (t : list (string * A)) c a : NoDup (map (fun c => hash (str c) fnvBasis) (map fst t)) -> In (c, a) t ->
  find (fun x => hash (str (fst x)) fnvBasis =? hash (str c) fnvBasis) t = Some (c, a).
Proof.
  induction t as [|[c' a'] t IH]; [intros _ []|]. cbn [map fst]. intros D. inversion D as [|? ? D1 D2]; subst. cbn [find fst]. intros [[= -> ->]|X].
  - now rewrite Z.eqb_refl.
  - destruct (Z.eqb_spec (hash (str c') fnvBasis) (hash (str c) fnvBasis)) as [E|_]; [|now apply IH]. exfalso. apply D1. rewrite E.
    apply (in_map (fun c => hash (str c) fnvBasis)). apply in_map_iff. now exists (c, a).
Qed.
Lemma lookup {A} (t : list (string * A)) c a L N o : NoDup (map (fun c => hash (str c) fnvBasis) (map fst t)) -> In (c, a) t -> named L N o -> L = str c -> caseOf t o = Some a.
Proof. intros D X Hn ->. unfold caseOf. destruct (named_facts _ _ _ Hn) as (-> & _). now rewrite (lookup_find _ _ _ D X). Qed.
Lemma nodup_r {A} (a b : list A) : NoDup (a ++ b) -> NoDup b.
Proof. induction a as [|x a IH]; [easy|]. cbn. intros H. inversion H. now apply IH. Qed.
Lemma nodup_l {A} (a b : list A) : NoDup (a ++ b) -> NoDup a.
Proof. induction a as [|x a IH]; [constructor|]. cbn. intros H. inversion H as [|? ? X Y]; subst. constructor; [intros Q; apply X, in_or_app; now left|now apply IH]. Qed.
Lemma nodup_sub a b c : NoDup (map (fun c => hash (str c) fnvBasis) (a ++ b ++ c)) -> NoDup (map (fun c => hash (str c) fnvBasis) b).
Proof. rewrite !map_app. intros H. apply nodup_r in H. now apply nodup_l in H. Qed.
Lemma nodup_region : NoDup (map (fun c => hash (str c) fnvBasis) (map fst regionTable)).
Proof. exact (nodup_sub [] _ _ (proj1 C92_cases_distinct)). Qed.
Lemma nodup_lfo2 : NoDup (map (fun c => hash (str c) fnvBasis) (map fst lfo2Table)).
Proof. apply (nodup_sub (map fst regionTable ++ map fst lfo1Cases ++ map fst eg1Table) _ (map fst eg2Table)). rewrite <- !app_assoc. exact (proj1 C92_cases_distinct). Qed.
Lemma nodup_eg2 : NoDup (map (fun c => hash (str c) fnvBasis) (map fst eg2Table)).
Proof.
  apply (nodup_sub (map fst regionTable ++ map fst lfo1Cases ++ map fst eg1Table ++ map fst lfo2Table) _ []). rewrite <- !app_assoc, app_nil_r. exact (proj1 C92_cases_distinct).
Qed.
Lemma key_id_neq a b : k_id a <> k_id b -> key_eqb a b = false.
Proof. intros H. apply key_eqb_neq. congruence. Qed.
Lemma key_N_eq t rg a b : 0 <= a < 256 -> 0 <= b < 256 -> key_eqb (createNXYZ t rg a 0 0 0) (createNXYZ t rg b 0 0 0) = (a =? b).
Proof.
  intros Ha Hb. destruct (Z.eqb_spec a b) as [->|Ne]; [apply key_eqb_refl|]. apply key_eqb_neq. intros E. apply Ne. apply (f_equal p_N) in E. unfold p_N, createNXYZ in E. cbn in E.
  now rewrite !Z.mod_small in E by lia.
Qed.

(** * The tables agree *)
Definition rowName (base : string) (c : string) : bool := existsb (fun s => String.eqb c (append base (fst s))) suffixes.
Definition agrees (d : string * modid * string * bool) : bool :=
  let '(base, t, spec, el) := d in
  forallb (fun x => match snd x with
    | Generic t' s' => negb (modid_eqb t' t) || (negb el && String.eqb s' spec && rowName base (fst x))
    | ElementGeneric _ t' s' => negb (modid_eqb t' t) || (el && String.eqb s' spec && rowName base (fst x))
    | _ => true end) regionTable &&
  forallb (fun s => existsb (fun x => String.eqb (fst x) (append base (fst s)) &&
    match snd x with Generic t' s' => negb el && modid_eqb t' t && String.eqb s' spec | ElementGeneric _ t' s' => el && modid_eqb t' t && String.eqb s' spec | _ => false end) regionTable) suffixes.
Lemma agrees_all : forallb agrees direct = true. Proof. vm_compute. reflexivity. Qed.
Lemma direct_row base t spec el sf c : In (base, t, spec, el) direct -> In (sf, c) suffixes ->
  if el then exists v, In (append base sf, ElementGeneric v t spec) regionTable else In (append base sf, Generic t spec) regionTable.
Proof.
  intros D S1. pose proof agrees_all as A. rewrite forallb_forall in A. specialize (A _ D). unfold agrees in A. apply andb_true_iff in A. destruct A as [_ A].
  rewrite forallb_forall in A. specialize (A _ S1). cbn [fst] in A. apply existsb_exists in A. destruct A as ([c' a] & X & Y). cbn [fst snd] in Y. apply andb_true_iff in Y. destruct Y as [Y1 Y2].
  apply String.eqb_eq in Y1. subst c'. destruct a; try discriminate; rewrite !andb_true_iff in Y2; destruct Y2 as [[Y2 Y3] Y4]; apply modid_eqb_true in Y3; apply String.eqb_eq in Y4; subst.
  - apply negb_true_iff in Y2. subst el. exact X.
  - eauto.
Qed.
Lemma row_direct base t spec el x : In (base, t, spec, el) direct -> In x regionTable ->
  match snd x with Generic t' s' | ElementGeneric _ t' s' => t' = t -> exists sf c, In (sf, c) suffixes /\ fst x = append base sf | _ => True end.
Proof.
  intros D X. pose proof agrees_all as A. rewrite forallb_forall in A. specialize (A _ D). unfold agrees in A. apply andb_true_iff in A. destruct A as [A _].
  rewrite forallb_forall in A. specialize (A _ X). destruct x as [c' a]. cbn [fst snd] in *. destruct a as [| | | | | |t0 s0|v0 t0 s0|]; try exact Logic.I; intros ->.
  all: assert (M : modid_eqb t t = true) by (unfold modid_eqb; destruct (modid_eq_dec t t); [reflexivity|contradiction]); rewrite M in A; cbn [negb orb] in A;
    apply andb_true_iff in A; destruct A as [_ A]; unfold rowName in A; apply existsb_exists in A; destruct A as ([sf c] & S1 & S2); cbn [fst] in S2; apply String.eqb_eq in S2; eauto.
Qed.
Lemma directId_in base t spec el : In (base, t, spec, el) direct -> directId t = true.
Proof. intros D. unfold directId. apply existsb_exists. exists (base, t, spec, el). split; [exact D|]. cbn. unfold modid_eqb. destruct (modid_eq_dec t t); [reflexivity|contradiction]. Qed.
Lemma isName_true a b : isName a b = true <-> a = b.
Proof. unfold isName. destruct (list_eq_dec Z.eq_dec a b); split; intros; congruence. Qed.
Lemma isNumbers_true a b : isNumbers a b = true <-> a = b.
Proof. unfold isNumbers. destruct (list_eq_dec Z.eq_dec a b); split; intros; congruence. Qed.
Lemma isName_refl a : isName a a = true. Proof. now apply isName_true. Qed.
Lemma isName_neq a b : a <> b -> isName a b = false.
Proof. intros H. apply not_true_iff_false. now rewrite isName_true. Qed.
Lemma isNumbers_neq a b : a <> b -> isNumbers a b = false.
Proof. intros H. apply not_true_iff_false. now rewrite isNumbers_true. Qed.
(** what writing to a connection does to the modulation *)
Lemma says_write base spec ns cc t o m sf c L N : In (sf, c) suffixes -> named L N o -> L = str (append base sf) -> o_params o = ns ++ [cc] ->
  (forall x, m = Some x -> isCC cc t x = true) ->
  option_map view (Some (writeCC V read readStep spec o (match m with Some c => c | None => freshCC cc t end))) = says base spec ns cc (option_map view m) o.
Proof.
  intros S1 Hn El Ep Ok. pose proof (suffix_cat _ _ _ _ _ _ S1 Hn El) as Ec. destruct (named_facts _ _ _ Hn) as (_ & _ & Lo & _). unfold says. rewrite Lo, Ep. unfold isNumbers. destruct (list_eq_dec Z.eq_dec (ns ++ [cc]) (ns ++ [cc])); [|contradiction].
  assert (Q : forall a b : string, str a <> str b -> isName (str (append base a)) (str (append base b)) = false).
  { intros a b H. apply isName_neq. rewrite !str_append. intros X. apply app_inv_head in X. contradiction. }
  assert (W : exists cu sm st, c_source V (match m with Some c => c | None => freshCC cc t end) = FromCC V cc cu sm st).
  { destruct m as [x|]; [|now exists zero, zero, zero]. specialize (Ok x eq_refl). unfold isCC in Ok. destruct (c_source V x) as [n cu sm st|]; [|discriminate].
    apply andb_true_iff in Ok. destruct Ok as [Ok _]. apply Z.eqb_eq in Ok. subst n. now exists cu, sm, st. }
  destruct W as (cu & sm & st & W).
  assert (Ol : match option_map view m with Some x => x | None => none end = Modulation (c_depth V (match m with Some c => c | None => freshCC cc t end)) cu sm st).
  { destruct m as [x|]; cbn [option_map]; [unfold view; now rewrite W|]. cbn in W. injection W as <- <- <-. reflexivity. }
  unfold writeCC. rewrite W, Ec. cbv zeta. rewrite Ol. cbn [m_depth m_curve m_smooth m_step option_map].
  destruct S1 as [[= <- <-]|[[= <- <-]|[[= <- <-]|[[= <- <-]|[]]]]]; rewrite El, ?isName_refl, ?Q by discriminate; unfold view; cbn; rewrite ?W; reflexivity.
Qed.
Lemma says_other base spec ns cc m L N o : named L N o -> (forall sf c, In (sf, c) suffixes -> L <> str (append base sf)) -> says base spec ns cc m o = m.
Proof.
  intros Hn H. unfold says. destruct (named_facts _ _ _ Hn) as (_ & _ & -> & _). destruct (isNumbers _ _); [|reflexivity].
  rewrite (isName_neq L (str (append base "_oncc&"))), (isName_neq L (str (append base "_curvecc&"))), (isName_neq L (str (append base "_smoothcc&"))), (isName_neq L (str (append base "_stepcc&"))); [reflexivity|..];
    (eapply H; cbn [In suffixes]; eauto 6).
Qed.
Lemma amps_str base sf c el t spec : In (base, t, spec, el) direct -> In (sf, c) suffixes -> amps (str (append base sf)) = if el then 2%nat else 1%nat.
Proof.
  intros D S1. assert (Q : forallb (fun d : string * modid * string * bool => let '(base, _, _, el) := d in forallb (fun s : string * category => Nat.eqb (amps (str (append base (fst s)))) (if el then 2 else 1)%nat) suffixes) direct = true) by (vm_compute; reflexivity).
  rewrite forallb_forall in Q. specialize (Q _ D). cbv beta iota in Q. rewrite forallb_forall in Q. specialize (Q _ S1). now apply Nat.eqb_eq in Q.
Qed.
Lemma ends_str base sf c el t spec : In (base, t, spec, el) direct -> In (sf, c) suffixes -> endsCC (str (append base sf)) = true.
Proof.
  intros D S1. assert (Q : forallb (fun d : string * modid * string * bool => let '(base, _, _, el) := d in forallb (fun s : string * category => endsCC (str (append base (fst s)))) suffixes) direct = true) by (vm_compute; reflexivity).
  rewrite forallb_forall in Q. specialize (Q _ D). cbv beta iota in Q. rewrite forallb_forall in Q. exact (Q _ S1).
Qed.
Definition bounded (o : opcode) : Prop := Forall (fun x => x <= 256) (indices o).
Definition keyOf (id : Z) (t : modid) (el : bool) (n : Z) : key := createNXYZ t id (if el then n - 1 else 0) 0 0 0.
Lemma getCC_isCC cc t l x : getCC cc t l = Some x -> isCC cc t x = true.
Proof. intros H. apply find_some in H. apply H. Qed.
Lemma in_dec_suffix base L : (exists sf c, In (sf, c) suffixes /\ L = str (append base sf)) \/ (forall sf c, In (sf, c) suffixes -> L <> str (append base sf)).
Proof.
  destruct (existsb (fun s => isName L (str (append base (fst s)))) suffixes) eqn:E.
  - left. apply existsb_exists in E. destruct E as ([sf c] & A & B). cbn [fst] in B. apply isName_true in B. eauto.
  - right. intros sf c S1 X. apply not_true_iff_false in E. apply E. apply existsb_exists. exists (sf, c). split; [exact S1|]. now apply isName_true.
Qed.
Lemma controller_step base t spec el n cc o (r r' : region) x L N : In (base, t, spec, el) direct -> 1 <= n <= 256 -> 0 <= cc < 512 ->
  named L N o -> no_collision L -> bounded o -> parseOpcode o r = Some (x, r') ->
  option_map view (getCC cc (keyOf (r_id V r) t el n) (r_conns V r')) =
  says base spec (nums el n) cc (option_map view (getCC cc (keyOf (r_id V r) t el n) (r_conns V r))) o.
Proof.
  intros D Hi Hcc Hn Hc Hb H. set (T := keyOf (r_id V r) t el n).
  destruct (in_dec_suffix base L) as [(sf & c & S1 & El)|No].
  - pose proof (suffix_cat _ _ _ _ _ _ S1 Hn El) as Ec. pose proof (direct_row _ _ _ _ _ _ D S1) as Row.
    destruct (named_facts _ _ _ Hn) as (_ & _ & Lo & Am). rewrite El, (amps_str _ _ _ _ _ _ D S1) in Am.
    assert (Nc : c <> Normal) by (destruct S1 as [[= <- <-]|[[= <- <-]|[[= <- <-]|[[= <- <-]|[]]]]]; discriminate).
    assert (GenCase : forall tk (r0 r2 : region), generic V read readStep zero spec tk o r0 = Some r2 -> forall c', back o = Some c' -> isKey tk = true ->
      r_conns V r2 = if 512 <=? c' then r_conns V r0 else connectCC V zero c' tk (writeCC V read readStep spec o) (r_conns V r0)).
    { intros tk r0 r2 G c' B K. unfold generic in G. rewrite Ec, B, K in G. destruct c; [now elim Nc|..]; destruct (512 <=? c'); injection G as <-; reflexivity. }
    assert (Kt : forall rg m, isKey (createNXYZ t rg m 0 0 0) = true).
    { intros rg m. unfold isKey, createNXYZ. cbn [k_id]. assert (Q : forallb (fun d => negb (modid_eqb (snd (fst (fst d))) MUndefined)) direct = true) by (vm_compute; reflexivity).
      rewrite forallb_forall in Q. exact (Q _ D). }
    destruct el.
    + destruct Row as [v Row]. pose proof (lookup _ _ _ _ _ _ nodup_region Row Hn El) as Ca. unfold RegionModel.parseOpcode in H. rewrite Ca in H. clear Ca. cbn [runAct] in H.
      destruct (o_params o) as [|m [|c' [|z q]]] eqn:P; try discriminate Am.
      assert (F : front o = Some m) by (unfold front; now rewrite P). assert (B : back o = Some c') by (unfold back; now rewrite P). rewrite F in H.
      assert (Mp : 0 <= m < 65536) by (apply (named_params _ _ _ m Hn); rewrite P; now left). assert (Mb : m <= 256).
      { unfold bounded, indices in Hb. rewrite Lo, P, El, (ends_str _ _ _ _ _ _ D S1) in Hb. now inversion Hb. }
      destruct (extend V v m r) as [r1|] eqn:X.
      * apply extend_conns in X. destruct X as (X1 & X2 & X3).
        destruct (generic V read readStep zero spec (keyN V t (m - 1) r) o r1) as [r2|] eqn:G; [|discriminate]. injection H as _ <-.
        rewrite (GenCase _ _ _ G _ B (Kt _ _)). rewrite X2. destruct (Z.leb_spec 512 c').
        { unfold says. rewrite isNumbers_neq; [reflexivity|]. rewrite P. cbn. intros [= _ E]. lia. }
        rewrite getCC_cc. unfold keyN, T, keyOf. rewrite key_N_eq by lia. destruct (Z.eqb_spec c' cc) as [E1|E1]; [destruct (Z.eqb_spec (m - 1) (n - 1)) as [E2|E2]|]; cbn [andb].
        -- subst c'. assert (m = n) by lia. subst m. now apply says_write with sf c L N; [..|intros x0; apply getCC_isCC].
        -- unfold says. rewrite isNumbers_neq; [reflexivity|]. rewrite P. cbn. intros [= E _]. lia.
        -- unfold says. rewrite isNumbers_neq; [reflexivity|]. rewrite P. cbn. intros [= _ E]. lia.
      * injection H as _ <-. unfold says. rewrite isNumbers_neq; [reflexivity|]. rewrite P. cbn. intros [= E _]. subst m. unfold extend, extendSize in X. destruct v; destruct (Z.eqb_spec n 0); try discriminate; lia.
    + pose proof (lookup _ _ _ _ _ _ nodup_region Row Hn El) as Ca. unfold RegionModel.parseOpcode in H. rewrite Ca in H. clear Ca. cbn [runAct] in H.
      destruct (o_params o) as [|c' [|z q]] eqn:P; try discriminate Am. assert (B : back o = Some c') by (unfold back; now rewrite P).
      destruct (generic V read readStep zero spec (key0 V t r) o r) as [r2|] eqn:G; [|discriminate]. injection H as _ <-. rewrite (GenCase _ _ _ G _ B (Kt _ _)). destruct (Z.leb_spec 512 c').
      { unfold says. rewrite isNumbers_neq; [reflexivity|]. rewrite P. cbn. intros [= E]. lia. }
      rewrite getCC_cc. unfold key0, T, keyOf. rewrite key_eqb_refl, andb_true_r. destruct (Z.eqb_spec c' cc) as [E1|E1].
      * subst c'. now apply says_write with sf c L N; [..|intros x0; apply getCC_isCC].
      * unfold says. rewrite isNumbers_neq; [reflexivity|]. rewrite P. cbn. intros [= E]. lia.
  - rewrite (says_other _ _ _ _ _ _ _ _ Hn No). f_equal. destruct (parse_steps _ _ _ _ _ _ Hn Hc H) as [_ (ss & -> & Al)].
    assert (Step : forall st l, allowed L o r st -> getCC cc T (runStep o l st) = getCC cc T l).
    { intros st l A.
      assert (Gs : forall tk sp, key_eqb tk T = false -> getCC cc T (runStep o l (CS tk sp)) = getCC cc T l).
      { intros tk sp K. cbn [runStep]. destruct (o_cat o); [reflexivity|..]; (destruct (back o) as [c'|]; [|reflexivity]; destruct (512 <=? c'); [reflexivity|]; destruct (isKey tk); [|reflexivity];
          rewrite getCC_cc, K, andb_false_r; reflexivity). }
      destruct A as [c t' s' Ic El|c v t' s' m Ic El F Nz|t' s' Di|s0 t0 f Ns M|s0 t0 f Dl|c t' s' m Ic El F Nz|c v t' s' m m2 Ic El F Nz Sc Nz2|c t' s' m Ic El F Nz|c v t' s' m m2 Ic El F Nz Sc Nz2|s0 m Ks].
      - apply Gs, key_id_neq. cbn. intros ->. pose proof (row_direct _ _ _ _ _ D Ic) as Q. cbn [fst snd] in Q. destruct (Q eq_refl) as (sf & k & S1 & S2). subst c. exact (No _ _ S1 El).
      - apply Gs, key_id_neq. cbn. intros ->. pose proof (row_direct _ _ _ _ _ D Ic) as Q. cbn [fst snd] in Q. destruct (Q eq_refl) as (sf & k & S1 & S2). subst c. exact (No _ _ S1 El).
      - apply Gs, key_id_neq. intros E. rewrite E in Di. change (directId t = false) in Di. rewrite (directId_in _ _ _ _ D) in Di. discriminate.
      - now apply getCC_key.
      - apply getCC_key. apply Dl.
      - apply getCC_key, mk_depth.
      - apply getCC_key, mk_depth.
      - apply getCC_key, mk_depth.
      - apply getCC_key, mk_depth.
      - apply getCC_key, mk_depth. }
    unfold runs. revert Al. generalize (r_conns V r) as l. induction ss as [|st ss IH]; intros l Al; [reflexivity|]. inversion Al as [|? ? A1 A2]; subst. cbn [fold_left]. rewrite IH by exact A2. now apply Step.
Qed.
Lemma parse_id L N o (r : region) x r' : named L N o -> no_collision L -> parseOpcode o r = Some (x, r') -> r_id V r' = r_id V r.
Proof. intros A B C. destruct (parse_steps _ _ _ _ _ _ A B C) as [E _]. exact E. Qed.
(** C93: how a controller modulates a parameter is what the last opcodes naming this controller and this parameter say, whatever other opcodes there are and in whatever order. *)
Theorem C93_controllers base t spec el n cc id mem l r' : In (base, t, spec, el) direct -> 1 <= n <= 256 -> 0 <= cc < 512 ->
  Forall nice l -> Forall bounded l -> parseOpcodes l (freshRegion V id mem) = Some r' ->
  option_map view (getCC cc (createNXYZ t id (if el then n - 1 else 0) 0 0 0) (r_conns V r')) = fold_left (says base spec (nums el n) cc) l None.
Proof.
  intros D Hi Hcc Hl Hb E. assert (G : forall (r : region), r_id V r = id -> parseOpcodes l r = Some r' ->
    option_map view (getCC cc (keyOf id t el n) (r_conns V r')) = fold_left (says base spec (nums el n) cc) l (option_map view (getCC cc (keyOf id t el n) (r_conns V r)))).
  { clear E. revert Hb. induction Hl as [|o l (L & N & Hn & Hc) _ IH]; intros Hb r Er E; cbn [RegionModel.parseOpcodes] in E.
    - injection E as <-. reflexivity.
    - inversion Hb as [|? ? B1 B2]; subst. destruct (parseOpcode o r) as [[x r1]|] eqn:Q; [|discriminate].
      pose proof (parse_id _ _ _ _ _ _ Hn Hc Q) as Ei. cbn [fold_left]. rewrite (IH B2 r1 Ei E).
      now rewrite (controller_step _ _ _ _ _ _ _ _ _ _ _ _ D Hi Hcc Hn Hc B1 Q). }
  exact (G (freshRegion V id mem) eq_refl E).
Qed.

(** * One connection for each pair of source and target *)
Definition pair (c : connection) : (Z + key) * key := (kind V (c_source V c), c_target V c).
Lemma upd_pairs p f new l : (forall c, pair (f c) = pair c) -> (forall c, p c = true <-> pair c = pair new) -> NoDup (map pair l) -> NoDup (map pair (updFirst V p f new l)).
Proof.
  intros Hf Hp D. assert (G : incl (map pair (updFirst V p f new l)) (pair new :: map pair l)).
  { clear D. induction l as [|c l IH]; cbn [updFirst map]; [rewrite Hf; apply incl_refl|]. destruct (p c); cbn [map]; [rewrite Hf; apply incl_tl, incl_refl|].
    intros x [<-|X]; [right; now left|]. destruct (IH _ X) as [<-|Y]; [now left|right; now right]. }
  clear G. induction l as [|c l IH]; cbn [updFirst map] in *; [repeat constructor; intros []|]. inversion D as [|? ? D1 D2]; subst. destruct (p c) eqn:Pc; cbn [map]; [now rewrite Hf|].
  constructor; [|now apply IH]. intros X. assert (Y : incl (map pair (updFirst V p f new l)) (pair new :: map pair l)).
  { clear - Hf. induction l as [|c l IH]; cbn [updFirst map]; [rewrite Hf; apply incl_refl|]. destruct (p c); cbn [map]; [rewrite Hf; apply incl_tl, incl_refl|].
    intros x [<-|X]; [right; now left|]. destruct (IH _ X) as [<-|Y]; [now left|right; now right]. }
  destruct (Y _ X) as [E|E]; [|contradiction]. symmetry in E. apply Hp in E. congruence.
Qed.
Lemma isK_pair s t c : isK s t c = true <-> pair c = pair (freshKey s t).
Proof.
  unfold isK, pair, freshKey. cbn. rewrite andb_true_iff, key_eqb_iff. destruct (c_source V c) as [|k]; cbn; [split; [intros [X _]|intros [=]]; discriminate|].
  rewrite key_eqb_iff. split; [intros [-> ->]; reflexivity|intros [= -> ->]; now split].
Qed.
Lemma isCC_pair cc t c : isCC cc t c = true <-> pair c = pair (freshCC cc t).
Proof.
  unfold isCC, pair, freshCC. cbn. rewrite andb_true_iff, key_eqb_iff. destruct (c_source V c) as [n|k]; cbn; [|split; [intros [X _]|intros [=]]; discriminate].
  rewrite Z.eqb_eq. split; [intros [-> ->]; reflexivity|intros [= -> ->]; now split].
Qed.
Lemma allowed_mild L o r s t f : allowed L o r (KS s t f) -> mildKey f.
Proof. intros A. inversion A; subst; try apply mk_depth; [assumption|]. match goal with H : depthless _ |- _ => apply H end. Qed.
(** C93: a region has at most one connection from a source to a target. *)
Theorem C93_unique id mem l r' : Forall nice l -> parseOpcodes l (freshRegion V id mem) = Some r' ->
  NoDup (map (fun c => (kind V (c_source V c), c_target V c)) (r_conns V r')).
Proof.
  intros Hl E. assert (G : forall r : region, NoDup (map pair (r_conns V r)) -> parseOpcodes l r = Some r' -> NoDup (map pair (r_conns V r'))).
  { clear E. induction Hl as [|o l (L & N & Hn & Hc) _ IH]; intros r D E; cbn [RegionModel.parseOpcodes] in E; [injection E as <-; exact D|].
    destruct (parseOpcode o r) as [[x r1]|] eqn:Q; [|discriminate]. apply (IH r1); [|exact E]. clear IH E.
    destruct (parse_steps _ _ _ _ _ _ Hn Hc Q) as [_ (ss & -> & Al)]. unfold runs. revert D Al. generalize (r_conns V r) as cs. induction ss as [|st ss IH]; intros cs D Al; [exact D|].
    inversion Al as [|? ? A1 A2]; subst. cbn [fold_left]. apply IH; [|exact A2]. destruct st as [s t f|t sp]; cbn [runStep].
    - rewrite connectKey_upd. apply upd_pairs; [|apply isK_pair|exact D]. intros c. unfold pair. destruct (mildKey_kind _ (allowed_mild _ _ _ _ _ _ A1) c) as [-> ->]. reflexivity.
    - destruct (o_cat o); [exact D|..]; (destruct (back o) as [cc|]; [|exact D]; destruct (512 <=? cc); [exact D|]; destruct (isKey t); [|exact D];
        rewrite connectCC_upd; apply upd_pairs; [|apply isCC_pair|exact D]; intros c; unfold pair; destruct (writeCC_kind sp o c) as [-> ->]; reflexivity). }
  apply (G (freshRegion V id mem)); [constructor|exact E].
Qed.

(** * LFOs and envelopes *)
Definition depthOf (x : option connection) : V := match x with Some c => c_depth V c | None => zero end.
Definition which (p : string) (sid : modid) (tb : list (string * nact)) : Prop :=
  p = "lfo&_" /\ sid = MLFO /\ tb = lfo2Table \/ p = "eg&_" /\ sid = MEnvelope /\ tb = eg2Table.
Definition agreesN (p : string) (tb : list (string * nact)) (d : string * modid * string * bool) : bool :=
  let '(base, t, spec, el) := d in
  forallb (fun x => match snd x with
    | NTarget t' s' | NElem _ t' s' => negb (modid_eqb t' t) || String.eqb (fst x) (append p base)
    | _ => true end) tb &&
  existsb (fun x => String.eqb (fst x) (append p base) &&
    match snd x with NTarget t' s' => negb el && modid_eqb t' t && String.eqb s' spec | NElem _ t' s' => el && modid_eqb t' t && String.eqb s' spec | _ => false end) tb &&
  forallb (fun x => negb (isName (str (fst x)) (str (append p base)))) regionTable &&
  Nat.eqb (amps (str (append p base))) (if el then 2 else 1)%nat && negb (endsCC (str (append p base))) && negb (modid_eqb t MLFOFrequency).
Lemma agreesN_all : forallb (agreesN "lfo&_" lfo2Table) indirect && forallb (agreesN "eg&_" eg2Table) indirect = true.
Proof. vm_compute. reflexivity. Qed.
Lemma agreesN_one p sid tb d : which p sid tb -> In d indirect -> agreesN p tb d = true.
Proof.
  pose proof agreesN_all as A. apply andb_true_iff in A. destruct A as [A B]. rewrite forallb_forall in A, B. intros [(-> & _ & ->)|(-> & _ & ->)]; auto.
Qed.
Lemma reads_head n c L N : reads n (c :: L) N -> c <> 38 -> exists n', n = c :: n'.
Proof.
  intros R H. inversion R as [l X Y|l d r L' N' A B C D E]; subst; [now exists L|]. destruct l as [|x l]; cbn in *; [congruence|]. match goal with H : x :: _ = c :: _ |- _ => injection H as -> _ end. now exists (l ++ d ++ r).
Qed.
Lemma orElse_id y : orElse V y (fun r => Some (false, r)) = y.
Proof. destruct y as [[[] r]|]; reflexivity. Qed.
Lemma default_lfo L N o (r : region) : named L N o -> L = str "lfo&_" ++ skipn 5 L -> parseDefault V apply read readStep zero readAmpeg readSteps o r =
  orElse V (parseLFO2 V apply read readStep zero readAmpeg readSteps o r) (fun r => Some (false, r)).
Proof.
  intros Hn El. destruct (named_facts _ _ _ Hn) as (_ & _ & Lo & _). destruct Hn as (n & v & T & R & _ & _ & ->). rewrite El in R. apply reads_head in R; [|discriminate]. destruct R as [n' Q]. change (n = 108 :: n') in Q. subst n.
  unfold parseDefault, try. assert (On : o_name (mkOpcode (108 :: n') v) = 108 :: n') by (unfold mkOpcode; rewrite T; destruct (scan_name _ _ _ _) as [? ?]; reflexivity).
  rewrite On, Lo, El. reflexivity.
Qed.
Lemma default_eg L N o (r : region) : named L N o -> L = str "eg&_" ++ skipn 4 L -> parseDefault V apply read readStep zero readAmpeg readSteps o r =
  parseEG2 V apply read readStep zero readAmpeg readSteps o r.
Proof.
  intros Hn El. destruct (named_facts _ _ _ Hn) as (_ & _ & Lo & _). destruct Hn as (n & v & T & R & _ & _ & ->). rewrite El in R. apply reads_head in R; [|discriminate]. destruct R as [n' Q]. change (n = 101 :: n') in Q. subst n.
  unfold parseDefault, try. assert (On : o_name (mkOpcode (101 :: n') v) = 101 :: n') by (unfold mkOpcode; rewrite T; destruct (scan_name _ _ _ _) as [? ?]; reflexivity).
  rewrite On, Lo, El. reflexivity.
Qed.
(** what the opcodes of the second list do *)
Lemma numbered_conns p sid tb base t spec el L N o (r r' : region) x : which p sid tb -> In (base, t, spec, el) indirect -> named L N o -> no_collision L ->
  L = str (append p base) -> parseOpcode o r = Some (x, r') ->
  exists i ms, o_params o = i :: ms /\ List.length ms = (if el then 1 else 0)%nat /\ 0 <= i /\ Forall (fun m => 0 <= m) ms /\
    r_conns V r' = if (i =? 0) || (match ms with [m] => m =? 0 | _ => false end) then r_conns V r
                   else connectKey V zero (keyN V sid (i - 1) r) (createNXYZ t (r_id V r) (match ms with [m] => m - 1 | _ => 0 end) 0 0 0) (setDepth V (read spec (o_value o))) (r_conns V r).
Proof.
  intros W D Hn Hc El H. pose proof (agreesN_one _ _ _ _ W D) as A. unfold agreesN in A. rewrite !andb_true_iff in A. destruct A as (((((A1 & A2) & A3) & A4) & A5) & A6).
  destruct (named_facts _ _ _ Hn) as (_ & _ & Lo & Am). rewrite El in Am. apply Nat.eqb_eq in A4. rewrite A4 in Am.
  assert (Po : forall y, In y (o_params o) -> 0 <= y) by (intros y Y; destruct (named_params _ _ _ _ Hn Y); lia).
  assert (Ca : caseOf regionTable o = None).
  { destruct (caseOf regionTable o) as [a|] eqn:Ca; [|reflexivity]. destruct (case_named _ _ _ _ _ incl_region Hn Hc Ca) as (c & Ic & Ec). rewrite forallb_forall in A3. specialize (A3 _ Ic). cbn [fst] in A3.
    rewrite <- Ec, El, isName_refl in A3. discriminate A3. }
  apply existsb_exists in A2. destruct A2 as ([c' a] & Row & Y). cbn [fst snd] in Y. apply andb_true_iff in Y. destruct Y as [Y1 Y2]. apply String.eqb_eq in Y1. subst c'.
  assert (Cn : caseOf tb o = Some a).
  { apply (lookup tb (append p base) a L N o); [|exact Row|exact Hn|exact El]. destruct W as [(_ & _ & ->)|(_ & _ & ->)]; [apply nodup_lfo2|apply nodup_eg2]. }
  unfold RegionModel.parseOpcode in H. rewrite Ca in H. clear Ca A1 A3.
  assert (H' : exists i r0 q, front o = Some i /\ (i = 0 /\ r' = r \/ i <> 0 /\ r_id V r0 = r_id V r /\ r_conns V r0 = r_conns V r /\ runNumbered V apply read readStep zero readAmpeg readSteps q (keyN V sid (i - 1) r0) (i - 1) a o r0 = Some (x, r'))).
  { destruct W as [(-> & -> & ->)|(-> & -> & ->)].
    - rewrite (default_lfo _ _ _ r Hn) in H by (rewrite El; reflexivity). unfold parseLFO2 in H. destruct (front o) as [i|]; [|discriminate H]. exists i.
      destruct (Z.eqb_spec i 0) as [Zi|Nz]; [cbn in H; injection H as _ <-; exists r, ""; split; [reflexivity|left; now split]|]. cbv zeta in H.
      match type of H with orElse _ (if ?c then _ else _) _ = _ => destruct c end; [discriminate H|]. rewrite Cn in H.
      eexists. exists "lfos.". split; [reflexivity|]. right. split; [exact Nz|]. split; [|split; [|]]; cycle 2.
      + rewrite orElse_id in H. exact H.
      + reflexivity.
      + reflexivity.
    - rewrite (default_eg _ _ _ r Hn) in H by (rewrite El; reflexivity). unfold parseEG2 in H. destruct (front o) as [i|]; [|discriminate H]. exists i.
      destruct (Z.eqb_spec i 0) as [Zi|Nz]; [injection H as _ <-; exists r, ""; split; [reflexivity|left; now split]|]. cbv zeta in H.
      match type of H with (if ?c then _ else _) = _ => destruct c end; [discriminate H|]. rewrite Cn in H.
      eexists. exists "flexEGs.". split; [reflexivity|]. right. split; [exact Nz|]. split; [|split; [|exact H]]; reflexivity. }
  clear H Cn Row Hn Hc. destruct H' as (i & r0 & q & F & H). destruct el.
  - destruct a as [| | | | | | | | | |v0 t0 s0| | | |]; try discriminate. rewrite !andb_true_iff in Y2. destruct Y2 as ((_ & Y2) & Y3). apply modid_eqb_true in Y2. apply String.eqb_eq in Y3. subst t0 s0.
    unfold front in F. destruct (o_params o) as [|i' [|m [|z w]]] eqn:P; try discriminate Am. injection F as ->.
    exists i, [m]. split; [reflexivity|]. split; [reflexivity|]. split; [apply Po; now left|]. split; [repeat constructor; apply Po; right; now left|].
    destruct H as [(-> & ->)|(Nz & I0 & C0 & H)]; [reflexivity|]. apply Z.eqb_neq in Nz. rewrite Nz. cbn [orb]. cbn [runNumbered] in H. unfold second in H. rewrite P in H. cbn [nth_error] in H.
    destruct (extend V v0 m r0) as [r1|] eqn:X.
    + pose proof (extend_conns _ _ _ _ X) as (X1 & X2 & X3). injection H as _ <-. apply Z.eqb_neq in X3. rewrite X3. cbn [target connect r_conns withConns]. rewrite X2, C0. unfold keyN. now rewrite I0.
    + injection H as _ <-. destruct v0; unfold extend, extendSize in X; destruct (m =? 0); try discriminate; exact C0.
  - destruct a as [| | | | | | | |t0 s0| | | | | |]; try discriminate. rewrite !andb_true_iff in Y2. destruct Y2 as ((_ & Y2) & Y3). apply modid_eqb_true in Y2. apply String.eqb_eq in Y3. subst t0 s0.
    unfold front in F. destruct (o_params o) as [|i' [|z w]] eqn:P; try discriminate Am. injection F as ->.
    exists i, []. split; [reflexivity|]. split; [reflexivity|]. split; [apply Po; now left|]. split; [constructor|].
    destruct H as [(-> & ->)|(Nz & I0 & C0 & H)]; [reflexivity|]. apply Z.eqb_neq in Nz. rewrite Nz. cbn [orb]. cbn [runNumbered] in H. injection H as _ <-. cbn [target connect r_conns withConns]. rewrite C0. unfold keyN, key0. now rewrite I0.
Qed.
Lemma depth_step p sid tb base t spec el i n o (r r' : region) x L N : which p sid tb -> In (base, t, spec, el) indirect -> 1 <= i <= 256 -> 1 <= n <= 256 ->
  named L N o -> no_collision L -> bounded o -> parseOpcode o r = Some (x, r') ->
  depthOf (getKey (createNXYZ sid (r_id V r) (i - 1) 0 0 0) (keyOf (r_id V r) t el n) (r_conns V r')) =
  saysDepth p base spec i (nums el n) (depthOf (getKey (createNXYZ sid (r_id V r) (i - 1) 0 0 0) (keyOf (r_id V r) t el n) (r_conns V r))) o.
Proof.
  intros W D Hi Hm Hn Hc Hb H. pose proof (agreesN_one _ _ _ _ W D) as A. unfold agreesN in A. rewrite !andb_true_iff in A. destruct A as (((((A1 & A2) & A3) & A4) & A5) & A6).
  set (T := keyOf (r_id V r) t el n). set (S0 := createNXYZ sid (r_id V r) (i - 1) 0 0 0). destruct (named_facts _ _ _ Hn) as (_ & _ & Lo & _). unfold saysDepth. rewrite Lo.
  destruct (isName L (str (append p base))) eqn:Nm.
  - apply isName_true in Nm. destruct (numbered_conns _ _ _ _ _ _ _ _ _ _ _ _ _ W D Hn Hc Nm H) as (j & ms & P & Len & J0 & M0 & ->). rewrite P, andb_true_r.
    unfold bounded, indices in Hb. apply negb_true_iff in A5. rewrite Lo, Nm, A5, P in Hb. inversion Hb as [|? ? B1 B2]; subst.
    destruct (Z.eqb_spec j 0) as [->|Nz]; cbn [orb].
    { rewrite isNumbers_neq; [reflexivity|]. intros [= E _]. lia. }
    destruct el; cbn [nums].
    + destruct ms as [|m [|z w]]; try discriminate. inversion B2 as [|? ? B3 _]; subst. inversion M0 as [|? ? M1 _]; subst. destruct (Z.eqb_spec m 0) as [->|Nz2].
      { rewrite isNumbers_neq; [reflexivity|]. intros [= _ E]. lia. }
      rewrite getKey_key by apply mk_depth. unfold keyN, S0, T, keyOf. rewrite !key_N_eq by lia.
      destruct (Z.eqb_spec (j - 1) (i - 1)); [destruct (Z.eqb_spec (m - 1) (n - 1))|]; cbn [andb].
      * replace j with i by lia. replace m with n by lia. unfold isNumbers. destruct (list_eq_dec Z.eq_dec [i; n] [i; n]); [reflexivity|contradiction].
      * rewrite isNumbers_neq; [reflexivity|]. intros [= E1 E2]. lia.
      * rewrite isNumbers_neq; [reflexivity|]. intros [= E1 E2]. lia.
    + destruct ms as [|z w]; [|discriminate]. rewrite getKey_key by apply mk_depth. unfold keyN, S0, T, keyOf. rewrite key_eqb_refl, key_N_eq by lia. rewrite andb_true_r.
      destruct (Z.eqb_spec (j - 1) (i - 1)).
      * replace j with i by lia. unfold isNumbers. destruct (list_eq_dec Z.eq_dec [i] [i]); [reflexivity|contradiction].
      * rewrite isNumbers_neq; [reflexivity|]. intros [= E1]. lia.
  - rewrite andb_false_r. destruct (parse_steps _ _ _ _ _ _ Hn Hc H) as [_ (ss & -> & Al)]. rewrite forallb_forall in A1.
    assert (Nm' : L <> str (append p base)) by (intros X; apply isName_true in X; congruence).
    assert (Sid : k_id S0 = sid) by reflexivity. assert (Tid : k_id T = t) by reflexivity.
    assert (Rows : forall c a t' s', In (c, a) tb -> (a = NTarget t' s' \/ exists v, a = NElem v t' s') -> L = str c -> t' <> t).
    { intros c a t' s' Ic Ha Ec ->. specialize (A1 _ Ic). cbn [fst snd] in A1. assert (M : modid_eqb t t = true) by (unfold modid_eqb; destruct (modid_eq_dec t t); [reflexivity|contradiction]).
      destruct Ha as [-> | [v ->]]; rewrite M in A1; cbn [negb orb] in A1; apply String.eqb_eq in A1; subst c; contradiction. }
    assert (Other : forall s' t' f l, mildKey f -> key_eqb s' S0 && key_eqb t' T = false -> depthOf (getKey S0 T (connectKey V zero s' t' f l)) = depthOf (getKey S0 T l)).
    { intros s' t' f l M E. rewrite getKey_key by exact M. now rewrite E. }
    assert (Step : forall st l, allowed L o r st -> depthOf (getKey S0 T (runStep o l st)) = depthOf (getKey S0 T l)).
    { intros st l A. destruct st as [s' t' f|t' sp].
      - cbn [runStep]. pose proof (allowed_mild _ _ _ _ _ _ A) as M.
        inversion A as [| | |s1 t1 f1 Ns M1|s1 t1 f1 Dl|c t1 s1 m Ic El F Nz|c v t1 s1 m m2 Ic El F Nz Sc Nz2|c t1 s1 m Ic El F Nz|c v t1 s1 m m2 Ic El F Nz Sc Nz2|s1 m Ks]; try subst s'; try subst t'; try subst f.
        + apply Other; [exact M|]. rewrite key_id_neq; [reflexivity|]. intros E. rewrite E, Sid in Ns. destruct W as [(_ & Ws & _)|(_ & Ws & _)]; rewrite Ws in Ns; discriminate Ns.
        + rewrite getKey_key by exact M. destruct (_ && _); [|reflexivity]. cbn [depthOf]. rewrite (proj2 Dl). destruct (getKey S0 T l); reflexivity.
        + apply Other; [exact M|]. destruct W as [(Wp & Ws & Wt)|(Wp & Ws & Wt)].
          * rewrite (key_id_neq (key0 V t1 r) T), andb_false_r; [reflexivity|]. rewrite Tid. cbn [k_id key0 keyN createNXYZ]. rewrite <- Wt in Ic. apply (Rows _ _ _ s1 Ic); [now left|exact El].
          * rewrite key_id_neq; [reflexivity|]. rewrite Sid, Ws. cbn [k_id keyN createNXYZ]. intros E; discriminate E.
        + apply Other; [exact M|]. destruct W as [(Wp & Ws & Wt)|(Wp & Ws & Wt)].
          * rewrite (key_id_neq (keyN V t1 (m2 - 1) r) T), andb_false_r; [reflexivity|]. rewrite Tid. cbn [k_id key0 keyN createNXYZ]. rewrite <- Wt in Ic. apply (Rows _ _ _ s1 Ic); [right; now exists v|exact El].
          * rewrite key_id_neq; [reflexivity|]. rewrite Sid, Ws. cbn [k_id keyN createNXYZ]. intros E; discriminate E.
        + apply Other; [exact M|]. destruct W as [(Wp & Ws & Wt)|(Wp & Ws & Wt)].
          * rewrite key_id_neq; [reflexivity|]. rewrite Sid, Ws. cbn [k_id keyN createNXYZ]. intros E; discriminate E.
          * rewrite (key_id_neq (key0 V t1 r) T), andb_false_r; [reflexivity|]. rewrite Tid. cbn [k_id key0 keyN createNXYZ]. rewrite <- Wt in Ic. apply (Rows _ _ _ s1 Ic); [now left|exact El].
        + apply Other; [exact M|]. destruct W as [(Wp & Ws & Wt)|(Wp & Ws & Wt)].
          * rewrite key_id_neq; [reflexivity|]. rewrite Sid, Ws. cbn [k_id keyN createNXYZ]. intros E; discriminate E.
          * rewrite (key_id_neq (keyN V t1 (m2 - 1) r) T), andb_false_r; [reflexivity|]. rewrite Tid. cbn [k_id key0 keyN createNXYZ]. rewrite <- Wt in Ic. apply (Rows _ _ _ s1 Ic); [right; now exists v|exact El].
        + apply Other; [exact M|]. rewrite (key_id_neq (keyN V MLFOFrequency m r) T), andb_false_r; [reflexivity|]. rewrite Tid. cbn [k_id keyN createNXYZ]. intros E. rewrite <- E in A6. discriminate A6.
      - cbn [runStep]. destruct (o_cat o); [reflexivity|..]; (destruct (back o) as [c'|]; [|reflexivity]; destruct (512 <=? c'); [reflexivity|]; destruct (isKey t'); [|reflexivity]; now rewrite getKey_cc). }
    unfold runs. revert Al. generalize (r_conns V r) as l. induction ss as [|st ss IH]; intros l Al; [reflexivity|]. apply Forall_cons_iff in Al. destruct Al as [B1 B2]. cbn [fold_left]. rewrite IH by exact B2. now apply Step.
Qed.
(** C93: the depth of a numbered LFO or envelope on a parameter is the one its last opcode says, and 0 if there is none. *)
Theorem C93_depths p sid base t spec el i n id mem l r' : (p = "lfo&_" /\ sid = MLFO \/ p = "eg&_" /\ sid = MEnvelope) ->
  In (base, t, spec, el) indirect -> 1 <= i <= 256 -> 1 <= n <= 256 -> Forall nice l -> Forall bounded l -> parseOpcodes l (freshRegion V id mem) = Some r' ->
  depthOf (getKey (createNXYZ sid id (i - 1) 0 0 0) (createNXYZ t id (if el then n - 1 else 0) 0 0 0) (r_conns V r')) =
  fold_left (saysDepth p base spec i (nums el n)) l zero.
Proof.
  intros W0 D Hi Hm Hl Hb E. assert (W : exists tb, which p sid tb) by (destruct W0 as [[-> ->]|[-> ->]]; eexists; [left|right]; repeat split). destruct W as [tb W].
  assert (G : forall (r : region), r_id V r = id -> parseOpcodes l r = Some r' ->
    depthOf (getKey (createNXYZ sid id (i - 1) 0 0 0) (keyOf id t el n) (r_conns V r')) =
    fold_left (saysDepth p base spec i (nums el n)) l (depthOf (getKey (createNXYZ sid id (i - 1) 0 0 0) (keyOf id t el n) (r_conns V r)))).
  { clear E. revert Hb. induction Hl as [|o l (L & N & Hn & Hc) _ IH]; intros Hb r Er E; cbn [RegionModel.parseOpcodes] in E.
    - injection E as <-. reflexivity.
    - inversion Hb as [|? ? B1 B2]; subst. destruct (parseOpcode o r) as [[x r1]|] eqn:Q; [|discriminate].
      pose proof (parse_id _ _ _ _ _ _ Hn Hc Q) as Ei. cbn [fold_left]. rewrite (IH B2 r1 Ei E).
      now rewrite (depth_step _ _ _ _ _ _ _ _ _ _ _ _ _ _ _ W D Hi Hm Hn Hc B1 Q). }
  exact (G (freshRegion V id mem) eq_refl E).
Qed.
End Conn.

(** * Concrete regions *)
(** the numbers of filters are cut to eight bits in the targets: the controller of the filter 257 modulates the filter 1 *)
Theorem C93_filter_257_refuted : exists r, trivialParse (ops [("cutoff257_oncc1", "1200")]) = Some r /\ r_filters nat r = 257%nat /\
  getConnectionFromCC nat 1 (createNXYZ MFilCutoff 7 0 0 0 0) (r_conns nat r) <> None.
Proof. shows. split; [reflexivity|]. vm_compute. discriminate. Qed.
(** Two LFOs on the pitch, each with its own controller for the depth, are both modulated by both controllers: the key of their depth is the same. *)
Theorem C93_shared_depth_refuted : exists r a b, trivialParse (ops [("lfo1_pitch_oncc1", "100"); ("lfo2_pitch_oncc2", "30")]) = Some r /\
  getConnection nat (createNXYZ MLFO 7 0 0 0 0) (createNXYZ MPitch 7 0 0 0 0) (r_conns nat r) = Some a /\
  getConnection nat (createNXYZ MLFO 7 1 0 0 0) (createNXYZ MPitch 7 0 0 0 0) (r_conns nat r) = Some b /\
  c_depthMod nat a = c_depthMod nat b /\
  getConnectionFromCC nat 1 (c_depthMod nat a) (r_conns nat r) <> None /\ getConnectionFromCC nat 2 (c_depthMod nat a) (r_conns nat r) <> None.
Proof.
  do 3 eexists. split; [vm_compute; reflexivity|]. split; [vm_compute; reflexivity|]. split; [vm_compute; reflexivity|]. split; [reflexivity|]. split; vm_compute; discriminate.
Qed.
Definition countParse (l : list opcode) : option (region Z) :=
  parseOpcodes Z (fun _ _ x => x) (fun s t => Z.of_nat (String.length s) + Z.of_nat (List.length t)) (fun s t => - Z.of_nat (List.length t)) 0 (fun _ => false) (fun _ => O) l (freshRegion Z 7 (fun _ => 0)).
Example C93_ex : let l := ops [("cutoff2_oncc14", "1200"); ("lfo3_cutoff2", "100"); ("cutoff2_curvecc14", "3"); ("cutoff1_oncc14", "5"); ("cutoff2_oncc14", "90"); ("cutoff2_stepcc14", "7777"); ("lfo3_cutoff1", "2"); ("eg3_cutoff2", "12345")] in
  exists r, countParse l = Some r /\
  option_map (view Z 0) (getConnectionFromCC Z 14 (createNXYZ MFilCutoff 7 1 0 0 0) (r_conns Z r)) = Some (Modulation Z 17 8 0 (-4)) /\
  depthOf Z 0 (getConnection Z (createNXYZ MLFO 7 2 0 0 0) (createNXYZ MFilCutoff 7 1 0 0 0) (r_conns Z r)) = 18 /\
  depthOf Z 0 (getConnection Z (createNXYZ MEnvelope 7 2 0 0 0) (createNXYZ MFilCutoff 7 1 0 0 0) (r_conns Z r)) = 20 /\ Forall bounded l.
Proof. cbv zeta. eexists. split; [vm_compute; reflexivity|]. split; [reflexivity|]. split; [reflexivity|]. split; [reflexivity|]. repeat constructor; vm_compute; discriminate. Qed.
