(** What a region refers to after parsing: controllers, filters, equalizers, LFOs and envelopes (C92). *)
From Coq Require Import ZArith List Bool String Lia.
From Verif Require Import ParserModel OpcodeModel OpcodeNumbers OpcodeNames ModModel ModRegistry RegionModel RegionSafe.
Import ListNotations.
Local Open Scope string_scope.
Local Open Scope list_scope.
Local Open Scope Z_scope.

(** * Specification *)
(** What there is in a region: the number of filters, equalizers, LFOs and envelopes, and the envelopes and LFOs of the first version *)
Record parts := Parts { b_filters : Z; b_eqs : Z; b_lfos : Z; b_egs : Z; b_v1 : list string }.
(** A source of modulation that is not a controller is aftertouch or an existing LFO or envelope. *)
Definition source_exists (b : parts) (k : key) : Prop :=
  match k_id k with
  | MChannelAftertouch | MPolyAftertouch => True
  | MAmpLFO => In "amplfo_" (b_v1 b)
  | MPitchLFO => In "pitchlfo_" (b_v1 b)
  | MFilLFO => In "fillfo_" (b_v1 b)
  | MPitchEG => In "pitcheg_" (b_v1 b)
  | MFilEG => In "fileg_" (b_v1 b)
  | MLFO => 0 <= p_N k < b_lfos b
  | MEnvelope => 0 <= p_N k < b_egs b
  | _ => False
  end.
(** A target is a parameter of the region, of an existing filter, equalizer or LFO.  The first filter need not be there for the cutoff of fileg_ and fillfo_, and
    the frequency may be of the LFO after the last. *)
Definition target_exists (b : parts) (k : key) : Prop :=
  match k_id k with
  | MVolume | MAmplitude | MPan | MWidth | MPosition | MPitch | MOscillatorDetune | MOscillatorModDepth => True
  | MFilCutoff => p_N k = 0 \/ 0 <= p_N k < b_filters b
  | MFilResonance | MFilGain => 0 <= p_N k < b_filters b
  | MEqGain | MEqFrequency | MEqBandwidth => 0 <= p_N k < b_eqs b
  | MLFOFrequency => 0 <= p_N k <= b_lfos b
  | MLFOBeats | MLFOPhase => 0 <= p_N k < b_lfos b
  | MAmpLFOFrequency => In "amplfo_" (b_v1 b)
  | MPitchLFOFrequency => In "pitchlfo_" (b_v1 b)
  | MFilLFOFrequency => In "fillfo_" (b_v1 b)
  | _ => False
  end.
(** the maps whose test lets the controller 512 through *)
Definition lax : list string := ["delayCC"; "offsetCC"; "endCC"; "loopStartCC"; "loopEndCC"; "lfos.delayCC"; "lfos.fadeCC"].

Section Well.
Variable V : Type.
Variable apply : string -> text -> V -> V.
Variable read : string -> text -> V.
Variable readStep : string -> text -> V.
Variable zero : V.
Variable readAmpeg : text -> bool.
Variable readSteps : text -> nat.
Notation region := (region V).
Notation connection := (connection V).
Notation parseOpcode := (parseOpcode V apply read readStep zero readAmpeg readSteps).
Notation parseOpcodes := (parseOpcodes V apply read readStep zero readAmpeg readSteps).

Definition partsOf (r : region) : parts :=
  Parts (Z.of_nat (r_filters V r)) (Z.of_nat (r_eqs V r)) (Z.of_nat (List.length (r_lfos V r))) (Z.of_nat (List.length (r_egs V r))) (r_v1 V r).
(** A connection has an existing source, and as target an existing target or the depth of a connection. *)
Definition conn_ok (b : parts) (l : list connection) (c : connection) : Prop :=
  match c_source V c with FromCC _ cc _ _ _ => 0 <= cc < 512 | FromKey _ k => source_exists b k end /\
  (target_exists b (c_target V c) \/ exists c', In c' l /\ c_depthMod V c' = c_target V c).
Definition well (r : region) : Prop :=
  Forall (conn_ok (partsOf r) (r_conns V r)) (r_conns V r) /\
  Forall (fun e => 0 <= snd e < 512 \/ In (fst (fst e)) lax /\ snd e = 512) (r_maps V r).

(** * Connections *)
Definition kind (s : source V) : Z + key := match s with FromCC _ cc _ _ _ => inl cc | FromKey _ k => inr k end.
Definition dm_ok (c : connection) : Prop :=
  c_depthMod V c = noKey \/ exists k, c_source V c = FromKey V k /\ c_depthMod V c = getSourceDepthKey k (c_target V c).
Definition all_ok (b : parts) (l : list connection) : Prop := Forall (conn_ok b l) l /\ Forall dm_ok l.
(** what is done with a connection *)
Definition mild (f : connection -> connection) : Prop := forall c,
  kind (c_source V (f c)) = kind (c_source V c) /\ c_target V (f c) = c_target V c /\
  (c_depthMod V (f c) = c_depthMod V c \/ exists k, c_source V c = FromKey V k /\ c_depthMod V (f c) = getSourceDepthKey k (c_target V c)).
Definition parts_le (a b : parts) : Prop :=
  b_filters a <= b_filters b /\ b_eqs a <= b_eqs b /\ b_lfos a <= b_lfos b /\ b_egs a <= b_egs b /\ incl (b_v1 a) (b_v1 b).
Lemma parts_le_refl a : parts_le a a.
Proof. repeat split; try lia. apply incl_refl. Qed.
Lemma parts_le_trans a b c : parts_le a b -> parts_le b c -> parts_le a c.
Proof. intros (?&?&?&?&I1) (?&?&?&?&I2). repeat split; try lia. exact (incl_tran I1 I2). Qed.
Lemma source_mono a b k : parts_le a b -> source_exists a k -> source_exists b k.
Proof. intros (?&?&?&?&I1). unfold source_exists. destruct (k_id k); auto; lia. Qed.
Lemma target_mono a b k : parts_le a b -> target_exists a k -> target_exists b k.
Proof. intros (?&?&?&?&I1). unfold target_exists. destruct (k_id k); auto; lia. Qed.
Lemma all_mono a b l : parts_le a b -> all_ok a l -> all_ok b l.
Proof.
  intros P [A D]. split; [|exact D]. eapply Forall_impl; [|exact A]. intros c [S1 T]. split.
  - destruct (c_source V c); [exact S1|now apply source_mono with a].
  - destruct T as [T|T]; [left; now apply target_mono with a|now right].
Qed.

Fixpoint updFirst (p : connection -> bool) (f : connection -> connection) (new : connection) (l : list connection) : list connection :=
  match l with [] => [f new] | c :: l => if p c then f c :: l else c :: updFirst p f new l end.
Lemma connectKey_upd s t f l : connectKey V zero s t f l =
  updFirst (fun c => match c_source V c with FromKey _ k => key_eqb k s | FromCC _ _ _ _ _ => false end && key_eqb (c_target V c) t) f
    (Connect V (FromKey V s) t zero noKey zero) l.
Proof. induction l as [|c l IH]; [reflexivity|]. cbn [connectKey updFirst]. now rewrite IH. Qed.
Lemma connectCC_upd cc t f l : connectCC V zero cc t f l =
  updFirst (fun c => match c_source V c with FromCC _ n _ _ _ => n =? cc | FromKey _ _ => false end && key_eqb (c_target V c) t) f
    (Connect V (FromCC V cc zero zero zero) t zero noKey zero) l.
Proof. induction l as [|c l IH]; [reflexivity|]. cbn [connectCC updFirst]. now rewrite IH. Qed.
Lemma upd_in p f new l c : In c (updFirst p f new l) -> In c l \/ (exists c0, In c0 l /\ p c0 = true /\ c = f c0) \/ c = f new.
Proof.
  induction l as [|x l IH]; cbn [updFirst].
  - intros [<-|[]]. now right; right.
  - destruct (p x) eqn:E.
    + intros [<-|X]; [right; left; exists x; repeat split; [now left|exact E]|left; now right].
    + intros [<-|X]; [left; now left|]. destruct (IH X) as [Y|[(c0 & Y & Z0)|Y]]; [left; now right|right; left; exists c0; split; [now right|exact Z0]|now right; right].
Qed.
Lemma upd_keep p f new l c : In c l -> In c (updFirst p f new l) \/ In (f c) (updFirst p f new l).
Proof.
  induction l as [|x l IH]; [intros []|]. cbn [updFirst]. destruct (p x).
  - intros [<-|X]; [right; now left|left; now right].
  - intros [<-|X]; [left; now left|]. destruct (IH X); [left; now right|right; now right].
Qed.
Lemma isKey_noKey k : isKey k = true -> k <> noKey.
Proof. intros H ->. discriminate. Qed.
(** a depth key that is there stays *)
Lemma depth_keep p f new l k : mild f -> Forall dm_ok l -> k <> noKey ->
  (exists c, In c l /\ c_depthMod V c = k) -> exists c, In c (updFirst p f new l) /\ c_depthMod V c = k.
Proof.
  intros M D K (c & X & E). destruct (upd_keep p f new l c X) as [Y|Y]; [now exists c|]. exists (f c). split; [exact Y|].
  destruct (M c) as (_ & _ & [Q|(k' & S1 & Q)]); [congruence|]. rewrite Forall_forall in D. destruct (D _ X) as [N|(k2 & S2 & N)]; [congruence|].
  rewrite Q, <- E, N. congruence.
Qed.
Lemma target_not_noKey b l c : Forall dm_ok l -> conn_ok b l c -> True. Proof. trivial. Qed.
Lemma upd_ok b p f new l : mild f -> all_ok b l -> Forall (fun c => c_target V c <> noKey) l ->
  (match c_source V new with FromCC _ cc _ _ _ => 0 <= cc < 512 | FromKey _ k => source_exists b k end) -> c_depthMod V new = noKey ->
  c_target V new <> noKey -> (target_exists b (c_target V new) \/ exists c', In c' l /\ c_depthMod V c' = c_target V new) ->
  all_ok b (updFirst p f new l) /\ Forall (fun c => c_target V c <> noKey) (updFirst p f new l).
Proof.
  intros M [A D] K S1 N1 K1 T1.
  assert (G : forall c c0, (c0 = c \/ c0 = f c) -> dm_ok c -> match c_source V c with FromCC _ cc _ _ _ => 0 <= cc < 512 | FromKey _ k => source_exists b k end ->
    (target_exists b (c_target V c) \/ exists c', In c' l /\ c_depthMod V c' = c_target V c) -> c_target V c <> noKey ->
    conn_ok b (updFirst p f new l) c0 /\ dm_ok c0 /\ c_target V c0 <> noKey).
  { intros c c0 E Dc Sc Tc Kc.
    assert (Tc' : target_exists b (c_target V c) \/ exists c', In c' (updFirst p f new l) /\ c_depthMod V c' = c_target V c).
    { destruct Tc as [Tc|Tc]; [now left|right]. now apply depth_keep. }
    destruct E as [->| ->]; [now repeat split|].
    destruct (M c) as (Mk & Mt & Md). unfold conn_ok. rewrite Mt. split; [split; [|exact Tc']|split; [|exact Kc]].
    - destruct (c_source V (f c)), (c_source V c); cbn in Mk; try discriminate; injection Mk as <-; exact Sc.
    - unfold dm_ok. rewrite Mt. destruct Md as [Md|(k & Sk & Md)]; rewrite Md.
      + destruct Dc as [Dc|(k & Sk & Dc)]; [now left|right]. exists k. split; [|exact Dc].
        rewrite Sk in Mk. destruct (c_source V (f c)); cbn in Mk; try discriminate. congruence.
      + right. exists k. split; [|reflexivity]. rewrite Sk in Mk. destruct (c_source V (f c)); cbn in Mk; try discriminate. congruence. }
  assert (H : forall c, In c (updFirst p f new l) -> conn_ok b (updFirst p f new l) c /\ dm_ok c /\ c_target V c <> noKey).
  { rewrite Forall_forall in A, D, K. intros c X. destruct (upd_in _ _ _ _ _ X) as [Y|[(c0 & Y & _ & E)|E]].
    - destruct (A _ Y) as [Sc Tc]. apply (G c c); auto.
    - destruct (A _ Y) as [Sc Tc]. apply (G c0 c); auto.
    - apply (G new c); auto. now left. }
  split; [split|]; apply Forall_forall; intros c X; apply H; exact X.
Qed.

(** the whole invariant, for the parts b *)
Definition inv (b : parts) (l : list connection) : Prop := all_ok b l /\ Forall (fun c => c_target V c <> noKey) l.
Lemma inv_mono a b l : parts_le a b -> inv a l -> inv b l.
Proof. intros P [A K]. split; [now apply all_mono with a|exact K]. Qed.
Lemma target_noKey b k : target_exists b k -> k <> noKey.
Proof. intros H ->. exact H. Qed.
Lemma isKey_not k : isKey k = true -> k <> noKey.
Proof. intros H ->. discriminate. Qed.
Lemma inv_connectKey b s t f l : mild f -> inv b l -> source_exists b s -> t <> noKey ->
  (target_exists b t \/ exists c', In c' l /\ c_depthMod V c' = t) -> inv b (connectKey V zero s t f l).
Proof. intros M [A K] Ss Kt T. rewrite connectKey_upd. now apply upd_ok. Qed.
Lemma inv_connectCC b cc t f l : mild f -> inv b l -> 0 <= cc < 512 -> t <> noKey ->
  (target_exists b t \/ exists c', In c' l /\ c_depthMod V c' = t) -> inv b (connectCC V zero cc t f l).
Proof. intros M [A K] Ss Kt T. rewrite connectCC_upd. now apply upd_ok. Qed.
Lemma mild_id : mild (fun c => c).
Proof. intros c. repeat split. now left. Qed.
Lemma mild_depth d : mild (setDepth V d).
Proof. intros c. repeat split. now left. Qed.
Lemma mild_vel d : mild (setVel V d).
Proof. intros c. repeat split. now left. Qed.
Lemma mild_writeCC spec o : mild (writeCC V read readStep spec o).
Proof.
  intros c. unfold writeCC. destruct (c_source V c) eqn:E; [|rewrite E; split; [reflexivity|split; [reflexivity|now left]]].
  destruct (o_cat o); cbn; rewrite ?E; (split; [reflexivity|split; [reflexivity|now left]]).
Qed.
(** after the depth of a connection has been set, it is there *)
Lemma connectKey_depth s t d l : exists c, In c (connectKey V zero s t (setDepthMod V d) l) /\ c_depthMod V c = d.
Proof.
  induction l as [|c l IH]; cbn [connectKey].
  - eexists. split; [now left|reflexivity].
  - match goal with |- context[if ?x then _ else _] => destruct x end.
    + eexists. split; [now left|reflexivity].
    + destruct IH as (c' & X & E). exists c'. split; [now right|exact E].
Qed.
Lemma key_eqb_true a b : key_eqb a b = true -> a = b.
Proof. apply key_eqb_iff. Qed.
(** setting the depth to the key of source and target *)
Lemma inv_depth b s t l : inv b l -> source_exists b s -> target_exists b t ->
  inv b (connectKey V zero s t (setDepthMod V (getSourceDepthKey s t)) l).
Proof.
  intros I0 Ss Tt. rewrite connectKey_upd.
  set (p := fun c : connection => _). set (d := getSourceDepthKey s t).
  set (g := fun c : connection => if p c then setDepthMod V d c else match c_source V c with FromKey _ k => setDepthMod V (getSourceDepthKey k (c_target V c)) c | _ => c end).
  assert (M : mild g).
  { intros c. unfold g, p. destruct (c_source V c) as [cc cu sm st|k] eqn:E.
    - cbn [andb]. rewrite E. repeat split. now left.
    - destruct (key_eqb k s && key_eqb (c_target V c) t) eqn:K1; cbn [setDepthMod c_source c_target c_depthMod].
      + apply andb_true_iff in K1. destruct K1 as [K1 K2]. apply key_eqb_true in K1, K2. rewrite E. split; [reflexivity|split; [reflexivity|right]].
        exists k. split; [reflexivity|]. unfold d. congruence.
      + rewrite E. split; [reflexivity|split; [reflexivity|right]]. exists k. split; reflexivity. }
  assert (Q : forall l0 new, p new = true -> updFirst p (setDepthMod V d) new l0 = updFirst p g new l0).
  { intros l0 new Pn. induction l0 as [|c l0 IH]; cbn [updFirst].
    - unfold g. now rewrite Pn.
    - destruct (p c) eqn:E; [unfold g; now rewrite E|now rewrite IH]. }
  rewrite Q.
  - destruct I0 as [A K]. apply upd_ok; auto. now apply target_noKey with b.
  - unfold p. cbn. now rewrite !key_eqb_refl.
Qed.

(** * The parts grow *)
Lemma p_N_create id rg n : 0 <= n -> 0 <= p_N (createNXYZ id rg n 0 0 0) <= n.
Proof. intros H. unfold p_N, createNXYZ. cbn. split; [apply Z.mod_pos_bound; lia|apply Z.mod_le; lia]. Qed.
Lemma k_id_create id rg n : k_id (createNXYZ id rg n 0 0 0) = id.
Proof. reflexivity. Qed.
Definition grown (r r' : region) : Prop := r_id V r' = r_id V r /\ parts_le (partsOf r) (partsOf r').
Lemma extend_grown v n (r r' : region) : extend V v n r = Some r' -> grown r r' /\ r_conns V r' = r_conns V r /\ r_maps V r' = r_maps V r.
Proof.
  unfold extend, extendSize, grown, partsOf, parts_le. destruct v; destruct (n =? 0); try discriminate; intros [= <-]; cbn; repeat split; try lia; apply incl_refl.
Qed.
Lemma setAll_fields ws o (r : region) : let r' := setAll V apply ws o r in
  r_id V r' = r_id V r /\ partsOf r' = partsOf r /\ r_conns V r' = r_conns V r /\ r_maps V r' = r_maps V r.
Proof.
  cbv zeta. unfold setAll. revert r. induction ws as [|w ws IH]; intros r; [now repeat split|]. cbn [fold_left]. destruct (IH (setMem V apply (fst w, []) (snd w) o r)) as (A & B & C & D).
  rewrite A, B, C, D. now repeat split.
Qed.
Definition maps_ok (r : region) : Prop := Forall (fun e => 0 <= snd e < 512 \/ In (fst (fst e)) lax /\ snd e = 512) (r_maps V r).
Definition good (r : region) : Prop := inv (partsOf r) (r_conns V r) /\ maps_ok r.

(** the target of a case of the first table *)
Definition goodAct (a : act) : bool :=
  match a with
  | Generic t _ => match t with MVolume | MAmplitude | MPan | MWidth | MPosition | MPitch | MOscillatorDetune | MOscillatorModDepth => true | _ => false end
  | ElementGeneric Filters t _ | ElementAft Filters _ _ t _ => match t with MFilCutoff | MFilResonance | MFilGain => true | _ => false end
  | ElementGeneric EQs t _ | ElementAft EQs _ _ t _ => match t with MEqGain | MEqFrequency | MEqBandwidth => true | _ => false end
  | MapCC true _ m _ _ => if in_dec string_dec m lax then true else false
  | _ => true
  end &&
  match a with ElementAft _ s _ _ _ => match s with MChannelAftertouch | MPolyAftertouch => true | _ => false end | _ => true end.
Lemma goodAct_all : forallb (fun c => goodAct (snd c)) regionTable = true.
Proof. vm_compute. reflexivity. Qed.
Lemma case_in {A} (t : list (string * A)) o a : caseOf t o = Some a -> exists c, In (c, a) t.
Proof. unfold caseOf. destruct (find _ t) as [[c a']|] eqn:F; [|discriminate]. cbn. intros [= <-]. apply find_some in F. now exists c. Qed.

Lemma last_in (y : Z) l : In (last (y :: l) 0) (y :: l).
Proof. rewrite (app_removelast_last (l := y :: l) 0) at 2 by discriminate. apply in_or_app. right. now left. Qed.
Lemma back_pos o n : Forall (fun x => 0 <= x) (o_params o) -> back o = Some n -> 0 <= n.
Proof.
  unfold back. intros P F. rewrite Forall_forall in P. destruct (o_params o) as [|y l] eqn:E; [discriminate|]. injection F as <-. apply P.
  apply (last_in y l).
Qed.
Ltac same := split; [reflexivity|split; [reflexivity|split; [reflexivity|assumption]]].
Lemma generic_good spec t o (r r' : region) b : generic V read readStep zero spec t o r = Some r' ->
  Forall (fun x => 0 <= x) (o_params o) -> inv b (r_conns V r) ->
  (t <> noKey -> target_exists b t \/ exists c', In c' (r_conns V r) /\ c_depthMod V c' = t) ->
  r_id V r' = r_id V r /\ partsOf r' = partsOf r /\ r_maps V r' = r_maps V r /\ inv b (r_conns V r').
Proof.
  intros G P I0 T. unfold generic in G.
  assert (Q : forall x, back o = Some x -> 0 <= x) by (intros x; now apply back_pos).
  destruct (o_cat o); [injection G as <-; same|..];
    (destruct (back o) as [cc|]; [|discriminate]; destruct (Z.leb_spec 512 cc) as [C|C]; [injection G as <-; same|];
     destruct (isKey t) eqn:Kt; injection G as <-; [|same];
     split; [reflexivity|split; [reflexivity|split; [reflexivity|]]]; cbn [r_conns withConns];
     apply inv_connectCC; [apply mild_writeCC|exact I0|split; [now apply Q|exact C]|now apply isKey_not|apply T; now apply isKey_not]).
Qed.

Lemma front_pos o n : Forall (fun x => 0 <= x) (o_params o) -> front o = Some n -> 0 <= n.
Proof. unfold front. intros P F. rewrite Forall_forall in P. apply nth_error_In in F. now apply P. Qed.
Lemma second_pos o n : Forall (fun x => 0 <= x) (o_params o) -> second o = Some n -> 0 <= n.
Proof. unfold second. intros P F. rewrite Forall_forall in P. apply nth_error_In in F. now apply P. Qed.
Lemma elem_target v t n (r r' : region) : 0 <= n -> extend V v n r = Some r' ->
  match v with Filters => match t with MFilCutoff | MFilResonance | MFilGain => true | _ => false end
             | EQs => match t with MEqGain | MEqFrequency | MEqBandwidth => true | _ => false end end = true ->
  target_exists (partsOf r') (keyN V t (n - 1) r).
Proof.
  intros P X G. apply extend_size in X; [|exact P]. unfold target_exists, keyN. rewrite k_id_create.
  pose proof (p_N_create t (r_id V r) (n - 1)). cbn [partsOf b_filters b_eqs].
  destruct v; cbn [vecSize] in X; destruct t; try discriminate G; try right; lia.
Qed.

Lemma grown_refl (r : region) : grown r r.
Proof. split; [reflexivity|apply parts_le_refl]. Qed.
Lemma grown_same (r r' : region) : r_id V r' = r_id V r -> partsOf r' = partsOf r -> grown r r'.
Proof. intros A B. split; [exact A|]. rewrite B. apply parts_le_refl. Qed.
Lemma grown_trans (a b c : region) : grown a b -> grown b c -> grown a c.
Proof. intros [A B] [C D]. split; [congruence|]. now apply parts_le_trans with (partsOf b). Qed.
Lemma good_grown (r r' : region) : grown r r' -> r_conns V r' = r_conns V r -> r_maps V r' = r_maps V r -> good r -> good r'.
Proof. intros [_ G] C M [A B]. unfold good, maps_ok. rewrite C, M. split; [now apply inv_mono with (partsOf r)|exact B]. Qed.

Lemma entry_good m i sub cc f o (r : region) : 0 <= cc < 512 \/ In m lax /\ cc = 512 -> good r ->
  good (setEntry V apply (m, i) sub cc f o r) /\ grown r (setEntry V apply (m, i) sub cc f o r).
Proof.
  intros H [A B]. split; [|now apply grown_same]. split; [exact A|]. unfold maps_ok, setEntry. cbn [r_maps setMem]. now constructor.
Qed.
Lemma connect_good s t f (r : region) b : inv b (connectKey V zero s t f (r_conns V r)) -> b = partsOf r -> maps_ok r ->
  good (connect V zero s t f r) /\ grown r (connect V zero s t f r).
Proof. intros A -> B. split; [|now apply grown_same]. split; [exact A|exact B]. Qed.
Lemma generic_good2 spec t o (r r' : region) : generic V read readStep zero spec t o r = Some r' ->
  Forall (fun x => 0 <= x) (o_params o) -> good r ->
  (t <> noKey -> target_exists (partsOf r) t \/ exists c', In c' (r_conns V r) /\ c_depthMod V c' = t) -> good r' /\ grown r r'.
Proof.
  intros G P [A B] T. destruct (generic_good _ _ _ _ _ _ G P A T) as (C & D & E & F). split; [|now apply grown_same].
  split; [now rewrite D|]. unfold maps_ok. now rewrite E.
Qed.
Lemma runAct_good c a o (r : region) x r' : In (c, a) regionTable -> Forall (fun x => 0 <= x) (o_params o) -> good r ->
  runAct V apply read readStep zero a o r = Some (x, r') -> good r' /\ grown r r'.
Proof.
  intros I0 P G0 H. pose proof goodAct_all as GA. rewrite forallb_forall in GA. specialize (GA _ I0). cbn [snd] in GA. unfold goodAct in GA.
  apply andb_true_iff in GA. destruct GA as [GA GS].
  assert (Rf : good r /\ grown r r) by (split; [exact G0|apply grown_refl]).
  destruct a as [ws|inc ws m sub f|spec|spec|v m f|v m sub f|t spec|v t spec|v s nb t spec]; cbn [runAct] in H.
  - injection H as _ <-. destruct (setAll_fields ws o r) as (A & B & C & D). split; [|now apply grown_same].
    apply good_grown with r; [now apply grown_same|assumption..].
  - destruct (back o) as [cc|] eqn:B; [|discriminate]. pose proof (back_pos _ _ P B) as Bp.
    destruct (if inc then 512 <? cc else 512 <=? cc) eqn:T; injection H as _ <-; [exact Rf|].
    destruct (setAll_fields ws o r) as (A & B' & C & D).
    assert (G1 : good (setAll V apply ws o r)) by (apply good_grown with r; [now apply grown_same|assumption..]).
    destruct (entry_good m [] sub cc f o _ ltac:(destruct inc; [|apply Z.leb_gt in T; left; lia]; apply Z.ltb_ge in T;
      destruct (in_dec string_dec m lax); [|discriminate]; destruct (Z.eq_dec cc 512); [now right|left; lia]) G1) as [G2 G3].
    split; [exact G2|]. apply grown_trans with (setAll V apply ws o r); [now apply grown_same|exact G3].
  - destruct (back o) as [n|]; [|discriminate]. destruct (127 <? n); injection H as _ <-; [exact Rf|].
    split; [|now apply grown_same]. apply good_grown with r; [now apply grown_same|reflexivity|reflexivity|exact G0].
  - destruct (back o) as [n|]; [|discriminate]. destruct ((n =? 0) || (256 <? n)); [injection H as _ <-; exact Rf|].
    cbv zeta in H. destruct (n <? _); [|discriminate]. injection H as _ <-.
    split; [|now apply grown_same]. apply good_grown with r; [now apply grown_same|reflexivity|reflexivity|exact G0].
  - destruct (front o) as [n|]; [|discriminate]. destruct (extend V v n r) as [r1|] eqn:X; [|injection H as _ <-; exact Rf].
    destruct (extend_grown _ _ _ _ X) as (Gg & Cc & Cm). destruct (n - 1 <? _); [|discriminate]. injection H as _ <-.
    split; [|apply grown_trans with r1; [exact Gg|now apply grown_same]].
    apply good_grown with r1; [now apply grown_same|reflexivity|reflexivity|now apply good_grown with r].
  - destruct (front o) as [n|]; [|discriminate]. destruct (back o) as [cc|] eqn:B; [|discriminate]. pose proof (back_pos _ _ P B).
    destruct (extend V v n r) as [r1|] eqn:X; [|injection H as _ <-; exact Rf].
    destruct (extend_grown _ _ _ _ X) as (Gg & Cc & Cm). pose proof (good_grown _ _ Gg Cc Cm G0) as G1.
    destruct (Z.leb_spec 512 cc); [injection H as _ <-; now split|].
    destruct (n - 1 <? _); [|discriminate]. injection H as _ <-.
    destruct (entry_good (append (vecName v) m) [n - 1] sub cc f o r1 ltac:(left; lia) G1) as [G2 G3].
    split; [exact G2|now apply grown_trans with r1].
  - destruct (generic V read readStep zero spec (key0 V t r) o r) as [r1|] eqn:G; [|discriminate]. injection H as _ <-.
    apply (generic_good2 _ _ _ _ _ G P G0). intros _. left. unfold target_exists, key0. rewrite k_id_create. destruct t; try discriminate GA; exact Logic.I.
  - destruct (front o) as [n|] eqn:F; [|discriminate]. pose proof (front_pos _ _ P F) as Fp. destruct (extend V v n r) as [r1|] eqn:X; [|injection H as _ <-; exact Rf].
    destruct (extend_grown _ _ _ _ X) as (Gg & Cc & Cm). pose proof (good_grown _ _ Gg Cc Cm G0) as G1.
    destruct (generic V read readStep zero spec (keyN V t (n - 1) r) o r1) as [r2|] eqn:G; [|discriminate]. injection H as _ <-.
    destruct (generic_good2 _ _ _ _ _ G P G1) as [G2 G3].
    + intros _. left. apply elem_target with v; [exact Fp|exact X|exact GA].
    + split; [exact G2|now apply grown_trans with r1].
  - destruct (front o) as [n|] eqn:F; [|discriminate]. pose proof (front_pos _ _ P F) as Fp. destruct (extend V v n r) as [r1|] eqn:X; [|injection H as _ <-; exact Rf].
    destruct (extend_grown _ _ _ _ X) as (Gg & Cc & Cm). pose proof (good_grown _ _ Gg Cc Cm G0) as G1. injection H as _ <-.
    assert (T : target_exists (partsOf r1) (keyN V t (n - 1) r)) by (apply elem_target with v; [exact Fp|exact X|exact GA]).
    destruct (connect_good (aftKey V s nb r) (keyN V t (n - 1) r) (setDepth V (read spec (o_value o))) r1 (partsOf r1)) as [G2 G3]; [|reflexivity|apply G1|].
    + apply inv_connectKey; [apply mild_depth|apply G1| |now apply target_noKey with (partsOf r1)|now left].
      unfold source_exists, aftKey. rewrite k_id_create. destruct s; try discriminate GS; exact Logic.I.
    + split; [exact G2|now apply grown_trans with r1].
Qed.

(** * The first version *)
Lemma name_prefix p L N o : named L N o -> no_digits (str p) -> starts_with (str p) (o_name o) = true -> starts_with (str p) L = true.
Proof.
  intros H D W. destruct (named_facts _ _ _ H) as (_ & _ & Lo & _). unfold getLetterOnlyName in Lo. apply starts_with_split in W. rewrite W in Lo.
  destruct (str p) as [|c q] eqn:E; [reflexivity|]. rewrite letter_only_nodigits in Lo by (try assumption; discriminate). rewrite <- Lo.
  apply starts_with_app.
Qed.
Definition goodB (b : parts) (r : region) : Prop := inv b (r_conns V r) /\ maps_ok r.
Definition stays (r r' : region) : Prop := r_id V r' = r_id V r /\ partsOf r' = partsOf r.
Lemma stays_connect s t f (r : region) : stays r (connect V zero s t f r).
Proof. split; reflexivity. Qed.
Lemma goodB_generic b spec t o (r r' : region) : generic V read readStep zero spec t o r = Some r' ->
  Forall (fun x => 0 <= x) (o_params o) -> goodB b r ->
  (t <> noKey -> target_exists b t \/ exists c', In c' (r_conns V r) /\ c_depthMod V c' = t) -> goodB b r' /\ stays r r'.
Proof.
  intros G P [A B] T. destruct (generic_good _ _ _ _ _ _ G P A T) as (C & D & E & F). split; [|now split].
  split; [exact F|]. unfold maps_ok. now rewrite E.
Qed.
Lemma goodB_connect b s t f (r : region) : mild f -> goodB b r -> source_exists b s -> target_exists b t -> goodB b (connect V zero s t f r).
Proof. intros M [A B] S1 T. split; [|exact B]. apply inv_connectKey; [exact M|exact A|exact S1|now apply target_noKey with b|now left]. Qed.
Lemma goodB_depth b s t (r : region) : goodB b r -> source_exists b s -> target_exists b t ->
  goodB b (connect V zero s t (setDepthMod V (getSourceDepthKey s t)) r) /\
  exists c, In c (r_conns V (connect V zero s t (setDepthMod V (getSourceDepthKey s t)) r)) /\ c_depthMod V c = getSourceDepthKey s t.
Proof.
  intros [A B] S1 T. split; [split; [now apply inv_depth|exact B]|]. apply connectKey_depth.
Qed.
(** what the constants of an LFO or envelope say *)
Definition v1_ok (b : parts) (v : v1) (r : region) : Prop :=
  source_exists b (key0 V (v_source v) r) /\ target_exists b (key0 V (v_target v) r) /\
  key0 V (v_depth v) r = getSourceDepthKey (key0 V (v_source v) r) (key0 V (v_target v) r) /\ key0 V (v_depth v) r <> noKey.
Lemma v1_lfo b v (r : region) : In v [ampLFO; pitchLFO; filLFO] -> In (v_prefix v) (b_v1 b) -> v1_ok b v r /\ target_exists b (key0 V (v_freq v) r).
Proof.
  intros [<-|[<-|[<-|[]]]] H; (split; [split; [exact H|split; [cbn; auto|split; [reflexivity|discriminate]]]|exact H]).
Qed.
Lemma v1_eg b v (r : region) : In v [pitchEG; filEG] -> In (v_prefix v) (b_v1 b) -> v1_ok b v r.
Proof. intros [<-|[<-|[]]] H; (split; [exact H|split; [cbn; auto|split; [reflexivity|discriminate]]]). Qed.

Definition aftb (a : modid) : bool := match a with MChannelAftertouch | MPolyAftertouch => true | _ => false end.
Lemma aft_source b a nb (r : region) : aftb a = true -> source_exists b (aftKey V a nb r).
Proof. unfold source_exists, aftKey. rewrite k_id_create. destruct a; try discriminate; intros _; exact Logic.I. Qed.
Lemma aft_lfo1 : forallb (fun c => match snd c with L1DepthAft a _ | L1FreqAft a _ => aftb a | _ => true end) lfo1Cases = true.
Proof. vm_compute. reflexivity. Qed.
Lemma parseLFO1_good b v o (r r' : region) : In v [ampLFO; pitchLFO; filLFO] -> In (v_prefix v) (b_v1 b) -> Forall (fun x => 0 <= x) (o_params o) ->
  goodB b r -> parseLFO1 V apply read readStep zero v o r = Some (Some r') -> goodB b r' /\ stays r r'.
Proof.
  intros Iv Ib P G H. destruct (v1_lfo b v r Iv Ib) as [(Vs & Vt & Vd & Vn) Vf]. unfold parseLFO1 in H. cbv zeta in H.
  destruct (caseOf lfo1Cases o) as [a|] eqn:E; [|discriminate]. apply case_in in E. destruct E as [c E].
  pose proof aft_lfo1 as Af. rewrite forallb_forall in Af. specialize (Af _ E). cbn [snd] in Af.
  destruct a as [m sp| | |a nb| |a nb].
  - injection H as <-. split; [exact G|now split].
  - injection H as <-. split; [now apply goodB_connect; [apply mild_depth|..]|apply stays_connect].
  - destruct (generic _ _ _ _ _ _ _ _) as [r1|] eqn:Q; [|discriminate]. cbn in H. injection H as <-. rewrite Vd in Q.
    destruct (goodB_depth b _ _ r G Vs Vt) as [G1 G2]. destruct (goodB_generic _ _ _ _ _ _ Q P G1) as [G3 G4]; [intros _; now right|].
    split; [exact G3|exact G4].
  - injection H as <-. rewrite Vd in Vn |- *. destruct (goodB_depth b _ _ r G Vs Vt) as [G1 G2]. split; [|now split].
    split; [|apply G1]. apply inv_connectKey; [apply mild_depth|apply G1|now apply aft_source|exact Vn|now right].
  - destruct (generic _ _ _ _ _ _ _ _) as [r1|] eqn:Q; [|discriminate]. cbn in H. injection H as <-.
    apply (goodB_generic _ _ _ _ _ _ Q P G). intros _. now left.
  - injection H as <-. split; [|apply stays_connect]. apply goodB_connect; [apply mild_depth|exact G|now apply aft_source|exact Vf].
Qed.
Definition ofPrefix (p : string) (w : v1) : bool := String.eqb (v_prefix w) p && (String.eqb p "pitcheg_" || String.eqb p "fileg_").
Definition v1_for (p : string) : v1 := if String.eqb p "pitcheg_" then pitchEG else filEG.
Lemma eg1_prefix : forallb (fun p => forallb (fun c => negb (starts_with (str p) (str (fst c))) ||
    match snd c with E1Depth w | E1Vel w | E1DepthCC w => ofPrefix p w | _ => true end) eg1Table) ["ampeg_"; "pitcheg_"; "fileg_"] = true.
Proof. vm_compute. reflexivity. Qed.
Lemma eg1_members : forallb (fun c => match snd c with E1Depth w | E1Vel w | E1DepthCC w =>
    String.eqb (v_prefix w) "pitcheg_" && modid_eqb (v_source w) MPitchEG && modid_eqb (v_target w) MPitch && modid_eqb (v_depth w) MPitchEGDepth ||
    String.eqb (v_prefix w) "fileg_" && modid_eqb (v_source w) MFilEG && modid_eqb (v_target w) MFilCutoff && modid_eqb (v_depth w) MFilEGDepth | _ => true end) eg1Table = true.
Proof. vm_compute. reflexivity. Qed.
Lemma modid_eqb_true a b : modid_eqb a b = true -> a = b.
Proof. unfold modid_eqb. destruct (modid_eq_dec a b); [trivial|discriminate]. Qed.
Lemma parseEG1_good b v L N o (r r' : region) : In v [ampEG; pitchEG; filEG] -> In (v_prefix v) (b_v1 b) ->
  named L N o -> no_collision L -> starts_with (str (v_prefix v)) (o_name o) = true -> goodB b r ->
  parseEG1 V apply read readStep zero v o r = Some (Some r') -> goodB b r' /\ stays r r'.
Proof.
  intros Iv Ib Hn Hc W G H. assert (P : Forall (fun x => 0 <= x) (o_params o)) by (apply Forall_forall; intros x X; apply (named_params _ _ _ _ Hn X)).
  unfold parseEG1 in H. cbv zeta in H.
  destruct (caseOf eg1Table o) as [a|] eqn:E; [|discriminate]. destruct (case_named _ _ _ _ _ incl_eg1 Hn Hc E) as (c & Ic & ->).
  assert (W2 : starts_with (str (v_prefix v)) (str c) = true).
  { apply (name_prefix _ _ _ _ Hn); [|exact W]. destruct Iv as [<-|[<-|[<-|[]]]]; apply no_digits_b; reflexivity. }
  assert (K : match a with E1Depth w | E1Vel w | E1DepthCC w => v1_ok b w r | _ => True end).
  { pose proof eg1_prefix as A1. rewrite forallb_forall in A1. specialize (A1 (v_prefix v)).
    assert (X : In (v_prefix v) ["ampeg_"; "pitcheg_"; "fileg_"]) by (destruct Iv as [<-|[<-|[<-|[]]]]; cbn; tauto).
    specialize (A1 X). rewrite forallb_forall in A1. specialize (A1 _ Ic). cbn [fst snd] in A1. rewrite W2 in A1. cbn [negb orb] in A1.
    pose proof eg1_members as A2. rewrite forallb_forall in A2. specialize (A2 _ Ic). cbn [snd] in A2.
    assert (Y : forall w, ofPrefix (v_prefix v) w = true ->
      String.eqb (v_prefix w) "pitcheg_" && modid_eqb (v_source w) MPitchEG && modid_eqb (v_target w) MPitch && modid_eqb (v_depth w) MPitchEGDepth ||
      String.eqb (v_prefix w) "fileg_" && modid_eqb (v_source w) MFilEG && modid_eqb (v_target w) MFilCutoff && modid_eqb (v_depth w) MFilEGDepth = true -> v1_ok b w r).
    { intros w Y1 Y2. unfold ofPrefix in Y1. apply andb_true_iff in Y1. destruct Y1 as [Y1 _]. apply String.eqb_eq in Y1. rewrite <- Y1 in Ib.
      apply orb_true_iff in Y2. rewrite !andb_true_iff in Y2. unfold v1_ok, key0.
      destruct Y2 as [[[[E1 E2] E3] E4]|[[[E1 E2] E3] E4]]; apply String.eqb_eq in E1; apply modid_eqb_true in E2, E3, E4; rewrite E1 in Ib; rewrite E2, E3, E4;
        (split; [exact Ib|split; [cbn; auto|split; [reflexivity|discriminate]]]). }
    destruct a; try exact Logic.I; now apply Y. }
  destruct a as [m sp|m sub sp|w|w|w].
  - injection H as <-. split; [exact G|now split].
  - destruct (back o) as [cc|] eqn:B; [|discriminate]. pose proof (back_pos _ _ P B). destruct (Z.leb_spec 512 cc); [discriminate|]. injection H as <-.
    split; [|now split]. split; [apply G|]. unfold maps_ok, setEntry. cbn [r_maps setMem]. constructor; [left; cbn; lia|apply G].
  - injection H as <-. destruct K as (Vs & Vt & _). split; [now apply goodB_connect; [apply mild_depth|..]|apply stays_connect].
  - injection H as <-. destruct K as (Vs & Vt & _). split; [now apply goodB_connect; [apply mild_vel|..]|apply stays_connect].
  - destruct K as (Vs & Vt & Vd & Vn). destruct (generic _ _ _ _ _ _ _ _) as [r1|] eqn:Q; [|discriminate]. cbn in H. injection H as <-. rewrite Vd in Q.
    destruct (goodB_depth b _ _ r G Vs Vt) as [G1 G2]. destruct (goodB_generic _ _ _ _ _ _ Q P G1) as [G3 G4]; [intros _; now right|].
    split; [exact G3|exact G4].
Qed.
(** the parts with one more envelope or LFO *)
Definition plus (p : string) (b : parts) : parts := Parts (b_filters b) (b_eqs b) (b_lfos b) (b_egs b) (p :: b_v1 b).
Lemma plus_le p b : parts_le b (plus p b).
Proof. repeat split; cbn; try lia. now right. Qed.
Lemma withV1_parts p (r r' : region) : stays r r' -> parts_le (plus p (partsOf r)) (partsOf (withV1 V p r')) /\ In p (r_v1 V (withV1 V p r')).
Proof.
  intros [_ S1]. change (partsOf (withV1 V p r')) with (Parts (b_filters (partsOf r')) (b_eqs (partsOf r')) (b_lfos (partsOf r')) (b_egs (partsOf r')) (r_v1 V (withV1 V p r'))).
  rewrite S1. assert (I1 : In p (r_v1 V (withV1 V p r')) /\ incl (r_v1 V r) (r_v1 V (withV1 V p r'))).
  { replace (r_v1 V r) with (r_v1 V r') by exact (f_equal b_v1 S1). cbn. destruct (existsb (String.eqb p) (r_v1 V r')) eqn:E.
    - apply existsb_exists in E. destruct E as (q & X & Y). apply String.eqb_eq in Y. subst q. split; [exact X|apply incl_refl].
    - split; [now left|now right]. }
  destruct I1 as [I1 I2]. split; [|exact I1]. repeat split; cbn; try lia. intros q [<-|X]; [exact I1|now apply I2].
Qed.
Lemma try_good p o f g (r : region) x r' : good r ->
  (forall r1, f = Some (Some r1) -> goodB (plus p (partsOf r)) r1 /\ stays r r1) ->
  (forall r1, In p (r_v1 V r1) -> good r1 -> good (g r1) /\ grown r1 (g r1)) ->
  try V p o f g r = Some (x, r') -> good r' /\ grown r r'.
Proof.
  intros G F C H. assert (Rf : good r /\ grown r r) by (split; [exact G|apply grown_refl]). unfold try in H. destruct (starts_with _ _); [|injection H as _ <-; exact Rf].
  destruct f as [[r1|]|]; [|injection H as _ <-; exact Rf|discriminate]. injection H as _ <-.
  destruct (F r1 eq_refl) as [[F1 F2] F3]. destruct (withV1_parts p r r1 F3) as [W1 W2].
  assert (G1 : good (withV1 V p r1)) by (split; [now apply inv_mono with (plus p (partsOf r))|exact F2]).
  destruct (C _ W2 G1) as [C1 C2]. split; [exact C1|]. apply grown_trans with (withV1 V p r1); [|exact C2].
  split; [apply F3|]. apply parts_le_trans with (plus p (partsOf r)); [apply plus_le|exact W1].
Qed.
Lemma connected_good v (r : region) : In v [ampLFO; pitchLFO; filLFO; pitchEG; filEG] -> In (v_prefix v) (r_v1 V r) -> good r ->
  good (connected V zero v r) /\ grown r (connected V zero v r).
Proof.
  intros Iv Ib G. assert (K : v1_ok (partsOf r) v r).
  { destruct Iv as [<-|[<-|[<-|X]]]; [now apply v1_lfo; [cbn; tauto|]..|now apply v1_eg]. }
  destruct K as (Vs & Vt & _). split; [|now apply grown_same].
  apply (goodB_connect (partsOf r) _ _ (fun c => c) r); [apply mild_id|exact G|exact Vs|exact Vt].
Qed.

(** * Numbered LFOs and envelopes *)
Definition plainTarget (t : modid) : bool := match t with MVolume | MAmplitude | MPan | MWidth | MPosition | MPitch => true | _ => false end.
Definition elemTarget (v : vec) (t : modid) : bool :=
  match v with Filters => match t with MFilCutoff | MFilResonance | MFilGain => true | _ => false end
             | EQs => match t with MEqGain | MEqFrequency | MEqBandwidth => true | _ => false end end.
Definition goodN (p : string) (a : nact) : bool :=
  match a with
  | NMap m _ => if in_dec string_dec (append p m) lax then true else false
  | NGeneric t _ => String.eqb p "lfos." && match t with MLFOFrequency | MLFOBeats | MLFOPhase => true | _ => false end
  | NTarget t _ | NTargetCC t _ => plainTarget t
  | NElem v t _ | NElemCC v t _ => elemTarget v t
  | _ => true
  end.
Lemma goodN_lfo : forallb (fun c => goodN "lfos." (snd c)) lfo2Table = true. Proof. vm_compute. reflexivity. Qed.
Lemma goodN_eg : forallb (fun c => goodN "flexEGs." (snd c)) eg2Table = true. Proof. vm_compute. reflexivity. Qed.
Lemma updateAt_length {A} (l : list A) i f : List.length (updateAt l i f) = List.length l.
Proof. revert i. induction l as [|x l IH]; intros [|i]; cbn; try rewrite IH; reflexivity. Qed.
Lemma plain_target b t (r : region) : plainTarget t = true -> target_exists b (key0 V t r).
Proof. unfold target_exists, key0. rewrite k_id_create. destruct t; try discriminate; intros _; exact Logic.I. Qed.
Lemma target_good s t spec o (r : region) : good r -> source_exists (partsOf r) s -> target_exists (partsOf r) t ->
  good (target V read zero s t spec o r) /\ grown r (target V read zero s t spec o r).
Proof. intros G S1 T. split; [|now apply grown_same]. apply (goodB_connect (partsOf r)); [apply mild_depth|exact G|exact S1|exact T]. Qed.
Lemma targetCC_good s t spec o (r r' : region) : good r -> Forall (fun x => 0 <= x) (o_params o) -> source_exists (partsOf r) s -> target_exists (partsOf r) t ->
  targetCC V read readStep zero s t spec o r = Some r' -> good r' /\ grown r r'.
Proof.
  intros G P S1 T H. unfold targetCC in H. cbv zeta in H. destruct (goodB_depth (partsOf r) _ _ r G S1 T) as [G1 G2].
  destruct (goodB_generic _ _ _ _ _ _ H P G1) as [G3 G4]; [intros _; now right|]. destruct G4 as [G4 G5].
  change (partsOf r' = partsOf r) in G5. split; [|now apply grown_same]. destruct G3 as [G3 G6]. split; [now rewrite G5|exact G6].
Qed.
Lemma runNumbered_good p s i a o (r : region) x r' : goodN p a = true -> (p = "lfos." -> 0 <= i < Z.of_nat (List.length (r_lfos V r))) ->
  source_exists (partsOf r) s -> Forall (fun x => 0 <= x) (o_params o) -> good r ->
  runNumbered V apply read readStep zero readAmpeg readSteps p s i a o r = Some (x, r') -> good r' /\ grown r r'.
Proof.
  intros Ga Gi Gs P G H. assert (Rf : good r /\ grown r r) by (split; [exact G|apply grown_refl]).
  assert (Lf : forall f, good (withLFOs V (updateAt (r_lfos V r) (Z.to_nat i) f) r) /\ grown r (withLFOs V (updateAt (r_lfos V r) (Z.to_nat i) f) r)).
  { intros f. assert (X : grown r (withLFOs V (updateAt (r_lfos V r) (Z.to_nat i) f) r)).
    { apply grown_same; [reflexivity|]. unfold partsOf. cbn [r_lfos r_filters r_eqs r_egs r_v1 withLFOs]. now rewrite updateAt_length. }
    split; [|exact X]. now apply good_grown with r. }
  assert (Ef : forall f y, good (withEGs V (updateAt (r_egs V r) (Z.to_nat i) f) y r) /\ grown r (withEGs V (updateAt (r_egs V r) (Z.to_nat i) f) y r)).
  { intros f y. assert (X : grown r (withEGs V (updateAt (r_egs V r) (Z.to_nat i) f) y r)).
    { apply grown_same; [reflexivity|]. unfold partsOf. cbn [r_lfos r_filters r_eqs r_egs r_v1 withEGs]. now rewrite updateAt_length. }
    split; [|exact X]. now apply good_grown with r. }
  assert (Mf : forall k f (r1 : region), good r1 /\ grown r r1 -> good (setMem V apply k f o r1) /\ grown r (setMem V apply k f o r1)) by (intros; assumption).
  destruct a as [m sp|m sp|t sp| |sp|m sp|m sp|m sp|t sp|t sp|v t sp|v t sp| | |]; cbn [runNumbered] in H; cbn [goodN] in Ga.
  - injection H as _ <-. now apply Mf.
  - destruct (back o) as [cc|] eqn:B; [|discriminate]. pose proof (back_pos _ _ P B). destruct (Z.ltb_spec 512 cc); injection H as _ <-; [exact Rf|].
    destruct (in_dec string_dec (append p m) lax) as [Il|]; [|discriminate].
    apply entry_good; [|exact G]. destruct (Z.eq_dec cc 512); [now right|left; lia].
  - destruct (generic _ _ _ _ _ _ _ _) as [r1|] eqn:Q; [|discriminate]. injection H as _ <-.
    apply andb_true_iff in Ga. destruct Ga as [Gp Gt]. apply String.eqb_eq in Gp. specialize (Gi Gp).
    apply (generic_good2 _ _ _ _ _ Q P G). intros _. left. unfold target_exists, keyN. rewrite k_id_create.
    pose proof (p_N_create t (r_id V r) i (proj1 Gi)). cbn [partsOf b_lfos]. destruct t; try discriminate Gt; lia.
  - injection H as _ <-. apply Lf.
  - destruct (second o) as [n|]; [|discriminate]. destruct ((n =? 0) || (128 <? n)); injection H as _ <-; [exact Rf|apply Lf].
  - destruct (second o) as [n|]; [|discriminate]. destruct ((n =? 0) || (8 <? n)); injection H as _ <-; [exact Rf|]. apply Mf, Lf.
  - destruct (second o) as [n|]; [|discriminate]. injection H as _ <-. apply Mf, Ef.
  - destruct (second o) as [n|]; [|discriminate]. destruct (back o) as [cc|] eqn:B; [|discriminate]. pose proof (back_pos _ _ P B). cbv zeta in H.
    destruct (Ef (fun e => EG (Nat.max (e_points e) (Z.to_nat (n + 1))) (e_ampeg e)) (r_flexAmpEG V r)) as [E1 E2].
    destruct (Z.leb_spec 512 cc); injection H as _ <-; [now split|].
    match goal with |- good (setEntry _ _ (?m1, ?i1) ?s1 _ ?f1 _ ?r1) /\ _ => destruct (entry_good m1 i1 s1 cc f1 o r1 ltac:(left; lia) E1) as [E3 E4] end.
    split; [exact E3|]. eapply grown_trans; [exact E2|exact E4].
  - injection H as _ <-. apply target_good; [exact G|exact Gs|now apply plain_target].
  - destruct (targetCC _ _ _ _ _ _ _ _ _) as [r1|] eqn:Q; [|discriminate]. injection H as _ <-.
    apply (targetCC_good _ _ _ _ _ _ G P Gs (plain_target _ t r Ga) Q).
  - destruct (second o) as [n|] eqn:Sc; [|discriminate]. pose proof (second_pos _ _ P Sc) as Sp.
    destruct (extend V v n r) as [r1|] eqn:X; [|injection H as _ <-; exact Rf]. injection H as _ <-.
    destruct (extend_grown _ _ _ _ X) as (Gg & Cc & Cm). pose proof (good_grown _ _ Gg Cc Cm G) as G1.
    destruct (target_good s (keyN V t (n - 1) r) sp o r1 G1) as [G2 G3].
    + apply source_mono with (partsOf r); [apply Gg|exact Gs].
    + apply elem_target with v; [exact Sp|exact X|exact Ga].
    + split; [exact G2|now apply grown_trans with r1].
  - destruct (second o) as [n|] eqn:Sc; [|discriminate]. pose proof (second_pos _ _ P Sc) as Sp.
    destruct (extend V v n r) as [r1|] eqn:X; [|injection H as _ <-; exact Rf].
    destruct (targetCC _ _ _ _ _ _ _ _ _) as [r2|] eqn:Q; [|discriminate]. injection H as _ <-.
    destruct (extend_grown _ _ _ _ X) as (Gg & Cc & Cm). pose proof (good_grown _ _ Gg Cc Cm G) as G1.
    assert (S1 : source_exists (partsOf r1) s) by (apply source_mono with (partsOf r); [apply Gg|exact Gs]).
    assert (T1 : target_exists (partsOf r1) (keyN V t (n - 1) r)) by (apply elem_target with v; [exact Sp|exact X|exact Ga]).
    destruct (targetCC_good _ _ _ _ _ _ G1 P S1 T1 Q) as [G2 G3]. split; [exact G2|now apply grown_trans with r1].
  - cbv zeta in H. destruct (Bool.eqb _ _); injection H as _ <-; [exact Rf|apply Ef].
  - destruct (second o) as [n|] eqn:Sc; [|discriminate]. pose proof (second_pos _ _ P Sc) as Sp.
    destruct ((n =? 0) || (Z.of_nat (List.length (r_lfos V r)) <? n - 1)) eqn:T; injection H as _ <-; [exact Rf|].
    apply orb_false_iff in T. destruct T as [T1 T2]. apply Z.eqb_neq in T1. apply Z.ltb_ge in T2.
    apply target_good; [exact G|exact Gs|]. unfold target_exists, keyN. rewrite k_id_create. pose proof (p_N_create MLFOFrequency (r_id V r) (n - 1)). cbn [partsOf b_lfos]. lia.
  - destruct (second o) as [n|] eqn:Sc; [|discriminate]. pose proof (second_pos _ _ P Sc) as Sp.
    destruct ((n =? 0) || (Z.of_nat (List.length (r_lfos V r)) <? n - 1)) eqn:T; [injection H as _ <-; exact Rf|].
    destruct (targetCC _ _ _ _ _ _ _ _ _) as [r2|] eqn:Q; [|discriminate]. injection H as _ <-.
    apply orb_false_iff in T. destruct T as [T1 T2]. apply Z.eqb_neq in T1. apply Z.ltb_ge in T2.
    refine (targetCC_good _ _ _ _ _ _ G P Gs _ Q). unfold target_exists, keyN. rewrite k_id_create. pose proof (p_N_create MLFOFrequency (r_id V r) (n - 1)). cbn [partsOf b_lfos]. lia.
Qed.
Lemma parseLFO2_good o (r : region) x r' : Forall (fun x => 0 <= x) (o_params o) -> good r ->
  parseLFO2 V apply read readStep zero readAmpeg readSteps o r = Some (x, r') -> good r' /\ grown r r'.
Proof.
  intros P G H. unfold parseLFO2 in H. destruct (front o) as [n|] eqn:F; [|discriminate]. pose proof (front_pos _ _ P F).
  destruct (Z.eqb_spec n 0); [injection H as _ <-; split; [exact G|apply grown_refl]|]. cbv zeta in H.
  set (r1 := withLFOs V (padTo (Z.to_nat n) (LFO V 1 None) (r_lfos V r)) r) in *.
  assert (Gr : grown r r1).
  { split; [reflexivity|]. unfold partsOf, parts_le, r1. cbn. rewrite padTo_length. repeat split; try lia. apply incl_refl. }
  assert (G1 : good r1) by (now apply good_grown with r).
  destruct (Z.leb_spec (Z.of_nat (List.length (r_lfos V r1))) (n - 1)); [discriminate|].
  destruct (caseOf lfo2Table o) as [a|] eqn:E; [|injection H as _ <-; now split]. apply case_in in E. destruct E as [c E].
  pose proof goodN_lfo as Q. rewrite forallb_forall in Q. specialize (Q _ E). cbn [snd] in Q.
  assert (S1 : source_exists (partsOf r1) (keyN V MLFO (n - 1) r1)).
  { unfold source_exists, keyN. rewrite k_id_create. pose proof (p_N_create MLFO (r_id V r1) (n - 1)). cbn [partsOf b_lfos]. lia. }
  destruct (runNumbered_good "lfos." _ (n - 1) a o r1 x r' Q ltac:(intros _; lia) S1 P G1 H) as [A B]. split; [exact A|now apply grown_trans with r1].
Qed.
Lemma parseEG2_good o (r : region) x r' : Forall (fun x => 0 <= x) (o_params o) -> good r ->
  parseEG2 V apply read readStep zero readAmpeg readSteps o r = Some (x, r') -> good r' /\ grown r r'.
Proof.
  intros P G H. unfold parseEG2 in H. destruct (front o) as [n|] eqn:F; [|discriminate]. pose proof (front_pos _ _ P F).
  destruct (Z.eqb_spec n 0); [injection H as _ <-; split; [exact G|apply grown_refl]|]. cbv zeta in H.
  set (r1 := withEGs V (padTo (Z.to_nat n) (EG 0 false) (r_egs V r)) (r_flexAmpEG V r) r) in *.
  assert (Gr : grown r r1).
  { split; [reflexivity|]. unfold partsOf, parts_le, r1. cbn. rewrite padTo_length. repeat split; try lia. apply incl_refl. }
  assert (G1 : good r1) by (now apply good_grown with r).
  destruct (Z.leb_spec (Z.of_nat (List.length (r_egs V r1))) (n - 1)); [discriminate|].
  destruct (caseOf eg2Table o) as [a|] eqn:E; [|injection H as _ <-; now split]. apply case_in in E. destruct E as [c E].
  pose proof goodN_eg as Q. rewrite forallb_forall in Q. specialize (Q _ E). cbn [snd] in Q.
  assert (S1 : source_exists (partsOf r1) (keyN V MEnvelope (n - 1) r1)).
  { unfold source_exists, keyN. rewrite k_id_create. pose proof (p_N_create MEnvelope (r_id V r1) (n - 1)). cbn [partsOf b_egs]. lia. }
  destruct (runNumbered_good "flexEGs." _ (n - 1) a o r1 x r' Q ltac:(discriminate) S1 P G1 H) as [A B]. split; [exact A|now apply grown_trans with r1].
Qed.
Lemma orElse_good (r : region) y k x r' : good r -> (forall x1 r1, y = Some (x1, r1) -> good r1 /\ grown r r1) ->
  (forall r1 x r', good r1 -> k r1 = Some (x, r') -> good r' /\ grown r1 r') -> orElse V y k = Some (x, r') -> good r' /\ grown r r'.
Proof.
  intros G A B H. destruct y as [[b r1]|]; [|discriminate]. destruct (A _ _ eq_refl) as [A1 A2]. destruct b; cbn [orElse] in H.
  - injection H as _ <-. now split.
  - destruct (B _ _ _ A1 H) as [B1 B2]. split; [exact B1|now apply grown_trans with r1].
Qed.
Lemma try_false p o f g (r : region) r1 : try V p o f g r = Some (false, r1) -> r1 = r.
Proof. unfold try. destruct (starts_with _ _); [|congruence]. destruct f as [[r2|]|]; congruence. Qed.
Lemma try_starts p o f g (r : region) : starts_with (str p) (o_name o) = false -> try V p o f g r = Some (false, r).
Proof. unfold try. now intros ->. Qed.
Lemma parseOpcode_good L N o (r : region) x r' : named L N o -> no_collision L -> good r -> parseOpcode o r = Some (x, r') -> good r' /\ grown r r'.
Proof.
  intros Hn Hc G H. assert (P : Forall (fun x => 0 <= x) (o_params o)) by (apply Forall_forall; intros y Y; apply (named_params _ _ _ _ Hn Y)).
  unfold RegionModel.parseOpcode in H. destruct (caseOf regionTable o) as [a|] eqn:E.
  { apply case_in in E. destruct E as [c E]. now apply runAct_good with c a o x. }
  assert (T1 : forall v g (r0 : region) x1 r1, In v [ampEG; pitchEG; filEG] -> good r0 ->
    (forall r1, In (v_prefix v) (r_v1 V r1) -> good r1 -> good (g r1) /\ grown r1 (g r1)) ->
    try V (v_prefix v) o (parseEG1 V apply read readStep zero v o r0) g r0 = Some (x1, r1) -> good r1 /\ grown r0 r1).
  { intros v g r0 x1 r1 Iv G0 Gc T. destruct (starts_with (str (v_prefix v)) (o_name o)) eqn:W.
    - apply (try_good _ _ _ _ _ _ _ G0) in T; [exact T| |exact Gc]. intros r2 Q.
      apply (parseEG1_good (plus (v_prefix v) (partsOf r0)) v L N o r0 r2 Iv); try assumption; [now left|].
      split; [|apply G0]. apply inv_mono with (partsOf r0); [apply plus_le|apply G0].
    - rewrite try_starts in T by exact W. injection T as _ <-. split; [exact G0|apply grown_refl]. }
  assert (T2 : forall v g (r0 : region) x1 r1, In v [ampLFO; pitchLFO; filLFO] -> good r0 ->
    (forall r1, In (v_prefix v) (r_v1 V r1) -> good r1 -> good (g r1) /\ grown r1 (g r1)) ->
    try V (v_prefix v) o (parseLFO1 V apply read readStep zero v o r0) g r0 = Some (x1, r1) -> good r1 /\ grown r0 r1).
  { intros v g r0 x1 r1 Iv G0 Gc T. apply (try_good _ _ _ _ _ _ _ G0) in T; [exact T| |exact Gc]. intros r2 Q.
    apply (parseLFO1_good (plus (v_prefix v) (partsOf r0)) v o r0 r2 Iv); try assumption; [now left|].
    split; [|apply G0]. apply inv_mono with (partsOf r0); [apply plus_le|apply G0]. }
  unfold parseDefault in H.
  refine (orElse_good _ _ _ _ _ G _ _ H); clear H.
  { intros x1 r1. apply (T1 ampEG); [cbn; tauto|exact G|]. intros r2 _ G2. split; [exact G2|apply grown_refl]. }
  intros ra xa ra' Ga H.
  refine (orElse_good _ _ _ _ _ Ga _ _ H); clear H.
  { intros x1 r1. apply (T1 pitchEG); [cbn; tauto|exact Ga|]. intros r2. apply connected_good. cbn; tauto. }
  intros rb xb rb' Gb H.
  refine (orElse_good _ _ _ _ _ Gb _ _ H); clear H.
  { intros x1 r1. apply (T1 filEG); [cbn; tauto|exact Gb|]. intros r2. apply connected_good. cbn; tauto. }
  intros rc xc rc' Gc H.
  refine (orElse_good _ _ _ _ _ Gc _ _ H); clear H.
  { intros x1 r1. apply (T2 ampLFO); [cbn; tauto|exact Gc|]. intros r2. apply connected_good. cbn; tauto. }
  intros rd xd rd' Gd H.
  refine (orElse_good _ _ _ _ _ Gd _ _ H); clear H.
  { intros x1 r1. apply (T2 pitchLFO); [cbn; tauto|exact Gd|]. intros r2. apply connected_good. cbn; tauto. }
  intros re xe re' Ge H.
  refine (orElse_good _ _ _ _ _ Ge _ _ H); clear H.
  { intros x1 r1. apply (T2 filLFO); [cbn; tauto|exact Ge|]. intros r2. apply connected_good. cbn; tauto. }
  intros rf xf rf' Gf H.
  refine (orElse_good _ _ _ _ _ Gf _ _ H); clear H.
  { intros x1 r1. destruct (starts_with (str "lfo&_") (getLetterOnlyName o)); [now apply parseLFO2_good|]. intros [= _ <-]. split; [exact Gf|apply grown_refl]. }
  intros rg xg rg' Gg H. destruct (starts_with (str "eg&_") (getLetterOnlyName o)); [now apply parseEG2_good with o xg|]. injection H as _ <-. split; [exact Gg|apply grown_refl].
Qed.
Lemma parseOpcodes_good l (r : region) r' : Forall nice l -> good r -> parseOpcodes l r = Some r' -> good r' /\ grown r r'.
Proof.
  intros H. revert r. induction H as [|o l (L & N & Hn & Hc) _ IH]; intros r G E; cbn [RegionModel.parseOpcodes] in E.
  - injection E as <-. split; [exact G|apply grown_refl].
  - destruct (parseOpcode o r) as [[x r1]|] eqn:Q; [|discriminate]. destruct (parseOpcode_good L N o r x r1 Hn Hc G Q) as [A B].
    destruct (IH _ A E) as [C D]. split; [exact C|now apply grown_trans with r1].
Qed.
(** C92: whatever opcodes a region is made of, each modulation comes from a controller below 512, aftertouch, or an LFO or envelope that is there; it goes to a parameter
    of the region, of a filter, equalizer or LFO that is there, or to the depth of a modulation; and the controllers in the maps are below 512.
    Exceptions are the cutoff of the first filter, the frequency of the LFO after the last, and the controller 512 in seven maps. *)
Theorem C92_refers_partial id mem l r' : Forall nice l -> parseOpcodes l (freshRegion V id mem) = Some r' -> well r'.
Proof.
  intros H E. assert (G : good (freshRegion V id mem)) by (split; [split; [split|]|]; constructor).
  destruct (parseOpcodes_good _ _ _ H G E) as [[[[A _] _] B] _]. split; [exact A|exact B].
Qed.

(** * The envelope of the amplitude *)
Definition flagged (r : region) (k : nat) : Prop := exists e, nth_error (r_egs V r) k = Some e /\ e_ampeg e = true.
(** The lowest envelope that says so is the envelope of the amplitude. *)
Definition lowest (r : region) (x : option Z) : Prop :=
  match x with
  | None => forall k, ~ flagged r k
  | Some i => exists k, i = Z.of_nat k mod 256 /\ flagged r k /\ forall j, (j < k)%nat -> ~ flagged r j
  end.
Definition lowestEG (l : list eg) (x : option Z) : Prop :=
  let fl k := exists e, nth_error l k = Some e /\ e_ampeg e = true in
  match x with
  | None => forall k, ~ fl k
  | Some i => exists k, i = Z.of_nat k mod 256 /\ fl k /\ forall j, (j < k)%nat -> ~ fl j
  end.
Lemma lowest_ext (l l' : list eg) x : (forall k, (exists e, nth_error l k = Some e /\ e_ampeg e = true) <-> (exists e, nth_error l' k = Some e /\ e_ampeg e = true)) ->
  lowestEG l x -> lowestEG l' x.
Proof.
  intros E. unfold lowestEG. destruct x as [i|]; cbn.
  - intros (k & A & B & C). exists k. split; [exact A|]. split; [now apply E|]. intros j J X. apply (C j J). now apply E.
  - intros A k X. apply (A k). now apply E.
Qed.
Lemma padTo_flag n (l : list eg) k : (exists e, nth_error l k = Some e /\ e_ampeg e = true) <-> (exists e, nth_error (padTo n (EG 0 false) l) k = Some e /\ e_ampeg e = true).
Proof.
  revert l k. induction n as [|n IH]; intros l k; [reflexivity|]. cbn [padTo]. destruct l as [|x l].
  - destruct k as [|k]; cbn [nth_error].
    + split; intros (e & E & F); [discriminate|]. injection E as <-. discriminate.
    + rewrite <- IH. destruct k; reflexivity.
  - destruct k as [|k]; cbn [nth_error]; [reflexivity|apply IH].
Qed.
Lemma updateAt_flag (l : list eg) i f k : (forall e, e_ampeg (f e) = e_ampeg e) ->
  (exists e, nth_error l k = Some e /\ e_ampeg e = true) <-> (exists e, nth_error (updateAt l i f) k = Some e /\ e_ampeg e = true).
Proof.
  intros Ff. revert i k. induction l as [|x l IH]; intros i k; [destruct i; reflexivity|]. destruct i as [|i]; cbn [updateAt]; destruct k as [|k]; cbn [nth_error]; try reflexivity.
  - split; intros (e & [= <-] & F).
    + exists (f x). split; [reflexivity|now rewrite Ff].
    + exists x. split; [reflexivity|now rewrite <- (Ff x)].
  - apply IH.
Qed.
Lemma find_seq (P : nat -> bool) n s : match find P (seq s n) with
  | Some k => (s <= k < s + n)%nat /\ P k = true /\ forall j, (s <= j < k)%nat -> P j = false
  | None => forall j, (s <= j < s + n)%nat -> P j = false end.
Proof.
  revert s. induction n as [|n IH]; intros s; cbn [seq find]; [intros j; lia|]. destruct (P s) eqn:E.
  - split; [lia|]. split; [exact E|]. intros j; lia.
  - specialize (IH (S s)). destruct (find P (seq (S s) n)) as [k|].
    + destruct IH as (A & B & C). split; [lia|]. split; [exact B|]. intros j J. destruct (Nat.eq_dec j s) as [->|]; [exact E|apply C; lia].
    + intros j J. destruct (Nat.eq_dec j s) as [->|]; [exact E|apply IH; lia].
Qed.
Definition egs_same (r r' : region) : Prop := r_egs V r' = r_egs V r /\ r_flexAmpEG V r' = r_flexAmpEG V r.
Definition low (r : region) : Prop := lowestEG (r_egs V r) (r_flexAmpEG V r).
Lemma low_same (r r' : region) : egs_same r r' -> low r -> low r'.
Proof. intros [A B]. unfold low. now rewrite A, B. Qed.
Lemma generic_egs spec t o (r r' : region) : generic V read readStep zero spec t o r = Some r' -> egs_same r r'.
Proof.
  unfold generic. destruct (o_cat o); [intros [= <-]; now split|..];
    (destruct (back o) as [cc|]; [|discriminate]; destruct (512 <=? cc); [intros [= <-]; now split|]; destruct (isKey t); intros [= <-]; now split).
Qed.
Lemma extend_egs v n (r r' : region) : extend V v n r = Some r' -> egs_same r r'.
Proof. unfold extend. destruct v; destruct (extendSize _ n); try discriminate; intros [= <-]; now split. Qed.
Lemma same_trans (a b c : region) : egs_same a b -> egs_same b c -> egs_same a c.
Proof. intros [A B] [C D]. split; congruence. Qed.
Lemma setAll_egs ws o (r : region) : egs_same r (setAll V apply ws o r).
Proof. unfold setAll. revert r. induction ws as [|w ws IH]; intros r; [now split|]. cbn [fold_left]. apply same_trans with (setMem V apply (fst w, []) (snd w) o r); [now split|apply IH]. Qed.
Lemma runAct_egs a o (r : region) x r' : runAct V apply read readStep zero a o r = Some (x, r') -> egs_same r r'.
Proof.
  destruct a as [ws|inc ws m sub f|spec|spec|v m f|v m sub f|t spec|v t spec|v s nb t spec]; cbn [runAct]; intros H.
  - injection H as _ <-. apply setAll_egs.
  - destruct (back o) as [cc|]; [|discriminate]. destruct (if inc then 512 <? cc else 512 <=? cc); injection H as _ <-; [now split|].
    apply same_trans with (setAll V apply ws o r); [apply setAll_egs|now split].
  - destruct (back o) as [n|]; [|discriminate]. destruct (127 <? n); injection H as _ <-; now split.
  - destruct (back o) as [n|]; [|discriminate]. destruct ((n =? 0) || (256 <? n)); [injection H as _ <-; now split|]. cbv zeta in H. destruct (n <? _); [|discriminate]. injection H as _ <-. now split.
  - destruct (front o) as [n|]; [|discriminate]. destruct (extend V v n r) as [r1|] eqn:X; [|injection H as _ <-; now split]. apply extend_egs in X.
    destruct (n - 1 <? _); [|discriminate]. injection H as _ <-. exact X.
  - destruct (front o) as [n|]; [|discriminate]. destruct (back o) as [cc|]; [|discriminate]. destruct (extend V v n r) as [r1|] eqn:X; [|injection H as _ <-; now split]. apply extend_egs in X.
    destruct (512 <=? cc); [injection H as _ <-; exact X|]. destruct (n - 1 <? _); [|discriminate]. injection H as _ <-. exact X.
  - destruct (generic _ _ _ _ _ _ _ _) as [r1|] eqn:Q; [|discriminate]. injection H as _ <-. now apply generic_egs in Q.
  - destruct (front o) as [n|]; [|discriminate]. destruct (extend V v n r) as [r1|] eqn:X; [|injection H as _ <-; now split]. apply extend_egs in X.
    destruct (generic _ _ _ _ _ _ _ _) as [r2|] eqn:Q; [|discriminate]. injection H as _ <-. apply generic_egs in Q. now apply same_trans with r1.
  - destruct (front o) as [n|]; [|discriminate]. destruct (extend V v n r) as [r1|] eqn:X; [|injection H as _ <-; now split]. apply extend_egs in X.
    injection H as _ <-. exact X.
Qed.
Lemma parseLFO1_egs v o (r r' : region) : parseLFO1 V apply read readStep zero v o r = Some (Some r') -> egs_same r r'.
Proof.
  unfold parseLFO1. cbv zeta. destruct (caseOf lfo1Cases o) as [a|]; [|discriminate]. destruct a; intros H;
    try (injection H as <-; now split); destruct (generic _ _ _ _ _ _ _ _) as [r1|] eqn:Q; try discriminate; cbn in H; injection H as <-; apply generic_egs in Q; exact Q.
Qed.
Lemma parseEG1_egs v o (r r' : region) : parseEG1 V apply read readStep zero v o r = Some (Some r') -> egs_same r r'.
Proof.
  unfold parseEG1. cbv zeta. destruct (caseOf eg1Table o) as [a|]; [|discriminate]. destruct a as [m s|m sub s|w|w|w]; intros H; try (injection H as <-; now split).
  - destruct (back o) as [cc|]; [|discriminate]. destruct (512 <=? cc); [discriminate|]. injection H as <-. now split.
  - destruct (generic _ _ _ _ _ _ _ _) as [r1|] eqn:Q; [|discriminate]. cbn in H. injection H as <-. apply generic_egs in Q. exact Q.
Qed.
Lemma try_egs p o f g (r : region) x r' : (forall r1, f = Some (Some r1) -> egs_same r r1) -> (forall r1, egs_same r1 (g r1)) -> try V p o f g r = Some (x, r') -> egs_same r r'.
Proof.
  intros F C. unfold try. destruct (starts_with _ _); [|intros [= _ <-]; now split]. destruct f as [[r1|]|]; [|intros [= _ <-]; now split|discriminate]. intros [= _ <-].
  apply same_trans with (withV1 V p r1); [exact (F r1 eq_refl)|apply C].
Qed.
Lemma runNumbered_low p s i a o (r : region) x r' : low r ->
  runNumbered V apply read readStep zero readAmpeg readSteps p s i a o r = Some (x, r') -> low r'.
Proof.
  intros Lo H.
  assert (Tc : forall t sp (r0 r1 : region), egs_same r r0 -> targetCC V read readStep zero s t sp o r0 = Some r1 -> low r1).
  { intros t sp r0 r1 E Q. unfold targetCC in Q. cbv zeta in Q. apply generic_egs in Q. apply low_same with r; [|exact Lo]. now apply same_trans with r0. }
  assert (Ef : forall n, low (withEGs V (updateAt (r_egs V r) (Z.to_nat i) (fun e => EG (Nat.max (e_points e) n) (e_ampeg e))) (r_flexAmpEG V r) r)).
  { intros n. unfold low. cbn [r_egs r_flexAmpEG withEGs]. eapply lowest_ext; [|exact Lo]. intros k. now apply updateAt_flag. }
  destruct a as [m sp|m sp|t sp| |sp|m sp|m sp|m sp|t sp|t sp|v t sp|v t sp| | |]; cbn [runNumbered] in H.
  - injection H as _ <-. exact Lo.
  - destruct (back o) as [cc|]; [|discriminate]. destruct (512 <? cc); injection H as _ <-; exact Lo.
  - destruct (generic _ _ _ _ _ _ _ _) as [r1|] eqn:Q; [|discriminate]. injection H as _ <-. apply generic_egs in Q. now apply low_same with r.
  - injection H as _ <-. exact Lo.
  - destruct (second o) as [n|]; [|discriminate]. destruct ((n =? 0) || (128 <? n)); injection H as _ <-; exact Lo.
  - destruct (second o) as [n|]; [|discriminate]. destruct ((n =? 0) || (8 <? n)); injection H as _ <-; exact Lo.
  - destruct (second o) as [n|]; [|discriminate]. injection H as _ <-. exact (Ef (Z.to_nat (n + 1))).
  - destruct (second o) as [n|]; [|discriminate]. destruct (back o) as [cc|]; [|discriminate]. cbv zeta in H. destruct (512 <=? cc); injection H as _ <-; exact (Ef (Z.to_nat (n + 1))).
  - injection H as _ <-. exact Lo.
  - destruct (targetCC _ _ _ _ _ _ _ _ _) as [r1|] eqn:Q; [|discriminate]. injection H as _ <-. refine (Tc _ _ _ _ _ Q). now split.
  - destruct (second o) as [n|]; [|discriminate]. destruct (extend V v n r) as [r1|] eqn:X; injection H as _ <-; [|exact Lo]. apply extend_egs in X.
    apply low_same with r; [exact X|exact Lo].
  - destruct (second o) as [n|]; [|discriminate]. destruct (extend V v n r) as [r1|] eqn:X; [|injection H as _ <-; exact Lo]. apply extend_egs in X.
    destruct (targetCC _ _ _ _ _ _ _ _ _) as [r2|] eqn:Q; [|discriminate]. injection H as _ <-. exact (Tc _ _ _ _ X Q).
  - cbv zeta in H. destruct (Bool.eqb _ _); injection H as _ <-; [exact Lo|]. unfold low. cbn [r_egs r_flexAmpEG withEGs].
    set (l := updateAt _ _ _). pose proof (find_seq (fun k => match nth_error l k with Some e => e_ampeg e | None => false end) (List.length l) 0) as F.
    destruct (find _ (seq 0 (List.length l))) as [k|]; cbn [option_map lowestEG].
    + destruct F as (F1 & F2 & F3). exists k. split; [reflexivity|]. split.
      * destruct (nth_error l k) as [e|]; [|discriminate]. now exists e.
      * intros j J (e & X & Y). specialize (F3 j ltac:(lia)). rewrite X in F3. congruence.
    + intros k (e & X & Y). specialize (F k). rewrite X in F. assert (k < List.length l)%nat by (apply nth_error_Some; congruence). specialize (F ltac:(lia)). congruence.
  - destruct (second o) as [n|]; [|discriminate]. destruct ((n =? 0) || _); injection H as _ <-; exact Lo.
  - destruct (second o) as [n|]; [|discriminate]. destruct ((n =? 0) || _); [injection H as _ <-; exact Lo|].
    destruct (targetCC _ _ _ _ _ _ _ _ _) as [r2|] eqn:Q; [|discriminate]. injection H as _ <-. refine (Tc _ _ _ _ _ Q). now split.
Qed.
Lemma parse_low o (r : region) x r' : low r -> parseOpcode o r = Some (x, r') -> low r'.
Proof.
  intros Lo H. unfold RegionModel.parseOpcode in H. destruct (caseOf regionTable o) as [a|].
  { apply runAct_egs in H. now apply low_same with r. }
  assert (Or : forall (r0 : region) y k x r', low r0 -> (forall x1 r1, y = Some (x1, r1) -> low r1) -> (forall r1 x r', low r1 -> k r1 = Some (x, r') -> low r') ->
    orElse V y k = Some (x, r') -> low r').
  { intros r0 y k x0 r0' L0 A B Q. destruct y as [[b r1]|]; [|discriminate]. specialize (A _ _ eq_refl). destruct b; cbn [orElse] in Q; [injection Q as _ <-; exact A|]. exact (B _ _ _ A Q). }
  assert (T : forall p f g (r0 : region) x1 r1, low r0 -> (forall r1, f = Some (Some r1) -> egs_same r0 r1) -> (forall r1, egs_same r1 (g r1)) -> try V p o f g r0 = Some (x1, r1) -> low r1).
  { intros p f g r0 x1 r1 L0 F G Q. apply try_egs in Q; [now apply low_same with r0|exact F|exact G]. }
  unfold parseDefault in H.
  do 3 (refine (Or _ _ _ _ _ Lo _ _ H); clear H; [intros x1 r1; apply T; [exact Lo|intros r2; apply parseEG1_egs|intros r2; now split]|]; clear Lo; clear r r' x; intros r x r' Lo H).
  do 3 (refine (Or _ _ _ _ _ Lo _ _ H); clear H; [intros x1 r1; apply T; [exact Lo|intros r2; apply parseLFO1_egs|intros r2; now split]|]; clear Lo; clear r r' x; intros r x r' Lo H).
  refine (Or _ _ _ _ _ Lo _ _ H); clear H.
  - intros x1 r1. destruct (starts_with _ _); [|intros [= _ <-]; exact Lo]. unfold parseLFO2. destruct (front o) as [n|]; [|discriminate].
    destruct (n =? 0); [intros [= _ <-]; exact Lo|]. cbv zeta. match goal with |- (if ?c then _ else _) = _ -> _ => destruct c end; [discriminate|]. destruct (caseOf lfo2Table o) as [a|]; [|intros [= _ <-]; exact Lo].
    apply runNumbered_low. exact Lo.
  - clear Lo; clear r r' x; intros r x r' Lo H. destruct (starts_with _ _); [|injection H as _ <-; exact Lo]. unfold parseEG2 in H. destruct (front o) as [n|]; [|discriminate].
    destruct (n =? 0); [injection H as _ <-; exact Lo|]. cbv zeta in H.
    assert (L2 : low (withEGs V (padTo (Z.to_nat n) (EG 0 false) (r_egs V r)) (r_flexAmpEG V r) r)).
    { unfold low. cbn [r_egs r_flexAmpEG withEGs]. eapply lowest_ext; [|exact Lo]. intros k. apply padTo_flag. }
    match type of H with (if ?c then _ else _) = _ => destruct c end; [discriminate|]. destruct (caseOf eg2Table o) as [a|]; [|injection H as _ <-; exact L2].
    apply runNumbered_low in H; [exact H|exact L2].
Qed.
(** C92: the envelope of the amplitude is the one with the lowest number that has eg&_ampeg set, and there is none if none has; for at most 256 envelopes. *)
Theorem C92_ampeg id mem l r' : parseOpcodes l (freshRegion V id mem) = Some r' -> (List.length (r_egs V r') <= 256)%nat ->
  match r_flexAmpEG V r' with
  | None => forall k, ~ flagged r' k
  | Some i => 0 <= i /\ flagged r' (Z.to_nat i) /\ forall j, (j < Z.to_nat i)%nat -> ~ flagged r' j
  end.
Proof.
  intros E Le. assert (Lo : low r').
  { assert (L0 : low (freshRegion V id mem)) by (intros [|k] (e & X & _); discriminate). revert E L0. generalize (freshRegion V id mem) as r. induction l as [|o l IH]; intros r E L0; cbn [RegionModel.parseOpcodes] in E.
    - injection E as <-. exact L0.
    - destruct (parseOpcode o r) as [[x r1]|] eqn:Q; [|discriminate]. apply (IH _ E). now apply parse_low with o r x. }
  unfold low, lowestEG in Lo. destruct (r_flexAmpEG V r') as [i|]; [|exact Lo]. destruct Lo as (k & -> & (e & X & Y) & C).
  assert (k < 256)%nat by (assert (k < List.length (r_egs V r'))%nat by (apply nth_error_Some; congruence); lia).
  rewrite Z.mod_small by lia. rewrite Nat2Z.id. split; [lia|]. split; [now exists e|exact C].
Qed.
End Well.

(** * Where it fails *)
Definition trivialParse (l : list opcode) : option (region nat) :=
  parseOpcodes nat (fun _ _ x => x) (fun _ _ => O) (fun _ _ => O) O (fun t => match t with [49] => true | _ => false end) (fun _ => O) l (freshRegion nat 7 (fun _ => O)).
Definition ops (l : list (string * string)) : list opcode := map (fun x => mkOpcode (str (fst x)) (str (snd x))) l.
Ltac shows := eexists; split; [vm_compute; reflexivity|].
(** the controller 512, which does not exist, is entered into a map, where the voice looks it up: MidiState::getCCValue(512) reads after the end of its array *)
Theorem C92_controller_512_refuted : exists r, trivialParse (ops [("delay_oncc512", "1")]) = Some r /\ r_maps nat r = [(("delayCC", []), 512)].
Proof. shows. reflexivity. Qed.
(** eg1_freq_lfo1 without an LFO *)
Theorem C92_freq_lfo_refuted : exists r c, trivialParse (ops [("eg1_freq_lfo1", "1")]) = Some r /\ r_conns nat r = [c] /\ r_lfos nat r = [] /\
  k_id (c_target nat c) = MLFOFrequency /\ p_N (c_target nat c) = 0.
Proof. do 2 eexists. split; [vm_compute; reflexivity|]. repeat split. Qed.
(** fileg_depth without a filter *)
Theorem C92_no_filter_refuted : exists r c, trivialParse (ops [("fileg_depth", "100")]) = Some r /\ r_conns nat r = [c] /\ r_filters nat r = O /\
  k_id (c_target nat c) = MFilCutoff.
Proof. do 2 eexists. split; [vm_compute; reflexivity|]. repeat split. Qed.
(** the number of the envelope of the amplitude is cut to eight bits *)
Theorem C92_ampeg_cut_refuted : exists r, trivialParse (ops [("eg257_ampeg", "1")]) = Some r /\ r_flexAmpEG nat r = Some 0 /\ ~ flagged nat r 0 /\ flagged nat r 256.
Proof. shows. split; [reflexivity|]. split; [intros (e & X & Y); cbn in X; injection X as <-; discriminate|]. eexists. split; reflexivity. Qed.
Example C92_refers_ex : exists r, trivialParse (ops [("cutoff2_oncc14", "1200"); ("lfo3_cutoff2", "100"); ("eg1_ampeg", "1"); ("lfo2_pitch_oncc1", "50"); ("pitcheg_depth_oncc20", "12"); ("amplfo_depthchanaft", "3")]) = Some r /\
  List.length (r_conns nat r) = 8%nat /\ r_filters nat r = 2%nat /\ List.length (r_lfos nat r) = 3%nat /\ r_flexAmpEG nat r = Some 0.
Proof. shows. repeat split. Qed.
