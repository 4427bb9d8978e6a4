(** The value of a modulation (C60), and per-cycle sources over a cycle (C59). *)
From Coq Require Import ZArith List Bool Lia Ring Permutation.
From Verif Require Import ModModel ModRegistry ModEvalModel ModEval ModEvalOnce.
Import ListNotations.
Local Open Scope list_scope.

Section Value.
Variable V : Type.
Variables (zero one : V) (add mul : V -> V -> V).
Hypothesis RT : semi_ring_theory zero one add mul eq.
Add Ring VRing : RT.
Variable is_one : V -> bool.
Hypothesis is_one_ok : forall d, is_one d = true -> d = one.
Variable M : matrix V.
Variable queries : nat -> list (option nat).
Variable gen : nat -> list (option (buf V)) -> buf V.
(** A generator reads the frames of the answers and nothing else of them. *)
Definition same_answer (a b : option (buf V)) : Prop :=
  match a, b with
  | Some f, Some g => forall i, f i = g i
  | None, None => True
  | _, _ => False
  end.
Hypothesis gen_ext : forall s a b, Forall2 same_answer a b -> forall i, gen s a i = gen s b i.
Variable region : Z.
Variable trigger : V.
Variables rs rt : nat -> nat.
Hypothesis RK : ranked V M queries region rs rt.

(** Specification.  [SV] and [TV] give the signals of sources and targets; a target that does
    not exist or is of another region has none. *)
Variable SV : nat -> buf V.
Variable TV : nat -> buf V.
Definition signal (id : option nat) : option (buf V) :=
  match id with
  | None => None
  | Some t =>
      match nth_error (m_targets V M) t with
      | Some g => if isPerVoice (t_key V g) && negb (Z.eqb region (k_region (t_key V g))) then None
                  else Some (TV t)
      | None => None
      end
  end.
Definition applies (s : nat) : bool :=
  negb (isPerVoice (source V M s) && negb (Z.eqb region (k_region (source V M s)))).
(** The depth of a connection: a constant, with a part that follows the velocity of per-voice
    sources. *)
Definition depth (s : nat) (c : conn V) : V :=
  if isPerVoice (source V M s) then add (c_depth V c) (mul trigger (c_vel V c)) else c_depth V c.
Definition term (mult : bool) (i : nat) (s : nat) (c : conn V) : V :=
  let m := match signal (c_modId V c) with
           | Some f => f i
           | None => if mult then one else zero
           end in
  mul (if mult then mul (depth s c) m else add (depth s c) m) (SV s i).
Definition fold_terms (mult : bool) (l : list V) : V :=
  if mult then fold_right mul one l else fold_right add zero l.
Definition terms (mult : bool) (i : nat) (l : list (nat * conn V)) : list V :=
  map (fun p => term mult i (fst p) (snd p)) (filter (fun p => applies (fst p)) l).
(** The signals obey these equations. *)
Definition signals : Prop :=
  (forall s i, SV s i = gen s (map signal (queries s)) i) /\
  (forall t g i, nth_error (m_targets V M) t = Some g ->
     TV t i = fold_terms (isMul (t_key V g)) (terms (isMul (t_key V g)) i (t_conns V g))).
Hypothesis SG : signals.

Notation est := (est V).
Notation getMod := (getModulation V zero one add mul is_one M queries gen region trigger).
Notation conns := (connections V add mul is_one M queries gen region trigger).
Notation genr := (generate V queries gen).
Notation upto := (upto V rs rt).

Definition allowed (t : nat) : Prop :=
  exists g, nth_error (m_targets V M) t = Some g /\ useTarget region (t_key V g) = true.
(** Memorised signals are the right ones. *)
Definition good_s (e : est) (s : nat) : Prop :=
  useSource V M region s = true -> e_sready V e s = true -> forall i, e_sbuf V e s i = SV s i.
Definition good_t (e : est) (t : nat) : Prop :=
  allowed t -> e_tready V e t = true -> forall i, e_tbuf V e t i = TV t i.
Definition good (r : nat) (e : est) : Prop :=
  (forall s, (rs s < r)%nat -> good_s e s) /\ (forall t, (rt t < r)%nat -> good_t e t).

Lemma applies_use s : applies s = useSource V M region s.
Proof.
  unfold applies, useSource. destruct (isPerVoice (source V M s)); [|reflexivity].
  destruct (Z.eqb region _); reflexivity.
Qed.
Lemma signal_allowed t : allowed t -> signal (Some t) = Some (TV t).
Proof.
  intros (g & N & U). unfold signal. rewrite N. unfold useTarget in U.
  destruct (isPerVoice (t_key V g)); [|reflexivity]. cbn in U. now rewrite U.
Qed.

Lemma good_le r r' e : (r <= r')%nat -> good r' e -> good r e.
Proof. intros L [A B]. split; intros; [apply A|apply B]; lia. Qed.
(** Raising a level again after a call that kept what is above. *)
Lemma good_back k r e e' : upto k e e' -> good k e' -> good r e -> good r e'.
Proof.
  intros (U1 & U2 & _) [A B] [C D]. split.
  - intros s H. destruct (Nat.lt_ge_cases (rs s) k) as [L|L]; [now apply A|].
    destruct (U1 s L) as (x1 & x2 & _). intros W R. rewrite x1 in R. rewrite x2. now apply C.
  - intros t H. destruct (Nat.lt_ge_cases (rt t) k) as [L|L]; [now apply B|].
    destruct (U2 t L) as (x1 & x2). intros W R. rewrite x1 in R. rewrite x2. now apply D.
Qed.

Definition rec_good (r : nat) (rec : rec_t V) : Prop :=
  rec_ok V rs rt r rec /\
  (forall e t e' p, rec e t = Some (e', p) ->
     (forall n, e_tready V e n = true -> e_tready V e' n = true) /\
     (forall n, e_sready V e n = true -> e_sready V e' n = true)) /\
  forall e t e' p, (rt t < r)%nat -> good (S (rt t)) e -> rec e (Some t) = Some (e', p) ->
    good (S (rt t)) e' /\
    ((p = None /\ signal (Some t) = None) \/ (p = Some t /\ allowed t /\ e_tready V e' t = true)).

Lemma rec_good_le r r' rec : (r <= r')%nat -> rec_good r' rec -> rec_good r rec.
Proof.
  intros L ([A N] & G & B). split; [split|split].
  - intros; eapply A; [|eassumption]; lia.
  - exact N.
  - exact G.
  - intros; eapply B; try eassumption; lia.
Qed.

(** Answers are not disturbed by later calls: they are ready. *)
Lemma ask_good r rec q : rec_good r rec -> (forall t, In (Some t) q -> (rt t < r)%nat) ->
  forall e e' ps, good r e -> ask V rec e q = Some (e', ps) ->
  good r e' /\
  Forall2 (fun t p => (p = None /\ signal t = None) \/
                      (p = t /\ match t with Some t => allowed t /\ e_tready V e' t = true | None => False end)) q ps /\
  (forall t, e_tready V e t = true -> e_tready V e' t = true).
Proof.
  intros R. induction q as [|t q IH]; intros L e e' ps G; cbn [ask].
  - intros [= <- <-]. split; [assumption|]. split; [constructor|auto].
  - destruct (rec e t) as [[e1 p]|] eqn:E; [|discriminate].
    destruct (ask V rec e1 q) as [[e2 ps']|] eqn:E2; [|discriminate]. intros [= <- <-].
    pose proof (proj1 (proj1 (proj2 R) _ _ _ _ E)) as Mo.
    assert (good r e1 /\ ((p = None /\ signal t = None) \/
                      (p = t /\ match t with Some t => allowed t /\ e_tready V e1 t = true | None => False end))) as [G1 P1].
    { destruct t as [t|].
      - assert (rt t < r)%nat as Lt by (apply L; now left).
        destruct (proj2 (proj2 R) e t e1 p Lt (good_le _ _ _ Lt G) E) as [G1 P1].
        split; [|exact P1]. eapply good_back; [|exact G1|exact G].
        eapply (proj1 (proj1 R)); eassumption.
      - apply (proj2 (proj1 R)) in E as [-> ->]. split; [assumption|]. left. split; reflexivity. }
    destruct (IH (fun t I => L t (or_intror I)) e1 e2 ps' G1 E2) as (G2 & F & Mo2).
    split; [assumption|]. split; [|auto]. constructor; [|assumption].
    destruct P1 as [P1|[-> P1]]; [now left|right]. split; [reflexivity|].
    destruct t as [t|]; [|contradiction]. destruct P1. auto.
Qed.
Lemma answers_same r e q ps : good r e -> (forall t, In (Some t) q -> (rt t < r)%nat) ->
  Forall2 (fun t p => (p = None /\ signal t = None) \/
                      (p = t /\ match t with Some t => allowed t /\ e_tready V e t = true | None => False end)) q ps ->
  Forall2 same_answer (map (option_map (e_tbuf V e)) ps) (map signal q).
Proof.
  intros G L F. induction F as [|t p q ps H F IH]; cbn [map]; constructor.
  - destruct H as [[-> ->]|[-> H]]; [exact Logic.I|]. destruct t as [t|]; [|contradiction].
    destruct H as [A R]. rewrite (signal_allowed _ A). cbn [option_map same_answer].
    apply (proj2 G); [apply L; now left|assumption|assumption].
  - apply IH. intros t' I. apply L. now right.
Qed.

Definition goodx (r x : nat) (e : est) : Prop :=
  (forall s, (rs s < r)%nat -> good_s e s) /\ (forall t, (rt t < r)%nat -> t <> x -> good_t e t).
Lemma goodx_back k r x e e' : upto k e e' -> good k e' -> goodx r x e -> goodx r x e'.
Proof.
  intros (U1 & U2 & _) [A B] [C D]. split.
  - intros s H. destruct (Nat.lt_ge_cases (rs s) k) as [L|L]; [now apply A|].
    destruct (U1 s L) as (x1 & x2 & _). intros W R. rewrite x1 in R. rewrite x2. now apply C.
  - intros t H N. destruct (Nat.lt_ge_cases (rt t) k) as [L|L]; [now apply B|].
    destruct (U2 t L) as (x1 & x2). intros W R. rewrite x1 in R. rewrite x2. now apply D.
Qed.
Lemma goodx_good r x e k : (k <= rt x)%nat -> (k <= r)%nat -> goodx r x e -> good k e.
Proof.
  intros L1 L2 [A B]. split.
  - intros s H. apply A. lia.
  - intros t H. apply B; [lia|]. intros ->. lia.
Qed.

Lemma source_good x rec s e e1 : rec_good (rt x) rec -> (rs s < rt x)%nat ->
  goodx (S (rt x)) x e ->
  (if e_sready V e s then Some e else option_map (fun e => set_sready V e s) (genr rec e s)) = Some e1 ->
  goodx (S (rt x)) x e1 /\ e_sready V e1 s = true /\
  (forall t, e_tready V e t = true -> e_tready V e1 t = true) /\ same_t V x e e1.
Proof.
  intros R L G E. pose proof (source_upto V M queries gen region rs rt RK _ _ _ _ _ (proj1 R) L E) as [U Rd].
  assert (same_t V x e e1) as Sx by (apply U; lia).
  split; [|split; [exact Rd|split; [|exact Sx]]].
  - destruct (e_sready V e s) eqn:Re; [now injection E as <-|].
    unfold generate in E. destruct (ask V rec e (queries s)) as [[e2 ps]|] eqn:A; [|discriminate].
    cbn [option_map] in E. injection E as <-.
    assert (rec_good (rs s) rec) as R' by (eapply rec_good_le; [|exact R]; lia).
    assert (forall t, In (Some t) (queries s) -> (rt t < rs s)%nat) as Q by (intros t I; eapply rk_query; eassumption).
    assert (good (rs s) e) as Gs by (apply goodx_good with (S (rt x)) x; [lia|lia|exact G]).
    destruct (ask_good _ _ _ R' Q _ _ _ Gs A) as (G2 & F & _).
    pose proof (ask_upto V rs rt _ _ _ (proj1 R') Q _ _ _ A) as U2.
    pose proof (goodx_back _ _ _ _ _ U2 G2 G) as [X1 X2].
    split.
    + intros s' H W Rs i. cbn [set_sready e_sready e_sbuf] in *. unfold upd in *.
      destruct (Nat.eqb_spec s' s) as [->|N].
      * rewrite (proj1 SG). apply gen_ext. now apply answers_same with (rs s).
      * now apply X1.
    + intros t H N W Rt i. cbn [set_sready e_tready e_tbuf] in *. now apply X2.
  - destruct (e_sready V e s); [injection E as <-; auto|].
    unfold generate in E. destruct (ask V rec e (queries s)) as [[e2 ps]|] eqn:A; [|discriminate].
    cbn [option_map] in E. injection E as <-. cbn [set_sready e_tready].
    assert (rec_good (rs s) rec) as R' by (eapply rec_good_le; [|exact R]; lia).
    assert (forall t, In (Some t) (queries s) -> (rt t < rs s)%nat) as Q by (intros t I; eapply rk_query; eassumption).
    assert (good (rs s) e) as Gs by (apply goodx_good with (S (rt x)) x; [lia|lia|exact G]).
    now destruct (ask_good _ _ _ R' Q _ _ _ Gs A) as (_ & _ & ?).
Qed.

Lemma fold_terms_snoc mu l x : fold_terms mu (l ++ [x]) =
  if mu then mul (fold_terms mu l) x else add (fold_terms mu l) x.
Proof.
  unfold fold_terms. destruct mu; induction l as [|a l IH]; cbn [app fold_right]; try ring;
    rewrite IH; ring.
Qed.
Lemma accumulate_ok (b : bool) mu d md src cur i v :
  (if b then fold_terms mu [] = v else cur i = v) ->
  accumulate V add mul is_one b mu d md src cur i =
  (if mu then mul v (mul (mul d (match md with Some f => f i | None => one end)) (src i))
   else add v (mul (add d (match md with Some f => f i | None => zero end)) (src i))).
Proof.
  intros H. unfold accumulate. destruct b.
  - cbn in H. destruct md as [f|].
    + destruct mu; cbn in H; subst v; ring.
    + destruct (is_one d) eqn:O; [apply is_one_ok in O as ->|]; destruct mu; cbn in H; subst v; ring.
  - subst v. destruct mu, md; ring.
Qed.
Lemma terms_app mu i a b : terms mu i (a ++ b) = terms mu i a ++ terms mu i b.
Proof. unfold terms. now rewrite filter_app, map_app. Qed.

Lemma conns_good rec t g l : let mu := isMul (t_key V g) in
  rec_good (rt t) rec -> nth_error (m_targets V M) t = Some g -> incl l (t_conns V g) ->
  forall e (b : bool) e' (b' : bool) pre, goodx (S (rt t)) t e ->
  (forall i, if b then terms mu i pre = [] else e_tbuf V e t i = fold_terms mu (terms mu i pre)) ->
  conns rec t mu e b l = Some (e', b') ->
  goodx (S (rt t)) t e' /\
  (forall i, if b' then terms mu i (pre ++ l) = [] else e_tbuf V e' t i = fold_terms mu (terms mu i (pre ++ l))).
Proof.
  intros mu R N. induction l as [|[s c] l IH]; intros I e b e' b' pre G P; cbn [connections].
  - intros [= <- <-]. rewrite app_nil_r. auto.
  - assert (incl l (t_conns V g)) as I' by (intros x X; apply I; now right).
    change (pre ++ (s, c) :: l) with (pre ++ [(s, c)] ++ l). rewrite app_assoc.
    destruct (useSource V M region s) eqn:U.
    2:{ apply IH; auto. intros i. specialize (P i). rewrite terms_app.
        assert (terms mu i [(s, c)] = []) as -> by (unfold terms; cbn [filter fst]; now rewrite applies_use, U).
        now rewrite app_nil_r. }
    assert (In (s, c) (t_conns V g)) as Ic by (apply I; now left).
    pose proof (rk_source _ _ _ _ _ _ RK _ _ _ _ N Ic U) as L1.
    destruct (if e_sready V e s then _ else _) as [e1|] eqn:E1; [|discriminate].
    destruct (source_good _ _ _ _ _ R L1 G E1) as (G1 & Rs1 & Mo1 & (_ & Sb1)).
    destruct (rec e1 (c_modId V c)) as [[e2 p]|] eqn:E2; [|discriminate].
    assert (goodx (S (rt t)) t e2 /\ e_sready V e2 s = true /\ e_tbuf V e2 t = e_tbuf V e1 t /\
            same_answer (option_map (e_tbuf V e2) p) (signal (c_modId V c))) as (G2 & Rs2 & Sb2 & A2).
    { destruct (c_modId V c) as [m|] eqn:Em.
      - pose proof (rk_depth _ _ _ _ _ _ RK _ _ _ _ _ N Ic U Em) as L2.
        pose proof (proj1 (proj1 R) _ _ _ _ L2 E2) as Up.
        assert (good (S (rt m)) e1) as Gm by (apply goodx_good with (S (rt t)) t; [lia|lia|exact G1]).
        destruct (proj2 (proj2 R) _ _ _ _ L2 Gm E2) as [G2 A2].
        split; [eapply goodx_back; [exact Up|exact G2|exact G1]|].
        destruct Up as (U1 & U2 & U3).
        split; [|split].
        + now apply (proj1 (proj2 R) _ _ _ _ E2).
        + apply U2. lia.
        + destruct A2 as [[-> ->]|(-> & Al & Rd)]; [exact Logic.I|].
          rewrite (signal_allowed _ Al). cbn [option_map same_answer].
          apply (proj2 G2); [lia|assumption|assumption].
      - apply (proj2 (proj1 R)) in E2 as [-> ->]. repeat split; auto; apply G1. }
    intros H. eapply IH in H; [exact H|assumption| |].
    + destruct G2 as [X1 X2]. split; [exact X1|]. intros t' Lt Nt W Rt i.
      cbn [set_tbuf e_tbuf e_tready] in *. unfold upd. destruct (Nat.eqb_spec t' t); [contradiction|].
      now apply X2.
    + intros i. cbn [set_tbuf e_tbuf]. unfold upd. rewrite Nat.eqb_refl.
      rewrite (accumulate_ok _ _ _ _ _ _ _ (fold_terms mu (terms mu i pre))).
      * rewrite terms_app.
        assert (terms mu i [(s, c)] = [term mu i s c]) as -> by (unfold terms; cbn [filter fst]; rewrite applies_use, U; reflexivity).
        rewrite fold_terms_snoc. unfold term.
        assert (e_sbuf V e2 s i = SV s i) as -> by (apply (proj1 G2); [lia|assumption|assumption]).
        change (depthOf V add mul M trigger s c) with (depth s c).
        destruct (signal (c_modId V c)) as [f|]; destruct (option_map (e_tbuf V e2) p) as [f'|]; cbn in A2; try contradiction;
          try rewrite A2; destruct mu; reflexivity.
      * specialize (P i). destruct b; [now rewrite P|]. now rewrite Sb2, Sb1.
Qed.
Lemma getMod_good f : forall r, rec_good r (getMod f).
Proof.
  induction f as [|f IH]; intros r.
  - split; [|split]; [apply getMod_ok; exact RK|intros; discriminate|intros; discriminate].
  - split; [apply getMod_ok; exact RK|]. split.
    { intros e t e' p H. apply getMod_grows in H as (A & _ & B). auto. }
    intros e t e' p L G H. pose proof H as H0. cbn [getModulation] in H0.
    destruct (nth_error (m_targets V M) t) as [g|] eqn:N.
    2:{ injection H0 as <- <-. split; [exact G|]. left. split; [reflexivity|]. cbn. now rewrite N. }
    destruct (useTarget region (t_key V g)) eqn:U; cbn [negb] in H0.
    2:{ injection H0 as <- <-. split; [exact G|]. left. split; [reflexivity|]. cbn. rewrite N.
        unfold useTarget in U. apply orb_false_iff in U as [U1 U2]. apply negb_false_iff in U1.
        now rewrite U1, U2. }
    assert (allowed t) as Al by (exists g; auto).
    destruct (e_tready V e t) eqn:Rd.
    { injection H0 as <- <-. split; [exact G|]. right. auto. }
    set (e0 := Est V (e_sready V e) (e_sbuf V e) (upd (e_tready V e) t true) (e_tbuf V e) (e_log V e ++ [Compute t])) in *.
    assert (goodx (S (rt t)) t e0) as G0.
    { destruct G as [A B]. split; [exact A|]. intros t' Lt Nt W R. unfold e0 in *. cbn [e_tready e_tbuf] in *.
      unfold upd in R. destruct (Nat.eqb_spec t' t); [contradiction|]. now apply B. }
    destruct (conns (getMod f) t (isMul (t_key V g)) e0 true (t_conns V g)) as [[e1 b]|] eqn:C; [|discriminate].
    assert (e_tready V e1 t = true) as R1.
    { assert (grows V e0 e1) as (A & _).
      { set (k := (f + S (unready V M e0))%nat).
        pose proof (conns_mono V add mul is_one M queries gen region trigger (getMod f) (getMod k) t (isMul (t_key V g)) (t_conns V g)
                  (getMod_mono V zero one add mul is_one M queries gen region trigger f k ltac:(unfold k; lia)) e0 true _ C) as C'.
        destruct (conns_total V add mul is_one M queries gen region trigger k (getMod k) t (isMul (t_key V g)) (t_conns V g)
                   (getMod_total V zero one add mul is_one M queries gen region trigger k) e0 true ltac:(unfold k; lia)) as (e2 & b2 & E & Gr).
        congruence. }
      apply (A t). unfold e0. cbn [e_tready]. unfold upd. now rewrite Nat.eqb_refl. }
    destruct (conns_good (getMod f) t g (t_conns V g) (IH (rt t)) N (incl_refl _) e0 true e1 b [] G0 (fun i => eq_refl) C) as [[X1 X2] P].
    cbn [app] in P. pose proof (fun i => proj2 SG t g i N) as Eq.
    injection H0 as <- <-. split; [|right; split; [reflexivity|split; [exact Al|destruct b; exact R1]]].
    split.
    + intros s Ls. destruct b; apply X1; exact Ls.
    + intros t' Lt. destruct (Nat.eq_dec t' t) as [->|Nt].
      * intros _ _ i. rewrite Eq. specialize (P i). destruct b.
        -- cbn [set_tbuf e_tbuf]. unfold upd. rewrite Nat.eqb_refl, P. cbn. destruct (isMul (t_key V g)); reflexivity.
        -- exact P.
      * specialize (X2 t' Lt Nt). destruct b; [|exact X2].
        intros W R i. cbn [set_tbuf e_tbuf e_tready] in *. unfold upd. destruct (Nat.eqb_spec t' t); [contradiction|].
        now apply X2.
Qed.

Definition good_all (e : est) : Prop := (forall s, good_s e s) /\ (forall t, good_t e t).
Lemma good_all_step f e t e' p : good_all e -> getMod f e (Some t) = Some (e', p) ->
  good_all e' /\ same_answer (option_map (e_tbuf V e') p) (signal (Some t)).
Proof.
  intros [A B] H.
  assert (good (S (rt t)) e) as G by (split; auto).
  destruct (proj2 (proj2 (getMod_good f (S (rt t)))) e t e' p ltac:(lia) G H) as [G' P].
  assert (upto (S (rt t)) e e') as U by (eapply getMod_upto; eassumption).
  split.
  - split.
    + intros s. apply (good_back (S (rt t)) (S (rs s)) e e' U G'); [split; auto|lia].
    + intros n. apply (good_back (S (rt t)) (S (rt n)) e e' U G'); [split; auto|lia].
  - destruct P as [[-> ->]|(-> & Al & Rd)]; [exact Logic.I|].
    rewrite (signal_allowed _ Al). cbn [option_map same_answer]. apply (proj2 G'); [lia|assumption|assumption].
Qed.
Lemma good_all_requests f l : forall e e', good_all e ->
  requests V zero one add mul is_one M queries gen region trigger f e l = Some e' -> good_all e'.
Proof.
  induction l as [|t l IH]; intros e e' G; cbn [requests]; [now intros [= <-]|].
  destruct (getMod f e (Some t)) as [[e1 p]|] eqn:E; [|discriminate].
  apply good_all_step in E as [G1 _]; [|exact G]. now apply IH.
Qed.
Lemma percycle_false k : isPerCycle k = false -> isPerVoice k = true.
Proof. unfold isPerCycle, isPerVoice. destruct (flags (k_id k)) as [[[] ?]|]; cbn; congruence. Qed.
(** C60: within a voice, the modulation of a target is the sum (or the product) over the connected
    sources of the region and of no region, of depth times source, where the depth includes the
    modulation of the depth and the velocity; a target of another region has none.  Before the
    voice only what is shared between voices has to be right. *)
Theorem C60_modulation_value f e l e1 t e2 p :
  (forall s, isPerCycle (source V M s) = true -> e_sready V e s = true -> forall i, e_sbuf V e s i = SV s i) ->
  (forall n g, nth_error (m_targets V M) n = Some g -> isPerCycle (t_key V g) = true ->
     e_tready V e n = true -> forall i, e_tbuf V e n i = TV n i) ->
  requests V zero one add mul is_one M queries gen region trigger f (beginVoice V M region e) l = Some e1 ->
  getMod f e1 (Some t) = Some (e2, p) ->
  same_answer (option_map (e_tbuf V e2) p) (signal (Some t)).
Proof.
  intros H1 H2 R E. eapply good_all_step; [|exact E]. eapply good_all_requests; [|exact R].
  split.
  - intros s W Rd i. cbn [beginVoice e_sready e_sbuf] in *.
    destruct (isPerCycle (source V M s)) eqn:C.
    + apply H1; [assumption|]. rewrite reset_out in Rd; [assumption|].
      unfold sourcesForRegion. rewrite filter_In, C. intros [_ F]. discriminate F.
    + rewrite reset_in in Rd; [discriminate|]. unfold sourcesForRegion. apply filter_In.
      pose proof (percycle_false _ C) as Pv. split.
      * apply in_seq. split; [lia|]. cbn. destruct (Nat.lt_ge_cases s (length (m_sources V M))) as [L|L]; [assumption|].
        unfold source in C. rewrite nth_overflow in C by assumption. discriminate.
      * rewrite C, Pv. unfold useSource in W. rewrite Pv in W. cbn in W |- *. now rewrite Z.eqb_sym.
  - intros n (g & N & U) Rd i. cbn [beginVoice e_tready e_tbuf] in *.
    destruct (isPerCycle (t_key V g)) eqn:C.
    + apply (H2 n g); [assumption|assumption|]. rewrite reset_out in Rd; [assumption|].
      unfold targetsForRegion. rewrite filter_In, N, C. intros [_ F]. discriminate F.
    + rewrite reset_in in Rd; [discriminate|]. unfold targetsForRegion. apply filter_In.
      pose proof (percycle_false _ C) as Pv. split.
      * apply in_seq. split; [lia|]. cbn. apply nth_error_Some. congruence.
      * rewrite N, C, Pv. unfold useTarget in U. rewrite Pv in U. cbn in U |- *. now rewrite Z.eqb_sym.
Qed.
(** The order in which the hash map gives the sources does not matter. *)
Theorem C60_order_irrelevant mu i l l' : Permutation l l' ->
  fold_terms mu (terms mu i l) = fold_terms mu (terms mu i l').
Proof.
  intros P. assert (Permutation (terms mu i l) (terms mu i l')) as P'.
  { unfold terms. apply Permutation_map. induction P; cbn [filter].
    - constructor.
    - destruct (applies (fst x)); [now constructor|assumption].
    - destruct (applies (fst x)), (applies (fst y)); try constructor; apply Permutation_refl.
    - eapply perm_trans; eassumption. }
  unfold fold_terms. destruct mu; induction P'; cbn [fold_right]; try ring; try congruence; rewrite ?IHP'; ring.
Qed.
End Value.

(** Such signals exist when no source depends on itself. *)
Section Exist.
Variable V : Type.
Variables (zero one : V) (add mul : V -> V -> V).
Variable M : matrix V.
Variable queries : nat -> list (option nat).
Variable gen : nat -> list (option (buf V)) -> buf V.
Hypothesis gen_ext : forall s a b, Forall2 (same_answer V) a b -> forall i, gen s a i = gen s b i.
Variable region : Z.
Variable trigger : V.
Variables rs rt : nat -> nat.
Hypothesis RK : ranked V M queries region rs rt.

Definition next_sv (TV : nat -> buf V) : nat -> buf V :=
  fun s => gen s (map (signal V M region TV) (queries s)).
Definition next_tv (SV TV : nat -> buf V) : nat -> buf V :=
  fun t i => match nth_error (m_targets V M) t with
             | Some g => fold_terms V zero one add mul (isMul (t_key V g))
                           (terms V zero one add mul M region trigger SV TV (isMul (t_key V g)) i (t_conns V g))
             | None => zero
             end.
Fixpoint tv (n : nat) : nat -> buf V :=
  match n with
  | O => fun _ _ => zero
  | S n => next_tv (next_sv (tv n)) (tv n)
  end.
Lemma signal_ext (A B : nat -> buf V) id :
  (forall t, id = Some t -> forall i, A t i = B t i) ->
  same_answer V (signal V M region A id) (signal V M region B id).
Proof.
  intros H. unfold signal. destruct id as [t|]; [|exact Logic.I].
  destruct (nth_error (m_targets V M) t) as [g|]; [|exact Logic.I].
  destruct (_ && _); [exact Logic.I|]. cbn. now apply H.
Qed.
Lemma next_sv_ext A B s : (forall t, (rt t < rs s)%nat -> forall i, A t i = B t i) ->
  forall i, next_sv A s i = next_sv B s i.
Proof.
  intros H. unfold next_sv. apply gen_ext.
  assert (forall t, In (Some t) (queries s) -> (rt t < rs s)%nat) as Q by (intros; eapply rk_query; eassumption).
  induction (queries s) as [|q l IH]; cbn [map]; constructor.
  - apply signal_ext. intros t ->. apply H, Q. now left.
  - apply IH. intros t I. apply Q. now right.
Qed.
Lemma next_tv_ext A B C D t :
  (forall s, (rs s < rt t)%nat -> forall i, A s i = B s i) ->
  (forall m, (rt m < rt t)%nat -> forall i, C m i = D m i) ->
  forall i, next_tv A C t i = next_tv B D t i.
Proof.
  intros H1 H2 i. unfold next_tv. destruct (nth_error (m_targets V M) t) as [g|] eqn:N; [|reflexivity].
  f_equal. unfold terms.
  assert (incl (t_conns V g) (t_conns V g)) as I by apply incl_refl. revert I.
  generalize (t_conns V g) at 1 3 4. intros l. induction l as [|[s c] l IH]; intros I; [reflexivity|].
  assert (incl l (t_conns V g)) as I' by (intros x X; apply I; now right).
  cbn [filter fst]. destruct (applies V M region s) eqn:U; [|now apply IH].
  rewrite applies_use in U. cbn [map fst snd]. f_equal; [|now apply IH].
  assert (In (s, c) (t_conns V g)) as Ic by (apply I; now left).
  unfold term. rewrite (H1 s) by (eapply rk_source; eassumption). f_equal.
  assert (same_answer V (signal V M region C (c_modId V c)) (signal V M region D (c_modId V c))) as S.
  { apply signal_ext. intros m Em. apply H2. eapply rk_depth; eassumption. }
  destruct (signal V M region C (c_modId V c)), (signal V M region D (c_modId V c)); cbn in S; try contradiction;
    rewrite ?S; reflexivity.
Qed.
Lemma tv_stable n : forall t m, (rt t < n)%nat -> (rt t < m)%nat -> forall i, tv n t i = tv m t i.
Proof.
  induction n as [|n IH]; intros t m L1 L2; [lia|]. destruct m as [|m]; [lia|]. cbn [tv].
  apply next_tv_ext.
  - intros s Ls. apply next_sv_ext. intros t' L. apply IH; lia.
  - intros t' L. apply IH; lia.
Qed.
Theorem C60_signals_exist : exists SV TV,
  signals V zero one add mul M queries gen region trigger SV TV.
Proof.
  exists (next_sv (fun t => tv (S (rt t)) t)), (fun t => tv (S (rt t)) t). split.
  - reflexivity.
  - intros t g i N. cbn [tv]. unfold next_tv at 1. rewrite N.
    pose proof (next_tv_ext (next_sv (tv (rt t))) (next_sv (fun t => tv (S (rt t)) t)) (tv (rt t)) (fun t => tv (S (rt t)) t) t) as X.
    unfold next_tv in X. rewrite N in X. apply X.
    + intros s Ls. apply next_sv_ext. intros t' L. apply tv_stable; lia.
    + intros m L. apply tv_stable; lia.
Qed.
End Exist.

(** * Cycles *)
Section Cycles.
Variable V : Type.
Variables (zero one : V) (add mul : V -> V -> V).
Variable is_one : V -> bool.
Variable M : matrix V.
Notation gens := (gens V).

(** Each voice is without circular dependencies. *)
Definition voice_ranked (v : mvoice V) : Prop :=
  exists rs rt, ranked V M (v_queries V v) (v_region V v) rs rt.
Lemma voices_balanced f l : Forall voice_ranked l -> forall e e' s,
  isPerCycle (source V M s) = true ->
  voices V zero one add mul is_one M f e l = Some e' ->
  (gens s e' + b2n (e_sready V e s) = gens s e + b2n (e_sready V e' s))%nat.
Proof.
  induction 1 as [|v l (rs & rt & RK) F IH]; intros e e' s C; cbn [voices].
  - intros [= <-]. reflexivity.
  - destruct (voiceBlock _ _ _ _ _ _ _ _ _ _ _ _ _ _) as [e1|] eqn:E; [|discriminate]. intros H.
    apply (C59_others_balanced V zero one add mul is_one M _ _ _ _ rs rt RK f e _ e1 s) in E.
    + specialize (IH _ _ _ C H). lia.
    + unfold sourcesForRegion. rewrite filter_In, C. intros [_ X]. discriminate X.
Qed.
(** C59: a source that is shared by all voices is advanced exactly once per cycle, whatever
    voices there are and whatever they ask for. *)
Theorem C59_shared_advanced_once f g e l e' s :
  Forall voice_ranked l -> (forall n, v_queries V g n = []) ->
  cycle V zero one add mul is_one M f g e l = Some e' ->
  In s (sourcesForGlobal V M) ->
  gens s e' = S (gens s e).
Proof.
  intros F Q. unfold cycle, endCycle. destruct (voices _ _ _ _ _ _ _ _ _ _) as [e1|] eqn:E; [|discriminate].
  intros D I.
  assert (isPerCycle (source V M s) = true) as C by (apply filter_In in I; tauto).
  apply (voices_balanced f l F _ _ s C) in E.
  cbn [beginCycle e_sready] in E. rewrite reset_in in E by assumption.
  assert (gens s (beginCycle V M e) = gens s e) as Ge by reflexivity. rewrite Ge in E. cbn [b2n] in E.
  assert (gens s e' = gens s e1 + b2n (negb (e_sready V e1 s)))%nat as D'.
  { revert D I. assert (NoDup (sourcesForGlobal V M)) as N by (apply NoDup_filter, seq_NoDup).
    generalize (sourcesForGlobal V M) N. clear -Q. intros l N. revert e1.
    assert (forall l e1 e' s, ~ In s l ->
      discard V zero one add mul is_one M (v_queries V g) (v_gen V g) noRegion zero f e1 l = Some e' ->
      gens s e' = gens s e1 /\ e_sready V e' s = e_sready V e1 s) as O.
    { clear -Q. induction l as [|a l IH]; intros e1 e' s N; cbn [discard]; [now intros [= <-]|].
      destruct (e_sready V e1 a).
      - apply IH. intros I. apply N. now right.
      - unfold generate. rewrite Q. cbn [ask]. intros D. apply (IH _ _ s) in D.
        + destruct D as [-> ->]. split; [|reflexivity]. unfold ModEval.gens. cbn [e_log]. rewrite count_app. cbn.
          destruct (Nat.eqb_spec a s) as [->|]; [exfalso; apply N; now left|]. cbn. lia.
        + intros I. apply N. now right. }
    induction N as [|a l Na N IH]; intros e1; cbn [discard]; [intros _ []|].
    destruct (e_sready V e1 a) eqn:R.
    - intros D [->|I]; [|now apply IH]. destruct (O _ _ _ _ Na D) as [-> _]. rewrite R. cbn. lia.
    - unfold generate. rewrite Q. cbn [ask]. intros D [->|I].
      + destruct (O _ _ _ _ Na D) as [-> _]. rewrite R. unfold ModEval.gens. cbn [e_log negb b2n]. rewrite count_app. cbn.
        rewrite Nat.eqb_refl. reflexivity.
      + apply IH in D; [|assumption]. rewrite D. cbn [e_sready]. f_equal. unfold ModEval.gens. cbn [e_log].
        rewrite count_app. cbn. destruct (Nat.eqb_spec a s) as [->|]; [contradiction|]. cbn. lia. }
  rewrite D'. destruct (e_sready V e1 s); cbn [negb b2n] in *; lia.
Qed.
End Cycles.

(** * Examples *)

(** eg1_freq_lfo1, lfo1_width and a controller on the pitch, in this order. *)
Definition ex2_eg := createNXYZ MEnvelope 0 0 0 0 0.
Definition ex2_lfo := createNXYZ MLFO 0 0 0 0 0.
Definition ex2_freq := createNXYZ MLFOFrequency 0 0 0 0 0.
Definition ex2_width := createNXYZ MWidth 0 0 0 0 0.
Definition ex2_ops : list (op Z) :=
  [ RegSource Z ex2_eg; RegTarget Z ex2_freq; Connect Z 0 0 2 noKey 0;
    RegSource Z ex2_lfo; RegTarget Z ex2_width; Connect Z 1 1 50 noKey 3 ]%Z.
Definition ex2_M : matrix Z := run Z ex2_ops.
Definition ex2_queries (s : nat) : list (option nat) :=
  if Nat.eqb s 1 then [None; Some 0; None]%nat else [].
Definition ex2_gen (s : nat) (a : list (option (buf Z))) (i : nat) : Z :=
  if Nat.eqb s 1
  then match a with [_; Some f; _] => (10 + f i)%Z | _ => 0%Z end
  else Z.of_nat i.
Definition ex2_empty : est Z := Est Z (fun _ => false) (fun _ _ => 0%Z) (fun _ => false) (fun _ _ => 0%Z) [].
Definition ex2_block := voiceBlock Z 0%Z 1%Z Z.add Z.mul (Z.eqb 1) ex2_M ex2_queries ex2_gen 0%Z 100%Z.
Definition ex2_rs (s : nat) : nat := match s with O => 0 | _ => 2 end.
Definition ex2_rt (t : nat) : nat := match t with O => 1 | _ => 3 end.
Lemma ex2_ranked : ranked Z ex2_M ex2_queries 0 ex2_rs ex2_rt.
Proof.
  split.
  - intros t g s c N I U. destruct t as [|[|t]]; vm_compute in N;
      [| |destruct t; discriminate]; injection N as <-; cbn in I; destruct I as [[= <- <-]|[]]; cbn; lia.
  - intros t g s c m N I U E. destruct t as [|[|t]]; vm_compute in N;
      [| |destruct t; discriminate]; injection N as <-; cbn in I; destruct I as [[= <- <-]|[]]; discriminate.
  - intros s q I. unfold ex2_queries in I. destruct (Nat.eqb_spec s 1) as [->|]; [|destruct I].
    cbn in I. destruct I as [I|[I|[I|[]]]]; try discriminate. injection I as <-. cbn. lia.
Qed.
(** Every voice that does not ask for the width (the sample has one channel) advances the
    envelope twice in each block: once for itself, once for the frequency of the LFO. *)
Theorem C59_advanced_twice_refuted :
  ranked Z ex2_M ex2_queries 0 ex2_rs ex2_rt /\ In 0%nat (sourcesForRegion Z ex2_M 0) /\
  option_map (fun e => gens Z 0 e) (ex2_block 9 ex2_empty []) = Some 2%nat.
Proof. split; [exact ex2_ranked|]. split; [vm_compute; auto|reflexivity]. Qed.
(** With the LFO registered first, or when the width is asked for, it is advanced once. *)
Definition ex3_ops : list (op Z) :=
  [ RegSource Z ex2_lfo; RegTarget Z ex2_width; Connect Z 0 0 50 noKey 3;
    RegSource Z ex2_eg; RegTarget Z ex2_freq; Connect Z 1 1 2 noKey 0 ]%Z.
Definition ex3_queries (s : nat) : list (option nat) :=
  if Nat.eqb s 0 then [None; Some 1; None]%nat else [].
Example C59_ex :
  option_map (fun e => gens Z 0 e) (ex2_block 9 ex2_empty [1]%nat) = Some 1%nat /\
  option_map (fun e => (gens Z 0 e, gens Z 1 e))
    (voiceBlock Z 0%Z 1%Z Z.add Z.mul (Z.eqb 1) (run Z ex3_ops) ex3_queries (fun s => ex2_gen (1 - s)) 0%Z 100%Z 9 ex2_empty [])
  = Some (1, 1)%nat.
Proof. split; reflexivity. Qed.
Lemma Z_semi_ring : semi_ring_theory 0%Z 1%Z Z.add Z.mul eq.
Proof. constructor; intros; ring. Qed.
(** The width at the third frame: (50 + 100 * 3) * (10 + 2 * 3). *)
Example C60_ex :
  exists SV TV, signals Z 0%Z 1%Z Z.add Z.mul ex2_M ex2_queries ex2_gen 0%Z 100%Z SV TV /\
    option_map (fun e => option_map (fun p => e_tbuf Z (fst p) 1%nat 3%nat)
       (getModulation Z 0%Z 1%Z Z.add Z.mul (Z.eqb 1) ex2_M ex2_queries ex2_gen 0%Z 100%Z 9 e (Some 1%nat)))
      (requests Z 0%Z 1%Z Z.add Z.mul (Z.eqb 1) ex2_M ex2_queries ex2_gen 0%Z 100%Z 9
         (beginVoice Z ex2_M 0%Z ex2_empty) []) = Some (Some 5600%Z).
Proof.
  destruct (C60_signals_exist Z 0%Z 1%Z Z.add Z.mul ex2_M ex2_queries ex2_gen) with (region := 0%Z) (trigger := 100%Z)
    (rs := ex2_rs) (rt := ex2_rt) as (SV & TV & H).
  - intros s a b F i. unfold ex2_gen. destruct (Nat.eqb s 1); [|reflexivity].
    destruct F as [|a1 b1 a' b' _ F]; [reflexivity|]. destruct F as [|a2 b2 a'' b'' X F]; [reflexivity|].
    destruct F as [|a3 b3 a3' b3' _ F].
    + destruct a2, b2; reflexivity.
    + destruct F; destruct a2, b2; cbn in X; try contradiction; try reflexivity. now rewrite X.
  - exact ex2_ranked.
  - exists SV, TV. split; [exact H|]. reflexivity.
Qed.
(** Two sources whose depths modulate each other: evaluation still ends. *)
Definition ex4_ops : list (op Z) :=
  [ RegSource Z ex2_lfo; RegTarget Z ex2_freq; Connect Z 0 0 2 ex2_width 1;
    Connect Z 0 1 2 ex2_freq 1 ]%Z.
Example C28_ex :
  map (fun g => map (fun c => c_modId Z (snd c)) (t_conns Z g)) (m_targets Z (run Z ex4_ops)) = [[Some 1]; [Some 0]]%nat /\
  option_map (fun e => (comps Z 0 e, comps Z 1 e))
    (voiceBlock Z 0%Z 1%Z Z.add Z.mul (Z.eqb 1) (run Z ex4_ops) ex2_queries ex2_gen 0%Z 100%Z 3 ex2_empty [0; 1; 0]%nat)
  = Some (1, 1)%nat.
Proof. split; reflexivity. Qed.
