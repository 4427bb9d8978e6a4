(** C101: chains of effects on a bus, clearing, and what linked channels, distortion in place and the width effect do. *)
From Coq Require Import List Arith Bool Lia ZArith QArith.
Import ListNotations.
Require Import Verif.EffectsModel Verif.Effects Verif.EffectBlocks.
Local Open Scope nat_scope.

Section Bus.
  Context {X : world}.
  Notation V := (w_V X).
  Notation eff := (@effect X).
  Implicit Types m : @store X.

  (** ** Specification *)
  Definition notDisto (e : eff) : Prop := match e with EDisto _ => False | _ => True end.
  (** No linked channels; a distortion only at the start of the chain. *)
  Definition chainOk (es : list eff) : Prop := Forall unlinked es /\ Forall notDisto (tl es).

  Fixpoint chainL (es : list eff) (l r : list V) : list eff * (list V * list V) :=
    match es with
    | [] => ([], (l, r))
    | e :: es' => let '(e', (a, b)) := lists e l r in let '(es'', o) := chainL es' a b in (e' :: es'', o)
    end.

  Lemma lists_length : forall e (l r : list V), length l = length r ->
    length (fst (snd (lists e l r))) = length l /\ length (snd (snd (lists e l r))) = length l.
  Proof.
    intros e l r H. pose (m := fun b i => nth i (if b =? 0 then l else r) (w_zero X)).
    assert (B0 : block m 0 (length l) = l).
    { apply nth_ext with (d := w_zero X) (d' := w_zero X); [ apply block_length | ]. intros i Hi. rewrite block_length in Hi. rewrite block_nth by auto. reflexivity. }
    assert (B1 : block m 1 (length l) = r).
    { apply nth_ext with (d := w_zero X) (d' := w_zero X); [ rewrite block_length; auto | ]. intros i Hi. rewrite block_length in Hi. rewrite block_nth by auto. reflexivity. }
    assert (A : allowed e 0 1 2 3) by (split; [ split; lia | destruct e; auto; lia ]).
    destruct (process_lists e 0 1 2 3 (length l) m A) as [_ [_ P]]. rewrite B0, B1 in P. exact P.
  Qed.
  Ltac pairs := repeat match goal with |- context [let '(_, _) := ?p in _] => destruct p end.
  Lemma dynL_link : forall (e : @dyn X) l r, dy_link (fst (dynL e l r)) = dy_link e.
  Proof.
    intros. unfold dynL. destruct (upBlock _ _ l). destruct (upBlock _ _ r).
    match goal with |- context [if dy_link e then ?a else ?b] => destruct (if dy_link e then a else b) as [[[? ?] ?] ?] end.
    destruct (downBlock _ _ (dy_down0 e) _). destruct (downBlock _ _ (dy_down1 e) _). reflexivity.
  Qed.
  Lemma lists_kind : forall e (l r : list V), (unlinked e -> unlinked (fst (lists e l r))) /\ (notDisto e -> notDisto (fst (lists e l r))).
  Proof.
    intros e l r. destruct e; cbn [lists];
      try (pose proof (dynL_link e l r) as D; destruct (dynL e l r); cbn [fst unlinked notDisto] in *; rewrite D; auto; fail).
    all: unfold apanL, limiterL, stringsL; pairs; cbn [fst unlinked notDisto]; auto.
  Qed.
  Lemma busRest_lists : forall es n m, Forall notDisto es ->
    fst (busRest es n m) = fst (chainL es (block m 2 n) (block m 3 n)) /\
    block (snd (busRest es n m)) 2 n = fst (snd (chainL es (block m 2 n) (block m 3 n))) /\
    block (snd (busRest es n m)) 3 n = snd (snd (chainL es (block m 2 n) (block m 3 n))).
  Proof.
    induction es as [|e es IH]; intros n m H; cbn [busRest chainL]; [ auto | ]. inversion H; subst.
    assert (A : allowed e 2 3 2 3) by (split; [ split; lia | destruct e; auto; contradiction ]).
    destruct (process_lists e 2 3 2 3 n m A) as [P _]. destruct (lists_len e 2 3 2 3 n m A) as [C D].
    destruct (process e 2 3 2 3 n m) as [e' m1]. destruct (lists e (block m 2 n) (block m 3 n)) as [e'' [a b]]. cbn [fst snd] in *. subst e''.
    specialize (IH n m1 H3). rewrite C, D in IH. destruct (busRest es n m1) as [r m2]. destruct (chainL es a b) as [r' o].
    cbn [fst snd] in *. destruct IH as [-> IH]. auto.
  Qed.
  Lemma busProcess_lists : forall es n m, es <> [] -> chainOk es ->
    fst (busProcess true es n m) = fst (chainL es (block m 0 n) (block m 1 n)) /\
    block (snd (busProcess true es n m)) 2 n = fst (snd (chainL es (block m 0 n) (block m 1 n))) /\
    block (snd (busProcess true es n m)) 3 n = snd (snd (chainL es (block m 0 n) (block m 1 n))).
  Proof.
    intros [|e es] n m Hne [U T]; [ congruence | ]. cbn [tl] in T. cbn [busProcess chainL].
    assert (A : allowed e 0 1 2 3) by (split; [ split; lia | destruct e; auto; lia ]).
    destruct (process_lists e 0 1 2 3 n m A) as [P _]. destruct (lists_len e 0 1 2 3 n m A) as [C D].
    destruct (process e 0 1 2 3 n m) as [e' m1]. destruct (lists e (block m 0 n) (block m 1 n)) as [e'' [a b]]. cbn [fst snd] in *. subst e''.
    pose proof (busRest_lists es n m1 T) as IH. rewrite C, D in IH. destruct (busRest es n m1) as [r m2]. destruct (chainL es a b) as [r' o].
    cbn [fst snd] in *. destruct IH as [-> IH]. auto.
  Qed.
  Lemma chain_app : forall es l1 r1 l2 r2 es1 a1 b1 es2 a2 b2, Forall unlinked es -> length l1 = length r1 -> length l2 = length r2 ->
    chainL es l1 r1 = (es1, (a1, b1)) -> chainL es1 l2 r2 = (es2, (a2, b2)) -> chainL es (l1 ++ l2) (r1 ++ r2) = (es2, (a1 ++ a2, b1 ++ b2)).
  Proof.
    induction es as [|e es IH]; intros l1 r1 l2 r2 es1 a1 b1 es2 a2 b2 U L1 L2 H1 H2; cbn [chainL] in *.
    - inversion H1; subst. cbn [chainL] in H2. inversion H2; subst. reflexivity.
    - inversion U; subst. pose proof (lists_length e l1 r1 L1) as [Q0 Q1]. destruct (lists e l1 r1) as [e1 [x y]] eqn:E1.
      destruct (chainL es x y) as [es1' o] eqn:E2. inversion H1; subst. cbn [chainL] in H2. cbn [fst snd] in *.
      pose proof (lists_length e1 l2 r2 L2) as [R0 R1]. destruct (lists e1 l2 r2) as [e2 [x' y']] eqn:F1. cbn [fst snd] in *.
      destruct (chainL es1' x' y') as [es2' o'] eqn:F2. inversion H2; subst.
      rewrite (lists_app e _ _ _ _ _ _ _ _ _ _ H3 L1 L2 E1 F1). rewrite (IH x y x' y' _ _ _ _ _ _ H4 ltac:(congruence) ltac:(congruence) E2 F2). reflexivity.
  Qed.
  Lemma chain_kind : forall es (l r : list V), (chainOk es -> chainOk (fst (chainL es l r))) /\ length (fst (chainL es l r)) = length es.
  Proof.
    intros es.
    assert (G : forall es (l r : list V), (Forall unlinked es -> Forall unlinked (fst (chainL es l r))) /\ (Forall notDisto es -> Forall notDisto (fst (chainL es l r))) /\
                length (fst (chainL es l r)) = length es).
    { clear es. induction es as [|e es IH]; intros l r; cbn [chainL]; [ auto | ].
      destruct (lists_kind e l r) as [K1 K2]. destruct (lists e l r) as [e' [a b]]. destruct (IH a b) as [I1 [I2 I3]].
      destruct (chainL es a b) as [es' o]. cbn [fst] in *. repeat split; intros; try (inversion H; subst; constructor; auto). cbn [length]. congruence. }
    intros l r. split; [ | apply G ]. intros [U T]. split; [ apply G; auto | ]. destruct es as [|e es]; [ exact T | ]. cbn [chainL tl] in *.
    destruct (lists e l r) as [e' [a b]]. destruct (G es a b) as [_ [G2 _]]. destruct (chainL es a b) as [es' o]. cbn [fst tl] in *. auto.
  Qed.

  (** A bus that is heard: the same sound in one block or in two gives the same outputs and the same effects afterwards. *)
  Theorem C101_bus : forall audible es n1 n2 m m1 m2, chainOk es ->
    (forall i, i < n1 -> m 0 i = m1 0 i /\ m 1 i = m1 1 i) ->
    (forall i, i < n2 -> m 0 (n1 + i) = m2 0 i /\ m 1 (n1 + i) = m2 1 i) ->
    let r := busProcess audible es (n1 + n2) m in
    let r1 := busProcess audible es n1 m1 in
    let r2 := busProcess audible (fst r1) n2 m2 in
    fst r = fst r2 /\
    (forall i, i < n1 -> snd r 2 i = snd r1 2 i /\ snd r 3 i = snd r1 3 i) /\
    (forall i, i < n2 -> snd r 2 (n1 + i) = snd r2 2 i /\ snd r 3 (n1 + i) = snd r2 3 i).
  Proof.
    intros audible es n1 n2 m m1 m2 Hok H1 H2.
    destruct (audible && negb (match es with [] => true | _ => false end)) eqn:Ea.
    - apply andb_prop in Ea. destruct Ea as [-> Ee]. assert (Hne : es <> []) by (destruct es; congruence || discriminate).
      intros r r1 r2.
      assert (B0 : block m 0 (n1 + n2) = block m1 0 n1 ++ block m2 0 n2) by (apply block_cut; intros; [ apply H1 | apply H2 ]; auto).
      assert (B1 : block m 1 (n1 + n2) = block m1 1 n1 ++ block m2 1 n2) by (apply block_cut; intros; [ apply H1 | apply H2 ]; auto).
      destruct (busProcess_lists es (n1 + n2) m Hne Hok) as [A [C D]]. destruct (busProcess_lists es n1 m1 Hne Hok) as [A1 [C1 D1]].
      destruct (chain_kind es (block m1 0 n1) (block m1 1 n1)) as [K1 K2]. specialize (K1 Hok).
      destruct (chainL es (block m1 0 n1) (block m1 1 n1)) as [es1 [a1 b1]] eqn:E1. cbn [fst snd] in *.
      assert (Hne1 : es1 <> []) by (intros ->; destruct es; [ congruence | discriminate ]).
      fold r in A, C, D. fold r1 in A1, C1, D1.
      unfold r2 in *. rewrite A1 in *. destruct (busProcess_lists es1 n2 m2 Hne1 K1) as [A2 [C2 D2]].
      destruct (chainL es1 (block m2 0 n2) (block m2 1 n2)) as [es2 [a2 b2]] eqn:E2. cbn [fst snd] in *.
      rewrite B0, B1, (chain_app es _ _ _ _ es1 a1 b1 es2 a2 b2 (proj1 Hok)) in * by (rewrite ?block_length; auto). cbn [fst snd] in *.
      split; [ congruence | ]. rewrite <- C1, <- C2 in C. rewrite <- D1, <- D2 in D.
      apply block_join in C, D. destruct C as [Ca Cb], D as [Da Db]. auto.
    - assert (E : forall n m, busProcess audible es n m = (es, nothingProcess 0 1 2 3 n m)).
      { intros. destruct es, audible; cbn [busProcess]; auto; discriminate. }
      rewrite !E. cbn [fst snd]. rewrite E. cbn [fst snd].
      destruct (C101_split (@ENothing X) n1 n2 m m1 m2 0 1 2 3) as [_ [Q1 Q2]]; auto; try (split; [ split; lia | exact Logic.I ]); try exact Logic.I.
  Qed.

  (** ** Clearing *)
  (** After clear an effect is what it was after an earlier clear, whatever it processed in between. *)
  Theorem C101_clear : forall e i0 i1 o0 o1 n m, allowed e i0 i1 o0 o1 -> forgets e ->
    clear (fst (process e i0 i1 o0 o1 n m)) = clear e /\ clear (clear e) = clear e.
  Proof.
    intros e i0 i1 o0 o1 n m H F. split.
    - destruct (process_lists e i0 i1 o0 o1 n m H) as [A _]. rewrite A. clear A.
      destruct e as [|g|c1 c2|s|s|s|s|s|s|s|p s]; cbn [lists forgets] in *; try contradiction; auto.
      + unfold apanL. destruct (run _ _ _). reflexivity.
      + pairs. reflexivity.
      + pairs. reflexivity.
      + assert (K : forall c l, dchanClear (fst (distoC s c l)) = dchanClear c).
        { intros c l. unfold distoC. destruct (run _ _ l) as [? ?]. destruct (up8 _ _ _ _) as [[[? ?] ?] l2].
          destruct (distoStages _ _ _ l2) as [st l3] eqn:E. apply distoStages_length in E. destruct E as [_ E].
          destruct (down8 _ _ _ _ _) as [[[? ?] ?] ?]. cbn [fst]. unfold dchanClear. f_equal. cbn [dc_stages].
          revert E. generalize (dc_stages c). clear. induction st as [|x st IH]; intros [|y k]; cbn [length map]; intros; try discriminate; auto. f_equal. auto. }
        pose proof (K (dt_0 s) (block m i0 n)) as K0. pose proof (K (dt_1 s) (block m i1 n)) as K1.
        destruct (distoC s (dt_0 s) (block m i0 n)) as [x0 a]. destruct (distoC s (dt_1 s) (block m i1 n)) as [x1 b]. cbn [fst clear] in *.
        cbn [dt_pole dt_depth dt_dry dt_wet dt_stages dt_0 dt_1]. rewrite K0, K1. reflexivity.
      + unfold stringsL. destruct (resonate _ _ _) as [ss out] eqn:E. cbn [fst clear]. cbn [sg_wet sg_mix sg_strings]. do 2 f_equal.
        revert E. generalize (repeat (w_zero X) (length (block m i0 n))). revert ss out. generalize (sg_strings s).
        match goal with |- context [resonate _ ?x _] => generalize x end. intros inp l.
        induction l as [|[p t] l IH]; intros ss out o E; cbn [resonate] in E; [ inversion E; reflexivity | ].
        destruct (run _ t _) as [t' q]. destruct (resonate l _ _) as [r' o'] eqn:E2. inversion E; subst. cbn [map]. f_equal. eapply IH; eauto.
      + pairs. reflexivity.
    - destruct e; cbn [clear]; auto.
      + unfold dchanClear. cbn [dt_pole dt_depth dt_dry dt_wet dt_stages dt_0 dt_1 dc_stages]. rewrite !map_map. reflexivity.
      + cbn [sg_wet sg_mix sg_strings]. do 2 f_equal. rewrite map_map. apply map_ext. intros []. reflexivity.
  Qed.

  (** ** Linked channels *)
  (** With linked channels the right channel is heard by the gain only in the first frame of each block: two sounds that differ on the
      right from the second frame on get the same gains, and so the same left output. *)
  Theorem C101_linked_deaf : forall d i0 i1 o0 o1 n m m', apart i0 i1 o0 o1 -> dy_link d = true ->
    (forall i, i < n -> m i0 i = m' i0 i) -> (0 < n -> m i1 0 = m' i1 0) ->
    dy_c0 (fst (dynProcess d i0 i1 o0 o1 n m)) = dy_c0 (fst (dynProcess d i0 i1 o0 o1 n m')) /\
    dy_c1 (fst (dynProcess d i0 i1 o0 o1 n m)) = dy_c1 d /\
    forall i, i < n -> snd (dynProcess d i0 i1 o0 o1 n m) o0 i = snd (dynProcess d i0 i1 o0 o1 n m') o0 i.
  Proof.
    intros d i0 i1 o0 o1 n m m' [Ho Hi] Hl H0 H1. unfold dynProcess. rewrite Hl.
    assert (B0 : block m i0 n = block m' i0 n) by (apply block_ext; auto). rewrite B0.
    destruct (upBlock (w_cs2 X) (dy_up0 d) (block m' i0 n)) as [u0 lft] eqn:E0.
    assert (N : nth 1 (map (fun x => w_mul X x (dy_in d)) (snd (upBlock (w_cs2 X) (dy_up1 d) (block m i1 n)))) (w_zero X) =
                nth 1 (map (fun x => w_mul X x (dy_in d)) (snd (upBlock (w_cs2 X) (dy_up1 d) (block m' i1 n)))) (w_zero X)).
    { destruct n as [|n]; [ reflexivity | ]. unfold block. cbn [seq map upBlock]. rewrite H1 by lia.
      destruct (upSample (w_cs2 X) (dy_up1 d) (m' i1 0)) as [q [x y]]. destruct (upBlock _ q (map (m i1) _)), (upBlock _ q (map (m' i1) _)). reflexivity. }
    destruct (upBlock (w_cs2 X) (dy_up1 d) (block m i1 n)) as [u1 r] eqn:E1. destruct (upBlock (w_cs2 X) (dy_up1 d) (block m' i1 n)) as [u1' r'] eqn:E1'.
    cbn [snd] in N. rewrite N.
    destruct (run _ (dy_c0 d) _) as [k0 g] eqn:Eg.
    destruct (downBlock n (w_cs2 X) (dy_down0 d) _) as [d0 a] eqn:Ea. destruct (downBlock n (w_cs2 X) (dy_down1 d) _) as [d1 b].
    apply upBlock_length in E0. rewrite block_length in E0. apply run_length' in Eg. rewrite !map_length in Eg.
    apply downBlock_length in Ea; [ | rewrite zipWith_length; rewrite map_length; lia ].
    destruct (downBlock n (w_cs2 X) (dy_down1 d) _) as [d1' b']. cbn [fst snd dy_c0 dy_c1]. repeat split.
    intros i Hin. unfold put. destruct (Nat.eqb_spec o0 o1); [ congruence | ]. rewrite Nat.eqb_refl.
    apply nth_indep. lia.
  Qed.

  (** ** Distortion in place *)
  Definition withWet (w : V) (e : @disto X) : disto := Disto (dt_pole e) (dt_depth e) (dt_dry e) w (dt_stages e) (dt_0 e) (dt_1 e).
  Definition distoIn (e : @disto X) (c : dchan) (l : list V) : dchan * list V :=
    let '(lpf, l1) := run (fun mem x => let y := w_add X (w_mul X (w_mul X x (dt_dry e)) (w_sub X (w_one X) (dt_pole e))) (w_mul X mem (dt_pole e)) in (y, y))
                       (dc_lpf c) l in
    let '(u2, u4, u8, l2) := up8 (dc_up2 c) (dc_up4 c) (dc_up8 c) l1 in
    let '(st, l3) := distoStages (dt_stages e) (dt_depth e) (dc_stages c) l2 in
    let '(d8, d4, d2, l4) := down8 (length l) (dc_down8 c) (dc_down4 c) (dc_down2 c) l3 in (DChan lpf u2 u4 u8 st d8 d4 d2, l4).
  Lemma chan_disto_in : forall e, (forall d w, w_add X (w_mul X d w) (w_mul X d (w_sub X (w_one X) w)) = d) ->
    chan (fun src dst => src = dst) (fun src dst n c m => distoChannel e c src dst n m) (distoIn e).
  Proof.
    intros e law src dst n c m ->. unfold distoChannel, distoIn.
    match goal with |- context [pass ?f dst dst n (dc_lpf c) m] => destruct (pass_spec _ f dst dst n (dc_lpf c) m) as [A B];
      pose proof (run_length _ _ _ f (block m dst n) (dc_lpf c)) as L; destruct (pass f dst dst n (dc_lpf c) m) as [lpf m1];
      destruct (run f (dc_lpf c) (block m dst n)) as [lpf' l1] end.
    cbn [fst snd] in *. subst lpf'. rewrite block_length in *.
    rewrite (eqm_block _ _ dst n B), put_same by auto.
    destruct (up8 (dc_up2 c) (dc_up4 c) (dc_up8 c) l1) as [[[u2 u4] u8] l2] eqn:E2. apply up8_length in E2.
    destruct (distoStages (dt_stages e) (dt_depth e) (dc_stages c) l2) as [st l3] eqn:E3. apply distoStages_length in E3. destruct E3 as [E3 _].
    destruct (down8 n (dc_down8 c) (dc_down4 c) (dc_down2 c) l3) as [[[d8 d4] d2] l4] eqn:E4. apply down8_length in E4; [ | lia ].
    cbn [fst snd]. split; [ reflexivity | split; auto ].
    intros b i. rewrite (loop_mix (fun x y => w_add X (w_mul X x (dt_wet e)) (w_mul X y (w_sub X (w_one X) (dt_wet e)))) dst dst n (put m1 dst l4) b i).
    rewrite put_same by auto.
    assert (Z : forall l : list V, zipWith (fun x y => w_add X (w_mul X x (dt_wet e)) (w_mul X y (w_sub X (w_one X) (dt_wet e)))) l l = l).
    { induction l; cbn [zipWith]; auto. rewrite law. congruence. }
    rewrite Z, put_put by auto. rewrite (eqm_put _ _ _ _ B). apply put_put. lia.
  Qed.
  (** In exact arithmetic a distortion that works in place gives the same sound for every setting of disto_wet. *)
  Theorem C101_disto_wet_lost : (forall d w, w_add X (w_mul X d w) (w_mul X d (w_sub X (w_one X) w)) = d) ->
    forall e w i0 i1 n m, i0 <> i1 ->
    eqm (snd (distoProcess e i0 i1 i0 i1 n m)) (snd (distoProcess (withWet w e) i0 i1 i0 i1 n m)).
  Proof.
    intros law e w i0 i1 n m Hi.
    destruct (two _ _ _ _ i0 i1 i0 i1 n (dt_0 e) (dt_1 e) m (chan_disto_in e law) eq_refl eq_refl (fun h => Hi (eq_sym h))) as [_ [_ [H _]]].
    destruct (two _ _ _ _ i0 i1 i0 i1 n (dt_0 e) (dt_1 e) m (chan_disto_in (withWet w e) law) eq_refl eq_refl (fun h => Hi (eq_sym h))) as [_ [_ [K _]]].
    change (distoIn (withWet w e)) with (distoIn e) in K.
    assert (E : forall e' : disto, snd (distoProcess e' i0 i1 i0 i1 n m) = snd (distoChannel e' (dt_1 e') i1 i1 n (snd (distoChannel e' (dt_0 e') i0 i0 n m)))).
    { intros e'. unfold distoProcess. destruct (distoChannel e' (dt_0 e') i0 i0 n m) as [? m1]. cbn [snd].
      destruct (distoChannel e' (dt_1 e') i1 i1 n m1). reflexivity. }
    rewrite !E. intros b i. rewrite H. symmetry. apply K.
  Qed.
End Bus.

(** ** Witnesses in rational numbers; the coefficients of the code *)
Local Open Scope Q_scope.
Definition coefs2 : list Q := map (fun n => n # 1000000000000000000)
  [36681502163648017; 136547624631957715; 274631759379454110; 423138617436566666; 561098697879194752; 677540049974161618;
   769741833863226588; 839889624849638028; 892260818003878908; 931541959963183896; 962094548378083947; 987816370732897076]%Z.
Definition coefs4 : list Q := map (fun n => n # 1000000000000000000) [41893991997656171; 168903482439952013; 390560772921165922; 743895748268478152]%Z.
Definition coefs8 : list Q := map (fun n => n # 1000000000000000000) [55748680811302048; 243051195741530918; 646699131192682297]%Z.
(** In the cases below shorter filters stand for them, so that the checker can follow the arithmetic. *)
Definition short2 : list Q := [1 # 4; 1 # 2].
Definition short1 : list Q := [1 # 2].
(** A gain of one half above one half; stages, strings and reverb that pass what they get. *)
Definition QW : world := {|
  w_V := Q; w_add := fun a b => Qred (a + b); w_sub := fun a b => Qred (a - b); w_mul := fun a b => Qred (a * b);
  w_abs := fun a => if Qle_bool 0 a then a else Qred (- a);
  w_zero := 0; w_one := 1; w_half := 1 # 2; w_eqb := Qeq_bool; w_gt1 := fun a => negb (Qle_bool a 1);
  w_frac := fun a => Qred (a - inject_Z (Z.quot (Qnum a) (Zpos (Qden a))));
  w_cs2 := short2; w_cs4 := short1; w_cs8 := short1;
  w_DS := unit; w_ds0 := tt; w_disto := fun _ s x => (s, x);
  w_RP := unit; w_RS := Q; w_rs0 := 0; w_string := fun _ s x => (Qred ((s + x) / 2), s);
  w_CP := unit; w_CS := unit; w_c0 := tt; w_gain := fun _ s x => (s, if Qle_bool x (1 # 2) then 1 else 1 # 2);
  w_LS := unit; w_l0 := tt; w_limit := fun s x => (s, x);
  w_FP := unit; w_FS := Q * Q; w_f0 := (0, 0); w_reverb := fun _ s x => (x, (Qred (fst x + snd s), Qred (snd x + fst s))) |}.
Definition dyn0 (link : bool) : @dyn QW :=
  @Dyn QW tt link (1 : Q) tt tt (@hclear QW short2) (@hclear QW short2) (@hclear QW short2) (@hclear QW short2).
(** Buffers 0 and 1 hold the given lists, all others silence. *)
Definition given (l r : list Q) : @store QW := fun b i => match b with 0%nat => nth i l 0 | 1%nat => nth i r 0 | _ => 0 end.

(** A loud sound in the second frame of the right channel lowers the left one if a block starts there and not otherwise. *)
Theorem C101_split_refuted : exists (e : @effect QW) n1 n2 m m1 m2,
  allowed e 0 1 2 3 /\ clear e = e /\
  (forall i, (i < n1)%nat -> m 0%nat i = m1 0%nat i /\ m 1%nat i = m1 1%nat i) /\
  (forall i, (i < n2)%nat -> m 0%nat (n1 + i)%nat = m2 0%nat i /\ m 1%nat (n1 + i)%nat = m2 1%nat i) /\
  ~ snd (process e 0 1 2 3 (n1 + n2) m) 2%nat n1 == snd (process (fst (process e 0 1 2 3 n1 m1)) 0 1 2 3 n2 m2) 2%nat 0%nat.
Proof.
  exists (EDyn (dyn0 true)), 1%nat, 1%nat, (given [1 # 4; 1 # 4] [0; 100]), (given [1 # 4] [0]), (given [1 # 4] [100]).
  split; [ split; [ split; lia | exact Logic.I ] | ]. split; [ reflexivity | ].
  split; [ intros [|i] Hi; [ split; reflexivity | lia ] | ]. split; [ intros [|i] Hi; [ split; reflexivity | lia ] | ].
  vm_compute. discriminate.
Qed.

(** A compressor after clear still puts out what it got before: its up- and downsamplers are not cleared. *)
Theorem C101_clear_refuted : exists (e : @effect QW) m,
  allowed e 0 1 2 3 /\ clear e = e /\
  snd (process e 0 1 2 3 1 (given [0] [0])) 2%nat 0%nat == 0 /\
  ~ snd (process (clear (fst (process e 0 1 2 3 1 m))) 0 1 2 3 1 (given [0] [0])) 2%nat 0%nat == 0.
Proof.
  exists (EDyn (dyn0 false)), (given [1] [1]).
  split; [ split; [ split; lia | exact Logic.I ] | ]. split; [ reflexivity | ]. split; vm_compute; [ reflexivity | discriminate ].
Qed.

Definition chan0 : @dchan QW :=
  @DChan QW (0 : Q) (@hclear QW short2) (@hclear QW short1) (@hclear QW short1) [tt] (@hclear QW short1) (@hclear QW short1) (@hclear QW short2).
Definition disto0 (wet : Q) : @disto QW := @Disto QW (1 # 2) (0 : Q) (1 : Q) wet 1 chan0 chan0.
(** A distortion without wet sound passes its input when it is first on the bus; after a gain of 1 it does not. *)
Theorem C101_disto_refuted : exists m,
  snd (busProcess (X := QW) true [EDisto (disto0 0)] 1 m) 2%nat 0%nat == m 0%nat 0%nat /\
  ~ snd (busProcess (X := QW) true [@EGain QW (1 : Q); EDisto (disto0 0)] 1 m) 2%nat 0%nat == m 0%nat 0%nat.
Proof. exists (given [1] [1]). split; vm_compute; [ reflexivity | discriminate ]. Qed.
(** Integers have the law of [C101_disto_wet_lost]. *)
Example C101_law_ex : forall d w : Z, (d * w + d * (1 - w) = d)%Z.
Proof. intros. lia. Qed.

(** Every width that can be written between -100 and 100 gives nearly mono; only no width gives the full width. *)
Theorem C101_width_refuted : (forall v, -100 <= v -> v <= 100 -> 99 # 200 <= widthOf (Some v) /\ widthOf (Some v) <= 101 # 200) /\ widthOf None == 1.
Proof.
  split; [ | vm_compute; reflexivity ]. intros v H1 H2. unfold widthOf.
  assert (A : 99 # 200 <= (v / 100 + 100) * (5 # 1000)).
  { apply Qle_trans with ((-100 / 100 + 100) * (5 # 1000)); [ vm_compute; discriminate | ].
    apply Qmult_le_compat_r; [ | discriminate ]. apply Qplus_le_compat; [ | apply Qle_refl ]. apply Qmult_le_compat_r; [ auto | discriminate ]. }
  assert (B : (v / 100 + 100) * (5 # 1000) <= 101 # 200).
  { apply Qle_trans with ((100 / 100 + 100) * (5 # 1000)); [ | vm_compute; discriminate ].
    apply Qmult_le_compat_r; [ | discriminate ]. apply Qplus_le_compat; [ | apply Qle_refl ]. apply Qmult_le_compat_r; [ auto | discriminate ]. }
  destruct (Qle_bool _ 0) eqn:E0; [ apply Qle_bool_iff in E0; exfalso; apply (Qlt_not_le 0 (99 # 200)); [ reflexivity | eapply Qle_trans; eauto ] | ].
  destruct (Qle_bool _ 1) eqn:E1; [ auto | ]. exfalso.
  assert (H : (v / 100 + 100) * (5 # 1000) <= 1) by (eapply Qle_trans; [ exact B | discriminate ]). apply Qle_bool_iff in H. congruence.
Qed.

(** A chain that [C101_bus] is about, and what it puts out. *)
Definition chainEx : list (@effect QW) :=
  [EDisto (disto0 (1 # 2)); @EApan QW (@Apan QW (1 # 4) (1 # 2) (fun p => p) (1 : Q) (1 : Q) (0 : Q) (0 : Q));
   @EStrings QW (@Strings QW (1 : Q) (1 # 2) [(tt, 0 : Q); (tt, 1 : Q)]);
   @ELofi QW (@Lofi QW None None (@bitredClear QW) (@decimClear QW) (@bitredClear QW) (@decimClear QW));
   @EFverb QW tt ((0 : Q), (0 : Q)); @EWidth QW (1 # 4) (3 # 4)].
Example C101_bus_ex : chainOk chainEx /\ ~ snd (busProcess true chainEx 1 (given [1] [0])) 2%nat 0%nat == 1 /\
  fst (busProcess true chainEx 1 (given [1] [0])) <> chainEx.
Proof.
  split; [ | split ].
  - split; repeat constructor.
  - vm_compute. discriminate.
  - intros H. assert (K : match fst (busProcess true chainEx 1 (given [1] [0])) with EDisto d :: _ => dc_lpf (dt_0 d) | _ => 0 end == 0) by (rewrite H; reflexivity).
    vm_compute in K. discriminate.
Qed.
Example C101_clear_ex : clear (EDisto (disto0 0)) = EDisto (disto0 0) /\ fst (process (EDisto (disto0 0)) 0 1 2 3 1 (given [1] [1])) <> EDisto (disto0 0).
Proof.
  split; [ reflexivity | ]. intros H.
  assert (K : match fst (process (EDisto (disto0 0)) 0 1 2 3 1 (given [1] [1])) with EDisto d => dc_lpf (dt_0 d) | _ => 0 end == 0) by (rewrite H; reflexivity).
  vm_compute in K. discriminate.
Qed.
(** Two sounds that [C101_linked_deaf] is about: the outputs on the left agree though the right channel of the second frame differs. *)
Example C101_linked_ex : given [1; 1] [0; 0] 1%nat 1%nat <> given [1; 1] [0; 9] 1%nat 1%nat /\
  snd (process (EDyn (dyn0 true)) 0 1 2 3 2 (given [1; 1] [0; 0])) 2%nat 1%nat = snd (process (EDyn (dyn0 true)) 0 1 2 3 2 (given [1; 1] [0; 9])) 2%nat 1%nat.
Proof. split; [ discriminate | ]. vm_compute. reflexivity. Qed.
