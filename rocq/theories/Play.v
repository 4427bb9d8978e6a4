(** The reading position of a voice: inside the sample (C40), and independent of the blocks (C41). *)
From Coq Require Import ZArith QArith Qround Lqa List Bool Lia.
Import ListNotations.
From Verif Require Import PlayModel.
Local Open Scope Z_scope.

(** ** Loops *)
Record lo_ok (lo : loopInfo) : Prop := {
  lo_order : 0 <= lo_start lo <= lo_end lo; lo_size_eq : lo_size lo = lo_end lo + 1 - lo_start lo;
  lo_xf : 0 <= lo_xfSize lo <= lo_start lo; lo_out_eq : lo_xfOut lo = lo_end lo + 1 - lo_xfSize lo; lo_in_eq : lo_xfIn lo = lo_start lo - lo_xfSize lo }.
Lemma loopOf_ok regionEnd start end_ xf : 0 <= regionEnd -> 0 <= xf -> lo_ok (loopOf regionEnd start end_ xf) /\ lo_end (loopOf regionEnd start end_ xf) <= regionEnd.
Proof. intros R X. unfold loopOf, clampEnd, clampZ. split; [constructor|]; cbn [lo_start lo_end lo_size lo_xfSize lo_xfOut lo_xfIn]; lia. Qed.
Lemma subtractions_spec lo (Ho : lo_ok lo) : forall fuel w, w - lo_end lo <= Z.of_nat fuel ->
  0 <= subtractions lo fuel w /\ w - lo_size lo * subtractions lo fuel w <= lo_end lo /\
  (w <= lo_end lo -> subtractions lo fuel w = 0) /\ (lo_end lo < w -> lo_start lo <= w - lo_size lo * subtractions lo fuel w).
Proof.
  destruct Ho. induction fuel as [|fuel IH]; intros w F; cbn [subtractions]; [lia|]. destruct (Z.ltb_spec (lo_end lo) w) as [L|L]; [|lia].
  destruct (IH (w - lo_size lo)) as (I1 & I2 & I3 & I4); [lia|]. repeat split; [lia|lia|lia|]. intros _.
  destruct (Z_le_gt_dec (w - lo_size lo) (lo_end lo)) as [G|G]; [rewrite (I3 G); lia|lia].
Qed.
Lemma wraps_spec lo w : lo_ok lo -> 0 <= wraps lo w /\ w - lo_size lo * wraps lo w <= lo_end lo /\
  (w <= lo_end lo -> wraps lo w = 0) /\ (lo_end lo < w -> lo_start lo <= w - lo_size lo * wraps lo w).
Proof. intros Ho. apply subtractions_spec; [exact Ho|lia]. Qed.
(** The number of subtractions is the only one that ends in the loop. *)
Lemma wraps_unique lo w n : lo_ok lo -> 0 <= n -> w - lo_size lo * n <= lo_end lo -> (n = 0 \/ lo_start lo <= w - lo_size lo * n) -> wraps lo w = n.
Proof.
  intros Ho N L S. pose proof (wraps_spec lo w Ho) as (W1 & W2 & W3 & W4). pose proof (lo_size_eq _ Ho). pose proof (lo_order _ Ho). destruct (Z_le_gt_dec w (lo_end lo)) as [G|G].
  - specialize (W3 G). nia.
  - specialize (W4 ltac:(lia)). destruct S as [->|S]; nia.
Qed.

(** ** Raw positions *)
Lemma Qfloor_nonneg q : (0 <= q)%Q -> 0 <= Qfloor q.
Proof. intros H. apply (Qfloor_resp_le 0) in H. exact H. Qed.
Lemma limit_le a b : (a <= b)%Q -> (limit a <= limit b)%Q.
Proof.
  intros H. unfold limit. destruct (Qle_bool a maxJump) eqn:A, (Qle_bool b maxJump) eqn:B; try lra.
  - now apply Qle_bool_iff in A.
  - apply Qle_bool_iff in B. apply not_true_iff_false in A. elim A. apply Qle_bool_iff. lra.
Qed.
Lemma limit_nonneg a : (0 <= a)%Q -> (0 <= limit a)%Q.
Proof. intros H. apply (limit_le 0) in H. exact H. Qed.
(** Positions do not go back, and the first is not before the start. *)
Inductive rising : Z -> list (Z * Q) -> Prop :=
| R_nil m : rising m []
| R_cons m r c l : m <= r -> rising r l -> rising m ((r, c) :: l).
Lemma rising_weak m m' l : m' <= m -> rising m l -> rising m' l.
Proof. intros L R. inversion R; subst; constructor; [lia|assumption]. Qed.
Lemma raws_rising pos : forall jumps a, (0 <= a)%Q -> Forall (fun j => 0 <= j)%Q jumps -> rising (pos + Qfloor (limit a)) (raws pos a jumps).
Proof.
  induction jumps as [|j js IH]; intros a A F; [constructor|]. inversion F; subst. cbn [raws]. constructor.
  - apply Z.add_le_mono_l. apply Qfloor_resp_le. apply limit_le. lra.
  - apply IH; [lra|assumption].
Qed.
Lemma firstJump_nonneg young jumps : Forall (fun j => 0 <= j)%Q jumps -> Forall (fun j => 0 <= j)%Q (firstJump young jumps).
Proof. intros F. destruct F; [constructor|]. cbn. constructor; [destruct young; [lra|assumption]|assumption]. Qed.
Lemma raws_coeff pos : forall jumps a, Forall (fun rc => 0 <= snd rc < 1)%Q (raws pos a jumps).
Proof.
  induction jumps as [|j js IH]; intros a; [constructor|]. cbn [raws]. constructor; [|apply IH]. cbn [snd]. rewrite Qred_correct.
  pose proof (Qfloor_le (limit (a + j))). pose proof (Qlt_floor (limit (a + j))) as H1. rewrite inject_Z_plus in H1. change (inject_Z 1) with 1%Q in H1. split; lra.
Qed.

(** ** C40 *)
Section Block.
Variable p : params.
Let lo := p_loop p.
Let mainOk (w : Z) : Prop := -1 <= w < p_frames p.
Let fadeOk (w : Z) : Prop := -1 <= w - (lo_xfOut lo - lo_xfIn lo) < p_frames p.
Definition ptOk (pt : bool * list Z) : Prop := Forall (fun w => mainOk w /\ (fst pt = true -> fadeOk w)) (snd pt).
Fixpoint chain (fades : bool) (l : list frame) : Prop := match l with [] => True | f :: l => (f_starts f = true \/ f_fades f = fades) /\ chain (f_fades f) l end.
Definition lastFades (fades : bool) (l : list frame) : bool := match rev l with [] => fades | f :: _ => f_fades f end.
Lemma lastFades_cons fades f l : lastFades fades (f :: l) = lastFades (f_fades f) l.
Proof. unfold lastFades. cbn [rev]. destruct (rev l); reflexivity. Qed.
Lemma groups_ok rest : forall l fades cur, chain fades l ->
  Forall (fun w => mainOk w /\ (fades = true -> fadeOk w)) cur -> Forall (fun f => mainOk (f_index f) /\ (f_fades f = true -> fadeOk (f_index f))) l ->
  Forall (fun w => mainOk w /\ (lastFades fades l = true -> fadeOk w)) rest -> Forall ptOk (groups fades cur l rest).
Proof.
  induction l as [|f l IH]; intros fades cur C Fc Fl Fr; cbn [groups].
  - constructor; [|constructor]. apply Forall_app. split; [now apply Forall_rev|exact Fr].
  - cbn [chain] in C. destruct C as [C1 C2]. inversion Fl as [|? ? Hf Fl']; subst. rewrite lastFades_cons in Fr. destruct (f_starts f) eqn:Es.
    + constructor; [now apply Forall_rev|]. apply IH; auto.
    + destruct C1 as [C1|C1]; [discriminate|]. rewrite <- C1. apply IH; auto. constructor; [exact Hf|]. rewrite C1. exact Fc.
Qed.
Lemma dropNegative_in x l : In x (dropNegative l) -> In x l.
Proof. induction l as [|y l IH]; [auto|]. cbn [dropNegative]. destruct (y <? 0); [right; auto|auto]. Qed.
Lemma parts_reads pts : Forall ptOk pts -> Forall mainOk (List.concat (map (partReads lo) pts)).
Proof.
  induction 1 as [|pt pts H F IH]; [constructor|]. cbn [map List.concat]. apply Forall_app. split; [|exact IH]. unfold ptOk in H. unfold partReads. apply Forall_app. split.
  - eapply Forall_impl; [|exact H]. now intros w [].
  - destruct (fst pt); [|constructor]. rewrite Forall_forall in *. intros x Hx. apply dropNegative_in in Hx. apply in_map_iff in Hx. destruct Hx as (w & <- & Hw). exact (proj2 (H w Hw) eq_refl).
Qed.
Hypothesis Ho : lo_ok lo.
Hypothesis Hend : lo_end lo < p_frames p.
(** What the loop produces: every index is at most the end of the loop, and before its start only if no restart
    happened. *)
Definition frameOk (m : Z) (f : frame) : Prop := Z.min m (lo_start lo) <= f_index f <= lo_end lo /\ f_fades f = xfading lo (f_index f).
Lemma loopFrames_ok count : forall l first br restarts old fades m frs br' re' rest,
  rising (m + lo_size lo * br) l -> m <= lo_end lo -> 0 <= br ->
  loopFrames lo count first l br restarts old fades = (frs, br', re', rest) ->
  Forall (frameOk m) frs /\ (first = true \/ chain fades frs) /\
  (count = None -> rest = []) /\ br <= br' /\
  match rev frs with [] => rest = [] | f :: _ => rising (f_index f + lo_size lo * br') rest end.
Proof.
  induction l as [|[r c] l IH]; intros first br restarts old fades m frs br' re' rest R M B E; cbn [loopFrames] in E.
  - injection E as <- <- <- <-. repeat split; auto; [right; exact Logic.I|lia].
  - inversion R as [|? ? ? ? Rm Rl]; subst. pose proof (wraps_spec lo (r - lo_size lo * br) Ho) as (W1 & W2 & W3 & W4). set (n := wraps lo (r - lo_size lo * br)) in *. clearbody n.
    remember (r - lo_size lo * br - lo_size lo * n) as w eqn:Ew. pose proof (lo_size_eq _ Ho) as Sz. pose proof (lo_order _ Ho) as So.
    assert (Z.min m (lo_start lo) <= w <= lo_end lo) as Hw. { split; [|lia]. destruct (Z_le_gt_dec (r - lo_size lo * br) (lo_end lo)) as [G|G]; [rewrite (W3 G) in *; lia|]. specialize (W4 ltac:(lia)). lia. }
    set (fr := Frame w c (xfading lo w) (first || (w <? old) || negb (Bool.eqb (xfading lo w) fades))) in *. assert (frameOk m fr) as Hf by (split; [exact Hw|reflexivity]).
    assert (first = true \/ (f_starts fr = true \/ f_fades fr = fades)) as Hs.
    { subst fr. cbn [f_starts f_fades]. destruct first; [now left|right]. destruct (Bool.eqb (xfading lo w) fades) eqn:Eb; [right; now apply eqb_prop|left; cbn [negb]; apply orb_true_r]. }
    destruct ((w <? old) && reached count (restarts + n)) eqn:Eb.
    + injection E as <- <- <- <-. split; [auto|]. split; [destruct Hs; [now left|right; cbn; auto]|]. split; [intros ->; cbn [reached] in Eb; rewrite andb_false_r in Eb; discriminate|]. split; [lia|].
      cbn [rev app]. eapply rising_weak; [|exact Rl]. subst fr. cbn [f_index]. lia.
    + destruct (loopFrames lo count false l (br + n) (restarts + n) w (xfading lo w)) as [[[frs1 br1] re1] rest1] eqn:El. injection E as <- <- <- <-.
      apply (IH _ _ _ _ _ w) in El; [|eapply rising_weak; [|exact Rl]; lia|lia|lia]. destruct El as (F1 & C1 & N1 & B1 & L1).
      split; [constructor; [exact Hf|]; eapply Forall_impl; [|exact F1]; intros f [Q1 Q2]; split; [lia|exact Q2]|].
      split; [destruct Hs as [Hs|Hs]; [now left|right; cbn [chain]; split; [exact Hs|]; destruct C1 as [C1|C1]; [discriminate|exact C1]]|]. split; [exact N1|]. split; [lia|].
      cbn [rev]. destruct (rev frs1) as [|f t] eqn:Er; cbn [app]; [subst rest1; constructor|exact L1].
Qed.
Lemma tailFrames_ok last shift : forall l m, rising m l -> Forall (fun ic => (m - shift <= fst ic < last) \/ fst ic = last) (tailFrames last shift l).
Proof.
  induction l as [|[r c] l IH]; intros m R; [constructor|]. inversion R as [|? ? ? ? Rm Rl]; subst. cbn [tailFrames]. destruct (Z.leb_spec last (r - shift)) as [L|L].
  - apply Forall_forall. intros x Hx. apply in_map_iff in Hx. destruct Hx as (y & <- & _). right. reflexivity.
  - constructor; [left; cbn [fst]; lia|]. eapply Forall_impl; [|apply (IH r Rl)]. intros a [H|H]; [left; lia|now right].
Qed.
Lemma fading_start w : w <= lo_end lo -> xfading lo w = true -> 1 <= lo_start lo /\ lo_start lo - lo_xfSize lo <= w - (lo_xfOut lo - lo_xfIn lo).
Proof.
  intros L X. unfold xfading in X. apply andb_true_iff in X. destruct X as [X1 X2]. apply Z.leb_le in X1, X2. destruct Ho. lia.
Qed.
End Block.

(** States a voice can be in: the position is not negative, except that it may be just before a sample of no frames. *)
Definition safe (s : vstate) : Prop := -1 <= s_pos s /\ (0 <= s_frac s)%Q.
Lemma last_forall {A} (P : A -> Prop) d : forall l, P d -> Forall P l -> P (last l d).
Proof. induction l as [|x l IH]; intros D F; [exact D|]. inversion F; subst. destruct l; [assumption|]. apply IH; assumption. Qed.
Lemma shotFrames_ok p : (p_sampleCount p = None \/ p_loops p = true) -> 0 <= p_sampleEnd p -> 0 <= p_infoEnd p -> 1 <= p_frames p ->
  forall l i count fs count' off m, rising m l -> -1 <= m -> shotFrames p l i 0 count = (fs, count', off) ->
  Forall (fun ic => -1 <= fst ic <= lastIndex p) fs /\ count' = count /\ length fs = length l.
Proof.
  intros Hc Se Ie Fr. induction l as [|[r c] l IH]; intros i count fs count' off m R M E; cbn [shotFrames] in E.
  - injection E as <- <- <-. auto.
  - inversion R as [|? ? ? ? Rm Rl]; subst. replace (r - p_sampleSize p * 0) with r in E by lia. destruct (Z.leb_spec (lastIndex p) r) as [L|L].
    + replace (match p_sampleCount p with Some n => count <? n | None => false end && negb (p_loops p)) with false in E by (destruct Hc as [-> | ->]; cbn; [reflexivity|now rewrite andb_false_r]).
      injection E as <- <- <-. split; [|split; [reflexivity|cbn [map length]; now rewrite map_length]]. apply Forall_forall. intros x Hx. assert (x = (lastIndex p, almostOne)) as -> by (destruct Hx as [<-|Hx]; [reflexivity|]; apply in_map_iff in Hx; destruct Hx as (y & <- & _); reflexivity). cbn [fst]. unfold lastIndex. lia.
    + destruct (shotFrames p l (S i) 0 count) as [[fs1 c1] o1] eqn:E1. injection E as <- <- <-. destruct (IH _ _ _ _ _ r Rl ltac:(lia) E1) as (F & Ec & El). split; [constructor; [cbn [fst]; lia|exact F]|]. split; [exact Ec|]. cbn [length]. now rewrite El.
Qed.
(** Every index given to the interpolation is inside the sample or just before it, and the next state is safe again:
    for every block of a voice that loops or not, unless `count` restarts it, provided that the end of the sample is not
    before that of the loop when the loop count ends a loop with crossfade. *)
Theorem C40_reads p s young jumps : lo_ok (p_loop p) -> 0 <= p_sampleEnd p -> 0 <= p_infoEnd p -> 1 <= p_frames p ->
  (p_sampleCount p = None \/ p_loops p = true) -> (p_loopCount p = None \/ lo_xfSize (p_loop p) = 0 \/ lo_end (p_loop p) - 1 <= lastIndex p) ->
  safe s -> Forall (fun j => 0 <= j)%Q jumps ->
  Forall (fun r => -1 <= r < p_frames p) (reads p (fill p s young jumps)) /\ safe (o_state (fill p s young jumps)).
Proof.
  intros Ho Se Ie Fr Hc Hl [S1 S2] Fj. unfold fill.
  pose proof (raws_rising (s_pos s) _ (s_frac s) S2 (firstJump_nonneg young _ Fj)) as R. pose proof (raws_coeff (s_pos s) (firstJump young jumps) (s_frac s)) as Rc.
  pose proof (Qfloor_nonneg _ (limit_nonneg _ S2)) as Fl.
  destruct (raws (s_pos s) (s_frac s) (firstJump young jumps)) as [|rc l'] eqn:El; [split; [constructor|split; assumption]|]. rewrite <- El in *. clear El l' rc.
  remember (raws (s_pos s) (s_frac s) (firstJump young jumps)) as l eqn:El. clear El. destruct (shouldLoop p s) eqn:Sl.
  - unfold shouldLoop in Sl. apply andb_true_iff in Sl. destruct Sl as [Sl _]. apply andb_true_iff in Sl. destruct Sl as [Sl _]. apply Z.ltb_lt in Sl.
    assert (forall br restarts frs br' re' rest, loopFrames (p_loop p) (p_loopCount p) true l br restarts 0 false = (frs, br', re', rest) ->
      Forall (fun f => 0 <= f_coeff f)%Q frs /\ Forall (fun rc => 0 <= snd rc)%Q rest) as Co.
    { assert (forall l first br restarts old fades frs br' re' rest, Forall (fun rc => 0 <= snd rc < 1)%Q l ->
        loopFrames (p_loop p) (p_loopCount p) first l br restarts old fades = (frs, br', re', rest) -> Forall (fun f => 0 <= f_coeff f)%Q frs /\ Forall (fun rc => 0 <= snd rc)%Q rest) as G.
      { clear. induction l as [|[r c] l IH]; intros first br restarts old fades frs br' re' rest F E; cbn [loopFrames] in E; [injection E as <- <- <- <-; auto|].
        inversion F as [|? ? Hc0 F']; subst. cbn [snd] in Hc0. destruct (_ && reached _ _).
        - injection E as <- <- <- <-. split; [constructor; [cbn; lra|constructor]|]. eapply Forall_impl; [|exact F']. cbn. intros a [Ha _]. exact Ha.
        - destruct (loopFrames _ _ false l _ _ _ _) as [[[a b] d] e] eqn:El. injection E as <- <- <- <-. destruct (IH _ _ _ _ _ _ _ _ _ F' El). split; [constructor; [cbn; lra|assumption]|assumption]. }
      intros. eapply G; eassumption. }
    destruct (loopFrames (p_loop p) (p_loopCount p) true l 0 (s_restarts s) 0 false) as [[[frs br] re] rest] eqn:E. destruct (Co _ _ _ _ _ _ E) as [Co1 Co2]. clear Co.
    assert (exists m, rising (m + lo_size (p_loop p) * 0) l /\ m <= lo_end (p_loop p) /\ -1 <= m) as (m & Rm & Mm & M1).
    { exists (-1). destruct Ho. split; [|lia]. eapply rising_weak; [|exact R]. lia. }
    pose proof (loopFrames_ok p Ho (p_loopCount p) l true 0 (s_restarts s) 0 false m frs br re rest Rm Mm ltac:(lia) E) as (F1 & _ & N1 & B1 & L1).
    set (t := tailFrames (lastIndex p) (lo_size (p_loop p) * br) rest) in *.
    assert (lastIndex p < p_frames p /\ -1 <= lastIndex p) as Li by (unfold lastIndex; lia).
    assert (Forall (fun f => -1 <= f_index f < p_frames p /\ (f_fades f = true -> -1 <= f_index f - (lo_xfOut (p_loop p) - lo_xfIn (p_loop p)) < p_frames p)) frs) as Fm.
    { eapply Forall_impl; [|exact F1]. intros f [Q1 Q2]. pose proof (lo_order _ Ho). pose proof (lo_xf _ Ho). split; [lia|]. intros X. rewrite Q2 in X. pose proof (fading_start p Ho (f_index f) ltac:(lia) X). pose proof (lo_out_eq _ Ho). pose proof (lo_in_eq _ Ho). lia. }
    assert (Forall (fun ic => -1 <= fst ic < p_frames p) t) as Ft.
    { destruct (rev frs) as [|f0 fs0] eqn:Er.
      - subst rest. constructor.
      - eapply Forall_impl; [|exact (tailFrames_ok _ _ _ _ L1)]. intros [i c]. cbn [fst]. assert (In f0 frs) as If by (apply in_rev; rewrite Er; now left). rewrite Forall_forall in Fm. destruct (Fm _ If) as [Q1 _]. intros [Q|Q]; lia. }
    split.
    + unfold reads. cbn [o_parts]. apply parts_reads. unfold partitions. destruct frs as [|f frs']; [constructor|].
      assert (chain (f_fades f) frs') as Cf.
      { clear - E Ho Rm Mm. destruct l as [|[r c] l]; cbn [loopFrames] in E; [discriminate|]. destruct (_ && _) in E; [injection E as <- <- <- <- <-; exact Logic.I|].
        destruct (loopFrames (p_loop p) (p_loopCount p) false l _ _ _ _) as [[[a b] d] e] eqn:El. injection E as Ef Ea _ _ _. rewrite <- Ef, <- Ea. cbn [f_fades].
        inversion Rm as [|? ? ? ? Rm' Rl]; subst. pose proof (wraps_spec (p_loop p) (r - lo_size (p_loop p) * 0) Ho) as (W1 & W2 & W3 & W4).
        apply (loopFrames_ok p Ho _ _ _ _ _ _ _ (r - lo_size (p_loop p) * 0 - lo_size (p_loop p) * wraps (p_loop p) (r - lo_size (p_loop p) * 0))) in El; [|eapply rising_weak; [|exact Rl]; lia|lia|lia].
        destruct El as (_ & [C|C] & _); [discriminate|exact C]. }
      inversion Fm as [|? ? Hf Fm']; subst. apply groups_ok; [exact Cf|constructor; [exact Hf|constructor]|exact Fm'|].
      apply Forall_forall. intros w Hw. apply in_map_iff in Hw. destruct Hw as (ic & <- & Hic). rewrite Forall_forall in Ft. split; [exact (Ft _ Hic)|]. intros Lf.
      assert (exists f0, match rev (f :: frs') with [] => False | x :: _ => x = f0 end /\ f_fades f0 = true /\ In f0 (f :: frs')) as (f0 & E0 & X0 & I0).
      { rewrite <- lastFades_cons with (fades := false) in Lf. unfold lastFades in Lf. destruct (rev (f :: frs')) as [|x xs] eqn:Er; [discriminate|]. exists x. split; [reflexivity|]. split; [exact Lf|]. apply in_rev. rewrite Er. now left. }
      destruct (rev (f :: frs')) as [|x xs] eqn:Er; [contradiction|]. subst x. rewrite Forall_forall in F1. destruct (F1 _ I0) as [Q1 Q2]. rewrite X0 in Q2. symmetry in Q2.
      pose proof (fading_start p Ho (f_index f0) ltac:(lia) Q2) as [G1 G2]. pose proof (lo_out_eq _ Ho). pose proof (lo_in_eq _ Ho). pose proof (lo_xf _ Ho). pose proof (lo_order _ Ho). pose proof (lo_size_eq _ Ho).
      pose proof (tailFrames_ok (lastIndex p) (lo_size (p_loop p) * br) rest _ L1) as Tf. rewrite Forall_forall in Tf. destruct (Tf _ Hic) as [T|T]; [lia|].
      destruct Hl as [Hl|[Hl|Hl]]; [subst t; rewrite (N1 Hl) in Hic; destruct Hic| |lia]. unfold xfading in Q2. apply andb_true_iff in Q2. destruct Q2 as [_ Q2]. apply Z.leb_le in Q2. lia.
    + assert (Forall (fun ic => -1 <= fst ic /\ 0 <= snd ic)%Q (map (fun ic => (inject_Z (fst ic), snd ic)) (map (fun f => (f_index f, f_coeff f)) frs ++ t))) as Fs.
      { rewrite map_app. apply Forall_app. split.
        - rewrite map_map. apply Forall_map. rewrite Forall_forall in *. intros f Hf. cbn [fst snd]. split; [|now apply Co1]. change (-1)%Q with (inject_Z (-1)). rewrite <- Zle_Qle. apply (Fm f Hf).
        - apply Forall_map. assert (Forall (fun rc => 0 <= snd rc)%Q t) as Ct.
          { subst t. clear - Co2. generalize (lo_size (p_loop p) * br). intros sh. induction rest as [|[r c] rest IH]; [constructor|]. inversion Co2 as [|? ? Hc0 F']; subst. cbn [tailFrames]. destruct (_ <=? _).
            - apply Forall_map. apply Forall_forall. intros. cbn. unfold almostOne. lra.
            - constructor; [exact Hc0|apply IH; exact F']. }
          rewrite Forall_forall in *. intros ic Hic. cbn [fst snd]. split; [|now apply Ct]. change (-1)%Q with (inject_Z (-1)). rewrite <- Zle_Qle. apply (Ft _ Hic). }
      cbn [o_state]. unfold after. pose proof (last_forall (fun ic : Z * Q => -1 <= fst ic /\ (0 <= snd ic)%Q) (s_pos s, s_frac s) (map (fun f => (f_index f, f_coeff f)) frs ++ t) (conj S1 S2)) as Ls.
      destruct (last _ _) as [i c]. unfold safe. cbn [s_pos s_frac]. apply Ls. rewrite Forall_map in Fs. eapply Forall_impl; [|exact Fs]. cbn [fst snd]. intros [i0 c0] [Q1 Q2]. cbn [fst snd] in *. split; [|exact Q2]. change (-1)%Q with (inject_Z (-1)) in Q1. now rewrite <- Zle_Qle in Q1.
  - destruct (shotFrames p l 0 0 (s_count s)) as [[fs count] off] eqn:E.
    assert (rising (-1) l) as Rm by (eapply rising_weak; [|exact R]; lia).
    destruct (shotFrames_ok p Hc Se Ie Fr _ _ _ _ _ _ _ Rm ltac:(lia) E) as (F & _ & _). split.
    + unfold reads. cbn [o_parts map List.concat]. unfold partReads. cbn [snd fst]. rewrite app_nil_r, app_nil_r. apply Forall_map. eapply Forall_impl; [|exact F]. intros [i c]. cbn [fst]. unfold lastIndex. lia.
    + cbn [o_state]. unfold after. assert (Forall (fun rc => 0 <= snd rc)%Q fs) as Cs.
      { clear - E Rc Hc. revert fs count off E. generalize 0%nat. generalize (s_count s). induction Rc as [|[r c] l Hc0 Rc IH]; intros cnt i fs count off E; cbn [shotFrames] in E; [injection E as <- <- <-; constructor|].
        replace (r - p_sampleSize p * 0) with r in E by lia. cbn [snd] in Hc0. destruct (lastIndex p <=? r).
        - replace (match p_sampleCount p with Some n => cnt <? n | None => false end && negb (p_loops p)) with false in E by (destruct Hc as [-> | ->]; cbn; [reflexivity|now rewrite andb_false_r]).
          injection E as <- <- <-. apply (Forall_map (fun _ => (lastIndex p, almostOne)) (fun rc => 0 <= snd rc)%Q ((r, c) :: l)). apply Forall_forall. intros. cbn. unfold almostOne. lra.
        - destruct (shotFrames p l (S i) 0 cnt) as [[fs1 c1] o1] eqn:E1. injection E as <- <- <-. constructor; [cbn [snd]; lra|]. eapply IH. exact E1. }
      pose proof (last_forall (fun ic : Z * Q => -1 <= fst ic /\ (0 <= snd ic)%Q) (s_pos s, s_frac s) fs (conj S1 S2)) as Ls. destruct (last _ _) as [i c]. unfold safe. cbn [s_pos s_frac]. apply Ls.
      rewrite Forall_forall in *. intros ic Hic. split; [exact (proj1 (F _ Hic))|exact (Cs _ Hic)].
Qed.
(** Any interpolator of up to 72 points stays inside the padding of 64 frames on both sides. *)
Theorem C40_taps frames index points t : -1 <= index < frames -> 2 <= points <= 72 -> In t (taps points index) -> -64 <= t < frames + 64.
Proof.
  intros I P H. unfold taps in H. apply in_map_iff in H. destruct H as (i & <- & Hi). apply in_seq in Hi.
  pose proof (Z.div_mod points 2 ltac:(lia)). pose proof (Z.mod_pos_bound points 2 ltac:(lia)). lia.
Qed.
(** A run of a voice: any blocks, with parameters that may change from one to the next. *)
Record block := Block { b_params : params; b_young : bool; b_jumps : list Q }.
Definition blockOk (b : block) : Prop :=
  let p := b_params b in
  lo_ok (p_loop p) /\ 0 <= p_sampleEnd p /\ 0 <= p_infoEnd p /\ 1 <= p_frames p /\ (p_sampleCount p = None \/ p_loops p = true) /\
  (p_loopCount p = None \/ lo_xfSize (p_loop p) = 0 \/ lo_end (p_loop p) - 1 <= lastIndex p) /\ Forall (fun j => 0 <= j)%Q (b_jumps b).
Fixpoint run (s : vstate) (bs : list block) : list (params * filled) :=
  match bs with
  | [] => []
  | b :: bs => let o := fill (b_params b) s (b_young b) (b_jumps b) in (b_params b, o) :: run (o_state o) bs
  end.
Theorem C40_run : forall bs offset delay regionDelay, 0 <= offset -> Forall blockOk bs ->
  forall p o r points t, In (p, o) (run (v_state (startVoice offset delay regionDelay)) bs) -> In r (reads p o) -> 2 <= points <= 72 -> In t (taps points r) -> -64 <= t < p_frames p + 64.
Proof.
  intros bs offset delay regionDelay O F p o r points t Ho Hr P T. apply (C40_taps _ r points); [|exact P|exact T].
  assert (safe (v_state (startVoice offset delay regionDelay))) as S by (split; cbn; [lia|lra]). revert S Ho. generalize (v_state (startVoice offset delay regionDelay)).
  induction F as [|b bs (B1 & B2 & B3 & B4 & B5 & B6 & B7) F IH]; intros s S Ho; [destruct Ho|]. cbn [run] in Ho.
  destruct (C40_reads (b_params b) s (b_young b) (b_jumps b) B1 B2 B3 B4 B5 B6 S B7) as [R S']. destruct Ho as [E|Ho]; [|exact (IH _ S' Ho)]. injection E as <- <-. rewrite Forall_forall in R. now apply R.
Qed.

(** ** Positions of a loop without count *)
Definition wrapf (lo : loopInfo) (rc : Z * Q) : Z * Q := (fst rc - lo_size lo * wraps lo (fst rc), snd rc).
Lemma wraps_shift lo r br : lo_ok lo -> 0 <= br -> (br = 0 \/ lo_start lo <= r - lo_size lo * br) -> wraps lo r = br + wraps lo (r - lo_size lo * br).
Proof.
  intros Ho B H. pose proof (wraps_spec lo (r - lo_size lo * br) Ho) as (W1 & W2 & W3 & W4). apply wraps_unique; [exact Ho|lia|lia|].
  destruct (Z_le_gt_dec (r - lo_size lo * br) (lo_end lo)) as [G|G]; [rewrite (W3 G); destruct H; [now left; lia|right; lia]|right; specialize (W4 ltac:(lia)); lia].
Qed.
Lemma wraps_inv lo r br : lo_ok lo -> 0 <= br -> (br = 0 \/ lo_start lo <= r - lo_size lo * br) ->
  wraps lo r = 0 \/ lo_start lo <= r - lo_size lo * wraps lo r.
Proof.
  intros Ho B H. pose proof (wraps_spec lo r Ho) as (W1 & W2 & W3 & W4). destruct (Z_le_gt_dec r (lo_end lo)) as [G|G]; [left; auto|right; apply W4; lia].
Qed.
Lemma loopFrames_map lo (Ho : lo_ok lo) : forall l first br restarts old fades m,
  rising m l -> 0 <= br -> (br = 0 \/ lo_start lo <= m - lo_size lo * br) ->
  exists frs br' re', loopFrames lo None first l br restarts old fades = (frs, br', re', []) /\
    map (fun f => (f_index f, f_coeff f)) frs = map (wrapf lo) l /\ br' = (match rev l with [] => br | (r, _) :: _ => wraps lo r end) /\ re' = restarts + br' - br.
Proof.
  induction l as [|[r c] l IH]; intros first br restarts old fades m R B H; cbn [loopFrames].
  - exists [], br, restarts. repeat split. lia.
  - inversion R as [|? ? ? ? Rm Rl]; subst. assert (br = 0 \/ lo_start lo <= r - lo_size lo * br) as H' by (destruct H; [now left|right; lia]).
    pose proof (wraps_shift lo r br Ho B H') as Ws. pose proof (wraps_inv lo r br Ho B H') as Wi. pose proof (wraps_spec lo r Ho) as (W1 & _). cbn [reached]. rewrite andb_false_r.
    replace (br + wraps lo (r - lo_size lo * br)) with (wraps lo r) by lia.
    match goal with |- context [loopFrames lo None false l (wraps lo r) ?re ?o ?fd] => destruct (IH false (wraps lo r) re o fd r Rl W1 Wi) as (frs & br' & re' & E & Em & Eb & Er); rewrite E end.
    do 3 eexists. split; [reflexivity|]. cbn [map f_index f_coeff wrapf fst snd]. split; [|split].
    + rewrite Em. f_equal. unfold wrapf. cbn [fst snd]. f_equal. lia.
    + rewrite Eb. cbn [rev]. destruct (rev l) as [|[r1 c1] l1]; reflexivity.
    + lia.
Qed.
Lemma last_rev {A} (l : list A) d : last l d = match rev l with [] => d | x :: _ => x end.
Proof. induction l as [|x l IH] using rev_ind; [reflexivity|]. rewrite last_last, rev_app_distr. reflexivity. Qed.
Lemma fill_loop p s young jumps : lo_ok (p_loop p) -> p_loopCount p = None -> shouldLoop p s = true -> (0 <= s_frac s)%Q -> Forall (fun j => 0 <= j)%Q jumps ->
  let l := raws (s_pos s) (s_frac s) (firstJump young jumps) in
  o_frames (fill p s young jumps) = map (wrapf (p_loop p)) l /\ o_off (fill p s young jumps) = None /\
  o_state (fill p s young jumps) = match rev l with [] => s | (r, c) :: _ => VState (r - lo_size (p_loop p) * wraps (p_loop p) r) c (s_restarts s + wraps (p_loop p) r) (s_count s) end.
Proof.
  intros Ho Hn Sl Sf Fj l. unfold fill. fold l. pose proof (raws_rising (s_pos s) _ (s_frac s) Sf (firstJump_nonneg young _ Fj)) as R. fold l in R. clearbody l.
  destruct l as [|rc l']; [repeat split|]. rewrite Sl, Hn. remember (rc :: l') as l eqn:El.
  destruct (loopFrames_map (p_loop p) Ho l true 0 (s_restarts s) 0 false _ R ltac:(lia) (or_introl eq_refl)) as (frs & br & re & E & Em & Eb & Er). rewrite E. cbn [tailFrames o_frames o_off o_state].
  rewrite app_nil_r. split; [exact Em|]. split; [reflexivity|]. unfold after. rewrite Em, last_rev, <- map_rev. destruct (rev l) as [|[r c] l1] eqn:Erv; [apply (f_equal (@rev _)) in Erv; rewrite rev_involutive in Erv; cbn in Erv; congruence|].
  cbn [map wrapf fst snd]. unfold wrapf. cbn [fst snd]. f_equal. lia.
Qed.

(** ** Sums of jumps *)
Fixpoint qsum (l : list Q) : Q := match l with [] => 0 | x :: l => x + qsum l end.
Lemma qsum_nonneg l : Forall (fun j => 0 <= j)%Q l -> (0 <= qsum l)%Q.
Proof. induction 1; cbn [qsum]; lra. Qed.
Lemma limit_id a : (a <= maxJump)%Q -> limit a = a.
Proof. intros H. unfold limit. apply Qle_bool_iff in H. now rewrite H. Qed.
Lemma Qfloor_shift a k : Qfloor (a + inject_Z k) = Qfloor a + k.
Proof.
  pose proof (Qfloor_le a). pose proof (Qlt_floor a) as H1. rewrite inject_Z_plus in H1. pose proof (Qfloor_le (a + inject_Z k)) as H2. pose proof (Qlt_floor (a + inject_Z k)) as H3. rewrite inject_Z_plus in H3. change (inject_Z 1) with 1%Q in *.
  assert (Qfloor (a + inject_Z k) < Qfloor a + k + 1) as L1. { rewrite Zlt_Qlt, !inject_Z_plus. change (inject_Z 1) with 1%Q. lra. }
  assert (Qfloor a + k < Qfloor (a + inject_Z k) + 1) as L2. { rewrite Zlt_Qlt, !inject_Z_plus. change (inject_Z 1) with 1%Q. lra. }
  lia.
Qed.
Lemma raws_shift : forall js pos a b k, (a == b + inject_Z k)%Q -> 0 <= k -> Forall (fun j => 0 <= j)%Q js -> (a + qsum js <= maxJump)%Q ->
  raws pos a js = raws (pos + k) b js.
Proof.
  induction js as [|j js IH]; intros pos a b k E K F M; [reflexivity|]. inversion F; subst. cbn [raws qsum] in *. pose proof (qsum_nonneg _ H2) as Sn. assert (0 <= inject_Z k)%Q as Kq by (change 0%Q with (inject_Z 0); now rewrite <- Zle_Qle).
  rewrite (limit_id (a + j)), (limit_id (b + j)) by lra. assert (Qfloor (a + j) = Qfloor (b + j) + k) as Ef. { rewrite <- Qfloor_shift. apply Qfloor_comp. lra. }
  f_equal; [f_equal; [lia|apply Qred_complete; rewrite Ef, inject_Z_plus; lra]|]. apply IH; auto; lra.
Qed.
Lemma raws_ext : forall js pos a b, (a == b)%Q -> raws pos a js = raws pos b js.
Proof.
  induction js as [|j js IH]; intros pos a b E; [reflexivity|]. cbn [raws]. assert (limit (a + j) == limit (b + j))%Q as L.
  { unfold limit. assert (Qle_bool (a + j) maxJump = Qle_bool (b + j) maxJump) as -> by (apply eq_true_iff_eq; rewrite !Qle_bool_iff; lra). destruct (Qle_bool (b + j) maxJump); lra. }
  rewrite (Qfloor_comp _ _ L). f_equal; [f_equal; apply Qred_complete; lra|]. apply IH. lra.
Qed.
Lemma raws_app : forall b1 b2 pos a, raws pos a (b1 ++ b2) = raws pos a b1 ++ raws pos (a + qsum b1) b2.
Proof.
  induction b1 as [|j b1 IH]; intros b2 pos a; cbn [app raws qsum]; [apply raws_ext; lra|]. f_equal. rewrite IH. f_equal. apply raws_ext. lra.
Qed.
Lemma raws_last : forall b j pos a, (a + qsum (b ++ [j]) <= maxJump)%Q -> exists l A, raws pos a (b ++ [j]) = l ++ [(pos + Qfloor A, Qred (A - inject_Z (Qfloor A)))] /\ (A == a + qsum (b ++ [j]))%Q.
Proof.
  intros b j pos a M. rewrite raws_app. cbn [raws]. assert (qsum (b ++ [j]) == qsum b + j)%Q as Es. { clear. induction b as [|x b IH]; cbn [app qsum]; lra. }
  exists (raws pos a b), (a + qsum b + j)%Q. split; [rewrite limit_id by lra; reflexivity|lra].
Qed.
Lemma raws_move : forall js pos a d, raws (pos - d) a js = map (fun rc => (fst rc - d, snd rc)) (raws pos a js).
Proof. induction js as [|j js IH]; intros pos a d; [reflexivity|]. cbn [raws map fst snd]. rewrite IH. f_equal. f_equal. lia. Qed.
Lemma qsum_app a b : (qsum (a ++ b) == qsum a + qsum b)%Q.
Proof. induction a as [|x a IH]; cbn [app qsum]; lra. Qed.
Lemma rising_in m l rc : rising m l -> In rc l -> m <= fst rc.
Proof. induction 1 as [|m r c l L R IH]; intros H; [destruct H|]. destruct H as [<-|H]; [exact L|]. specialize (IH H). lia. Qed.
Lemma rev_app_last {A} (l : list A) x : rev (l ++ [x]) = x :: rev l. Proof. apply rev_app_distr. Qed.

(** ** C41 *)
(** A looping voice: two blocks are the same as one, position by position, and leave the same state. *)
Lemma firstJump_false l : firstJump false l = l. Proof. destruct l; reflexivity. Qed.
Theorem C41_loop p s b1 b2 : lo_ok (p_loop p) -> p_loopCount p = None -> shouldLoop p s = true -> (0 <= s_frac s)%Q -> Forall (fun j => 0 <= j)%Q (b1 ++ b2) ->
  (s_frac s + qsum (b1 ++ b2) <= maxJump)%Q ->
  let o1 := fill p s false b1 in let o2 := fill p (o_state o1) false b2 in
  o_frames (fill p s false (b1 ++ b2)) = o_frames o1 ++ o_frames o2 /\ o_state (fill p s false (b1 ++ b2)) = o_state o2.
Proof.
  intros Ho Hn Sl Sf Fj M o1 o2. pose proof Fj as Fj12. apply Forall_app in Fj. destruct Fj as [F1 F2].
  destruct (fill_loop p s false (b1 ++ b2) Ho Hn Sl Sf Fj12) as (E1 & _ & E2). destruct (fill_loop p s false b1 Ho Hn Sl Sf F1) as (E3 & _ & E4). fold o1 in E3, E4. rewrite firstJump_false in *.
  destruct b1 as [|j0 b0] using rev_ind; [subst o1 o2; cbn [app fill raws firstJump o_frames o_state]; split; reflexivity|]. clear IHb0.
  rewrite qsum_app in M. pose proof (qsum_nonneg _ F1) as Q1. pose proof (qsum_nonneg _ F2) as Q2.
  destruct (raws_last b0 j0 (s_pos s) (s_frac s) ltac:(lra)) as (l1 & A & El & EA). remember (s_pos s + Qfloor A) as r1 eqn:Er1. remember (Qred (A - inject_Z (Qfloor A))) as c1 eqn:Ec1.
  rewrite El in E4. rewrite rev_app_last in E4. set (n1 := wraps (p_loop p) r1) in *.
  assert (0 <= Qfloor A) as Fl by (apply Qfloor_nonneg; lra). assert (c1 == A - inject_Z (Qfloor A))%Q as Ec by (subst c1; apply Qred_correct).
  pose proof (Qfloor_le A) as Fa.
  assert (raws (s_pos s) (s_frac s) ((b0 ++ [j0]) ++ b2) = (l1 ++ [(r1, c1)]) ++ raws r1 c1 b2) as Er.
  { rewrite raws_app, El. f_equal. rewrite Er1. apply raws_shift; auto; lra. }
  assert (shouldLoop p (o_state o1) = true) as Sl1. { revert Sl. unfold shouldLoop. rewrite Hn. cbn [reached]. auto. }
  assert (0 <= s_frac (o_state o1))%Q as Sf1 by (rewrite E4; cbn [s_frac]; lra).
  destruct (fill_loop p (o_state o1) false b2 Ho Hn Sl1 Sf1 F2) as (E5 & _ & E6). fold o2 in E5, E6. rewrite firstJump_false in *. rewrite E4 in E5, E6 at 1. rewrite E4 in E6. cbn [s_pos s_frac s_restarts s_count] in E5, E6.
  rewrite raws_move in E5, E6. rewrite <- map_rev in E6. rewrite Er in E1, E2.
  assert (rising r1 (raws r1 c1 b2)) as Rr. { eapply rising_weak; [|apply raws_rising; [lra|exact F2]]. pose proof (Qfloor_nonneg _ (limit_nonneg c1 ltac:(lra))). lia. }
  pose proof (wraps_spec (p_loop p) r1 Ho) as (W1 & W2 & W3 & W4). fold n1 in W1, W2, W3, W4.
  assert (forall rc, In rc (raws r1 c1 b2) -> wraps (p_loop p) (fst rc) = n1 + wraps (p_loop p) (fst rc - lo_size (p_loop p) * n1)) as Wn.
  { intros rc Hrc. pose proof (rising_in _ _ _ Rr Hrc) as L. apply wraps_shift; [exact Ho|exact W1|]. destruct (Z_le_gt_dec r1 (lo_end (p_loop p))) as [G|G]; [left; auto|right; specialize (W4 ltac:(lia)); lia]. }
  split.
  - rewrite E1, map_app, E3, El, E5, map_map. f_equal. apply map_ext_in. intros rc Hrc. unfold wrapf. cbn [fst snd]. rewrite (Wn rc Hrc). f_equal. lia.
  - rewrite E2, E6, rev_app_distr, rev_app_last. destruct (rev (raws r1 c1 b2)) as [|[r c] l2] eqn:Erv; cbn [app map fst snd]; [reflexivity|].
    assert (In (r, c) (raws r1 c1 b2)) as Hrc by (apply in_rev; rewrite Erv; now left). pose proof (Wn _ Hrc) as W. cbn [fst] in W. rewrite W. f_equal; lia.
Qed.
(** So the positions do not depend on the division in blocks at all. *)
Fixpoint fillBlocks (p : params) (s : vstate) (bs : list (list Q)) : list (Z * Q) * vstate :=
  match bs with
  | [] => ([], s)
  | b :: bs => let o := fill p s false b in let (fs, s') := fillBlocks p (o_state o) bs in (o_frames o ++ fs, s')
  end.
Theorem C41_loop_blocks p : lo_ok (p_loop p) -> p_loopCount p = None -> forall bs s, shouldLoop p s = true -> (0 <= s_frac s)%Q ->
  Forall (fun j => 0 <= j)%Q (List.concat bs) -> (s_frac s + qsum (List.concat bs) <= maxJump)%Q ->
  fillBlocks p s bs = (o_frames (fill p s false (List.concat bs)), o_state (fill p s false (List.concat bs))).
Proof.
  intros Ho Hn. assert (forall bs s, shouldLoop p s = true -> (0 <= s_frac s < 1)%Q \/ (0 <= s_frac s)%Q -> Forall (fun j => 0 <= j)%Q (List.concat bs) -> (s_frac s + qsum (List.concat bs) <= maxJump)%Q ->
    fillBlocks p s bs = (o_frames (fill p s false (List.concat bs)), o_state (fill p s false (List.concat bs)))) as G; [|intros; apply G; auto].
  induction bs as [|b bs IH]; intros s Sl Sf F M; [reflexivity|]. cbn [List.concat fillBlocks] in *. assert (0 <= s_frac s)%Q as Sf0 by (destruct Sf; [lra|assumption]). clear Sf.
  destruct (C41_loop p s b (List.concat bs) Ho Hn Sl Sf0 F M) as [E1 E2]. apply Forall_app in F. destruct F as [F1 F2]. rewrite qsum_app in M. pose proof (qsum_nonneg _ F1) as Q1.
  assert (shouldLoop p (o_state (fill p s false b)) = true) as Sl1. { revert Sl. unfold shouldLoop. rewrite Hn. cbn [reached]. auto. }
  destruct (fill_loop p s false b Ho Hn Sl Sf0 F1) as (_ & _ & E4). rewrite firstJump_false in E4.
  assert (0 <= s_frac (o_state (fill p s false b)) /\ s_frac (o_state (fill p s false b)) <= s_frac s + qsum b)%Q as [S1 S2].
  { rewrite E4. destruct b as [|j0 b0] using rev_ind; [cbn [raws rev s_frac qsum]; lra|]. pose proof (qsum_nonneg _ F2) as Qn. destruct (raws_last b0 j0 (s_pos s) (s_frac s) ltac:(lra)) as (l1 & A & El & EA). rewrite El, rev_app_last. cbn [s_frac].
    rewrite Qred_correct. pose proof (Qfloor_le A). assert (0 <= inject_Z (Qfloor A))%Q by (change 0%Q with (inject_Z 0); rewrite <- Zle_Qle; apply Qfloor_nonneg; lra). split; lra. }
  rewrite (IH _ Sl1 (or_intror S1) F2 ltac:(lra)). rewrite E1, E2. reflexivity.
Qed.
(** The position itself: the start plus the jumps so far, less as many times the length of the loop as needed. *)
Theorem C41_value p s jumps n : lo_ok (p_loop p) -> p_loopCount p = None -> shouldLoop p s = true -> (0 <= s_frac s)%Q -> Forall (fun j => 0 <= j)%Q jumps ->
  (s_frac s + qsum jumps <= maxJump)%Q -> (n < length jumps)%nat ->
  exists i c k, nth_error (o_frames (fill p s false jumps)) n = Some (i, c) /\ (0 <= c < 1)%Q /\ 0 <= k /\
    (inject_Z i + c == inject_Z (s_pos s) + s_frac s + qsum (firstn (S n) jumps) - inject_Z (lo_size (p_loop p) * k))%Q /\
    i <= lo_end (p_loop p) /\ (k = 0 \/ lo_start (p_loop p) <= i).
Proof.
  intros Ho Hn Sl Sf F M L. destruct (fill_loop p s false jumps Ho Hn Sl Sf F) as (E1 & _). rewrite firstJump_false in E1. rewrite E1.
  assert (exists r c, nth_error (raws (s_pos s) (s_frac s) jumps) n = Some (r, c) /\ (0 <= c < 1)%Q /\ (inject_Z r + c == inject_Z (s_pos s) + s_frac s + qsum (firstn (S n) jumps))%Q) as (r & c & En & C & V).
  { clear - F M L Sf. revert n L F M Sf. generalize (s_frac s). generalize (s_pos s). induction jumps as [|j js IH]; intros pos a n L F M Sf; [cbn in L; lia|]. inversion F as [|? ? Hj F']; subst. cbn [qsum] in M. pose proof (qsum_nonneg _ F') as Q1. destruct n as [|n].
    - cbn [raws nth_error firstn qsum]. do 2 eexists. split; [reflexivity|]. rewrite Qred_correct, limit_id by lra. pose proof (Qfloor_le (a + j)). pose proof (Qlt_floor (a + j)) as H1. rewrite inject_Z_plus in H1. change (inject_Z 1) with 1%Q in H1. split; [split; lra|]. rewrite inject_Z_plus. lra.
    - cbn [length] in L. destruct (IH pos (a + j)%Q n) as (r & c & En & C & V); [lia|exact F'|lra|lra|]. exists r, c. split; [exact En|]. split; [exact C|]. rewrite V. change (firstn (S (S n)) (j :: js)) with (j :: firstn (S n) js). cbn [qsum]. lra. }
  pose proof (wraps_spec (p_loop p) r Ho) as (W1 & W2 & W3 & W4). exists (r - lo_size (p_loop p) * wraps (p_loop p) r), c, (wraps (p_loop p) r).
  split; [rewrite nth_error_map, En; reflexivity|]. split; [exact C|]. split; [exact W1|]. split; [unfold Z.sub; rewrite inject_Z_plus, inject_Z_opp; lra|]. split; [exact W2|].
  destruct (Z_le_gt_dec r (lo_end (p_loop p))) as [G|G]; [left; auto|right; apply W4; lia].
Qed.
(** ** One shots *)
Lemma shot_shift p d : forall l i br count, shotFrames p l i br count =
  let '(fs, c, off) := shotFrames p (map (fun rc => (fst rc - p_sampleSize p * d, snd rc)) l) i (br - d) count in (fs, c, off).
Proof.
  induction l as [|[r c] l IH]; intros i br count; [reflexivity|]. cbn [map shotFrames fst snd]. replace (r - p_sampleSize p * d - p_sampleSize p * (br - d)) with (r - p_sampleSize p * br) by lia.
  destruct (lastIndex p <=? r - p_sampleSize p * br).
  - destruct (_ && negb (p_loops p)); [|rewrite map_map; reflexivity]. rewrite (IH (S i) (br + 1) (count + 1)). replace (br + 1 - d) with (br - d + 1) by lia. destruct (shotFrames p _ (S i) (br - d + 1) (count + 1)) as [[a b] e]. reflexivity.
  - rewrite (IH (S i) br count). destruct (shotFrames p _ (S i) (br - d) count) as [[a b] e]. reflexivity.
Qed.
Lemma shot_index p : forall l i j br count, shotFrames p l (j + i) br count =
  let '(fs, c, off) := shotFrames p l i br count in (fs, c, option_map (Nat.add j) off).
Proof.
  induction l as [|[r c] l IH]; intros i j br count; [reflexivity|]. cbn [shotFrames]. destruct (_ <=? _).
  - destruct (_ && _); [|reflexivity]. replace (S (j + i)) with (j + S i)%nat by lia. rewrite IH. destruct (shotFrames p l (S i) (br + 1) (count + 1)) as [[a b] e]. reflexivity.
  - replace (S (j + i)) with (j + S i)%nat by lia. rewrite IH. destruct (shotFrames p l (S i) br count) as [[a b] e]. reflexivity.
Qed.
(** Whether a voice at its end is restarted. *)
Definition restartable (p : params) (count : Z) : bool := match p_sampleCount p with Some n => count <? n | None => false end && negb (p_loops p).
Lemma shot_app p : forall l1 l2 i br count,
  exists fs1 br1 count1 off1, shotFrames p l1 i br count = (fs1, count1, off1) /\
    match off1 with
    | Some o => shotFrames p (l1 ++ l2) i br count = (fs1 ++ map (fun _ => (lastIndex p, almostOne)) l2, count1, Some o) /\ restartable p count1 = false /\
        last fs1 (0, 0%Q) = (lastIndex p, almostOne) /\ l1 <> []
    | None => shotFrames p (l1 ++ l2) i br count = (let '(fs2, c2, o2) := shotFrames p l2 (i + length l1) br1 count1 in (fs1 ++ fs2, c2, o2)) /\
        (l1 <> [] -> exists r c, last l1 (0, 0%Q) = (r, c) /\ last fs1 (0, 0%Q) = (r - p_sampleSize p * br1, c)) /\ (l1 = [] -> br1 = br /\ count1 = count)
    end /\ length fs1 = length l1.
Proof.
  induction l1 as [|[r c] l1 IH]; intros l2 i br count.
  - exists [], br, count, None. split; [reflexivity|]. split; [|reflexivity]. split; [cbn [app length]; rewrite Nat.add_0_r; destruct (shotFrames p l2 i br count) as [[a b] e]; reflexivity|]. split; [congruence|auto].
  - cbn [shotFrames app]. destruct (lastIndex p <=? r - p_sampleSize p * br) eqn:El.
    + fold (restartable p count). destruct (restartable p count) eqn:Er.
      * destruct (IH l2 (S i) (br + 1) (count + 1)) as (fs1 & br1 & c1 & off1 & E & H & Ln). rewrite E. exists ((r - p_sampleSize p * br - p_sampleSize p, c) :: fs1), br1, c1, off1. split; [reflexivity|]. split; [|cbn [length]; now rewrite Ln].
        destruct off1 as [o|].
        -- destruct H as (H1 & H2 & H3 & H4). rewrite H1. split; [reflexivity|]. split; [exact H2|]. split; [|congruence]. destruct fs1 as [|f fs1]; [destruct l1; [congruence|discriminate]|exact H3].
        -- destruct H as (H1 & H2 & H3). rewrite H1. split; [replace (i + length ((r, c) :: l1))%nat with (S i + length l1)%nat by (cbn [length]; lia); destruct (shotFrames p l2 (S i + length l1) br1 c1) as [[a b] e]; reflexivity|].
           split; [|congruence]. intros _. destruct l1 as [|x l1].
           ++ destruct (H3 eq_refl) as [-> ->]. destruct fs1; [|discriminate]. exists r, c. split; [reflexivity|]. cbn [last]. f_equal. lia.
           ++ destruct fs1 as [|f fs1]; [discriminate|]. exact (H2 ltac:(congruence)).
      * exists (map (fun _ => (lastIndex p, almostOne)) ((r, c) :: l1)), br, count, (Some i). split; [reflexivity|]. split; [|now rewrite map_length]. split; [cbn [map app]; now rewrite map_app|]. split; [exact Er|]. split; [|congruence].
        clear. generalize (r, c). induction l1 as [|x l1 IH]; intros y; [reflexivity|]. exact (IH x).
    + destruct (IH l2 (S i) br count) as (fs1 & br1 & c1 & off1 & E & H & Ln). rewrite E. exists ((r - p_sampleSize p * br, c) :: fs1), br1, c1, off1. split; [reflexivity|]. split; [|cbn [length]; now rewrite Ln].
      destruct off1 as [o|].
      * destruct H as (H1 & H2 & H3 & H4). rewrite H1. split; [reflexivity|]. split; [exact H2|]. split; [|congruence]. destruct fs1 as [|f fs1]; [destruct l1; [congruence|discriminate]|exact H3].
      * destruct H as (H1 & H2 & H3). rewrite H1. split; [replace (i + length ((r, c) :: l1))%nat with (S i + length l1)%nat by (cbn [length]; lia); destruct (shotFrames p l2 (S i + length l1) br1 c1) as [[a b] e]; reflexivity|].
        split; [|congruence]. intros _. destruct l1 as [|x l1].
        -- destruct (H3 eq_refl) as [-> ->]. destruct fs1; [|discriminate]. exists r, c. split; reflexivity.
        -- destruct fs1 as [|f fs1]; [discriminate|]. exact (H2 ltac:(congruence)).
Qed.
Lemma last_default {A} (l : list A) d d' : l <> [] -> last l d = last l d'.
Proof. intros H. rewrite !last_rev. destruct (rev l) eqn:E; [|reflexivity]. apply (f_equal (@rev _)) in E. rewrite rev_involutive in E. contradiction. Qed.
Lemma after_restarts s fs r c : s_restarts (after s fs r c) = r. Proof. unfold after. destruct (last fs _). reflexivity. Qed.
Lemma shot_fill p s jumps : shouldLoop p s = false -> let l := raws (s_pos s) (s_frac s) jumps in
  forall fs c off, shotFrames p l 0 0 (s_count s) = (fs, c, off) ->
  o_frames (fill p s false jumps) = fs /\ o_off (fill p s false jumps) = off /\ o_state (fill p s false jumps) = match l with [] => s | _ => after s fs (s_restarts s) c end.
Proof.
  intros Sl l fs c off E. unfold fill. rewrite firstJump_false. fold l. clearbody l. destruct l as [|x l]; [cbn in E; injection E as <- <- <-; repeat split|]. rewrite Sl, E. repeat split.
Qed.
(** A voice that does not loop, restarted by `count` or not: two blocks are the same as one, and the voice goes off at
    the same frame. *)
Theorem C41_shot p s b1 b2 : shouldLoop p s = false -> (0 <= s_frac s)%Q -> Forall (fun j => 0 <= j)%Q (b1 ++ b2) -> (s_frac s + qsum (b1 ++ b2) <= maxJump)%Q ->
  let o := fill p s false (b1 ++ b2) in let o1 := fill p s false b1 in let o2 := fill p (o_state o1) false b2 in
  o_frames o = o_frames o1 ++ o_frames o2 /\ s_pos (o_state o) = s_pos (o_state o2) /\ s_frac (o_state o) = s_frac (o_state o2) /\ s_count (o_state o) = s_count (o_state o2) /\
  o_off o = match o_off o1 with Some i => Some i | None => option_map (Nat.add (length b1)) (o_off o2) end.
Proof.
  intros Sl Sf Fj M o o1 o2. pose proof Fj as Fj12. apply Forall_app in Fj. destruct Fj as [F1 F2]. rewrite qsum_app in M. pose proof (qsum_nonneg _ F1) as Q1. pose proof (qsum_nonneg _ F2) as Q2.
  assert (forall b pos a, length (raws pos a b) = length b) as Rl. { induction b as [|x b IH]; intros pos a; [reflexivity|]. cbn [raws length]. now rewrite IH. }
  destruct b1 as [|j0 b0] using rev_ind.
  { subst o o1 o2. cbn [app fill raws firstJump o_frames o_state o_off length]. repeat split. destruct (o_off (fill p s false b2)); reflexivity. }
  clear IHb0. destruct (raws_last b0 j0 (s_pos s) (s_frac s) ltac:(lra)) as (l1 & A & El & EA). remember (s_pos s + Qfloor A) as r1 eqn:Er1. remember (Qred (A - inject_Z (Qfloor A))) as c1 eqn:Ec1.
  assert (c1 == A - inject_Z (Qfloor A))%Q as Ec by (subst c1; apply Qred_correct). pose proof (Qfloor_le A) as Fa. assert (0 <= Qfloor A) as Fl by (apply Qfloor_nonneg; lra).
  assert (raws (s_pos s) (s_frac s) ((b0 ++ [j0]) ++ b2) = raws (s_pos s) (s_frac s) (b0 ++ [j0]) ++ raws r1 c1 b2) as Er.
  { rewrite raws_app. f_equal. rewrite Er1. apply raws_shift; auto; lra. }
  remember (raws (s_pos s) (s_frac s) (b0 ++ [j0])) as L1 eqn:EL1. assert (L1 <> []) as N1 by (rewrite El; now destruct l1). assert (last L1 (0, 0%Q) = (r1, c1)) as La by (rewrite El; apply last_last).
  assert (length L1 = length (b0 ++ [j0])) as Le by (rewrite EL1; apply Rl).
  destruct (shot_app p L1 (raws r1 c1 b2) 0 0 (s_count s)) as (fs1 & br1 & cnt1 & off1 & E1 & H & Ln).
  pose proof (shot_fill p s (b0 ++ [j0]) Sl) as S1. rewrite <- EL1 in S1. cbv zeta in S1. specialize (S1 _ _ _ E1). fold o1 in S1. destruct S1 as (S1f & S1o & S1s).
  assert (o_state o1 = after s fs1 (s_restarts s) cnt1) as S1s' by (rewrite S1s; destruct L1; [congruence|reflexivity]). clear S1s.
  assert (fs1 <> []) as Nf by (destruct fs1; [destruct L1; [congruence|discriminate]|congruence]).
  assert (shouldLoop p (o_state o1) = false) as Sl1. { revert Sl. rewrite S1s'. unfold shouldLoop. rewrite after_restarts. auto. }
  unfold after in S1s'. rewrite (last_default _ _ (0, 0%Q) Nf) in S1s'.
  pose proof (shot_fill p s ((b0 ++ [j0]) ++ b2) Sl) as S0. cbv zeta in S0. rewrite Er in S0.
  pose proof (shot_fill p (o_state o1) b2 Sl1) as S2. cbv zeta in S2. fold o in S0. fold o2 in S2.
  destruct off1 as [k|].
  - destruct H as (H1 & H2 & H3 & _). destruct (S0 _ _ _ H1) as (S0f & S0o & S0s). rewrite H3 in S1s'. rewrite S1s' in S2. cbn [s_pos s_frac s_count s_restarts] in S2.
    assert (o_state o = after s (fs1 ++ map (fun _ => (lastIndex p, almostOne)) (raws r1 c1 b2)) (s_restarts s) cnt1) as S0s' by (rewrite S0s; destruct L1; [congruence|reflexivity]). clear S0s.
    assert (last (fs1 ++ map (fun _ => (lastIndex p, almostOne)) (raws r1 c1 b2)) (s_pos s, s_frac s) = (lastIndex p, almostOne)) as Lz.
    { destruct (raws r1 c1 b2) as [|x l] using rev_ind; [cbn [map]; rewrite app_nil_r, (last_default _ _ (0, 0%Q) Nf); exact H3|]. rewrite map_app, app_assoc. cbn [map]. now rewrite last_last. }
    unfold after in S0s'. rewrite Lz in S0s'.
    assert (length (raws (lastIndex p) almostOne b2) = length (raws r1 c1 b2)) as Lr by now rewrite !Rl.
    assert (shotFrames p (raws (lastIndex p) almostOne b2) 0 0 cnt1 = (map (fun _ => (lastIndex p, almostOne)) (raws r1 c1 b2), cnt1, match b2 with [] => None | _ => Some 0%nat end)) as E2.
    { pose proof (raws_rising (lastIndex p) b2 almostOne ltac:(unfold almostOne; lra) F2) as R. change (Qfloor (limit almostOne)) with 0 in R.
      assert (forall (X Y : list (Z * Q)) (z : Z * Q), length X = length Y -> map (fun _ => z) X = map (fun _ => z) Y) as Mc. { induction X as [|x X IH]; intros [|y Y] z Lxy; try discriminate; [reflexivity|]. cbn [map]. f_equal. apply IH. now injection Lxy. }
      rewrite <- (Mc _ _ _ Lr). clear - R H2. destruct b2 as [|j b2]; [reflexivity|]. destruct (raws (lastIndex p) almostOne (j :: b2)) as [|[r c] l] eqn:Erw; [discriminate|]. inversion R; subst. cbn [shotFrames]. replace (r - p_sampleSize p * 0) with r by lia.
      destruct (Z.leb_spec (lastIndex p) r); [|lia]. fold (restartable p cnt1). rewrite H2. reflexivity. }
    destruct (S2 _ _ _ E2) as (S2f & S2o & S2s). rewrite S0f, S0o, S0s', S1f, S2f, S1o. split; [reflexivity|]. cbn [s_pos s_frac s_count]. rewrite S2s.
    destruct (raws (lastIndex p) almostOne b2) as [|y l] eqn:Erw; [cbn [s_pos s_frac s_count]; repeat split|]. unfold after. cbn [s_pos s_frac].
    assert (last (map (fun _ => (lastIndex p, almostOne)) (raws r1 c1 b2)) (lastIndex p, almostOne) = (lastIndex p, almostOne)) as ->.
    { destruct (raws r1 c1 b2) as [|x l2] using rev_ind; [reflexivity|]. rewrite map_app. cbn [map]. now rewrite last_last. }
    cbn [s_pos s_frac s_count]. repeat split.
  - destruct H as (H1 & H2 & _). destruct (H2 N1) as (r & c & H3 & H4). rewrite La in H3. injection H3 as <- <-. rewrite H4 in S1s'. rewrite S1s' in S2. cbn [s_pos s_frac s_count s_restarts] in S2. rewrite raws_move in S2.
    rewrite (shot_shift p br1 (raws r1 c1 b2)) in H1. rewrite Z.sub_diag in H1. replace (0 + length L1)%nat with (length L1 + 0)%nat in H1 by lia. rewrite shot_index in H1.
    destruct (shotFrames p (map (fun rc => (fst rc - p_sampleSize p * br1, snd rc)) (raws r1 c1 b2)) 0 0 cnt1) as [[fs2 cnt2] off2] eqn:E2. destruct (S2 _ _ _ eq_refl) as (S2f & S2o & S2s). destruct (S0 _ _ _ H1) as (S0f & S0o & S0s).
    assert (o_state o = after s (fs1 ++ fs2) (s_restarts s) cnt2) as S0s' by (rewrite S0s; destruct L1; [congruence|reflexivity]). clear S0s.
    rewrite S0f, S0o, S0s', S1f, S2f, S1o, S2o, Le. split; [reflexivity|]. destruct (raws r1 c1 b2) as [|y l] eqn:Erw.
    + cbn in E2. injection E2 as <- <- <-. rewrite S2s. cbn [map]. rewrite app_nil_r. unfold after. rewrite (last_default _ _ (0, 0%Q) Nf), H4. cbn [s_pos s_frac s_count]. repeat split.
    + rewrite S2s. cbn [map]. assert (fs2 <> []) as Nf2. { intros ->. cbn [map shotFrames] in E2. destruct (_ <=? _) in E2; [destruct (_ && _) in E2; [|discriminate]|]; destruct (shotFrames p _ 1 _ _) as [[? ?] ?] in E2; discriminate. }
      unfold after. rewrite !last_rev, rev_app_distr. destruct (rev fs2) as [|[i2 c2] t2] eqn:Erv; [apply (f_equal (@rev _)) in Erv; rewrite rev_involutive in Erv; cbn in Erv; contradiction|]. cbn [app s_pos s_frac s_count]. repeat split.
Qed.

(** ** The voice *)
(** Once a voice has an age, its blocks do not matter. *)
Theorem C41_voice p : lo_ok (p_loop p) -> p_loopCount p = None -> forall bs v, v_delay v = 0 -> 0 < v_age v -> v_trigger v = None ->
  shouldLoop p (v_state v) = true -> (0 <= s_frac (v_state v))%Q -> Forall (fun j => 0 <= j)%Q (List.concat bs) -> (s_frac (v_state v) + qsum (List.concat bs) <= maxJump)%Q ->
  fst (renderBlocks p v bs) = o_frames (fill p (v_state v) false (List.concat bs)) /\ v_age (snd (renderBlocks p v bs)) = v_age v + Z.of_nat (length (List.concat bs)).
Proof.
  intros Ho Hn bs v D A T Sl Sf F M.
  assert (forall bs v, v_delay v = 0 -> 0 < v_age v -> v_trigger v = None -> fst (renderBlocks p v bs) = fst (fillBlocks p (v_state v) bs) /\ v_age (snd (renderBlocks p v bs)) = v_age v + Z.of_nat (length (List.concat bs))) as G.
  { clear. induction bs as [|b bs IH]; intros v D A T; [cbn; split; [reflexivity|lia]|]. cbn [renderBlocks fillBlocks List.concat]. unfold renderBlock. rewrite D, T. rewrite Z.min_l by lia. cbn [Z.to_nat skipn]. replace (v_age v =? 0) with false by (symmetry; apply Z.eqb_neq; lia).
    specialize (IH (Voice (0 - 0) (v_age v + Z.of_nat (length b)) None (o_state (fill p (v_state v) false b)))). cbn [v_delay v_age v_trigger v_state] in IH. specialize (IH ltac:(lia) ltac:(lia) eq_refl). destruct IH as [I1 I2].
    destruct (renderBlocks p _ bs) as [fs v']. destruct (fillBlocks p _ bs) as [fs' s']. cbn [fst snd] in *. rewrite app_length. split; [now rewrite I1|lia]. }
  destruct (G bs v D A T) as [G1 G2]. split; [|exact G2]. rewrite G1, (C41_loop_blocks p Ho Hn bs _ Sl Sf F M). reflexivity.
Qed.
(** But the age is zero again after the first block, if that is not shorter than the delay of the event: the second
    block does not jump either, and repeats the last position of the first. *)
Theorem C41_second_block_refuted p offset delay b : 0 <= delay <= Z.of_nat (length b) -> v_age (snd (renderBlock p (startVoice offset delay 0) b)) = 0.
Proof. intros D. unfold renderBlock, startVoice. cbn [v_trigger v_age snd]. lia. Qed.
Definition shotParams : params := Params (LoopInfo 0 0 1 0 1 0) 1000 999 999 998 false false None None.
Definition ones (n : nat) : list Q := repeat 1%Q n.
Theorem C41_start_refuted :
  map fst (fst (renderBlocks shotParams (startVoice 0 0 0) [ones 4])) = [0; 1; 2; 3] /\
  map fst (fst (renderBlocks shotParams (startVoice 0 0 0) [ones 2; ones 2])) = [0; 1; 1; 2].
Proof. vm_compute. split; reflexivity. Qed.
(** A voice whose delay ends after its second block begins skips the first frame of the sample. *)
Theorem C41_delay_refuted :
  map fst (fst (renderBlocks shotParams (startVoice 0 0 4) [ones 6])) = [0; 1] /\
  map fst (fst (renderBlocks shotParams (startVoice 0 0 4) [ones 2; ones 2; ones 2])) = [1; 2].
Proof. vm_compute. split; reflexivity. Qed.
(** A restart at the first frame of a block is not noticed when it reaches the loop count: the loop goes on until the
    next restart in the block. *)
Definition countParams : params := Params (loopOf 999 10 13 0) 1000 999 999 998 true true (Some 1) None.
Theorem C41_loop_count_refuted :
  map fst (fst (fillBlocks countParams (VState 12 0 0 1) [ones 8])) = [13; 10; 11; 12; 13; 14; 15; 16] /\
  map fst (fst (fillBlocks countParams (VState 12 0 0 1) [ones 1; ones 7])) = [13; 10; 11; 12; 13; 10; 11; 12].
Proof. vm_compute. split; reflexivity. Qed.
(** The end: of five frames at their own rate, the last but one is not played. *)
Theorem C41_end_refuted : let p := Params (LoopInfo 0 0 1 0 1 0) 5 4 4 3 false false None None in
  o_frames (fill p (VState 0 0 0 1) true (ones 6)) = [(0, 0%Q); (1, 0%Q); (2, 0%Q); (3, almostOne); (3, almostOne); (3, almostOne)] /\
  o_off (fill p (VState 0 0 0 1) true (ones 6)) = Some 3%nat.
Proof. vm_compute. split; reflexivity. Qed.
(** A sample that starts after its end and is to be played twice: the restart adds frames instead of removing them, and
    the voice reads after the sample and its padding. *)
Lemma taps_self points r : 2 <= points -> In r (taps points r).
Proof.
  intros P. unfold taps. apply in_map_iff. exists (Z.to_nat (points / 2 - 1)). assert (1 <= points / 2) by (apply Z.div_le_lower_bound; lia). assert (points / 2 < points) by (apply Z.div_lt; lia).
  split; [rewrite Z2Nat.id by lia; lia|]. apply in_seq. lia.
Qed.
Theorem C40_count_refuted : let p := Params (LoopInfo 0 0 1 0 1 0) 100 99 99 (99 - 200 - 1) false false None (Some 2) in
  exists r, In r (reads p (fill p (v_state (startVoice 200 0 0)) true (ones 1))) /\ forall points, 2 <= points -> exists t, In t (taps points r) /\ p_frames p + 64 <= t.
Proof. cbv zeta. exists 302. split; [vm_compute; auto|]. intros points P. exists 302. split; [now apply taps_self|]. cbn. lia. Qed.
(** A loop count reached in a loop with crossfade, when a controller has moved the end of the sample before the loop: the
    crossfade reads before the sample and its padding. *)
Theorem C40_crossfade_refuted : let p := Params (loopOf 5000 2000 3000 2000) 5001 5000 (clampEnd 5000 (-10)) 0 true true (Some 1) None in
  lo_ok (p_loop p) /\ safe (VState 2999 0 0 1) /\
  exists r, In r (reads p (fill p (VState 2999 0 0 1) false (ones 3))) /\ forall points, 2 <= points -> exists t, In t (taps points r) /\ t < -64.
Proof.
  cbv zeta. split; [apply loopOf_ok; lia|]. split; [split; cbn; [lia|lra]|]. exists (-1002). split; [vm_compute; auto 10|]. intros points P. exists (-1002). split; [now apply taps_self|lia].
Qed.

(** ** Examples *)
Definition loopParams : params := Params (loopOf 999 100 199 20) 1000 999 999 998 true true None None.
Example C41_loop_ex : o_frames (fill loopParams (VState 195 0 0 1) false (repeat (5 # 2)%Q 4)) = [(197, (1 # 2)%Q); (100, 0%Q); (102, (1 # 2)%Q); (105, 0%Q)] /\
  fst (fillBlocks loopParams (VState 195 0 0 1) [repeat (5 # 2)%Q 1; repeat (5 # 2)%Q 3]) = [(197, (1 # 2)%Q); (100, 0%Q); (102, (1 # 2)%Q); (105, 0%Q)] /\
  reads loopParams (fill loopParams (VState 195 0 0 1) false (repeat (5 # 2)%Q 4)) = [197; 97; 100; 102; 105].
Proof. vm_compute. repeat split. Qed.
Example C40_blockOk_ex : blockOk (Block loopParams true (repeat (5 # 2)%Q 4)) /\ shouldLoop loopParams (VState 195 0 0 1) = true.
Proof.
  split; [|reflexivity]. unfold blockOk. cbn [b_params b_jumps]. split; [apply loopOf_ok; lia|]. split; [cbn; lia|]. split; [cbn; lia|]. split; [cbn; lia|]. split; [now left|]. split; [now left|]. repeat constructor; lra.
Qed.
Example C41_shot_ex : let p := Params (LoopInfo 0 0 1 0 1 0) 10 9 9 8 false false None (Some 2) in
  map fst (o_frames (fill p (VState 0 0 0 1) true (ones 20))) = [0; 1; 2; 3; 4; 5; 6; 7; 0; 1; 2; 3; 4; 5; 6; 7; 8; 8; 8; 8] /\
  fst (fillBlocks p (VState 5 0 0 1) [ones 5; ones 10]) = o_frames (fill p (VState 5 0 0 1) false (ones 15)).
Proof. vm_compute. split; reflexivity. Qed.
