(** C100: the filters and equalizers of voices ([FilterUnionModel]). *)
From Coq Require Import ZArith Lia List Bool.
From Verif Require Import FilterUnionModel.
Import ListNotations.
Local Open Scope Z_scope.

(** The object of the union: it may be made only in an empty union, and only the object that lives there may be used or destroyed.
    [replay live events] is what lives there after the events, oldest first, or nothing if an event was not allowed. *)
Definition kindEqb (a b : Z * Z) : bool := (fst a =? fst b) && (snd a =? snd b).
Fixpoint replay (live : option (Z * Z)) (l : list event) : option (option (Z * Z)) :=
  match l with
  | [] => Some live
  | Construct k :: l => match live with None => replay (Some k) l | Some _ => None end
  | Use k :: l => match live with Some j => if kindEqb j k then replay live l else None | None => None end
  | Destroy k :: l => match live with Some j => if kindEqb j k then replay None l else None | None => None end
  end.

(** The filter that a type and a number of channels name. *)
Definition member (kinds : nat) (c t : Z) : option (Z * Z) :=
  if (1 <=? c) && (c <=? 2) && (1 <=? t) && (t <=? Z.of_nat kinds) then Some (c, t) else None.

Lemma id_parts : forall c t, 0 <= c < 2 ^ 16 -> 0 <= t < 2 ^ 16 ->
  Z.shiftr (idDsp c t) 16 = c /\ Z.land (idDsp c t) (Z.ones 16) = t.
Proof.
  intros c t C T. unfold idDsp.
  rewrite (Z.mod_small t) by lia.
  rewrite (Z.mod_small (Z.shiftl c 16)) by (rewrite Z.shiftl_mul_pow2 by lia; lia).
  split.
  - rewrite Z.shiftr_lor, Z.shiftr_shiftl_l by lia. rewrite Z.shiftr_div_pow2 by lia. rewrite Z.div_small by lia.
    cbn [Z.sub Z.opp Z.add Z.pos_sub]. now rewrite Z.shiftl_0_r, Z.lor_0_l.
  - rewrite Z.land_ones by lia. rewrite <- (Z.mod_small t (2 ^ 16)) at 2 by lia.
    rewrite <- !Z.land_ones by lia. rewrite Z.land_lor_distr_l. replace (Z.land (Z.shiftl c 16) (Z.ones 16)) with 0; [apply Z.lor_0_r|].
    rewrite Z.land_ones, Z.shiftl_mul_pow2 by lia. now rewrite Z.mod_mul by lia.
Qed.

Lemma in_cases : forall n c t, In (c, t) (cases n) <-> (1 <= c <= 2 /\ 1 <= t <= Z.of_nat n).
Proof.
  intros n c t. unfold cases. rewrite in_flat_map. split.
  - intros (x & I & J). apply in_seq in I. cbn [In] in J. destruct J as [J|[J|[]]]; injection J as <- <-; lia.
  - intros [C T]. exists (Z.to_nat t). split; [apply in_seq; lia|]. rewrite Z2Nat.id by lia. cbn [In].
    assert (c = 1 \/ c = 2) as [->| ->] by lia; auto.
Qed.

Lemma getDsp_member : forall n c t, Z.of_nat n < 65536 -> 0 <= c < 2 ^ 16 -> 0 <= t < 2 ^ 16 -> getDsp n c t = member n c t.
Proof.
  intros n c t N C T. unfold getDsp, member.
  destruct (find _ (cases n)) as [[c' t']|] eqn:F.
  - apply find_some in F. destruct F as [I E]. apply Z.eqb_eq in E. apply in_cases in I.
    assert (c' = c) as -> by (rewrite <- (proj1 (id_parts c t C T)), <- E; symmetry; apply id_parts; lia).
    assert (t' = t) as -> by (rewrite <- (proj2 (id_parts c t C T)), <- E; symmetry; apply (id_parts c t'); lia).
    destruct (Z.leb_spec 1 c), (Z.leb_spec c 2), (Z.leb_spec 1 t), (Z.leb_spec t (Z.of_nat n)); try lia; reflexivity.
  - destruct (Z.leb_spec 1 c), (Z.leb_spec c 2), (Z.leb_spec 1 t), (Z.leb_spec t (Z.of_nat n)); try reflexivity.
    exfalso. assert (I : In (c, t) (cases n)) by (apply in_cases; lia).
    pose proof (find_none _ _ F _ I) as E. cbn in E. now rewrite Z.eqb_refl in E.
Qed.

Lemma kindEqb_refl : forall k, kindEqb k k = true.
Proof. intros [a b]. unfold kindEqb. cbn [fst snd]. now rewrite !Z.eqb_refl. Qed.

Lemma replay_app : forall l s r, replay s (l ++ r) = match replay s l with Some s => replay s r | None => None end.
Proof.
  induction l as [|e l IH]; intros s r; [reflexivity|].
  destruct e; cbn [app replay]; destruct s as [j|]; try reflexivity; try apply IH; destruct (kindEqb j k); try reflexivity; apply IH.
Qed.

Lemma skipn_add : forall A (l : list A) a b, skipn b (skipn a l) = skipn (a + b) l.
Proof. intros A l a. revert l. induction a as [|a IH]; intros l b; [reflexivity|]. destruct l; cbn [skipn Nat.add]; [apply skipn_nil|apply IH]. Qed.

Section Proofs.
  Variables Rate Param Mem Fr Base Mod : Type.
  Variable toInt : Rate -> Z.
  Variable defaultRate : Rate.
  Variable par0 : Param.
  Variable mem0 : Z * Z -> Mem.
  Variable zero : Fr.
  Variable step : Z * Z -> Z -> Param -> bool -> Mem -> Fr -> Fr * Mem.
  Variable kinds : nat.
  Hypothesis kinds_small : Z.of_nat kinds < 65536.
  Variable param : Base -> Mod -> Param.
  Variable zeroCheck : bool.
  Local Notation obj := (obj Param Mem).
  Local Notation filt := (filt Rate Param Mem).
  Local Notation holder := (holder Rate Param Mem Base).
  Local Notation call := (call Rate Param Fr).
  Local Notation hcall := (hcall Rate Fr Base Mod).
  Local Notation dspOf := (dspOf Rate Param Mem kinds).
  Local Notation compute := (compute Param Mem Fr step).
  Local Notation chunks := (chunks Rate Param Mem Fr par0 step).
  Local Notation doCall := (doCall Rate Param Mem Fr toInt par0 mem0 zero step kinds).
  Local Notation calls := (calls Rate Param Mem Fr toInt par0 mem0 zero step kinds).
  Local Notation newFilter := (newFilter Rate Param Mem defaultRate).
  Local Notation destroy := (destroy Rate Param Mem kinds).
  Local Notation setChannels := (setChannels Rate Param Mem toInt par0 mem0 kinds).
  Local Notation setType := (setType Rate Param Mem toInt par0 mem0 kinds).
  Local Notation renew := (renew Rate Param Mem toInt par0 mem0 kinds).
  Local Notation init := (init Rate Param Mem toInt par0 mem0 kinds).
  Local Notation clear := (clear Rate Param Mem mem0 kinds).
  Local Notation prepare := (prepare Rate Param Mem Fr mem0 zero step kinds).
  Local Notation process := (process Rate Param Mem Fr step kinds).
  Local Notation processModulated := (processModulated Rate Param Mem Fr par0 step kinds).
  Local Notation use := (use Rate Param Mem).
  Local Notation newHolder := (newHolder Rate Param Mem Base toInt defaultRate par0 mem0 kinds).
  Local Notation hcalls := (hcalls Rate Param Mem Fr Base Mod toInt par0 mem0 zero step kinds param zeroCheck).
  Local Notation doHcall := (doHcall Rate Param Mem Fr Base Mod toInt par0 mem0 zero step kinds param zeroCheck).
  Local Notation setup := (setup Rate Param Mem Base toInt par0 mem0 kinds).
  Local Notation holderProcess := (holderProcess Rate Param Mem Fr Base Mod par0 mem0 zero step kinds param zeroCheck).
  Local Notation stage := (stage Rate Param Mem Fr Base Mod par0 mem0 zero step kinds param zeroCheck).
  Local Notation note := (note Rate Param Mem Fr Base Mod par0 mem0 zero step kinds param zeroCheck).
  Local Notation f_rate := (f_rate Rate Param Mem).
  Local Notation f_type := (f_type Rate Param Mem).
  Local Notation f_ch := (f_ch Rate Param Mem).
  Local Notation f_obj := (f_obj Rate Param Mem).
  Local Notation f_log := (f_log Rate Param Mem).
  Local Notation o_rate := (o_rate Param Mem).
  Local Notation o_smooth := (o_smooth Param Mem).
  Local Notation o_mem := (o_mem Param Mem).
  Local Notation h_filt := (h_filt Rate Param Mem Base).

  (** ** The frames *)
  (** A filter over frames with their settings. *)
  Fixpoint run (k : Z * Z) (r : Z) (smooth : bool) (m : Mem) (l : list (Param * Fr)) : list Fr * Mem :=
    match l with
    | [] => ([], m)
    | (p, x) :: l => let '(y, m) := step k r p smooth m x in let '(ys, m) := run k r smooth m l in (y :: ys, m)
    end.
  (** Frames from number [i] of a block with their settings: those at the last multiple of 16. *)
  Fixpoint tag (p : nat -> Param) (i : nat) (xs : list Fr) : list (Param * Fr) :=
    match xs with [] => [] | x :: xs => (p (i - i mod 16)%nat, x) :: tag p (S i) xs end.

  Lemma run_app : forall k r s l1 l2 m,
    run k r s m (l1 ++ l2) = (fst (run k r s m l1) ++ fst (run k r s (snd (run k r s m l1)) l2), snd (run k r s (snd (run k r s m l1)) l2)).
  Proof.
    induction l1 as [|[p x] l1 IH]; intros l2 m; cbn [app run fst snd]; [now destruct (run k r s m l2)|].
    destruct (step k r p s m x) as [y m'] eqn:E. rewrite IH. destruct (run k r s m' l1) as [ys m2]. reflexivity.
  Qed.

  Lemma compute_run : forall k ins o,
    compute k o ins = (fst (run k (o_rate o) (o_smooth o) (o_mem o) (map (pair (o_par Param Mem o)) ins)),
                       Obj Param Mem (o_rate o) (o_par Param Mem o) (o_smooth o) (snd (run k (o_rate o) (o_smooth o) (o_mem o) (map (pair (o_par Param Mem o)) ins)))).
  Proof.
    induction ins as [|x ins IH]; intros [r p s m]; [reflexivity|].
    cbn [FilterUnionModel.compute map run FilterUnionModel.o_rate FilterUnionModel.o_par FilterUnionModel.o_smooth FilterUnionModel.o_mem].
    destruct (step k r p s m x) as [y m'] eqn:E. rewrite IH. unfold setMem.
    cbn [FilterUnionModel.o_rate FilterUnionModel.o_par FilterUnionModel.o_smooth FilterUnionModel.o_mem].
    destruct (run k r s m' (map (pair p) ins)) as [ys m2]. reflexivity.
  Qed.

  Lemma tag_app : forall p xs i ys, tag p i (xs ++ ys) = tag p i xs ++ tag p (i + length xs) ys.
  Proof.
    induction xs as [|x xs IH]; intros i ys; cbn [app tag length]; [now rewrite Nat.add_0_r|].
    rewrite IH. now rewrite Nat.add_succ_r.
  Qed.

  Lemma tag_const : forall p xs i j, (j mod 16 = 0)%nat -> (j <= i)%nat -> (i + length xs <= j + 16)%nat -> tag p i xs = map (pair (p j)) xs.
  Proof.
    induction xs as [|x xs IH]; intros i j M L U; [reflexivity|]. cbn [length] in U. cbn [tag map].
    rewrite (IH (S i) j) by lia. f_equal. f_equal. f_equal.
    assert ((i mod 16 = i - j)%nat); [|lia].
    apply Nat.mod_divides in M; [|lia]. destruct M as [q M]. subst j.
    replace i with ((i - 16 * q) + q * 16)%nat at 1 by lia. rewrite Nat.mod_add by lia. apply Nat.mod_small. lia.
  Qed.

  (** The loop of chunks gives these frames, and only uses the object. *)
  Lemma chunks_run : forall fuel k ins ps frame f, (length ins - frame < fuel)%nat -> (frame mod 16 = 0 \/ length ins <= frame)%nat ->
    exists n par, chunks fuel k ins ps frame f =
      (fst (run k (o_rate (f_obj f)) (o_smooth (f_obj f)) (o_mem (f_obj f)) (tag (fun i => nth i ps par0) frame (skipn frame ins))),
       Filt Rate Param Mem (f_rate f) (f_type f) (f_ch f)
         (Obj Param Mem (o_rate (f_obj f)) par (o_smooth (f_obj f))
           (snd (run k (o_rate (f_obj f)) (o_smooth (f_obj f)) (o_mem (f_obj f)) (tag (fun i => nth i ps par0) frame (skipn frame ins)))))
         (repeat (Use k) n ++ f_log f)).
  Proof.
    induction fuel as [|fuel IH]; intros k ins ps frame f Fu A; [lia|].
    cbn [FilterUnionModel.chunks].
    destruct (Nat.ltb_spec frame (length ins)) as [Lt|Ge].
    2:{ rewrite skipn_all2 by lia. cbn [tag run fst snd]. exists O, (o_par Param Mem (f_obj f)). destruct f as [fr ft fc [r p s m] lg]. reflexivity. }
    destruct A as [A|A]; [|lia].
    destruct f as [fr ft fc [r p s m] lg].
    unfold FilterUnionModel.use at 1. cbn [FilterUnionModel.f_rate FilterUnionModel.f_type FilterUnionModel.f_ch FilterUnionModel.f_obj FilterUnionModel.f_log].
    remember (Nat.min (length ins - frame) interval) as cur eqn:Ec. unfold interval in Ec.
    unfold computeUse, FilterUnionModel.use. cbn [FilterUnionModel.f_rate FilterUnionModel.f_type FilterUnionModel.f_ch FilterUnionModel.f_obj FilterUnionModel.f_log].
    rewrite compute_run. unfold configure.
    cbn [FilterUnionModel.o_rate FilterUnionModel.o_par FilterUnionModel.o_smooth FilterUnionModel.o_mem fst snd].
    remember (firstn cur (skipn frame ins)) as c eqn:Eq.
    assert (Lc : length c = cur) by (subst c; rewrite firstn_length, skipn_length; lia).
    assert (Sp : skipn frame ins = c ++ skipn (frame + cur) ins).
    { subst c. rewrite <- (firstn_skipn cur (skipn frame ins)) at 1. f_equal. apply skipn_add. }
    rewrite Sp, tag_app, Lc, (tag_const (fun i => nth i ps par0) c frame frame) by lia.
    rewrite run_app.
    remember (run k r s m (map (pair (nth frame ps par0)) c)) as r1 eqn:E1. destruct r1 as [o1 m1]. cbn [fst snd].
    edestruct (IH k ins ps (frame + cur)%nat
      (Filt Rate Param Mem fr ft fc (Obj Param Mem r (nth frame ps par0) s m1) (Use k :: Use k :: lg))) as (n & par & Hc).
    { lia. }
    { destruct (Nat.le_gt_cases (length ins) (frame + cur)) as [?|?]; [right; lia|left].
      assert (cur = 16)%nat as -> by lia. replace (frame + 16)%nat with (frame + 1 * 16)%nat by lia. rewrite Nat.mod_add by lia. exact A. }
    rewrite Hc. cbn [FilterUnionModel.f_rate FilterUnionModel.f_type FilterUnionModel.f_ch FilterUnionModel.f_obj FilterUnionModel.f_log
      FilterUnionModel.o_rate FilterUnionModel.o_par FilterUnionModel.o_smooth FilterUnionModel.o_mem].
    exists (n + 2)%nat, par. rewrite repeat_app. cbn [repeat]. now rewrite <- app_assoc.
  Qed.

  (** ** The object *)
  Definition good (r : Rate) (c t : Z) (f : filt) : Prop :=
    f_rate f = r /\ f_ch f = c /\ f_type f = t /\ replay None (rev (f_log f)) = Some (dspOf f) /\
    (dspOf f <> None -> o_rate (f_obj f) = toInt r /\ o_smooth (f_obj f) = true).

  Lemma log_uses : forall n k l s, replay None (rev l) = Some s -> s = Some k -> replay None (rev (repeat (Use k) n ++ l)) = Some s.
  Proof.
    induction n as [|n IH]; intros k l s R E; [exact R|]. cbn [repeat app rev]. rewrite replay_app, (IH k l s R E). subst s. cbn [replay].
    now rewrite kindEqb_refl.
  Qed.

  Lemma log_use : forall k l s, replay None (rev l) = Some s -> s = Some k -> replay None (rev (Use k :: l)) = Some s.
  Proof. intros k l s R E. exact (log_uses 1 k l s R E). Qed.

  Ltac fields := cbn [FilterUnionModel.f_rate FilterUnionModel.f_type FilterUnionModel.f_ch FilterUnionModel.f_obj FilterUnionModel.f_log
      FilterUnionModel.o_rate FilterUnionModel.o_par FilterUnionModel.o_smooth FilterUnionModel.o_mem
      FilterUnionModel.h_filt FilterUnionModel.h_base FilterUnionModel.h_prepared fst snd].

  Lemma good_renew : forall r c t c' t' f, good r c t f ->
    good r c' t' (renew (Filt Rate Param Mem (f_rate (destroy f)) t' c' (f_obj (destroy f)) (f_log (destroy f)))).
  Proof.
    intros r c t c' t' f (Hr & Hc & Ht & L & O).
    assert (D : replay None (rev (f_log (destroy f))) = Some None).
    { unfold FilterUnionModel.destroy, onDsp. destruct (dspOf f) as [k|] eqn:E; fields; [|exact L].
      cbn [rev]. rewrite replay_app, L. cbn [replay]. now rewrite kindEqb_refl. }
    assert (Rt : f_rate (destroy f) = r).
    { unfold FilterUnionModel.destroy, onDsp. destruct (dspOf f); exact Hr. }
    remember (destroy f) as d eqn:Ed. clear Ed.
    unfold FilterUnionModel.renew, onDsp, FilterUnionModel.dspOf. fields.
    destruct (getDsp kinds c' t') as [k|] eqn:E.
    - unfold good, FilterUnionModel.use, initDsp, construct, FilterUnionModel.dspOf. fields. rewrite E.
      repeat split; auto; try congruence.
      + cbn [rev]. rewrite !replay_app, D. cbn [replay]. now rewrite kindEqb_refl.
    - unfold good, FilterUnionModel.dspOf. fields. rewrite E. repeat split; auto; congruence.
  Qed.

  Lemma good_channels : forall r c t c' f, good r c t f -> good r c' t (setChannels c' f).
  Proof.
    intros r c t c' f G. unfold FilterUnionModel.setChannels. destruct (Z.eqb_spec (f_ch f) c') as [E|N].
    - destruct G as (Hr & Hc & Ht & L & O). repeat split; auto; apply O; auto.
    - assert (Td : f_type (destroy f) = t).
      { destruct G as (_ & _ & Ht & _). unfold FilterUnionModel.destroy, onDsp. destruct (dspOf f); exact Ht. }
      cbn zeta. rewrite Td. exact (good_renew r c t c' t f G).
  Qed.

  Lemma good_type : forall r c t t' f, good r c t f -> good r c t' (setType t' f).
  Proof.
    intros r c t t' f G. unfold FilterUnionModel.setType. destruct (Z.eqb_spec (f_type f) t') as [E|N].
    - destruct G as (Hr & Hc & Ht & L & O). repeat split; auto; apply O; auto.
    - assert (Td : f_ch (destroy f) = c).
      { destruct G as (_ & Hc & _). unfold FilterUnionModel.destroy, onDsp. destruct (dspOf f); exact Hc. }
      cbn zeta. rewrite Td. exact (good_renew r c t c t' f G).
  Qed.

  Lemma good_init : forall r c t r' f, good r c t f -> good r' c t (init r' f).
  Proof.
    intros r c t r' [fr ft fc [ro p s m] lg] (Hr & Hc & Ht & L & O). unfold FilterUnionModel.init, onDsp.
    unfold FilterUnionModel.dspOf in *. revert Hr Hc Ht L O. fields. intros.
    destruct (getDsp kinds fc ft) as [k|] eqn:E; unfold good, FilterUnionModel.use, initDsp, FilterUnionModel.dspOf; fields; rewrite E.
    - repeat split; auto; try (intros _; split; [reflexivity|apply O; discriminate]).
      + apply log_use; auto.
      + now apply O.
    - repeat split; auto; congruence.
  Qed.

  Lemma good_clear : forall r c t f, good r c t f -> good r c t (clear f).
  Proof.
    intros r c t [fr ft fc [ro p s m] lg] (Hr & Hc & Ht & L & O). unfold FilterUnionModel.clear, onDsp.
    unfold FilterUnionModel.dspOf in *. revert Hr Hc Ht L O. fields. intros.
    destruct (getDsp kinds fc ft) as [k|] eqn:E; unfold good, FilterUnionModel.use, instanceClear, FilterUnionModel.dspOf; fields; rewrite E;
      repeat split; auto; try congruence; try (now apply O).
    apply log_use; auto.
  Qed.

  (** What [prepare] leaves. *)
  Lemma good_prepare : forall r c t p f, good r c t f -> good r c t (prepare p f) /\
    forall k, dspOf f = Some k -> o_mem (f_obj (prepare p f)) = snd (step k (toInt r) p false (mem0 k) zero).
  Proof.
    intros r c t p [fr ft fc [ro q s m] lg] (Hr & Hc & Ht & L & O). unfold FilterUnionModel.prepare.
    unfold FilterUnionModel.dspOf in *. revert Hr Hc Ht L O. fields. intros.
    destruct (getDsp kinds fc ft) as [k|] eqn:E.
    2:{ split; [unfold good, FilterUnionModel.dspOf; fields; rewrite E; repeat split; auto; congruence|discriminate]. }
    destruct O as [Or Os]; [discriminate|].
    unfold FilterUnionModel.use, instanceClear, configure, setSmoothing. fields.
    rewrite compute_run. fields. cbn [map run].
    destruct (step k ro p false (mem0 k) zero) as [y m'] eqn:Es. fields.
    split.
    - unfold good, FilterUnionModel.dspOf; fields; rewrite E. repeat split; auto.
      repeat (apply log_use; [|reflexivity]). exact L.
    - intros k' K. injection K as <-. rewrite Or in Es. now rewrite Es.
  Qed.

  Lemma good_modulated : forall r c t ins ps f, good r c t f ->
    good r c t (snd (processModulated ins ps f)) /\
    (dspOf f = None -> processModulated ins ps f = (ins, f)) /\
    (forall k, dspOf f = Some k ->
      let out := run k (toInt r) true (o_mem (f_obj f)) (tag (fun i => nth i ps par0) 0 ins) in
      fst (processModulated ins ps f) = fst out /\ o_mem (f_obj (snd (processModulated ins ps f))) = snd out).
  Proof.
    intros r c t ins ps f (Hr & Hc & Ht & L & O). unfold FilterUnionModel.processModulated.
    destruct (dspOf f) as [k|] eqn:E.
    - destruct O as [Or Os]; [discriminate|].
      destruct (chunks_run (S (length ins)) k ins ps 0 f) as (n & par & C); [lia|left; reflexivity|].
      rewrite C. fields. rewrite Or, Os. cbn [skipn]. repeat split; auto; try discriminate.
      + unfold FilterUnionModel.dspOf. fields. change (getDsp kinds (f_ch f) (f_type f)) with (dspOf f). rewrite E. now apply log_uses.
      + cbn zeta. injection H as <-. reflexivity.
      + injection H as <-. reflexivity.
    - split; [|split; [reflexivity|discriminate]]. split; [exact Hr|]. split; [exact Hc|]. split; [exact Ht|]. cbn [snd]. rewrite E. split; [exact L|congruence].
  Qed.

  Lemma good_process : forall r c t ins p f, good r c t f -> good r c t (snd (process ins p f)).
  Proof.
    intros r c t ins p [fr ft fc [ro q s m] lg] (Hr & Hc & Ht & L & O). unfold FilterUnionModel.process.
    unfold FilterUnionModel.dspOf in *. revert Hr Hc Ht L O. fields. intros.
    destruct (getDsp kinds fc ft) as [k|] eqn:E.
    2:{ unfold good, FilterUnionModel.dspOf; fields; rewrite E; repeat split; auto; congruence. }
    destruct O as [Or Os]; [discriminate|].
    unfold computeUse, FilterUnionModel.use, configure. fields. rewrite compute_run. fields.
    unfold good, FilterUnionModel.dspOf; fields; rewrite E. repeat split; auto.
    repeat (apply log_use; [|reflexivity]). exact L.
  Qed.

  (** What was last set. *)
  Definition lastRate (r : Rate) (c : call) : Rate := match c with CInit _ _ _ r' => r' | _ => r end.
  Definition lastChannels (n : Z) (c : call) : Z := match c with CChannels _ _ _ n' => n' | _ => n end.
  Definition lastType (t : Z) (c : call) : Z := match c with CType _ _ _ t' => t' | _ => t end.

  Lemma good_call : forall c f r n t, good r n t f -> good (lastRate r c) (lastChannels n c) (lastType t c) (doCall f c).
  Proof.
    intros c f r n t G. destruct c; cbn [lastRate lastChannels lastType FilterUnionModel.doCall].
    - now apply good_init with r. - now apply good_clear. - now apply good_prepare. - now apply good_process. - now apply good_modulated.
    - now apply good_channels with n. - now apply good_type with t.
  Qed.

  Lemma good_calls : forall l f r n t, good r n t f ->
    good (fold_left lastRate l r) (fold_left lastChannels l n) (fold_left lastType l t) (calls f l).
  Proof.
    unfold FilterUnionModel.calls. induction l as [|c l IH]; intros f r n t G; [exact G|]. cbn [fold_left]. apply IH. now apply good_call.
  Qed.

  Lemma good_new : forall raw, good defaultRate 1 0 (newFilter raw).
  Proof.
    intros raw. unfold good, FilterUnionModel.newFilter, FilterUnionModel.dspOf. fields.
    assert (E : getDsp kinds 1 0 = None).
    { rewrite getDsp_member by (auto; lia). unfold member. reflexivity. }
    rewrite E. repeat split; congruence.
  Qed.

  (** ** C100_life: over any calls, the union never holds two objects, only the object that lives in it is used, it is the one of the
      channels and the type set last, and the destructor of the filter leaves nothing alive. *)
  Theorem C100_life : forall raw l,
    let f := calls (newFilter raw) l in
    let n := fold_left lastChannels l 1 in let t := fold_left lastType l 0 in
    (exists k, replay None (rev (f_log f)) = Some k /\ (0 <= n < 2 ^ 16 -> 0 <= t < 2 ^ 16 -> k = member kinds n t)) /\
    replay None (rev (f_log (destroy f))) = Some None.
  Proof.
    intros raw l f n t. destruct (good_calls l _ _ _ _ (good_new raw)) as (Hr & Hc & Ht & L & O).
    fold f in Hr, Hc, Ht, L, O. fold n in Hc. fold t in Ht. split.
    - exists (dspOf f). split; [exact L|]. intros N T. unfold FilterUnionModel.dspOf. rewrite Hc, Ht. now apply getDsp_member.
    - unfold FilterUnionModel.destroy, onDsp. destruct (dspOf f) as [k|] eqn:E; fields; [|exact L].
      cbn [rev]. rewrite replay_app, L. cbn [replay]. now rewrite kindEqb_refl.
  Qed.

  (** ** C100_frames: processing gives frame after frame, each once and in order, with the sample rate set last, smoothed, and with the
      settings at the last multiple of 16 frames; without a filter it copies. *)
  Theorem C100_frames : forall raw l ins ps,
    let f := calls (newFilter raw) l in
    let n := fold_left lastChannels l 1 in let t := fold_left lastType l 0 in
    0 <= n < 2 ^ 16 -> 0 <= t < 2 ^ 16 ->
    fst (processModulated ins ps f) =
      match member kinds n t with
      | None => ins
      | Some k => fst (run k (toInt (fold_left lastRate l defaultRate)) true (o_mem (f_obj f)) (tag (fun i => nth i ps par0) 0 ins))
      end.
  Proof.
    intros raw l ins ps f n t N T. pose proof (good_calls l _ _ _ _ (good_new raw)) as G. fold f in G. fold n in G. fold t in G.
    assert (D : dspOf f = member kinds n t).
    { destruct G as (_ & Hc & Ht & _). unfold FilterUnionModel.dspOf. rewrite Hc, Ht. now apply getDsp_member. }
    destruct (good_modulated _ _ _ ins ps f G) as (_ & A & B). rewrite D in A, B.
    destruct (member kinds n t) as [k|]; [apply (B k eq_refl)|now rewrite A].
  Qed.

  (** ** The holders *)
  Definition goodHolder (r : Rate) (h : holder) : Prop := exists c t, good r c t (h_filt h).
  Definition hlastRate (r : Rate) (c : hcall) : Rate := match c with HRate _ _ _ _ r' => r' | _ => r end.

  (** Blocks with their modulations and whether there were buffers, one after the other. *)
  Definition block : Type := list Fr * (nat -> Mod) * bool.
  Fixpoint play (h : holder) (bs : list block) : list (list Fr) :=
    match bs with
    | [] => []
    | (ins, m, fr) :: bs => fst (holderProcess ins m fr h) :: play (snd (holderProcess ins m fr h)) bs
    end.

  (** What a note should sound like after a filter: blocks without buffers pass; with the first of the others, the filter starts with the memory
      that a frame of silence leaves in a cleared filter with unsmoothed settings. *)
  Fixpoint heard (k : Z * Z) (r : Z) (b : Base) (started : option Mem) (bs : list block) : list (list Fr) :=
    match bs with
    | [] => []
    | (ins, m, fr) :: bs =>
        if negb fr || (length ins =? 0)%nat then ins :: heard k r b started bs
        else
          let m0 := match started with Some x => x | None => snd (step k r (param b (m O)) false (mem0 k) zero) end in
          let out := run k r true m0 (tag (fun i => param b (m i)) 0 ins) in
          fst out :: heard k r b (Some (snd out)) bs
    end.
  Definition heardBy (r : Rate) (type : Z) (stereo : bool) (b : Base) (bs : list block) : list (list Fr) :=
    match member kinds (if stereo then 2 else 1) type with
    | None => map (fun x => fst (fst x)) bs
    | Some k => heard k (toInt r) b None bs
    end.

  Lemma tag_params : forall b m n xs i, (i + length xs <= n)%nat ->
    tag (fun j => nth j (map (fun i => param b (m i)) (seq 0 n)) par0) i xs = tag (fun j => param b (m j)) i xs.
  Proof.
    induction xs as [|x xs IH]; intros i H; [reflexivity|]. cbn [length] in H. cbn [tag]. rewrite IH by lia. f_equal. f_equal.
    assert (i - i mod 16 < n)%nat by lia.
    rewrite (nth_indep _ par0 (param b (m O))) by (rewrite map_length, seq_length; lia).
    rewrite (map_nth (fun i => param b (m i))). now rewrite seq_nth by lia.
  Qed.

  Definition ready (r : Rate) (c t : Z) (b : Base) (st : option Mem) (h : holder) : Prop :=
    good r c t (h_filt h) /\ FilterUnionModel.h_base Rate Param Mem Base h = Some b /\
    match st with
    | None => h_prepared Rate Param Mem Base h = false
    | Some m => h_prepared Rate Param Mem Base h = true /\ (dspOf (h_filt h) <> None -> o_mem (f_obj (h_filt h)) = m)
    end.

  Lemma step_holder : forall r c t b st h ins m fr, ready r c t b st h -> zeroCheck = true \/ ins <> [] ->
    0 <= c < 2 ^ 16 -> 0 <= t < 2 ^ 16 ->
    match member kinds c t with
    | None => fst (holderProcess ins m fr h) = ins /\ exists st', ready r c t b st' (snd (holderProcess ins m fr h))
    | Some k =>
        if negb fr || (length ins =? 0)%nat then holderProcess ins m fr h = (ins, h)
        else
          let m0 := match st with Some x => x | None => snd (step k (toInt r) (param b (m O)) false (mem0 k) zero) end in
          let out := run k (toInt r) true m0 (tag (fun i => param b (m i)) 0 ins) in
          fst (holderProcess ins m fr h) = fst out /\ ready r c t b (Some (snd out)) (snd (holderProcess ins m fr h))
    end.
  Proof.
    intros r c t b st [f hb pr] ins m fr (G & B & P) Ne Hc Ht. revert G B P. fields. intros.
    assert (D : forall g, good r c t g -> dspOf g = member kinds c t).
    { intros g (_ & Gc & Gt & _). unfold FilterUnionModel.dspOf. rewrite Gc, Gt. now apply getDsp_member. }
    unfold FilterUnionModel.holderProcess. fields. subst hb.
    destruct fr; cbn [negb orb].
    2:{ assert (X : (if zeroCheck && (length ins =? 0)%nat then (ins, Holder Rate Param Mem Base f (Some b) pr)
                   else (ins, Holder Rate Param Mem Base f (Some b) pr)) = (ins, Holder Rate Param Mem Base f (Some b) pr)) by now destruct (_ && _).
        rewrite X. destruct (member kinds c t); [reflexivity|]. split; [reflexivity|]. exists st. fields. repeat split; auto; apply G; auto. }
    destruct ins as [|x ins'].
    { destruct Ne as [->|N]; [|now destruct N]. cbn [length Nat.eqb andb orb fst snd].
      destruct (member kinds c t); [reflexivity|]. split; [reflexivity|]. exists st. repeat split; auto; apply G; auto. }
    remember (x :: ins') as ins eqn:Ei. assert (L0 : (length ins =? 0)%nat = false) by now subst.
    rewrite L0, andb_false_r.
    remember (map (fun i => param b (m i)) (seq 0 (length ins))) as ps eqn:Eps.
    assert (Hd : hd par0 ps = param b (m O)) by (subst ps ins; reflexivity).
    remember (if pr then f else prepare (hd par0 ps) f) as g eqn:Eg.
    assert (Gg : good r c t g).
    { subst g. destruct pr; [exact G|]. now apply good_prepare. }
    assert (Mg : forall k, member kinds c t = Some k ->
      o_mem (f_obj g) = match st with Some x => x | None => snd (step k (toInt r) (param b (m O)) false (mem0 k) zero) end).
    { intros k K. subst g. destruct st as [m0|].
      - destruct P as [-> P]. apply P. rewrite (D f G), K. discriminate.
      - subst pr. rewrite Hd. apply (proj2 (good_prepare r c t (param b (m O)) f G)). now rewrite (D f G). }
    destruct (good_modulated r c t ins ps g Gg) as (G2 & A & C). rewrite (D g Gg) in A, C.
    destruct (processModulated ins ps g) as [out f2] eqn:E. fields. revert G2 A C. fields. intros.
    destruct (member kinds c t) as [k|] eqn:K.
    - destruct (C k eq_refl) as [C1 C2]. rewrite (Mg k eq_refl) in C1, C2. subst ps.
      rewrite tag_params in C1, C2 by lia. split; [exact C1|]. split; [exact G2|]. split; [reflexivity|]. split; [reflexivity|]. intros _. exact C2.
    - injection (A eq_refl) as -> ->. split; [reflexivity|]. exists (Some (o_mem (f_obj g))). repeat split; auto; apply Gg; auto.
  Qed.

  Lemma play_heard : forall bs r c t b st h, ready r c t b st h -> Forall (fun x => zeroCheck = true \/ fst (fst x) <> []) bs ->
    0 <= c < 2 ^ 16 -> 0 <= t < 2 ^ 16 ->
    play h bs = match member kinds c t with None => map (fun x => fst (fst x)) bs | Some k => heard k (toInt r) b st bs end.
  Proof.
    induction bs as [|[[ins m] fr] bs IH]; intros r c t b st h R Fo Hc Ht; [cbn [play heard map]; now destruct (member kinds c t)|].
    apply Forall_cons_iff in Fo. destruct Fo as [F0 Fo]. cbn [fst] in F0.
    pose proof (step_holder r c t b st h ins m fr R F0 Hc Ht) as S0. cbn [play heard map fst].
    destruct (member kinds c t) as [k|] eqn:K.
    - destruct (negb fr || (length ins =? 0)%nat).
      + rewrite S0. cbn [fst snd]. f_equal. rewrite (IH _ _ _ _ _ _ R Fo Hc Ht). now rewrite K.
      + cbn zeta in S0 |- *. destruct S0 as [S1 S2]. rewrite S1. f_equal. rewrite (IH _ _ _ _ _ _ S2 Fo Hc Ht). now rewrite K.
    - destruct S0 as [S1 [st' S2]]. rewrite S1. f_equal. rewrite (IH _ _ _ _ _ _ S2 Fo Hc Ht). now rewrite K.
  Qed.

  Lemma good_holderProcess : forall r h ins m fr, goodHolder r h -> goodHolder r (snd (holderProcess ins m fr h)).
  Proof.
    intros r [f hb pr] ins m fr (c & t & G). unfold FilterUnionModel.holderProcess.
    destruct (zeroCheck && _); [now exists c, t|]. revert G. fields. intros G. destruct hb as [b|]; [|now exists c, t].
    destruct fr; cbn [negb]; [|now exists c, t].
    remember (map (fun i => param b (m i)) (seq 0 (length ins))) as ps eqn:Ep. remember (if pr then f else prepare (hd par0 ps) f) as g0 eqn:Eg.
    assert (G0 : good r c t g0) by (subst g0; destruct pr; [exact G|now apply good_prepare]).
    destruct (good_modulated r c t ins ps g0 G0) as (G2 & _). destruct (processModulated ins ps g0) as [o f2]. exists c, t. exact G2.
  Qed.

  Lemma good_hcall : forall x h r, goodHolder r h -> goodHolder (hlastRate r x) (doHcall h x).
  Proof.
    intros x h r (c & t & G). destruct x; cbn [hlastRate FilterUnionModel.doHcall].
    - exists c, t. now apply good_clear.
    - exists c, t. now apply good_init with r.
    - exists (if stereo then 2 else 1), type. unfold FilterUnionModel.setup. fields. apply good_channels with c. now apply good_type with t.
    - apply good_holderProcess. now exists c, t.
  Qed.

  Lemma good_hcalls : forall l h r, goodHolder r h -> goodHolder (fold_left hlastRate l r) (hcalls h l).
  Proof.
    unfold FilterUnionModel.hcalls. induction l as [|x l IH]; intros h r G; [exact G|]. cbn [fold_left]. apply IH. now apply good_hcall.
  Qed.

  Lemma good_newHolder : forall raw, goodHolder defaultRate (newHolder raw).
  Proof. intros raw. exists 1%Z. exists 0%Z. unfold FilterUnionModel.newHolder. fields. apply good_init with defaultRate. apply good_new. Qed.

  Lemma ready_setup : forall r h t (s : bool) b, goodHolder r h -> ready r (if s then 2 else 1) t b None (setup t s b h).
  Proof.
    intros r h t s b (c & t0 & G). unfold ready, FilterUnionModel.setup. fields. split; [|split; reflexivity].
    apply good_channels with c. now apply good_type with t0.
  Qed.

  (** ** C100_note: what a voice's filter does to a note depends on nothing that it did before, but the sample rate set last. *)
  Theorem C100_note : forall raw l type stereo b bs,
    0 <= type < 2 ^ 16 -> Forall (fun x => zeroCheck = true \/ fst (fst x) <> []) bs ->
    play (setup type stereo b (hcalls (newHolder raw) l)) bs = heardBy (fold_left hlastRate l defaultRate) type stereo b bs.
  Proof.
    intros raw l type stereo b bs T Fo. unfold heardBy.
    apply play_heard; auto; [|destruct stereo; lia]. apply ready_setup. apply good_hcalls. apply good_newHolder.
  Qed.

  (** ** C100_split: a block may be rendered in two, if the settings do not move or if the first part is a multiple of 16 frames. *)
  Lemma tag_shift : forall p xs i d, (d mod 16 = 0)%nat \/ (forall a b, p a = p b) -> tag p (d + i) xs = tag (fun j => p (d + j)%nat) i xs.
  Proof.
    induction xs as [|x xs IH]; intros i d D; [reflexivity|]. cbn [tag]. rewrite <- Nat.add_succ_r, IH by exact D. f_equal. f_equal.
    destruct D as [D|D]; [|apply D]. f_equal. rewrite Nat.add_mod, D, Nat.add_0_l, Nat.mod_mod by lia.
    pose proof (Nat.mod_le i 16). lia.
  Qed.

  Theorem C100_split : forall raw l type stereo b bs ins1 ins2 m,
    0 <= type < 2 ^ 16 -> Forall (fun x => zeroCheck = true \/ fst (fst x) <> []) bs -> ins1 <> [] -> ins2 <> [] ->
    (length ins1 mod 16 = 0)%nat \/ (forall i j, m i = m j) ->
    let h := setup type stereo b (hcalls (newHolder raw) l) in
    concat (play h ((ins1 ++ ins2, m, true) :: bs)) =
    concat (play h ((ins1, m, true) :: (ins2, fun i => m (length ins1 + i)%nat, true) :: bs)).
  Proof.
    intros raw l type stereo b bs ins1 ins2 m T Fo N1 N2 C h. unfold h.
    assert (N12 : ins1 ++ ins2 <> []) by (destruct ins1; [now destruct N1|discriminate]).
    rewrite !C100_note by (auto; repeat (constructor; auto)).
    unfold heardBy. destruct (member kinds _ type) as [k|]; [|cbn [map concat fst]; now rewrite app_assoc].
    assert (L1 : (length ins1 =? 0)%nat = false) by (destruct ins1; [now destruct N1|reflexivity]).
    assert (L2 : (length ins2 =? 0)%nat = false) by (destruct ins2; [now destruct N2|reflexivity]).
    assert (L12 : (length (ins1 ++ ins2) =? 0)%nat = false) by (destruct ins1; [now destruct N1|reflexivity]).
    cbn [heard negb orb]. rewrite L1, L2, L12. cbn zeta.
    rewrite tag_app, run_app. cbn [fst snd concat].
    replace (0 + length ins1)%nat with (length ins1 + 0)%nat by lia.
    rewrite (tag_shift (fun i => param b (m i)) ins2 0 (length ins1)).
    2:{ destruct C as [C|C]; [left; exact C|right; intros i j; now rewrite (C i j)]. }
    now rewrite <- app_assoc.
  Qed.

  (** ** C100_chain: a note through all filters of a voice is the note through the first, its result through the second, and so on. *)
  Definition signal : Type := list (list Fr * (nat -> (nat -> Mod) * bool)).
  Definition controlled (j : nat) (s : signal) : list block := map (fun x => (fst x, fst (snd x j), snd (snd x j))) s.
  Fixpoint chain (j : nat) (specs : list (list block -> list (list Fr))) (s : signal) : list (list Fr) :=
    match specs with
    | [] => map fst s
    | g :: specs => chain (S j) specs (combine (g (controlled j s)) (map snd s))
    end.

  Lemma note_chain : forall hs j s, note j hs s = chain j (map play hs) s.
  Proof.
    assert (Nil : forall j s, note j [] s = map fst s).
    { intros j. induction s as [|[ins cs] s IH]; [reflexivity|]. cbn [FilterUnionModel.note FilterUnionModel.stage map fst]. now rewrite IH. }
    assert (Cons : forall s j h hs, note j (h :: hs) s = note (S j) hs (combine (play h (controlled j s)) (map snd s))).
    { induction s as [|[ins cs] s IH]; intros j h hs; [reflexivity|].
      cbn [controlled map fst snd play FilterUnionModel.note FilterUnionModel.stage combine].
      destruct (holderProcess ins (fst (cs j)) (snd (cs j)) h) as [out h'] eqn:E. cbn [fst snd combine].
      cbn [FilterUnionModel.note]. destruct (stage (S j) hs cs out) as [out2 hs2]. now rewrite IH. }
    induction hs as [|h hs IH]; intros j s; cbn [map chain]; [apply Nil|]. now rewrite Cons, IH.
  Qed.

  Lemma run_length : forall k r sm l m, length (fst (run k r sm m l)) = length l.
  Proof.
    induction l as [|[p x] l IH]; intros m; [reflexivity|]. cbn [run]. destruct (step k r p sm m x) as [y m'].
    pose proof (IH m') as I. destruct (run k r sm m' l) as [ys m2]. cbn [fst length] in *. now rewrite I.
  Qed.
  Lemma tag_length : forall p xs i, length (tag p i xs) = length xs.
  Proof. induction xs as [|x xs IH]; intros i; [reflexivity|]. cbn [tag length]. now rewrite IH. Qed.

  Lemma heardBy_length : forall r t s b bs, map (@length Fr) (heardBy r t s b bs) = map (fun x => length (fst (fst x))) bs.
  Proof.
    intros r t s b bs. unfold heardBy. destruct (member kinds _ t) as [k|]; [|now rewrite map_map].
    generalize (None : option Mem). induction bs as [|[[ins m] fr] bs IH]; intros st; [reflexivity|]. cbn [heard map fst].
    destruct (negb fr || (length ins =? 0)%nat); cbn zeta; cbn [map]; rewrite IH; [reflexivity|]. now rewrite run_length, tag_length.
  Qed.

  Record slot := Slot { s_raw : obj; s_past : list hcall; s_type : Z; s_stereo : bool; s_base : Base }.
  Definition slotHolder (x : slot) : holder := setup (s_type x) (s_stereo x) (s_base x) (hcalls (newHolder (s_raw x)) (s_past x)).
  Definition slotSpec (x : slot) : list block -> list (list Fr) :=
    heardBy (fold_left hlastRate (s_past x) defaultRate) (s_type x) (s_stereo x) (s_base x).

  Theorem C100_chain : forall slots s, Forall (fun x => 0 <= s_type x < 2 ^ 16) slots ->
    Forall (fun x => zeroCheck = true \/ fst x <> []) s ->
    note 0 (map slotHolder slots) s = chain 0 (map slotSpec slots) s.
  Proof.
    intros slots s T Fo. rewrite note_chain. generalize 0%nat as j. revert s Fo.
    induction slots as [|x slots IH]; intros s Fo j; cbn [map chain]; [reflexivity|].
    apply Forall_cons_iff in T. destruct T as [T0 T].
    assert (P : play (slotHolder x) (controlled j s) = slotSpec x (controlled j s)).
    { apply C100_note; [exact T0|]. unfold controlled. apply Forall_map. exact Fo. }
    rewrite P. clear P. apply (IH T). unfold slotSpec.
    match goal with |- Forall _ (combine (heardBy ?r ?t ?st ?b _) _) => pose proof (heardBy_length r t st b (controlled j s)) as L; remember (heardBy r t st b (controlled j s)) as o eqn:Eo end.
    clear Eo. unfold controlled in L. rewrite map_map in L. cbn [fst] in L. revert o L.
    induction Fo as [|y s F0 Fo IHs]; intros o L; destruct o as [|o os]; try discriminate; [constructor|].
    cbn [map] in L. injection L as L0 L. cbn [combine]. constructor; [|now apply IHs].
    cbn [fst]. destruct F0 as [F0|F0]; [now left|right]. intros ->. cbn [length] in L0. destruct (fst y); [now apply F0|discriminate].
  Qed.
End Proofs.

(** ** A small filter with smoothed settings, as those of gen/filters (fRec2 with fSlow5 in sfzLpf2p.hxx): its coefficient moves half the way to the
    setting with each frame, or all the way if smoothing is off; it multiplies with the coefficient. *)
Definition toyStep (_ : Z * Z) (_ : Z) (p : Z) (smooth : bool) (m x : Z) : Z * Z :=
  let c := if smooth then (p + m) / 2 else p in (c * x, c).
Definition toyHolder := newHolder Z Z Z Z (fun r => r) 48000 0 (fun _ => 0) 23.
Definition toySetup := setup Z Z Z Z (fun r => r) 0 (fun _ => 0) 23.
Definition toyProcess := holderProcess Z Z Z Z Z Z 0 (fun _ => 0) 0 toyStep 23 Z.add true.
Definition toyPlay := play Z Z Z Z Z Z 0 (fun _ => 0) 0 toyStep 23 Z.add true.
Definition toyCalls := hcalls Z Z Z Z Z Z (fun r => r) 0 (fun _ => 0) 0 toyStep 23 Z.add true.
Definition toyRaw : obj Z Z := Obj Z Z 7 7 false 7.

(** The hypotheses of C100_life, C100_note, C100_split and C100_chain are met, and the filter is heard. *)
Example C100_life_ex :
  let l := [CType Z Z Z 13; CInit Z Z Z 44100; CChannels Z Z Z 2; CModulated Z Z Z [1; 2; 3] [4; 4; 4]; CType Z Z Z 0; CClear Z Z Z; CType Z Z Z 99; CType Z Z Z 1] in
  let f := calls Z Z Z Z (fun r => r) 0 (fun _ => 0) 0 toyStep 23 (newFilter Z Z Z 48000 toyRaw) l in
  rev (f_log Z Z Z (destroy Z Z Z 23 f)) =
  [Construct (1, 13); Use (1, 13); Use (1, 13); Destroy (1, 13); Construct (2, 13); Use (2, 13); Use (2, 13); Use (2, 13); Destroy (2, 13);
   Construct (2, 1); Use (2, 1); Destroy (2, 1)].
Proof. vm_compute. reflexivity. Qed.

Example C100_note_ex :
  toyPlay (toySetup 13 true 8 (toyCalls (toyHolder toyRaw) [HSetup Z Z Z Z 5 false 3; HProcess Z Z Z Z [1; 2] (fun _ => 1) true]))
    [([1; 1], fun _ => 0, false); ([1; 1], fun _ => 0, true); ([1; 1], fun _ => 4, true)] = [[1; 1]; [8; 8]; [10; 11]].
Proof. vm_compute. reflexivity. Qed.

Definition ramp (i : nat) : Z := Z.of_nat i.
(** ** C100_split_refuted: with moving settings, the same frames give something else when the block is divided elsewhere. *)
Theorem C100_split_refuted :
  exists ins1 ins2 m, let h := toySetup 13 false 8 (toyHolder toyRaw) in
    concat (toyPlay h [(ins1 ++ ins2, m, true)]) <> concat (toyPlay h [(ins1, m, true); (ins2, fun i => m (length ins1 + i)%nat, true)]).
Proof. exists (repeat 1 8), (repeat 1 8), ramp. vm_compute. discriminate. Qed.

(** ** C100_rerate_refuted: setting the sample rate, even to the one it has, disturbs a note that plays: the coefficients are cleared, and since the
    filter counts as prepared, they move from zero to the settings. *)
Theorem C100_rerate_refuted :
  exists ins, let h := toySetup 13 false 8 (toyHolder toyRaw) in
    let '(out, h1) := toyProcess ins (fun _ => 0) true h in
    fst (toyProcess ins (fun _ => 0) true h1) = map (fun x => 8 * x) ins /\
    fst (toyProcess ins (fun _ => 0) true (holderRate Z Z Z Z (fun r => r) 0 (fun _ => 0) 23 48000 h1)) <> map (fun x => 8 * x) ins.
Proof. exists [1; 1; 1]. vm_compute. split; [reflexivity|discriminate]. Qed.

(** ** C100_cutoff: the cutoff that a filter gets is within the range of the opcode; the frequency of an equalizer need not be. *)
From Coq Require Import QArith Qminmax Qabs.
Theorem C100_cutoff : forall cents b m, let '(c, _, _) := filterParam cents b m in (0 <= c /\ c <= inject_Z 20000)%Q.
Proof.
  intros cents [[c r] g] [[mc mr] mg]. unfold filterParam, clampQ. split; [apply Q.le_max_l|].
  apply Q.max_lub; [discriminate|apply Q.le_min_l].
Qed.

Theorem C100_frequency_refuted : exists b m : Q * Q * Q,
  (0 <= fst (fst b) <= inject_Z 20000)%Q /\ (Qabs (fst (fst m)) <= inject_Z 20000)%Q /\ (fst (fst (eqParam b m)) < 0)%Q.
Proof. exists (inject_Z 50, 1, 0)%Q, (inject_Z (-100), 0, 0)%Q. repeat split; vm_compute; congruence. Qed.
