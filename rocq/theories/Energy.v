(** Properties of the effects that change levels: none of them makes a sound stronger than it may be. *)
From Coq Require Import QArith Qabs Qround ZArith List Bool Lia Lqa.
Import ListNotations.
From Verif Require Import EffectsModel Effects EffectBlocks EffectBus EnergyModel.
Open Scope Q_scope.

(** ** Specification *)
(** The energy of a sound: the sum of the squares of its samples. *)
Fixpoint energy (l : list Q) : Q := match l with [] => 0 | x :: l' => x * x + energy l' end.
(** A pole of the filters that follow a level. *)
Definition pole (t : Q) : Prop := 0 <= t <= 1.
(** Settings that can be made: a ratio of 1 or more gives a slope of 0 or less; the power of ten of a number of 0 or less. *)
Definition sound (k : kernel) : Prop :=
  match k with
  | Comp knee slope rise fall over power =>
      pole knee /\ slope <= 0 /\ (forall x, 0 <= over x) /\ (forall x, x <= 0 -> 0 <= power x <= 1)
  | Gate _ _ _ rise fall => pole rise /\ pole fall
  end.
(** The samples in the buffer [b] of a sequence of blocks. *)
Definition taken {r : rest} (b : nat) (bs : list (nat * @store (exactly r))) : list Q := concat (map (fun '(n, m) => @block (exactly r) m b n) bs).

(** ** Sums of squares *)
Lemma energy_app a b : energy (a ++ b) == energy a + energy b.
Proof. induction a as [|x a IH]; cbn [app energy]; [ring|]. rewrite IH. ring. Qed.
Lemma energy_pos a : 0 <= energy a.
Proof. induction a as [|x a IH]; cbn [energy]; [lra|]. nra. Qed.
Lemma Qabsq_sq a : Qabsq a * Qabsq a == a * a.
Proof. unfold Qabsq. destruct (Qle_bool 0 a); [reflexivity|]. rewrite Qred_correct. ring. Qed.
Lemma Qabsq_pos a : 0 <= Qabsq a.
Proof.
  unfold Qabsq. destruct (Qle_bool 0 a) eqn:E; [now apply Qle_bool_iff|]. rewrite Qred_correct.
  assert (~ 0 <= a) as N by (rewrite <- Qle_bool_iff; congruence). lra.
Qed.
Lemma above_true a b : above a b = true <-> b < a.
Proof. unfold above. rewrite negb_true_iff. rewrite <- not_true_iff_false, Qle_bool_iff. split; intros; lra. Qed.
Lemma above_false a b : above a b = false <-> a <= b.
Proof. rewrite <- not_true_iff_false, above_true. split; intros; lra. Qed.

Ltac ql r := change (w_V (exactly r)) with Q in *; lra.
Section Energy.
Variable r : rest.
Notation X := (exactly r).
Notation stages := (@stages X).
Notation upBlock := (@upBlock X).
Notation downBlock := (@downBlock X).

(** ** The filters of the oversamplers keep energy *)
Definition inner (c : Q) : Prop := -(1) < c /\ c < 1.
(** What one stage has stored. *)
Definition stored (c x y : Q) : Q := (x - c * y) * (x - c * y) / (1 - c * c).
Fixpoint pot (cs : list Q) (mem : list (Q * Q)) : Q :=
  match cs, mem with c :: cs', (x, y) :: mem' => stored c x y + pot cs' mem' | _, _ => 0 end.
Lemma square_pos a : 0 <= a * a.
Proof. nra. Qed.
Lemma inner_pos c : inner c -> 0 < 1 - c * c.
Proof. intros [A B]. setoid_replace (1 - c * c) with ((1 - c) * (1 + c)) by ring. apply Qmult_lt_0_compat; lra. Qed.
Lemma stored_pos c x y : inner c -> 0 <= stored c x y.
Proof. intros C. unfold stored. apply Qle_shift_div_l; [now apply inner_pos|]. rewrite Qmult_0_l. apply square_pos. Qed.
Lemma pot_pos cs mem : Forall inner cs -> 0 <= pot cs mem.
Proof.
  intros F. revert mem. induction F as [|c cs C F IH]; intros mem; cbn [pot]; [lra|]. destruct mem as [|[x y] mem]; [lra|].
  specialize (IH mem). pose proof (stored_pos c x y C). lra.
Qed.
Lemma allpass c x1 y1 x : inner c -> let y := Qred (Qred (Qred (x - y1) * c) + x1) in y * y + stored c x y == x * x + stored c x1 y1.
Proof. intros C y. unfold y, stored. rewrite !Qred_correct. pose proof (inner_pos c C). field. lra. Qed.
Lemma stages_energy cs : Forall inner cs -> forall mem s0 s1, length mem = length cs ->
  let '(mem', (a, b)) := stages cs mem s0 s1 in
  length mem' = length cs /\ a * a + b * b + pot cs mem' == s0 * s0 + s1 * s1 + pot cs mem.
Proof.
  assert (forall k cs, (length cs <= k)%nat -> Forall inner cs -> forall mem s0 s1, length mem = length cs ->
    let '(mem', (a, b)) := stages cs mem s0 s1 in
    length mem' = length cs /\ a * a + b * b + pot cs mem' == s0 * s0 + s1 * s1 + pot cs mem) as H; [|intros F; now apply (H (length cs))].
  clear cs. induction k as [|k IH]; intros cs L F mem s0 s1 E.
  - destruct cs; [|cbn in L; lia]. destruct mem; [|discriminate]. cbn. split; [reflexivity|ring].
  - destruct cs as [|c0 [|c1 cs]].
    + destruct mem; [|discriminate]. cbn. split; [reflexivity|ring].
    + destruct mem as [|[x0 y0] [|? ?]]; try discriminate. inversion F as [|? ? C _]; subst. cbn [EffectsModel.stages pot length].
      split; [reflexivity|]. cbn [w_V exactly w_sub w_mul w_add]. pose proof (allpass c0 x0 y0 s0 C) as A. cbv zeta in A. ql r.
    + destruct mem as [|[x0 y0] [|[x1 y1] mem]]; try discriminate. inversion F as [|? ? C0 F1]; subst. inversion F1 as [|? ? C1 F2]; subst.
      cbn [EffectsModel.stages]. cbn [w_V exactly w_sub w_mul w_add].
      pose proof (allpass c0 x0 y0 s0 C0) as A0. pose proof (allpass c1 x1 y1 s1 C1) as A1. cbv zeta in A0, A1.
      remember (Qred (Qred (Qred (s0 - y0) * c0) + x0)) as t0. remember (Qred (Qred (Qred (s1 - y1) * c1) + x1)) as t1.
      cbn [length] in L, E. specialize (IH cs ltac:(lia) F2 mem t0 t1 ltac:(lia)).
      destruct (stages cs mem t0 t1) as [m [a b]]. destruct IH as [IH1 IH2]. cbn [length pot]. split; [exact (f_equal (fun n => S (S n)) IH1)|]. ql r.
Qed.
Lemma up_energy cs l : Forall inner cs -> forall mem, length mem = length cs ->
  let '(mem', o) := upBlock cs mem l in length mem' = length cs /\ energy o + pot cs mem' == 2 * energy l + pot cs mem.
Proof.
  intros F. induction l as [|x l IH]; intros mem L; cbn [EffectsModel.upBlock energy]; [split; [exact L|ring]|].
  unfold upSample. pose proof (stages_energy cs F mem x x L) as A. destruct (stages cs mem x x) as [m [a b]]. destruct A as [A1 A2].
  specialize (IH m A1). destruct (upBlock cs m l) as [m' o]. destruct IH as [I1 I2]. split; [exact I1|]. cbn [energy]. ql r.
Qed.
Lemma down_step cs mem p q : Forall inner cs -> length mem = length cs ->
  let '(mem', y) := @downSample X cs mem (p, q) in length mem' = length cs /\ 2 * (y * y) + pot cs mem' <= p * p + q * q + pot cs mem.
Proof.
  intros F L. unfold downSample. cbn [fst snd]. pose proof (stages_energy cs F mem q p L) as A.
  destruct (stages cs mem q p) as [m [a b]]. destruct A as [A1 A2]. split; [exact A1|]. cbn [w_V exactly w_mul w_half w_add].
  rewrite !Qred_correct. change (w_V X) with Q in *. pose proof (square_pos (a - b)). lra.
Qed.
Lemma down_energy cs n : Forall inner cs -> forall l mem, length mem = length cs -> length l = (2 * n)%nat ->
  let '(mem', o) := downBlock n cs mem l in length mem' = length cs /\ 2 * energy o + pot cs mem' <= energy l + pot cs mem.
Proof.
  intros F. induction n as [|n IH]; intros l mem L E; cbn [EffectsModel.downBlock]; [destruct l; [|discriminate]; cbn; split; [exact L|lra]|].
  destruct l as [|p [|q l]]; cbn [length] in E; try lia.
  pose proof (down_step cs mem p q F L) as A. destruct (@downSample X cs mem (p, q)) as [m y]. destruct A as [A1 A2].
  specialize (IH l m A1 ltac:(lia)). destruct (downBlock n cs m l) as [m' o]. destruct IH as [I1 I2]. split; [exact I1|]. cbn [energy]. ql r.
Qed.
Lemma coefs_inner : Forall inner coefs2 /\ Forall inner coefs4 /\ Forall inner coefs8.
Proof. repeat split; repeat constructor. Qed.
Lemma hclear_pot cs : pot cs (@hclear X cs) == 0 /\ length (@hclear X cs) = length cs.
Proof.
  split; [|apply map_length]. induction cs as [|c cs IH]; [reflexivity|]. cbn [hclear map pot]. fold (@hclear X cs). rewrite IH.
  cbn [w_zero exactly]. unfold stored, Qdiv. ring.
Qed.

(** ** Gains between 0 and 1 *)
Definition unit_ (g : Q) : Prop := 0 <= g <= 1.
Lemma follow_unit t a b : pole t -> unit_ a -> unit_ b -> unit_ (follow t a b).
Proof. unfold pole, unit_, follow. intros [T1 T2] [A1 A2] [B1 B2]. rewrite Qred_correct. split; nra. Qed.
Lemma unit_square x g : unit_ g -> (x * g) * (x * g) <= x * x.
Proof.
  intros [A B]. assert (0 <= (x * x) * (1 - g * g)) as H; [|lra]. apply Qmult_le_0_compat; [apply square_pos|]. nra.
Qed.
Definition kok (k : kernel) (s : kstate) : Prop := match k with Comp _ _ _ _ _ _ => k_gain s <= 0 | Gate _ _ _ _ _ => unit_ (k_gain s) end.
Lemma kernel_ok k s x : sound k -> kok k s -> kok k (fst (kernelStep k s x)) /\ unit_ (snd (kernelStep k s x)).
Proof.
  destruct k as [knee slope rise fall over power|p th hold rise fall]; cbn [sound kok kernelStep]; cbv zeta; cbn [fst snd k_gain].
  - intros ([K1 K2] & S & O & P) G. remember (follow _ (k_env s) (Qabsq x)) as env.
    assert (Qred (knee * k_gain s + slope * (over env * (1 - knee))) <= 0) as H.
    { rewrite Qred_correct. specialize (O env). assert (0 <= over env * (1 - knee)) as A by (apply Qmult_le_0_compat; lra).
      assert (0 <= (- slope) * (over env * (1 - knee))) as B by (apply Qmult_le_0_compat; lra).
      assert (0 <= knee * (- k_gain s)) as C by (apply Qmult_le_0_compat; lra). lra. }
    split; [exact H|]. apply P. exact H.
  - intros [R F] G. assert (forall b t, pole t -> unit_ (follow t (k_gain s) (if b : bool then 1 else 0))) as H.
    { intros b t T. apply follow_unit; auto. destruct b; split; lra. }
    split; apply H; destruct (above _ _); assumption.
Qed.
Lemma kernel_run k l : sound k -> forall s, kok k s -> kok k (fst (run (kernelStep k) s l)) /\ Forall unit_ (snd (run (kernelStep k) s l)).
Proof.
  intros S. induction l as [|x l IH]; intros s G; cbn [run]; [split; [exact G|constructor]|].
  pose proof (kernel_ok k s x S G) as [A B]. destruct (kernelStep k s x) as [s' g]. specialize (IH s' A). destruct (run (kernelStep k) s' l) as [s'' gs].
  cbn [fst snd] in *. destruct IH as [I1 I2]. split; [exact I1|now constructor].
Qed.
Lemma gained l : forall gs, Forall unit_ gs -> energy (@zipWith X (w_mul X) l gs) <= energy l.
Proof.
  induction l as [|x l IH]; intros gs F; [cbn; lra|]. destruct gs as [|g gs]; cbn [zipWith energy]; [pose proof (energy_pos l); pose proof (square_pos x); ql r|].
  inversion F as [|? ? G F']; subst. specialize (IH gs F'). remember (energy (@zipWith X (w_mul X) l gs)) as rest_ eqn:Er. clear Er. cbn [exactly w_mul]. rewrite Qred_correct. pose proof (unit_square x g G). ql r.
Qed.
Lemma scaled g l : energy (map (fun x => w_mul X x g) l) == g * g * energy l.
Proof.
  induction l as [|x l IH]; cbn [map energy]; [ring|]. rewrite IH. clear IH. cbn [exactly w_mul]. rewrite Qred_correct. change (w_V X) with Q in *. ring.
Qed.

(** ** The limiter *)
Definition lok (s : lchan) : Prop := unit_ (l_gain s).
Lemma limit_ok s x : pole (r_c1 r) -> lok s -> let '(s', y) := limitStep (r_c1 r) (r_c3 r) (r_c5 r) s x in lok s' /\ y * y <= x * x.
Proof.
  intros c1_pole G. unfold limitStep. cbv zeta. remember (follow (r_c3 r) _ _) as env. clear Heqenv.
  assert (unit_ (follow (r_c1 r) (l_gain s) (if above env 1 then Qred (/ env) else 1))) as H.
  { apply follow_unit; auto. destruct (above env 1) eqn:A; [|split; lra]. apply above_true in A. unfold unit_. rewrite Qred_correct. split.
    - apply Qinv_le_0_compat. lra.
    - apply Qle_shift_inv_r; lra. }
  split; [exact H|]. rewrite Qred_correct. now apply unit_square.
Qed.
Lemma limit_run l : pole (r_c1 r) -> forall rr s, lok (fst s) -> lok (snd s) -> length l = length rr ->
  let '(s', fr) := run (w_limit X) s (combine l rr) in
  lok (fst s') /\ lok (snd s') /\ energy (map fst fr) <= energy l /\ energy (map snd fr) <= energy rr.
Proof.
  intros Hc. induction l as [|x l IH]; intros rr s A B L; destruct rr as [|y rr]; try discriminate; cbn [combine run map energy]; [repeat split; try assumption; try lra; try apply A; apply B|].
  change (w_limit X s (x, y)) with (let '(a, xa) := limitStep (r_c1 r) (r_c3 r) (r_c5 r) (fst s) x in
    let '(b, yb) := limitStep (r_c1 r) (r_c3 r) (r_c5 r) (snd s) y in ((a, b), (xa, yb))). pose proof (limit_ok (fst s) x Hc A) as P. pose proof (limit_ok (snd s) y Hc B) as P'.
  destruct (limitStep (r_c1 r) (r_c3 r) (r_c5 r) (fst s) x) as [a xa]. destruct (limitStep (r_c1 r) (r_c3 r) (r_c5 r) (snd s) y) as [b yb].
  destruct P as [P1 P2], P' as [Q1 Q2]. specialize (IH rr (a, b) P1 Q1 ltac:(now injection L)). destruct (run (w_limit X) (a, b) (combine l rr)) as [s' fr].
  destruct IH as (I1 & I2 & I3 & I4). split; [exact I1|]. split; [exact I2|]. cbn [map energy fst snd]. split; ql r.
Qed.

(** ** The rectifier *)
Lemma rectified a v : pole a -> let y := Qred (Qred (a * Qabsq v) + Qred (Qred (1 - a) * v)) in y * y <= v * v.
Proof.
  intros [A B] y. unfold y. rewrite !Qred_correct. pose proof (Qabsq_pos v) as P. pose proof (Qabsq_sq v) as E. remember (Qabsq v) as u. clear Hequ y.
  assert (- u <= v <= u) as [V1 V2] by (split; nra).
  assert (0 <= (u - (a * u + (1 - a) * v))) as H1. { setoid_replace (u - (a * u + (1 - a) * v)) with ((1 - a) * (u - v)) by ring. apply Qmult_le_0_compat; lra. }
  assert (0 <= (u + (a * u + (1 - a) * v))) as H2.
  { setoid_replace (u + (a * u + (1 - a) * v)) with (a * (u + u) + (1 - a) * (u + v)) by ring.
    assert (0 <= a * (u + u)) by (apply Qmult_le_0_compat; lra). assert (0 <= (1 - a) * (u + v)) by (apply Qmult_le_0_compat; lra). lra. }
  pose proof (Qmult_le_0_compat _ _ H1 H2). lra.
Qed.
Definition rpot (s : @rect X) : Q := pot coefs2 (r_up s) + pot coefs2 (r_down s).
Definition rok (s : @rect X) : Prop := length (r_up s) = length coefs2 /\ length (r_down s) = length coefs2.
Lemma rect_run a l : pole a -> forall s : @rect X, rok s ->
  let '(s', o) := run (@rectStep X a) s l in rok s' /\ 2 * energy o + rpot s' <= 2 * energy l + rpot s.
Proof.
  intros P. induction l as [|x l IH]; intros s R; cbn [run energy]; [split; [exact R|lra]|].
  unfold rectStep at 1. unfold upSample. pose proof (proj1 coefs_inner) as F. destruct R as [R1 R2].
  pose proof (stages_energy coefs2 F (r_up s) x x R1) as A. cbn [w_cs2 exactly]. destruct (stages coefs2 (r_up s) x x) as [u [p q]]. destruct A as [A1 A2].
  cbn [w_add w_mul w_abs w_sub w_one exactly]. remember (Qred (Qred (a * Qabsq p) + Qred (Qred (1 - a) * p))) as fp. remember (Qred (Qred (a * Qabsq q) + Qred (Qred (1 - a) * q))) as fq.
  pose proof (rectified a p P) as Hp. pose proof (rectified a q P) as Hq. cbv zeta in Hp, Hq. rewrite <- Heqfp in Hp. rewrite <- Heqfq in Hq.
  pose proof (down_step coefs2 (r_down s) fp fq F R2) as D.
  match type of D with context [@downSample ?W ?c ?m ?p] => change (@downSample W c m p) with (@downSample X coefs2 (r_down s) (fp, fq)) in D end.
  match goal with |- context [@downSample ?W ?c ?m ?p] => change (@downSample W c m p) with (@downSample X coefs2 (r_down s) (fp, fq)) end.
  destruct (@downSample X coefs2 (r_down s) (fp, fq)) as [d y]. destruct D as [D1 D2].
  specialize (IH (@Rect X u d) (conj A1 D1)). destruct (run (@rectStep X a) (@Rect X u d) l) as [s' o]. destruct IH as [I1 I2]. split; [exact I1|].
  cbn [energy]. unfold rpot in *. cbn [r_up r_down] in I2. ql r.
Qed.

(** ** Whole effects *)
Notation eff := (@effect X).
Definition full (m : @hmem X) : Prop := length m = length coefs2.
Definition fits (e : eff) (g : Q) : Prop :=
  match e with
  | ERectify s => g = 1 /\ pole (re_amount s) /\ rok (re_0 s) /\ rok (re_1 s)
  | EDyn d => g = dy_in d /\ sound (dy_par d) /\ kok (dy_par d) (dy_c0 d) /\ kok (dy_par d) (dy_c1 d) /\
      full (dy_up0 d) /\ full (dy_up1 d) /\ full (dy_down0 d) /\ full (dy_down1 d)
  | ELimiter s => g = 1 /\ pole (r_c1 r) /\ lok (fst (li_s s)) /\ lok (snd (li_s s)) /\ full (li_up0 s) /\ full (li_up1 s) /\ full (li_down0 s) /\ full (li_down1 s)
  | _ => False
  end.
Definition pot0 (e : eff) : Q :=
  match e with
  | ERectify s => rpot (re_0 s)
  | EDyn d => (dy_in d * dy_in d) * pot coefs2 (dy_up0 d) + pot coefs2 (dy_down0 d)
  | ELimiter s => pot coefs2 (li_up0 s) + pot coefs2 (li_down0 s)
  | _ => 0
  end.
Definition pot1 (e : eff) : Q :=
  match e with
  | ERectify s => rpot (re_1 s)
  | EDyn d => (dy_in d * dy_in d) * pot coefs2 (dy_up1 d) + pot coefs2 (dy_down1 d)
  | ELimiter s => pot coefs2 (li_up1 s) + pot coefs2 (li_down1 s)
  | _ => 0
  end.
(** Up, a change of the samples that does not raise the energy beyond a factor, and down. *)
Lemma around up down l u o z d y k : full up -> full down -> 0 <= k ->
  upBlock coefs2 up l = (u, o) -> energy z <= k * energy o -> length z = (2 * length l)%nat -> downBlock (length l) coefs2 down z = (d, y) ->
  full u /\ full d /\ 2 * energy y + (k * pot coefs2 u + pot coefs2 d) <= 2 * (k * energy l) + (k * pot coefs2 up + pot coefs2 down).
Proof.
  intros U D K E1 H L E2. pose proof (up_energy coefs2 l (proj1 coefs_inner) up U) as A. rewrite E1 in A. destruct A as [A1 A2].
  pose proof (down_energy coefs2 (length l) (proj1 coefs_inner) z down D L) as B. rewrite E2 in B. destruct B as [B1 B2].
  split; [exact A1|]. split; [exact B1|]. assert (k * (energy o + pot coefs2 u) == k * (2 * energy l + pot coefs2 up)) as C by now rewrite A2. ql r.
Qed.
Lemma run_len {S A B} (f : S -> A -> S * B) l s s' o : run f s l = (s', o) -> length o = length l.
Proof. intros E. pose proof (run_length S A B f l s) as H. now rewrite E in H. Qed.
Lemma zip_len (a b : list Q) : length a = length b -> length (@zipWith X (w_mul X) a b) = length a.
Proof. revert b. induction a as [|x a IH]; intros [|y b] E; try discriminate; cbn [zipWith length]; [reflexivity|]. f_equal. apply IH. now injection E. Qed.
Lemma lists_energy e g l rr : fits e g -> length l = length rr ->
  let '(e', (a, b)) := @lists X e l rr in fits e' g /\
    2 * energy a + pot0 e' <= 2 * (g * g * energy l) + pot0 e /\ 2 * energy b + pot1 e' <= 2 * (g * g * energy rr) + pot1 e.
Proof.
  intros Ft L. destruct e as [| | | | |s| | |d|s| ]; cbn [fits] in Ft; try contradiction; cbn [lists].
  - destruct Ft as (-> & P & R0 & R1). pose proof (rect_run (re_amount s) l P (re_0 s) R0) as A. pose proof (rect_run (re_amount s) rr P (re_1 s) R1) as B.
    destruct (run _ (re_0 s) l) as [s0 a]. destruct (run _ (re_1 s) rr) as [s1 b]. destruct A as [A1 A2], B as [B1 B2]. cbn [fits pot0 pot1 re_amount re_0 re_1].
    split; [auto|]. split; ql r.
  - destruct Ft as (-> & Sd & K0 & K1 & U0 & U1 & D0 & D1). unfold dynL. cbn [w_cs2 w_gain w_abs w_zero exactly].
    destruct (upBlock coefs2 (dy_up0 d) l) as [u0 o0] eqn:E0. destruct (upBlock coefs2 (dy_up1 d) rr) as [u1 o1] eqn:E1. 
    assert (length o0 = (2 * length l)%nat) as L0 by (exact (@upBlock_length X coefs2 l _ _ _ E0)).
    assert (length o1 = (2 * length rr)%nat) as L1 by (exact (@upBlock_length X coefs2 rr _ _ _ E1)).
    assert (0 <= dy_in d * dy_in d) as Kp by apply square_pos.
    match goal with |- context [if dy_link d then ?A else ?B] => remember (if dy_link d then A else B) as mid eqn:M end.
    assert (exists k0 k1 g0 g1, mid = (k0, k1, @zipWith X (w_mul X) (map (fun x => w_mul X x (dy_in d)) o0) g0, @zipWith X (w_mul X) (map (fun x => w_mul X x (dy_in d)) o1) g1) /\
      kok (dy_par d) k0 /\ kok (dy_par d) k1 /\ Forall unit_ g0 /\ Forall unit_ g1 /\ length g0 = length o0 /\ length g1 = length o1) as (k0 & k1 & g0 & g1 & Em & C0 & C1 & G0 & G1 & H0 & H1).
    { destruct (dy_link d).
      - match type of M with context [@run ?S ?A ?B ?f ?s ?l] =>
          assert (kok (dy_par d) (fst (@run S A B f s l)) /\ Forall unit_ (snd (@run S A B f s l))) as [C G] by exact (kernel_run (dy_par d) l Sd s K0);
          pose proof (run_length S A B f l s) as Er; destruct (@run S A B f s l) as [k0 g] end.
        cbn [fst snd] in C, G, Er. rewrite !map_length in Er. exists k0, (dy_c1 d), g, g. split; [exact M|]. repeat split; auto. transitivity (length o0); [exact Er|]. rewrite L0, L1. now rewrite L.
      - match type of M with context [@run ?S ?A ?B ?f (dy_c0 d) ?l] =>
          assert (kok (dy_par d) (fst (@run S A B f (dy_c0 d) l)) /\ Forall unit_ (snd (@run S A B f (dy_c0 d) l))) as [C G] by exact (kernel_run (dy_par d) l Sd _ K0);
          pose proof (run_length S A B f l (dy_c0 d)) as Er; destruct (@run S A B f (dy_c0 d) l) as [k0 g] end.
        match type of M with context [@run ?S ?A ?B ?f (dy_c1 d) ?l] =>
          assert (kok (dy_par d) (fst (@run S A B f (dy_c1 d) l)) /\ Forall unit_ (snd (@run S A B f (dy_c1 d) l))) as [C' G'] by exact (kernel_run (dy_par d) l Sd _ K1);
          pose proof (run_length S A B f l (dy_c1 d)) as Er'; destruct (@run S A B f (dy_c1 d) l) as [k1 g'] end.
        cbn [fst snd] in *. rewrite !map_length in Er, Er'. exists k0, k1, g, g'. split; [exact M|]. repeat split; auto. }
    rewrite Em. clear M Em. remember (@zipWith X (w_mul X) (map (fun x => w_mul X x (dy_in d)) o0) g0) as z0. remember (@zipWith X (w_mul X) (map (fun x => w_mul X x (dy_in d)) o1) g1) as z1.
    assert (energy z0 <= dy_in d * dy_in d * energy o0) as Z0 by (subst z0; rewrite <- scaled; now apply gained).
    assert (energy z1 <= dy_in d * dy_in d * energy o1) as Z1 by (subst z1; rewrite <- scaled; now apply gained).
    assert (length z0 = length o0) as N0 by (subst z0; rewrite zip_len; rewrite ?map_length; auto; apply map_length).
    assert (length z1 = length o1) as N1 by (subst z1; rewrite zip_len; rewrite ?map_length; auto; apply map_length).
    clear Heqz0 Heqz1. destruct (downBlock (length l) coefs2 (dy_down0 d) z0) as [d0 y0] eqn:F0. destruct (downBlock (length l) coefs2 (dy_down1 d) z1) as [d1 y1] eqn:F1.
    rewrite L in F1.
    destruct (around _ _ l _ _ z0 _ _ (dy_in d * dy_in d) U0 D0 Kp E0 Z0 (eq_trans N0 L0) F0) as (A1 & A2 & A3).
    destruct (around _ _ rr _ _ z1 _ _ (dy_in d * dy_in d) U1 D1 Kp E1 Z1 (eq_trans N1 L1) F1) as (B1 & B2 & B3).
    cbn [fits pot0 pot1 dy_in dy_par dy_c0 dy_c1 dy_up0 dy_up1 dy_down0 dy_down1]. split; [repeat split; auto; apply Sd|]. split; ql r.
  - destruct Ft as (-> & Hc & K0 & K1 & U0 & U1 & D0 & D1). unfold limiterL.
    change (w_cs2 X) with coefs2. destruct (upBlock coefs2 (li_up0 s) l) as [u0 o0] eqn:E0. destruct (upBlock coefs2 (li_up1 s) rr) as [u1 o1] eqn:E1.
    assert (length o0 = (2 * length l)%nat) as L0 by (exact (@upBlock_length X coefs2 l _ _ _ E0)).
    assert (length o1 = (2 * length rr)%nat) as L1 by (exact (@upBlock_length X coefs2 rr _ _ _ E1)).
    assert (length o0 = length o1) as L01 by congruence.
    pose proof (limit_run o0 Hc o1 (li_s s) K0 K1 L01) as R. destruct (run (w_limit X) (li_s s) (combine o0 o1)) as [s' fr] eqn:Er. destruct R as (R0 & R1 & Z0 & Z1).
    apply run_len in Er. rewrite combine_length, <- L01, Nat.min_id in Er.
    remember (map fst fr) as z0. remember (map snd fr) as z1.
    assert (length z0 = length o0) as N0 by (subst z0; now rewrite map_length). assert (length z1 = length o1) as N1 by (subst z1; rewrite map_length; congruence).
    clear Heqz0 Heqz1 Er. destruct (downBlock (length l) coefs2 (li_down0 s) z0) as [d0 y0] eqn:F0. destruct (downBlock (length l) coefs2 (li_down1 s) z1) as [d1 y1] eqn:F1.
    rewrite L in F1. assert (energy z0 <= 1 * energy o0) as Z0' by ql r. assert (energy z1 <= 1 * energy o1) as Z1' by ql r. assert (0 <= 1) as Kp by lra.
    destruct (around _ _ l _ _ z0 _ _ 1 U0 D0 Kp E0 Z0' (eq_trans N0 L0) F0) as (A1 & A2 & A3).
    destruct (around _ _ rr _ _ z1 _ _ 1 U1 D1 Kp E1 Z1' (eq_trans N1 L1) F1) as (B1 & B2 & B3).
    cbn [fits pot0 pot1 li_s li_up0 li_up1 li_down0 li_down1]. split; [repeat split; auto; try apply R0; try apply R1; apply Hc|]. split; ql r.
Qed.
Lemma pots_pos e g : fits e g -> 0 <= pot0 e /\ 0 <= pot1 e.
Proof.
  pose proof (proj1 coefs_inner) as F. assert (forall m, 0 <= pot coefs2 m) as P by (intros m; now apply pot_pos).
  destruct e as [| | | | |s| | |d|s| ]; cbn [fits]; try contradiction; intros _; cbn [pot0 pot1]; unfold rpot.
  - pose proof (P (r_up (re_0 s))). pose proof (P (r_down (re_0 s))). pose proof (P (r_up (re_1 s))). pose proof (P (r_down (re_1 s))). split; lra.
  - pose proof (P (dy_down0 d)). pose proof (P (dy_down1 d)). pose proof (Qmult_le_0_compat _ _ (square_pos (dy_in d)) (P (dy_up0 d))).
    pose proof (Qmult_le_0_compat _ _ (square_pos (dy_in d)) (P (dy_up1 d))). split; ql r.
  - pose proof (P (li_up0 s)). pose proof (P (li_up1 s)). pose proof (P (li_down0 s)). pose proof (P (li_down1 s)). split; lra.
Qed.
Lemma play_energy bs i0 i1 o0 o1 g : apart i0 i1 o0 o1 -> forall e, fits e g ->
  2 * energy (fst (play e i0 i1 o0 o1 bs)) <= 2 * (g * g * energy (taken i0 bs)) + pot0 e /\
  2 * energy (snd (play e i0 i1 o0 o1 bs)) <= 2 * (g * g * energy (taken i1 bs)) + pot1 e.
Proof.
  intros Ap. induction bs as [|[n m] bs IH]; intros e Ft; cbn [play taken map concat fst snd energy]; [destruct (pots_pos e g Ft); split; ql r|].
  fold (@taken r i0 bs) (@taken r i1 bs).
  assert (allowed e i0 i1 o0 o1) as Al. { split; [exact Ap|]. now destruct e. }
  destruct (process_lists e i0 i1 o0 o1 n m Al) as [P _]. destruct (lists_len e i0 i1 o0 o1 n m Al) as [B0 B1].
  pose proof (lists_energy e g (block m i0 n) (block m i1 n) Ft ltac:(now rewrite !block_length)) as H.
  destruct (process e i0 i1 o0 o1 n m) as [e' m']. cbn [fst snd] in P, B0, B1. destruct (lists e (block m i0 n) (block m i1 n)) as [e'' [a b]]. cbn [fst snd] in P, B0, B1. subst e''.
  destruct H as (H1 & H2 & H3). specialize (IH e' H1). destruct (play e' i0 i1 o0 o1 bs) as [l rr]. cbn [fst snd] in *.
  rewrite !energy_app. rewrite B0, B1. split; ql r.
Qed.
End Energy.

(** ** Theorems *)
Section Theorems.
Variable r : rest.
Notation X := (exactly r).
Lemma new_pots e : (exists a, e = newRectify r a) \/ (exists k b g, e = newDyn r k b g) \/ e = newLimiter r -> pot0 r e == 0 /\ pot1 r e == 0.
Proof.
  destruct (hclear_pot r coefs2) as [H _]. intros [[a ->]|[(k & b & g & ->)| ->]]; cbn [newRectify newDyn newLimiter pot0 pot1 re_0 re_1 dy_in dy_up0 dy_up1 dy_down0 dy_down1 li_up0 li_up1 li_down0 li_down1];
    unfold rpot; cbn [r_up r_down]; rewrite !H; split; ring.
Qed.
(** C102: the rectifier puts out no more energy than it takes, on either channel, in any number of blocks. *)
Theorem C102_rectify amount bs i0 i1 o0 o1 : apart i0 i1 o0 o1 -> pole amount ->
  let o := play (newRectify r amount) i0 i1 o0 o1 bs in energy (fst o) <= energy (taken i0 bs) /\ energy (snd o) <= energy (taken i1 bs).
Proof.
  intros Ap P o. destruct (new_pots (newRectify r amount)) as [Z0 Z1]; [left; now exists amount|].
  assert (fits r (newRectify r amount) 1) as F. { split; [reflexivity|]. split; [exact P|]. split; split; apply hclear_pot. }
  destruct (play_energy r bs i0 i1 o0 o1 1 Ap _ F) as [A B]. fold o in A, B. rewrite Z0 in A. rewrite Z1 in B. split; lra.
Qed.
(** C102: a compressor or a gate puts out at most the energy it takes, times the square of its input gain, linked or not. *)
Theorem C102_dynamics k link gain bs i0 i1 o0 o1 : apart i0 i1 o0 o1 -> sound k ->
  let o := play (newDyn r k link gain) i0 i1 o0 o1 bs in
  energy (fst o) <= gain * gain * energy (taken i0 bs) /\ energy (snd o) <= gain * gain * energy (taken i1 bs).
Proof.
  intros Ap P o. destruct (new_pots (newDyn r k link gain)) as [Z0 Z1]; [right; left; now exists k, link, gain|].
  assert (fits r (newDyn r k link gain) gain) as F.
  { split; [reflexivity|]. split; [exact P|]. assert (kok k k0) as K by (destruct k; cbn; [|split]; lra). split; [exact K|]. split; [exact K|]. repeat split; apply hclear_pot. }
  destruct (play_energy r bs i0 i1 o0 o1 gain Ap _ F) as [A B]. fold o in A, B. rewrite Z0 in A. rewrite Z1 in B. split; lra.
Qed.
(** C102: the limiter puts out no more energy than it takes. *)
Theorem C102_limiter bs i0 i1 o0 o1 : apart i0 i1 o0 o1 -> pole (r_c1 r) ->
  let o := play (newLimiter r) i0 i1 o0 o1 bs in energy (fst o) <= energy (taken i0 bs) /\ energy (snd o) <= energy (taken i1 bs).
Proof.
  intros Ap P o. destruct (new_pots (newLimiter r)) as [Z0 Z1]; [right; now right|].
  assert (fits r (newLimiter r) 1) as F. { split; [reflexivity|]. split; [exact P|]. assert (lok (LChan 0 0 0)) as K by (split; cbn; lra). split; [exact K|]. split; [exact K|]. repeat split; apply hclear_pot. }
  destruct (play_energy r bs i0 i1 o0 o1 1 Ap _ F) as [A B]. fold o in A, B. rewrite Z0 in A. rewrite Z1 in B. split; lra.
Qed.
Lemma silent l : Forall (fun x => x == 0) l <-> energy l <= 0.
Proof.
  induction l as [|x l IH]; cbn [energy]; [split; [lra|constructor]|]. rewrite Forall_cons_iff, IH. pose proof (energy_pos l). split.
  - intros [Hx Hl]. rewrite Hx. lra.
  - intros H1. pose proof (square_pos x). split; [|lra]. assert (x * x == 0) as E by lra. now apply Qmult_integral in E as [E|E].
Qed.
(** C102: nothing in, nothing out: a channel that is silent stays silent, whatever the other one does. *)
Theorem C102_silence e bs i0 i1 o0 o1 : apart i0 i1 o0 o1 ->
  (exists a, pole a /\ e = newRectify r a) \/ (exists k b g, sound k /\ e = newDyn r k b g) \/ (pole (r_c1 r) /\ e = newLimiter r) ->
  (Forall (fun x => x == 0) (taken i0 bs) -> Forall (fun x => x == 0) (fst (play e i0 i1 o0 o1 bs))) /\
  (Forall (fun x => x == 0) (taken i1 bs) -> Forall (fun x => x == 0) (snd (play e i0 i1 o0 o1 bs))).
Proof.
  intros Ap K.
  assert (exists g, 0 <= g /\ energy (fst (play e i0 i1 o0 o1 bs)) <= g * energy (taken i0 bs) /\ energy (snd (play e i0 i1 o0 o1 bs)) <= g * energy (taken i1 bs)) as (g & G & A & B).
  { destruct K as [(a & P & ->)|[(k & b & g & P & ->)|[P ->]]].
    - destruct (C102_rectify a bs i0 i1 o0 o1 Ap P). exists 1. repeat split; ql r.
    - destruct (C102_dynamics k b g bs i0 i1 o0 o1 Ap P). exists (g * g). split; [apply square_pos|]. split; assumption.
    - destruct (C102_limiter bs i0 i1 o0 o1 Ap P). exists 1. repeat split; ql r. }
  assert (forall a b : Q, a <= g * b -> 0 <= b -> b <= 0 -> a <= 0) as H. { intros a b H1 H2 H3. assert (b == 0) as E by lra. rewrite E in H1. lra. }
  split; intros S; apply silent; apply silent in S; [apply (H _ _ A (energy_pos _) S)|apply (H _ _ B (energy_pos _) S)].
Qed.
(** C102: the oversamplers by 2 and by 8 keep to the energy: going up by 2 gives at most twice the energy, as there are twice the
    samples, and going down by 2 at most half. *)
Theorem C102_oversampling l n h :
  energy (snd (@upBlock X coefs2 (@hclear X coefs2) l)) <= 2 * energy l /\
  ((length h = 2 * n)%nat -> 2 * energy (snd (@downBlock X n coefs2 (@hclear X coefs2) h)) <= energy h) /\
  energy (snd (@up8 X (@hclear X coefs2) (@hclear X coefs4) (@hclear X coefs8) l)) <= 8 * energy l /\
  ((length h = 8 * n)%nat -> 8 * energy (snd (@down8 X n (@hclear X coefs8) (@hclear X coefs4) (@hclear X coefs2) h)) <= energy h).
Proof.
  destruct coefs_inner as (F2 & F4 & F8). 
  assert (forall cs l, Forall inner cs -> energy (snd (@upBlock X cs (@hclear X cs) l)) <= 2 * energy l) as U.
  { intros cs l' F. destruct (hclear_pot r cs) as [H1 H2]. pose proof (up_energy r cs l' F _ H2) as A. destruct (@upBlock X cs _ l') as [m o]. destruct A as [_ A].
    rewrite H1 in A. cbn [snd]. pose proof (pot_pos cs m F). ql r. }
  assert (forall cs n l, Forall inner cs -> length l = (2 * n)%nat -> 2 * energy (snd (@downBlock X n cs (@hclear X cs) l)) <= energy l) as D.
  { intros cs n' l' F L. destruct (hclear_pot r cs) as [H1 H2]. pose proof (down_energy r cs n' F l' _ H2 L) as A. destruct (@downBlock X n' cs _ l') as [m o]. destruct A as [_ A].
    rewrite H1 in A. cbn [snd]. pose proof (pot_pos cs m F). ql r. }
  split; [now apply U|]. split; [now apply D|]. split.
  - unfold up8. change (w_cs2 X) with coefs2. change (w_cs4 X) with coefs4. change (w_cs8 X) with coefs8.
    pose proof (U coefs2 l F2) as A. destruct (@upBlock X coefs2 _ l) as [m2 l2]. cbn [snd] in A.
    pose proof (U coefs4 l2 F4) as B. destruct (@upBlock X coefs4 _ l2) as [m4 l4]. cbn [snd] in B.
    pose proof (U coefs8 l4 F8) as C. destruct (@upBlock X coefs8 _ l4) as [m8 l8]. cbn [snd] in *. ql r.
  - intros L. unfold down8. change (w_cs2 X) with coefs2. change (w_cs4 X) with coefs4. change (w_cs8 X) with coefs8.
    assert (length h = (2 * (4 * n))%nat) as L' by lia.
    pose proof (D coefs8 (4 * n)%nat h F8 L') as A. destruct (@downBlock X (4 * n) coefs8 _ h) as [m8 l8] eqn:E8. cbn [snd] in A.
    pose proof (@downBlock_length X coefs8 (4 * n) h _ _ _ L' E8) as L8. assert (length l8 = (2 * (2 * n))%nat) as L8' by (rewrite L8; lia).
    pose proof (D coefs4 (2 * n)%nat l8 F4 L8') as B. destruct (@downBlock X (2 * n) coefs4 _ l8) as [m4 l4] eqn:E4. cbn [snd] in B.
    pose proof (@downBlock_length X coefs4 (2 * n) l8 _ _ _ L8' E4) as L4.
    pose proof (D coefs2 n l4 F2 L4) as C. destruct (@downBlock X n coefs2 _ l4) as [m2 l2]. cbn [snd] in *. ql r.
Qed.
End Theorems.
