(** The linear smoother (C48). *)
From Coq Require Import QArith ZArith List Lia Bool Lqa Setoid.
Import ListNotations.
From Verif Require Import AdsrModel AdsrRange Rounding SmootherModel.
Open Scope Q_scope.

Lemma Qminf_cases x y : (Qminf x y = x /\ x <= y) \/ (Qminf x y = y /\ y < x).
Proof. unfold Qminf. destruct (Qltb y x) eqn:L; [apply Qltb_spec in L|apply Qltb_nspec in L]; auto. Qed.
Lemma Qmaxf_cases x y : (Qmaxf x y = x /\ y < x) \/ (Qmaxf x y = y /\ x <= y).
Proof. unfold Qmaxf. destruct (Qltb y x) eqn:L; [apply Qltb_spec in L|apply Qltb_nspec in L]; auto. Qed.
Lemma last_in (l : list Q) d : l <> [] -> In (last l d) l.
Proof.
  induction l as [|x l IH]; intros H; [congruence|]. destruct l as [|y l]; [left; reflexivity|]. right. apply IH. discriminate.
Qed.
Lemma firstn_in n (l : list Q) x : In x (firstn n l) -> In x l.
Proof. intros H. rewrite <- (firstn_skipn n l). apply in_or_app. now left. Qed.
Lemma skipn_in n (l : list Q) x : In x (skipn n l) -> In x l.
Proof. intros H. rewrite <- (firstn_skipn n l). apply in_or_app. now right. Qed.

(** ** With any monotone rounding *)
Section Rounded.
Variable rnd : Q -> Q.
Variable rep : Q -> Prop.
Hypothesis rnd_mono : forall x y, x <= y -> rnd x <= rnd y.
Hypothesis rnd_rep : forall x, rep x -> rnd x == x.
Hypothesis rep_rnd : forall x, rep (rnd x).
Hypothesis rep_0 : rep 0.

Lemma rnd_pos x : 0 <= x -> 0 <= rnd x.
Proof. intros H. rewrite <- (rnd_rep 0 rep_0). now apply rnd_mono. Qed.
Lemma rnd_neg x : x <= 0 -> rnd x <= 0.
Proof. intros H. rewrite <- (rnd_rep 0 rep_0). now apply rnd_mono. Qed.

(** The states that occur: the step points to the target. *)
Definition wf (s : smoother) : Prop := rep (s_current s) /\ rep (s_target s) /\
  (s_current s < s_target s -> 0 <= s_step s) /\ (s_target s < s_current s -> s_step s <= 0).

Lemma glide_up n target step : rep target -> 0 <= step -> forall c, rep c -> c <= target ->
  forall l e, glide rnd n true target step c = (l, e) -> Forall (fun y => c <= y <= target) l /\ c <= e <= target /\ rep e /\ length l = n.
Proof.
  intros Rt S. induction n as [|n IH]; intros c Rc C l e G; cbn [glide] in G.
  - injection G as <- <-. repeat apply conj; auto; lra.
  - destruct (glide rnd n true target step (approach rnd true target step c)) as [l' e'] eqn:E. injection G as <- <-.
    assert (c <= approach rnd true target step c <= target /\ rep (approach rnd true target step c)) as [A R].
    { unfold approach. assert (c <= rnd (c + step)) as Ha. { rewrite <- (rnd_rep c Rc) at 1. apply rnd_mono. lra. }
      destruct (Qminf_cases target (rnd (c + step))) as [[-> H]|[-> H]]; split; auto; lra. }
    destruct (IH _ R (proj2 A) _ _ E) as (I1 & I2 & I3 & I4). repeat apply conj; auto; [|lra|lra|cbn [length]; congruence].
    constructor; [assumption|]. eapply Forall_impl; [|exact I1]. intros y Y. cbn beta in Y. lra.
Qed.
Lemma glide_down n target step : rep target -> step <= 0 -> forall c, rep c -> target <= c ->
  forall l e, glide rnd n false target step c = (l, e) -> Forall (fun y => target <= y <= c) l /\ target <= e <= c /\ rep e /\ length l = n.
Proof.
  intros Rt S. induction n as [|n IH]; intros c Rc C l e G; cbn [glide] in G.
  - injection G as <- <-. repeat apply conj; auto; lra.
  - destruct (glide rnd n false target step (approach rnd false target step c)) as [l' e'] eqn:E. injection G as <- <-.
    assert (target <= approach rnd false target step c <= c /\ rep (approach rnd false target step c)) as [A R].
    { unfold approach. assert (rnd (c + step) <= c) as Ha. { rewrite <- (rnd_rep c Rc) at 2. apply rnd_mono. lra. }
      destruct (Qmaxf_cases target (rnd (c + step))) as [[-> H]|[-> H]]; split; auto; lra. }
    destruct (IH _ R (proj1 A) _ _ E) as (I1 & I2 & I3 & I4). repeat apply conj; auto; [|lra|lra|cbn [length]; congruence].
    constructor; [assumption|]. eapply Forall_impl; [|exact I1]. intros y Y. cbn beta in Y. lra.
Qed.
Lemma group_spec n next s l s' lo hi : (0 < n)%nat -> wf s -> rep next ->
  lo <= s_current s <= hi -> lo <= next <= hi -> group rnd n next s = (l, s') ->
  wf s' /\ s_frames s' = s_frames s /\ s_target s' == next /\ lo <= s_current s' <= hi /\ Forall (fun y => lo <= y <= hi) l /\ length l = n.
Proof.
  intros N (W1 & W2 & W3 & W4) Rn C X G. unfold group in G.
  remember (if negb (Qeq_bool (s_target s) next) then next else s_target s) as target eqn:Et.
  remember (if negb (Qeq_bool (s_target s) next) then rnd (rnd (target - s_current s) / inject_Z (Z.max (Z.of_nat n) (s_frames s))) else s_step s) as step eqn:Es.
  assert (target == next /\ rep target) as [Tn Rt].
  { subst target. destruct (Qeq_bool (s_target s) next) eqn:E; cbn [negb]; [apply Qeq_bool_iff in E|]; split; auto; reflexivity. }
  assert (0 < inject_Z (Z.max (Z.of_nat n) (s_frames s))) as Mp. { change 0 with (inject_Z 0). rewrite <- Zlt_Qlt. lia. }
  assert ((s_current s < target -> 0 <= step) /\ (target < s_current s -> step <= 0)) as [Sp Sn].
  { subst step. destruct (Qeq_bool (s_target s) next) eqn:E; cbn [negb].
    - subst target. cbn [negb] in *. auto.
    - split; intros H.
      + apply rnd_pos. apply Qle_shift_div_l; [assumption|]. rewrite Qmult_0_l. apply rnd_pos. lra.
      + apply rnd_neg. apply Qle_shift_div_r; [assumption|]. rewrite Qmult_0_l. apply rnd_neg. lra. }
  destruct (Qltb (s_current s) target) eqn:L1.
  - apply Qltb_spec in L1. destruct (glide rnd n true target step (s_current s)) as [l' e] eqn:E. injection G as <- <-.
    destruct (glide_up n target step Rt (Sp L1) _ W1 ltac:(lra) _ _ E) as (A & B & D & F).
    unfold wf. cbn [s_current s_target s_step s_frames]. repeat apply conj; auto; try (intros; lra).
    eapply Forall_impl; [|exact A]. intros y Y. cbn beta in Y. lra.
  - apply Qltb_nspec in L1. destruct (Qltb target (s_current s)) eqn:L2.
    + apply Qltb_spec in L2. destruct (glide rnd n false target step (s_current s)) as [l' e] eqn:E. injection G as <- <-.
      destruct (glide_down n target step Rt (Sn L2) _ W1 ltac:(lra) _ _ E) as (A & B & D & F).
      unfold wf. cbn [s_current s_target s_step s_frames]. repeat apply conj; auto; try (intros; lra).
      eapply Forall_impl; [|exact A]. intros y Y. cbn beta in Y. lra.
    + apply Qltb_nspec in L2. injection G as <- <-. unfold wf. cbn [s_current s_target s_step s_frames].
      repeat apply conj; auto; try lra; [|now rewrite repeat_length].
      apply Forall_forall. intros y Y. apply repeat_spec in Y. subst y. lra.
Qed.
Lemma groups_spec fuel : forall input s l s' lo hi, (length input <= fuel)%nat -> wf s -> Forall rep input ->
  lo <= s_current s <= hi -> Forall (fun x => lo <= x <= hi) input -> groups rnd fuel input s = (l, s') ->
  wf s' /\ s_frames s' = s_frames s /\ lo <= s_current s' <= hi /\ Forall (fun y => lo <= y <= hi) l /\ length l = length input /\
  (input <> [] -> s_target s' == last input 0).
Proof.
  induction fuel as [|f IH]; intros input s l s' lo hi F W R C X G.
  - destruct input; [|cbn [length] in F; lia]. cbn [groups] in G. injection G as <- <-. repeat apply conj; auto; try lra; [apply W..|congruence].
  - destruct input as [|x0 input0]; [cbn [groups] in G; injection G as <- <-; repeat apply conj; auto; try lra; [apply W..|congruence]|].
    remember (x0 :: input0) as input eqn:Ei. assert (input <> []) as Ne by (subst; discriminate).
    assert (groups rnd (S f) input s = let g := firstn 16 input in let (o, s0) := group rnd (length g) (last g 0) s in
      let (r, s1) := groups rnd f (skipn 16 input) s0 in (o ++ r, s1)) as U by (rewrite Ei; reflexivity).
    rewrite U in G. clear U. cbv zeta in G.
    assert (firstn 16 input <> []) as Ne1 by (rewrite Ei; discriminate).
    destruct (group rnd (length (firstn 16 input)) (last (firstn 16 input) 0) s) as [o s1] eqn:E1.
    destruct (groups rnd f (skipn 16 input) s1) as [r s2] eqn:E2. injection G as <- <-.
    assert (In (last (firstn 16 input) 0) input) as Il by (apply (firstn_in 16); now apply last_in).
    rewrite Forall_forall in R, X. assert (length (firstn 16 input) > 0)%nat as Lp by (destruct (firstn 16 input); [congruence|cbn; lia]).
    destruct (group_spec _ _ _ _ _ lo hi Lp W (R _ Il) C (X _ Il) E1) as (W1 & F1 & T1 & C1 & O1 & L1).
    destruct (IH (skipn 16 input) s1 r s2 lo hi) as (W2 & F2 & C2 & O2 & L2 & T2); auto.
    + rewrite skipn_length. subst input. cbn [length] in *. lia.
    + apply Forall_forall. intros y Y. apply R. eapply skipn_in; exact Y.
    + apply Forall_forall. intros y Y. apply X. eapply skipn_in; exact Y.
    + repeat apply conj; auto; try lra; try apply W2; [congruence|now apply Forall_app| |].
      * rewrite app_length, L1, L2, <- app_length, firstn_skipn. reflexivity.
      * intros _. destruct (skipn 16 input) as [|y q] eqn:Es.
        -- rewrite <- (firstn_skipn 16 input), Es, app_nil_r. destruct f; cbn [groups] in E2; injection E2 as _ <-; exact T1.
        -- rewrite T2 by discriminate. rewrite <- (firstn_skipn 16 input), Es.
           assert (forall (a b : list Q), b <> [] -> last (a ++ b) 0 = last b 0) as La.
           { clear. induction a as [|z a IH]; intros b B; [reflexivity|]. cbn [app last]. destruct (a ++ b) eqn:E; [destruct a; [cbn in E; congruence|discriminate]|]. rewrite <- E. now apply IH. }
           rewrite La by discriminate. reflexivity.
Qed.
(** C48: whatever interval holds the current value and the input holds the output, which has the size of the input;
    the state goes on likewise, and aims at the last input.  True of any rounding that is monotone. *)
Theorem C48_no_overshoot input short s l s' lo hi : wf s -> Forall rep input ->
  lo <= s_current s <= hi -> Forall (fun x => lo <= x <= hi) input -> process rnd input short s = (l, s') ->
  Forall (fun y => lo <= y <= hi) l /\ length l = length input /\ lo <= s_current s' <= hi /\ wf s' /\
  (input <> [] -> s_target s' == last input 0).
Proof.
  intros W R C X P. unfold process in P. destruct input as [|x0 input0].
  - injection P as <- <-. repeat apply conj; auto; try lra; [apply W..|congruence].
  - remember (x0 :: input0) as input eqn:Ei. assert (input <> []) as Ne by (subst; discriminate).
    destruct ((s_frames s <? 2)%Z || _) eqn:Sc.
    + injection P as <- <-. rewrite Forall_forall in R, X. pose proof (last_in input 0 Ne) as Il. pose proof (R _ Il). pose proof (X _ Il).
      unfold reset, wf. cbn [s_current s_target s_step s_frames]. repeat apply conj; auto; try lra; try (apply Forall_forall; assumption); intros; try lra; reflexivity.
    + destruct (groups_spec _ _ _ _ _ lo hi (le_n _) W R C X P) as (A & B & D & F & G & H). repeat apply conj; auto; try lra; apply A.
Qed.
End Rounded.

(** ** Arriving, with exact arithmetic *)
Definition exact (x : Q) : Q := x.
Lemma exact_wf s : wf (fun _ => True) s <-> (s_current s < s_target s -> 0 <= s_step s) /\ (s_target s < s_current s -> s_step s <= 0).
Proof. unfold wf. tauto. Qed.
(** At most [r] frames are missing. *)
Definition within (r : Z) (s : smoother) : Prop :=
  (s_current s < s_target s -> 0 <= s_step s /\ s_target s - s_current s <= inject_Z r * s_step s) /\
  (s_target s < s_current s -> s_step s <= 0 /\ s_target s - s_current s >= inject_Z r * s_step s).
Definition span (s : smoother) : Z := Z.max 16 (s_frames s).
Lemma glide_up_exact n target step : 0 <= step -> forall c r l e, c <= target -> (c < target -> target - c <= inject_Z r * step) ->
  glide exact n true target step c = (l, e) -> c <= e <= target /\ (e < target -> target - e <= inject_Z (r - Z.of_nat n) * step).
Proof.
  intros Hs. induction n as [|n IH]; intros c r l e C B G; cbn [glide] in G.
  - injection G as <- <-. split; [lra|]. rewrite Z.sub_0_r. exact B.
  - destruct (glide exact n true target step (approach exact true target step c)) as [l' e'] eqn:E. injection G as <- <-.
    assert (c <= approach exact true target step c <= target /\ (approach exact true target step c < target -> target - approach exact true target step c <= inject_Z (r - 1) * step)) as [A R].
    { unfold approach, exact. destruct (Qminf_cases target (c + step)) as [[-> H]|[-> H]]; [split; [lra|intros; lra]|]. split; [lra|]. intros H1.
      unfold Z.sub. rewrite inject_Z_plus. change (inject_Z (- (1))) with (-1). assert (c < target) as H2 by lra. specialize (B H2). lra. }
    destruct (IH _ (r - 1)%Z _ _ (proj2 A) R E) as [I1 I2]. split; [lra|].
    replace (r - Z.of_nat (S n))%Z with (r - 1 - Z.of_nat n)%Z by lia. exact I2.
Qed.
Lemma glide_down_exact n target step : step <= 0 -> forall c r l e, target <= c -> (target < c -> target - c >= inject_Z r * step) ->
  glide exact n false target step c = (l, e) -> target <= e <= c /\ (target < e -> target - e >= inject_Z (r - Z.of_nat n) * step).
Proof.
  intros Hs. induction n as [|n IH]; intros c r l e C B G; cbn [glide] in G.
  - injection G as <- <-. split; [lra|]. rewrite Z.sub_0_r. exact B.
  - destruct (glide exact n false target step (approach exact false target step c)) as [l' e'] eqn:E. injection G as <- <-.
    assert (target <= approach exact false target step c <= c /\ (target < approach exact false target step c -> target - approach exact false target step c >= inject_Z (r - 1) * step)) as [A R].
    { unfold approach, exact. destruct (Qmaxf_cases target (c + step)) as [[-> H]|[-> H]]; [split; [lra|intros; lra]|]. split; [lra|]. intros H1.
      unfold Z.sub. rewrite inject_Z_plus. change (inject_Z (- (1))) with (-1). assert (target < c) as H2 by lra. specialize (B H2). lra. }
    destruct (IH _ (r - 1)%Z _ _ (proj1 A) R E) as [I1 I2]. split; [lra|].
    replace (r - Z.of_nat (S n))%Z with (r - 1 - Z.of_nat n)%Z by lia. exact I2.
Qed.
Lemma group_within n next s l s' : (0 < n <= 16)%nat -> group exact n next s = (l, s') -> within (span s) s ->
  s_frames s' = s_frames s /\ s_target s' == next /\ within (span s - Z.of_nat n) s' /\
  forall r, s_target s == next -> within r s -> within (r - Z.of_nat n) s'.
Proof.
  intros N G W. unfold group in G.
  remember (if negb (Qeq_bool (s_target s) next) then next else s_target s) as target eqn:Et.
  remember (if negb (Qeq_bool (s_target s) next) then exact (exact (target - s_current s) / inject_Z (Z.max (Z.of_nat n) (s_frames s))) else s_step s) as step eqn:Es.
  assert (target == next) as Tn.
  { subst target. destruct (Qeq_bool (s_target s) next) eqn:E; cbn [negb]; [now apply Qeq_bool_iff in E|reflexivity]. }
  assert (0 < inject_Z (Z.max (Z.of_nat n) (s_frames s))) as Mp. { change 0 with (inject_Z 0). rewrite <- Zlt_Qlt. lia. }
  assert (inject_Z (Z.max (Z.of_nat n) (s_frames s)) <= inject_Z (span s)) as Ms. { rewrite <- Zle_Qle. unfold span. lia. }
  assert (forall r, (s_target s == next -> within r s) -> (s_target s == next \/ r = span s) -> within r (Smoother (s_current s) target step (s_frames s))) as Wr.
  { intros r H1 H2. unfold within. cbn [s_current s_target s_step].
    destruct (Qeq_bool (s_target s) next) eqn:E; cbn [negb] in *.
    - apply Qeq_bool_iff in E. subst target step. exact (H1 E).
    - assert (~ s_target s == next) as NE by (intros H; apply Qeq_bool_iff in H; congruence).
      destruct H2 as [H2| ->]; [contradiction|]. unfold exact in Es. set (m := inject_Z (Z.max (Z.of_nat n) (s_frames s))) in *.
      assert (m * step == target - s_current s) as Q by (subst step; field; lra).
      split; intros H; (assert (0 <= step \/ step <= 0) as [D|D] by (destruct (Qlt_le_dec step 0); [right|left]; lra)); split; nra. }
  assert (forall r, within r (Smoother (s_current s) target step (s_frames s)) -> s_frames s' = s_frames s /\ s_target s' = target /\ within (r - Z.of_nat n) s') as Fin.
  { intros r [W1 W2]. cbn [s_current s_target s_step] in W1, W2. destruct (Qltb (s_current s) target) eqn:L1.
    - apply Qltb_spec in L1. destruct (W1 L1) as [Sp B]. destruct (glide exact n true target step (s_current s)) as [l' e] eqn:E. injection G as <- <-.
      cbn [s_frames s_target]. split; [reflexivity|]. split; [reflexivity|].
      destruct (glide_up_exact n target step Sp (s_current s) r _ _ ltac:(lra) (fun _ => B) E) as [A1 A2]. unfold within. cbn [s_current s_target s_step]. split; intros; [auto|lra].
    - apply Qltb_nspec in L1. destruct (Qltb target (s_current s)) eqn:L2.
      + apply Qltb_spec in L2. destruct (W2 L2) as [Sp B]. destruct (glide exact n false target step (s_current s)) as [l' e] eqn:E. injection G as <- <-.
        cbn [s_frames s_target]. split; [reflexivity|]. split; [reflexivity|].
        destruct (glide_down_exact n target step Sp (s_current s) r _ _ ltac:(lra) (fun _ => B) E) as [A1 A2]. unfold within. cbn [s_current s_target s_step]. split; intros; [lra|auto].
      + apply Qltb_nspec in L2. injection G as <- <-. cbn [s_frames s_target]. split; [reflexivity|]. split; [reflexivity|].
        unfold within. cbn [s_current s_target s_step]. split; intros; lra. }
  destruct (Fin (span s) (Wr (span s) (fun _ => W) (or_intror eq_refl))) as (A & B & C).
  split; [exact A|]. split; [now rewrite B|]. split; [exact C|]. intros r E H. apply (Fin r). apply Wr; auto.
Qed.
Lemma groups_within fuel t : forall n s r l s', (n <= fuel)%nat -> groups exact fuel (repeat t n) s = (l, s') ->
  within (span s) s -> s_target s == t -> within r s -> s_frames s' = s_frames s /\ s_target s' == t /\ within (r - Z.of_nat n) s' /\ (r <= span s -> within (span s) s')%Z.
Proof.
  assert (forall n m, firstn n (repeat t m) = repeat t (Nat.min n m) /\ skipn n (repeat t m) = repeat t (m - n)) as FS.
  { induction n as [|n IH]; intros [|m]; cbn [firstn skipn repeat Nat.min Nat.sub]; auto. destruct (IH m) as [-> ->]. auto. }
  assert (forall m, last (repeat t (S m)) 0 = t) as LR.
  { induction m as [|m IH]; [reflexivity|]. change (repeat t (S (S m))) with (t :: repeat t (S m)). cbn [last]. exact IH. }
  assert (forall (s : smoother) a b, (a <= b)%Z -> within a s -> within b s) as Mono.
  { intros s a b L [W1 W2]. assert (inject_Z a <= inject_Z b) as Lq by (now rewrite <- Zle_Qle).
    split; intros H; [destruct (W1 H)|destruct (W2 H)]; split; nra. }
  induction fuel as [|f IH]; intros n s r l s' F G Ws Tt W.
  - assert (n = 0%nat) as -> by lia. cbn [repeat groups] in G. injection G as <- <-. rewrite Z.sub_0_r. auto.
  - destruct n as [|n].
    + cbn [repeat groups] in G. injection G as <- <-. rewrite Z.sub_0_r. auto.
    + remember (S n) as m eqn:Em.
      assert (groups exact (S f) (repeat t m) s = let g := firstn 16 (repeat t m) in let (o, s0) := group exact (length g) (last g 0) s in
        let (r, s1) := groups exact f (skipn 16 (repeat t m)) s0 in (o ++ r, s1)) as U by (subst m; reflexivity).
      rewrite U in G. clear U. cbv zeta in G. destruct (FS 16%nat m) as [FS1 FS2]. rewrite FS1, FS2, repeat_length in G.
      replace (Nat.min 16 m) with (S (Nat.min 15 n)) in G by lia. rewrite LR in G.
      remember (S (Nat.min 15 n)) as k eqn:Ek.
      destruct (group exact k t s) as [o s1] eqn:E1. destruct (groups exact f (repeat t (m - 16)) s1) as [q s2] eqn:E2. injection G as <- <-.
      destruct (group_within k t s o s1 ltac:(lia) E1 Ws) as (A & B & C & D).
      assert (span s1 = span s) as Sp by (unfold span; now rewrite A).
      destruct (IH (m - 16)%nat s1 (r - Z.of_nat k)%Z q s2) as (A2 & B2 & C2 & D2); auto; try lia.
      * rewrite Sp. eapply Mono; [|exact C]. lia.
      * split; [congruence|]. split; [assumption|]. split.
        -- eapply Mono; [|exact C2]. lia.
        -- intros R. rewrite <- Sp. apply D2. rewrite Sp. lia.
Qed.
Lemma within_mono (s : smoother) a b : (a <= b)%Z -> within a s -> within b s.
Proof.
  intros L [W1 W2]. assert (inject_Z a <= inject_Z b) as Lq by (now rewrite <- Zle_Qle).
  split; intros H; [destruct (W1 H)|destruct (W2 H)]; split; nra.
Qed.
(** What is left to do for the target [t]. *)
Definition left (t : Q) (r : Z) (s : smoother) : Prop := within (span s) s /\ (r <= span s)%Z /\ ((s_target s == t /\ within r s) \/ r = span s).
Lemma groups_left fuel t n s r l s' : (0 < n <= fuel)%nat -> groups exact fuel (repeat t n) s = (l, s') -> left t r s ->
  s_frames s' = s_frames s /\ left t (r - Z.of_nat n) s' /\ s_target s' == t.
Proof.
  intros N G (Ws & Rs & L).
  assert (s_target s == t \/ ~ s_target s == t) as [Tt|Tn] by (destruct (Qeq_dec (s_target s) t); auto).
  - assert (within r s) as W by (destruct L as [[_ W]| ->]; assumption).
    destruct (groups_within fuel t n s r l s' ltac:(lia) G Ws Tt W) as (A & B & C & D). split; [exact A|]. split; [|exact B].
    assert (span s' = span s) as Sp by (unfold span; now rewrite A).
    unfold left. rewrite Sp. split; [now apply D|]. split; [lia|]. left. auto.
  - destruct L as [[H _]| ->]; [contradiction|].
    destruct fuel as [|f]; [lia|]. destruct n as [|n]; [lia|]. remember (S n) as m eqn:Em.
    assert (groups exact (S f) (repeat t m) s = let g := firstn 16 (repeat t m) in let (o, s0) := group exact (length g) (last g 0) s in
        let (r, s1) := groups exact f (skipn 16 (repeat t m)) s0 in (o ++ r, s1)) as U by (subst m; reflexivity).
    rewrite U in G. clear U. cbv zeta in G.
    assert (forall n m, firstn n (repeat t m) = repeat t (Nat.min n m) /\ skipn n (repeat t m) = repeat t (m - n)) as FS.
    { clear. induction n as [|n IH]; intros [|m]; cbn [firstn skipn repeat Nat.min Nat.sub]; auto. destruct (IH m) as [-> ->]. auto. }
    assert (forall m, last (repeat t (S m)) 0 = t) as LR.
    { clear. induction m as [|m IH]; [reflexivity|]. change (repeat t (S (S m))) with (t :: repeat t (S m)). cbn [last]. exact IH. }
    destruct (FS 16%nat m) as [FS1 FS2]. rewrite FS1, FS2, repeat_length in G.
    replace (Nat.min 16 m) with (S (Nat.min 15 n)) in G by lia. rewrite LR in G.
    remember (S (Nat.min 15 n)) as k eqn:Ek.
    destruct (group exact k t s) as [o s1] eqn:E1. destruct (groups exact f (repeat t (m - 16)) s1) as [q s2] eqn:E2. injection G as <- <-.
    destruct (group_within k t s o s1 ltac:(lia) E1 Ws) as (A & B & C & _).
    assert (span s1 = span s) as Sp by (unfold span; now rewrite A).
    destruct (groups_within f t (m - 16)%nat s1 (span s - Z.of_nat k) q s2) as (A2 & B2 & C2 & D2); auto; try lia.
    { rewrite Sp. eapply within_mono; [|exact C]. lia. }
    assert (span s2 = span s) as Sp2 by (unfold span; now rewrite A2, A).
    split; [congruence|]. split; [|assumption]. unfold left. rewrite Sp2. split; [rewrite <- Sp; apply D2; rewrite Sp; lia|]. split; [lia|].
    left. split; [assumption|]. eapply within_mono; [|exact C2]. lia.
Qed.
(** The smoother fed with blocks of a constant, of any sizes. *)
Fixpoint constant (t : Q) (blocks : list (nat * bool)) (s : smoother) : smoother :=
  match blocks with [] => s | (n, short) :: bs => constant t bs (snd (process exact (repeat t n) short s)) end.
Definition total (blocks : list (nat * bool)) : nat := fold_right (fun b k => fst b + k)%nat 0%nat blocks.
(** A state that occurs: any state reached from a reset (see [C48_occurs]). *)
Definition occurs (s : smoother) : Prop := within (span s) s.
(** C48: after a change of the input to a constant the smoother is at the constant once the smoothing time (or 16
    frames, if that is more) has gone by, however it is divided into blocks. *)
Theorem C48_reaches t blocks s : occurs s -> (span s <= Z.of_nat (total blocks))%Z -> s_current (constant t blocks s) == t.
Proof.
  intros O T.
  assert (forall blocks r s, left t r s -> left t (r - Z.of_nat (total blocks)) (constant t blocks s) /\ (0 < total blocks -> s_target (constant t blocks s) == t \/ total blocks = 0)%nat /\ s_frames (constant t blocks s) = s_frames s) as H.
  { clear. induction blocks as [|[n sh] bs IH]; intros r s L; cbn [constant total fold_right fst].
    - rewrite Z.sub_0_r. split; [assumption|]. split; [lia|reflexivity].
    - fold (total bs).
      assert (left t (r - Z.of_nat n) (snd (process exact (repeat t n) sh s)) /\ (0 < n -> s_target (snd (process exact (repeat t n) sh s)) == t)%nat /\ s_frames (snd (process exact (repeat t n) sh s)) = s_frames s) as (Ln & Tn & Fn).
      { destruct n as [|n]; [cbn [repeat process snd]; rewrite Z.sub_0_r; split; [assumption|]; split; [lia|reflexivity]|].
        remember (S n) as m eqn:Em.
        assert (process exact (repeat t m) sh s = if (s_frames s <? 2)%Z || (sh && Qeq_bool (s_current s) (s_target s) && Qeq_bool (s_current s) t)
          then (repeat t m, reset (last (repeat t m) 0) s) else groups exact (length (repeat t m)) (repeat t m) s) as U by (subst m; reflexivity).
        rewrite U. clear U. destruct ((s_frames s <? 2)%Z || _) eqn:Sc.
        - cbn [snd]. assert (forall m, last (repeat t (S m)) 0 = t) as LR.
          { clear. induction m as [|m IH]; [reflexivity|]. change (repeat t (S (S m))) with (t :: repeat t (S m)). cbn [last]. exact IH. }
          rewrite Em, LR. destruct L as (_ & R & _). unfold left, reset, within, span in *. cbn [s_current s_target s_step s_frames] in *.
          split; [|split; [intros _; reflexivity|reflexivity]]. split; [split; intros; lra|]. split; [lia|]. left. split; [reflexivity|]. split; intros; lra.
        - rewrite repeat_length. destruct (groups exact m (repeat t m) s) as [l s'] eqn:E. cbn [snd].
          destruct (groups_left m t m s r l s' ltac:(lia) E L) as (Fr & A & B). split; [exact A|]. split; [intros _; exact B|exact Fr]. }
      destruct (IH _ _ Ln) as (I1 & I2 & I3). split; [|split; [|congruence]].
      + replace (r - Z.of_nat (n + total bs))%Z with (r - Z.of_nat n - Z.of_nat (total bs))%Z by lia. exact I1.
      + intros P. destruct (total bs) as [|k] eqn:Et; [|left; destruct I2 as [I2|I2]; [lia|exact I2|discriminate]].
        left. assert (constant t bs (snd (process exact (repeat t n) sh s)) = snd (process exact (repeat t n) sh s)) as ->; [|apply Tn; lia].
        revert Et. clear. generalize (snd (process exact (repeat t n) sh s)). induction bs as [|[m b] bs IH]; intros s0 Et; [reflexivity|].
        cbn [total fold_right fst] in Et. fold (total bs) in Et. assert (m = 0%nat) as -> by lia. cbn [constant repeat process snd]. apply IH. lia. }
  destruct (H blocks (span s) s) as ((_ & _ & F) & Tg & Fr).
  { split; [exact O|]. split; [lia|]. now right. }
  assert (0 < total blocks)%nat as P by (unfold span in T; lia). specialize (Tg P). destruct Tg as [Tg|Tg]; [|lia].
  remember (constant t blocks s) as e eqn:Ee.
  assert (within (span s - Z.of_nat (total blocks)) e) as [W1 W2].
  { destruct F as [[_ F]|F]; [exact F|]. assert (span e = span s) as Sp; [unfold span; now rewrite Fr|unfold span in *; lia]. }
  assert (inject_Z (span s - Z.of_nat (total blocks)) <= 0) as R. { change 0 with (inject_Z 0). rewrite <- Zle_Qle. lia. }
  rewrite <- Tg. destruct (Qlt_le_dec (s_current e) (s_target e)) as [C|C]; [destruct (W1 C); nra|].
  destruct (Qlt_le_dec (s_target e) (s_current e)) as [D|D]; [destruct (W2 D); nra|lra].
Qed.
Lemma groups_occurs fuel : forall input s l s', groups exact fuel input s = (l, s') -> occurs s -> occurs s' /\ span s' = span s.
Proof.
  induction fuel as [|f IH]; intros input s l s' G O; [cbn [groups] in G; injection G as <- <-; auto|].
  destruct input as [|x0 input0]; [cbn [groups] in G; injection G as <- <-; auto|].
  remember (x0 :: input0) as input eqn:Ei.
  assert (groups exact (S f) input s = let g := firstn 16 input in let (o, s0) := group exact (length g) (last g 0) s in
      let (r, s1) := groups exact f (skipn 16 input) s0 in (o ++ r, s1)) as U by (rewrite Ei; reflexivity).
  rewrite U in G. clear U. cbv zeta in G.
  destruct (group exact (length (firstn 16 input)) (last (firstn 16 input) 0) s) as [o s1] eqn:E1.
  destruct (groups exact f (skipn 16 input) s1) as [r s2] eqn:E2. injection G as <- <-.
  assert (0 < length (firstn 16 input) <= 16)%nat as Lf by (rewrite firstn_length, Ei; cbn [length]; lia).
  destruct (group_within _ _ _ _ _ Lf E1 O) as (A & _ & C & _).
  assert (span s1 = span s) as Sp by (unfold span; now rewrite A).
  destruct (IH _ _ _ _ E2) as [O2 S2]; [|split; [assumption|congruence]].
  unfold occurs. rewrite Sp. eapply within_mono; [|exact C]. lia.
Qed.
(** The states that occur: those after a reset, and those after any block of input. *)
Theorem C48_occurs : (forall v s, occurs (reset v s)) /\ (forall input short s, occurs s -> occurs (snd (process exact input short s))).
Proof.
  assert (forall v s, occurs (reset v s)) as R.
  { intros v s. unfold occurs, within, reset. cbn [s_current s_target s_step]. split; intros; lra. }
  split; [exact R|]. intros input short s O. unfold process. destruct input as [|x l]; [exact O|].
  destruct ((s_frames s <? 2)%Z || _); [apply R|].
  destruct (groups exact (length (x :: l)) (x :: l) s) as [o s'] eqn:E. apply (groups_occurs _ _ _ _ _ E O).
Qed.
(** From 0 to 1 in 20 frames, with a change of the direction on the way. *)
Example C48_ex :
  let s := Smoother 0 0 0 20 in
  let r := process Qred (repeat 1 18) true s in
  fst r = [1 # 20; 1 # 10; 3 # 20; 1 # 5; 1 # 4; 3 # 10; 7 # 20; 2 # 5; 9 # 20; 1 # 2; 11 # 20; 3 # 5; 13 # 20; 7 # 10; 3 # 4; 4 # 5; 17 # 20; 9 # 10] /\
  fst (process Qred (repeat 1 4) true (snd r)) = [19 # 20; 1; 1; 1] /\
  fst (process Qred [1; 1; 0] true (snd r)) = [171 # 200; 81 # 100; 153 # 200] /\ occurs s /\ span s = 20%Z.
Proof. cbv zeta. split; [vm_compute; reflexivity|]. split; [vm_compute; reflexivity|]. split; [vm_compute; reflexivity|]. split; [|reflexivity]. split; cbn; intros; lra. Qed.
(** C48: with the rounding of binary32 a small difference is never made up: a step of less than half a unit in the
    last place leaves the value where it is. *)
Theorem C48_stuck_refuted :
  let t := 1 + (10 # 8388608) in
  let s := Smoother 1 1 0 100 in
  forall k, (0 < k)%nat -> s_current (Nat.iter k (fun s => snd (process float24 (repeat t 16) true s)) s) = 1 /\ ~ 1 == t.
Proof.
  cbv zeta. set (t := 1 + (10 # 8388608)). set (f := fun s => snd (process float24 (repeat t 16) true s)).
  assert (f (f (Smoother 1 1 0 100)) = f (Smoother 1 1 0 100)) as Fix by (vm_compute; reflexivity).
  assert (s_current (f (Smoother 1 1 0 100)) = 1) as One by (vm_compute; reflexivity).
  intros k K. split; [|intros H; vm_compute in H; discriminate]. destruct k as [|k]; [lia|].
  assert (Nat.iter (S k) f (Smoother 1 1 0 100) = f (Smoother 1 1 0 100)) as ->; [|exact One].
  clear K. induction k as [|k IH]; [reflexivity|]. change (Nat.iter (S (S k)) f (Smoother 1 1 0 100)) with (f (Nat.iter (S k) f (Smoother 1 1 0 100))). now rewrite IH.
Qed.

(** A smoother set to its target stays there as long as the input does. *)
Theorem C48_reset_to_target s n short : Forall (fun y => y == s_target s)
  (fst (process exact (repeat (s_target s) n) short (resetToTarget s))).
Proof.
  destruct (process exact (repeat (s_target s) n) short (resetToTarget s)) as [l s'] eqn:P. cbn [fst].
  destruct (C48_no_overshoot exact (fun _ => True)) with (input := repeat (s_target s) n) (short := short) (s := resetToTarget s)
    (l := l) (s' := s') (lo := s_target s) (hi := s_target s) as (F & _); auto.
  - intros x _. reflexivity.
  - apply exact_wf. unfold resetToTarget, reset. cbn [s_current s_target s_step]. split; intros _; apply Qle_refl.
  - apply Forall_forall. auto.
  - unfold resetToTarget, reset. cbn [s_current]. lra.
  - apply Forall_forall. intros x I. apply repeat_spec in I. subst x. lra.
  - eapply Forall_impl; [|exact F]. cbn beta. intros y Y. lra.
Qed.
Example C48_reset_to_target_ex : fst (process exact [3; 3] false (resetToTarget (Smoother 1 3 (1 # 10) 20))) = [3; 3].
Proof. vm_compute. reflexivity. Qed.
