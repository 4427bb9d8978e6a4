(** C105: what the lofi effect holds, how it rounds, and which samples it takes.
    Code: src/sfizz/effects/Lofi.cpp 113-209; the loops are [bitredStep] and [decimStep] of EffectsModel. *)
From Coq Require Import List Arith Bool Lia ZArith QArith Qround Qabs Lqa.
Import ListNotations.
Require Import Verif.EffectsModel.

Lemma iter_succ_r {A} (f : A -> A) n x : Nat.iter (S n) f x = Nat.iter n f (f x).
Proof. induction n as [|n IH]; [reflexivity|]. change (f (Nat.iter (S n) f x) = f (Nat.iter n f (f x))). now rewrite IH. Qed.

Section Hold.
  Context {X : world}.
  Notation V := (w_V X).
  (** ** Specification *)
  (** Between two values lies their mean; a value that stays is kept as it is. *)
  Definition between (a y : V) : V := if w_eqb X y a then y else w_mul X (w_half X) (w_add X y a).
  (** Values at twice the rate, from the value before them: in front of every value the one between it and its predecessor. *)
  Definition doubled (before : V) (ys : list V) : list (V * V) := map (fun p => (between (fst p) (snd p), snd p)) (combine (before :: ys) ys).
  (** The phase with which the sample [i] is reached, and whether it is taken. *)
  Definition phaseAt (dt p : V) (i : nat) : V := w_add X (Nat.iter i (fun p => w_frac X (w_add X p dt)) p) dt.
  Definition taken (dt p : V) (i : nat) : bool := w_gt1 X (phaseAt dt p i).

  Lemma doubled_cons b y ys : doubled b (y :: ys) = (between b y, y) :: doubled y ys.
  Proof. reflexivity. Qed.
  (** The reduction of bits puts out the rounded samples, doubled and filtered. *)
  Theorem C105_bits q : forall l s,
    snd (run (bitredStep q) s l) = snd (run (downSample (w_cs2 X)) (b_down s) (doubled (b_last s) (map q l))) /\
    b_last (fst (run (bitredStep q) s l)) = last (map q l) (b_last s).
  Proof.
    induction l as [|x l IH]; intros s; [split; reflexivity|]. cbn [run map].
    assert (ST : bitredStep q s x = let '(d, o) := downSample (w_cs2 X) (b_down s) (between (b_last s) (q x), q x) in (Bitred (q x) d, o)) by reflexivity.
    rewrite ST. clear ST. rewrite doubled_cons. cbn [run].
    destruct (downSample (w_cs2 X) (b_down s) (between (b_last s) (q x), q x)) as [d o].
    destruct (IH (Bitred (q x) d)) as [A B]. cbn [b_last b_down] in A, B.
    destruct (run (bitredStep q) (Bitred (q x) d) l) as [s' r]. destruct (run (downSample (w_cs2 X)) d (doubled (q x) (map q l))) as [d' r'].
    cbn [fst snd] in *. split; [now rewrite A|]. rewrite B. destruct (map q l) as [|y m]; [reflexivity|]. clear. cbn [last].
    revert y. induction m as [|z m IH]; intros y; [reflexivity|]. cbn [last] in *. apply IH.
  Qed.

  (** The reduction of the rate puts out values that are held until a sample is taken, doubled and filtered. *)
  Theorem C105_held dt : forall l s, exists ys, length ys = length l /\
    snd (run (decimStep dt) s l) = snd (run (downSample (w_cs2 X)) (d_down s) (doubled (d_last s) ys)) /\
    (forall i z, i < length l -> nth i ys z = if taken dt (d_phase s) i then nth i l z else nth i (d_last s :: ys) z)%nat.
  Proof.
    induction l as [|x l IH]; intros s; [exists []; split; [reflexivity|split; [reflexivity|cbn; lia]]|].
    set (p := w_add X (d_phase s) dt). set (y := if w_gt1 X p then x else d_last s).
    destruct (downSample (w_cs2 X) (d_down s) (between (d_last s) y, y)) as [d o] eqn:E.
    destruct (IH (Decim (w_frac X p) y d)) as (ys & L & O & H). cbn [d_last d_down d_phase] in *.
    exists (y :: ys). split; [cbn; lia|]. split.
    - cbn [run].
      assert (ST : decimStep dt s x = let '(d, o) := downSample (w_cs2 X) (d_down s) (between (d_last s) y, y) in (Decim (w_frac X p) y d, o)) by reflexivity.
      rewrite ST, E. clear ST.
      rewrite doubled_cons. cbn [run]. rewrite E.
      destruct (run (decimStep dt) (Decim (w_frac X p) y d) l) as [s' r]. destruct (run (downSample (w_cs2 X)) d (doubled y ys)) as [d' r']. cbn [snd] in *. now rewrite O.
    - intros [|i] z I; [reflexivity|]. cbn [length] in I. change (nth (S i) (y :: ys) z) with (nth i ys z). rewrite (H i z ltac:(lia)).
      unfold taken, phaseAt. rewrite iter_succ_r. reflexivity.
  Qed.
End Hold.

Local Open Scope Q_scope.
(** ** Rounding, in exact numbers *)
(** Lofi.cpp 127 and 136 *)
Definition steps (depth : Q) : Q := (1 + (100 - depth)) * (3 # 4).
Definition rounded (depth x : Q) : Q :=
  let n := inject_Z (Qfloor ((1 # 2) + Qabs (x * steps depth))) in (if Qle_bool 0 x then n else - n) * / steps depth.

Lemma steps_range d : 0 <= d <= 100 -> 3 # 4 <= steps d.
Proof. unfold steps. intros. lra. Qed.
(** The rounding is to the nearest step, and silences exactly what is less than half a step; at full depth that is everything below two thirds. *)
Theorem C105_round d x : 0 <= d <= 100 ->
  Qabs (rounded d x - x) <= / (2 * steps d) /\
  (exists k : Z, rounded d x == inject_Z k / steps d) /\
  (rounded d x == 0 <-> Qabs x * steps d < 1 # 2).
Proof.
  intros D. pose proof (steps_range d D) as S0. remember (steps d) as s eqn:Es.
  assert (Sp : 0 < s) by lra. assert (Sn : ~ s == 0) by lra.
  assert (I : 0 < / s) by (apply Qinv_lt_0_compat; exact Sp).
  unfold rounded. rewrite <- Es. cbv zeta.
  assert (A : Qabs (x * s) == Qabs x * s) by (rewrite Qabs_Qmult, (Qabs_pos s) by lra; reflexivity).
  remember (Qfloor ((1 # 2) + Qabs (x * s))) as n eqn:En.
  pose proof (Qfloor_le ((1 # 2) + Qabs (x * s))) as F1. pose proof (Qlt_floor ((1 # 2) + Qabs (x * s))) as F2. rewrite <- En in F1, F2.
  rewrite inject_Z_plus in F2. change (inject_Z 1) with 1 in F2. rewrite A in F1, F2.
  assert (N0 : (0 <= n)%Z).
  { rewrite Zle_Qle. change (inject_Z 0) with 0. pose proof (Qabs_nonneg x). assert (0 <= Qabs x * s) by (apply Qmult_le_0_compat; lra).
    destruct (Z_le_gt_dec 0 n) as [H1|H1]; [rewrite Zle_Qle in H1; exact H1|]. assert (n <= -1)%Z as H2 by lia. rewrite Zle_Qle in H2. change (inject_Z (-1)) with (-(1)) in H2. lra. }
  assert (G : Qabs (inject_Z n * / s - Qabs x) <= / (2 * s)).
  { assert (E1 : inject_Z n * / s - Qabs x == (inject_Z n - Qabs x * s) * / s) by (field; exact Sn).
    assert (E2 : / (2 * s) == (1 # 2) * / s) by (field; exact Sn).
    rewrite E1, E2, Qabs_Qmult, (Qabs_pos (/ s)) by lra. apply Qmult_le_compat_r; [|lra]. apply Qabs_Qle_condition. split; lra. }
  split; [|split].
  - destruct (Qle_bool 0 x) eqn:B.
    + apply Qle_bool_iff in B. rewrite (Qabs_pos x B) in G. exact G.
    + assert (x < 0) by (apply Qnot_le_lt; intros K; apply Qle_bool_iff in K; congruence). rewrite (Qabs_neg x) in G by lra.
      rewrite <- Qabs_opp. assert (E : - (- inject_Z n * / s - x) == inject_Z n * / s - - x) by ring. rewrite E. exact G.
  - destruct (Qle_bool 0 x); [exists n; reflexivity|]. exists (- n)%Z. rewrite inject_Z_opp. reflexivity.
  - assert (Z0 : (if Qle_bool 0 x then inject_Z n else - inject_Z n) * / s == 0 <-> n = 0%Z).
    { split.
      - intros H. assert (K : (if Qle_bool 0 x then inject_Z n else - inject_Z n) == 0).
        { apply Qmult_integral in H. destruct H as [H|H]; [exact H|]. rewrite H in I. now apply Qlt_irrefl in I. }
        assert (inject_Z n == inject_Z 0) as K2 by (change (inject_Z 0) with 0; destruct (Qle_bool 0 x); lra). unfold Qeq in K2. cbn [inject_Z Qnum Qden] in K2. lia.
      - intros ->. destruct (Qle_bool 0 x); ring. }
    rewrite Z0. split.
    + intros ->. change (inject_Z 0) with 0 in F2. lra.
    + intros H. destruct (Z.eq_dec n 0) as [->|N]; [reflexivity|]. assert (1 <= n)%Z as H1 by lia. rewrite Zle_Qle in H1. change (inject_Z 1) with 1 in H1. lra.
Qed.
Example C105_round_ex : rounded 100 (66 # 100) == 0 /\ rounded 100 (- (67 # 100)) == - (4 # 3) /\ rounded 97 (3 # 10) == 1 # 3.
Proof. vm_compute. auto. Qed.

(** ** Phases, in exact numbers *)
Definition fracQ (a : Q) : Q := a - inject_Z (Qfloor a).
Definition phaseQ (dt p : Q) (i : nat) : Q := Nat.iter i (fun p => fracQ (p + dt)) p.
Lemma floor_unique x n : inject_Z n <= x -> x < inject_Z (n + 1) -> Qfloor x = n.
Proof.
  intros A B. pose proof (Qfloor_le x) as C. pose proof (Qlt_floor x) as D.
  assert (inject_Z n < inject_Z (Qfloor x + 1)) as E by lra. assert (inject_Z (Qfloor x) < inject_Z (n + 1)) as F by lra.
  rewrite <- Zlt_Qlt in E, F. lia.
Qed.
Lemma floor_shift x n : Qfloor (x - inject_Z n) = (Qfloor x - n)%Z.
Proof.
  pose proof (Qfloor_le x) as C. pose proof (Qlt_floor x) as D. apply floor_unique.
  - unfold Z.sub. rewrite inject_Z_plus, inject_Z_opp. lra.
  - rewrite inject_Z_plus in D. unfold Z.sub. rewrite !inject_Z_plus, inject_Z_opp. lra.
Qed.
Definition after (dt p : Q) (i : nat) : Q := p + inject_Z (Z.of_nat i) * dt.
Lemma after_succ dt p i : after dt p (S i) == after dt p i + dt.
Proof. unfold after. rewrite Nat2Z.inj_succ. unfold Z.succ. rewrite inject_Z_plus. change (inject_Z 1) with 1. ring. Qed.
Lemma phase_frac dt p : 0 <= p < 1 -> forall i, phaseQ dt p i == fracQ (after dt p i).
Proof.
  intros [P1 P2]. induction i as [|i IH].
  - cbn [phaseQ Nat.iter nat_rect]. unfold fracQ, after. change (inject_Z (Z.of_nat 0)) with 0.
    rewrite (floor_unique (p + 0 * dt) 0); [change (inject_Z 0) with 0; ring|change (inject_Z 0) with 0; lra|change (inject_Z (0 + 1)) with 1; lra].
  - change (phaseQ dt p (S i)) with (fracQ (phaseQ dt p i + dt)). remember (after dt p i) as a eqn:Ea.
    assert (E : phaseQ dt p i + dt == (a + dt) - inject_Z (Qfloor a)) by (rewrite IH; unfold fracQ; ring).
    assert (N : after dt p (S i) == a + dt) by (rewrite Ea; apply after_succ).
    unfold fracQ. rewrite (Qfloor_comp _ _ E), (Qfloor_comp _ _ N), floor_shift, E, N. unfold Z.sub. rewrite inject_Z_plus, inject_Z_opp. ring.
Qed.
(** A sample is taken exactly if the time passes a whole number there, but not if it reaches one exactly. *)
Theorem C105_taken dt p i : 0 <= p < 1 -> 0 < dt -> dt <= 1 ->
  (1 < phaseQ dt p i + dt <-> (Qfloor (after dt p i) < Qfloor (after dt p (S i)))%Z /\ ~ after dt p (S i) == inject_Z (Qfloor (after dt p (S i)))).
Proof.
  intros P D1 D2. rewrite (phase_frac dt p P i). remember (after dt p i) as a eqn:Ea.
  assert (N : after dt p (S i) == a + dt) by (rewrite Ea; apply after_succ). rewrite (Qfloor_comp _ _ N), N. unfold fracQ.
  pose proof (Qfloor_le a) as A1. pose proof (Qlt_floor a) as A2. pose proof (Qfloor_le (a + dt)) as B1. pose proof (Qlt_floor (a + dt)) as B2.
  remember (Qfloor a) as m. remember (Qfloor (a + dt)) as n. rewrite inject_Z_plus in A2, B2. change (inject_Z 1) with 1 in A2, B2. split.
  - intros H. assert (inject_Z m < inject_Z n) as K by lra. rewrite <- Zlt_Qlt in K. split; [exact K|]. intros E.
    assert (n <= m + 1)%Z as L. { assert (inject_Z n < inject_Z (m + 1 + 1)) as K2 by (rewrite !inject_Z_plus; change (inject_Z 1) with 1; lra). rewrite <- Zlt_Qlt in K2. lia. }
    rewrite Zle_Qle, inject_Z_plus in L. change (inject_Z 1) with 1 in L. lra.
  - intros [K E]. assert (m + 1 <= n)%Z as K2 by lia. rewrite Zle_Qle, inject_Z_plus in K2. change (inject_Z 1) with 1 in K2.
    assert (inject_Z n < a + dt) as F. { destruct (Qlt_le_dec (inject_Z n) (a + dt)) as [F|F]; [exact F|]. exfalso. apply E. lra. } lra.
Qed.
(** So the effect can be silent for good although it should take every second sample. *)
Theorem C105_never_refuted : forall i, ~ 1 < phaseQ (1 # 2) 0 i + (1 # 2).
Proof.
  intros i H. apply C105_taken in H; [|split; lra|lra|lra]. destruct H as [H1 H2]. unfold after in *. remember (Z.of_nat i) as k eqn:Ek.
  assert (Es : inject_Z (Z.of_nat (S i)) == inject_Z k + 1) by (rewrite Nat2Z.inj_succ, <- Ek; unfold Z.succ; rewrite inject_Z_plus; reflexivity).
  assert (B : 0 + inject_Z (Z.of_nat (S i)) * (1 # 2) == (inject_Z k + 1) * (1 # 2)) by (rewrite Es; ring).
  assert (A : 0 + inject_Z k * (1 # 2) == inject_Z k * (1 # 2)) by ring.
  rewrite (Qfloor_comp _ _ A), (Qfloor_comp _ _ B) in H1. rewrite (Qfloor_comp _ _ B), B in H2.
  destruct (Z.Even_or_Odd k) as [[h ->]|[h ->]]; rewrite ?inject_Z_plus, ?inject_Z_mult in *; change (inject_Z 2) with 2 in *; change (inject_Z 1) with 1 in *.
  - rewrite (floor_unique (2 * inject_Z h * (1 # 2)) h), (floor_unique ((2 * inject_Z h + 1) * (1 # 2)) h) in H1; rewrite ?inject_Z_plus; change (inject_Z 1) with 1; try lra; lia.
  - apply H2. rewrite (floor_unique ((2 * inject_Z h + 1 + 1) * (1 # 2)) (h + 1)); rewrite ?inject_Z_plus; change (inject_Z 1) with 1; lra.
Qed.
Example C105_taken_ex : map (fun i => negb (Qle_bool (phaseQ (2 # 5) (1 # 10) i + (2 # 5)) 1)) (seq 0 6) = [false; false; true; false; true; false].
Proof. vm_compute. reflexivity. Qed.
