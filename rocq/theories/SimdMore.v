(** C80, C81: interleaving, ramps, sums, differences and the range check with vectors.  Model: SimdModel.v. *)
From Coq Require Import List ZArith QArith Bool Lia.
From Verif Require Import SimdModel Simd Rounding.
Import ListNotations.
Local Open Scope Z_scope.

(** ** A loop with an invariant *)
Lemma while_inv {S : Type} (P : Z -> S -> Prop) (N : Z) (cond : S -> bool) (body : S -> option S) :
  (forall k s, P k s -> k <= N -> cond s = true -> exists s' k', body s = Some s' /\ k < k' <= N /\ P k' s') ->
  forall fuel k s, P k s -> k <= N -> N - k < Z.of_nat fuel ->
  exists s' k', while_ fuel cond body s = Some s' /\ P k' s' /\ k <= k' <= N /\ cond s' = false.
Proof.
  intros HB. induction fuel as [|fuel IH]; intros k s HP HK HF; [lia|]. cbn [while_].
  destruct (cond s) eqn:C; [|exists s, k; repeat split; auto; lia].
  destruct (HB k s HP HK C) as (s1 & k1 & E1 & H1 & P1). rewrite E1.
  destruct (IH k1 s1 P1 ltac:(lia) ltac:(lia)) as (s2 & k2 & E2 & P2 & H2 & C2). exists s2, k2. repeat split; auto; lia.
Qed.

Section More.
Variable A : Type.

Lemma stv_ok (m : mem A) p v q n : mapped A m q n -> q <= p -> p + 4 <= q + n -> p mod 4 = 0 ->
  exists m', stv A m p v = Some m' /\
    (forall x, m' x = if x =? p + 3 then Some (l3 A v) else if x =? p + 2 then Some (l2 A v) else
                      if x =? p + 1 then Some (l1 A v) else if x =? p then Some (l0 A v) else m x).
Proof.
  intros HM H1 H2 HA. unfold stv. rewrite (proj2 (unaligned_false p) HA).
  pose proof (st_ok A m p (l0 A v) q n HM ltac:(lia)) as E0. pose proof (mapped_st A m _ _ _ q n E0 HM) as M0. rewrite E0. cbn [bind].
  pose proof (st_ok A _ (p + 1) (l1 A v) q n M0 ltac:(lia)) as E1. pose proof (mapped_st A _ _ _ _ q n E1 M0) as M1. rewrite E1. cbn [bind].
  pose proof (st_ok A _ (p + 2) (l2 A v) q n M1 ltac:(lia)) as E2. pose proof (mapped_st A _ _ _ _ q n E2 M1) as M2. rewrite E2. cbn [bind].
  pose proof (st_ok A _ (p + 3) (l3 A v) q n M2 ltac:(lia)) as E3. rewrite E3.
  eexists. split; [reflexivity|]. intros x. reflexivity.
Qed.

Lemma ldv_ok (m : mem A) p a b c d : p mod 4 = 0 -> m p = Some a -> m (p + 1) = Some b -> m (p + 2) = Some c -> m (p + 3) = Some d ->
  ldv A m p = Some (V4 A a b c d).
Proof. intros HA H0 H1 H2 H3. unfold ldv, ld. rewrite (proj2 (unaligned_false p) HA), H0, H1, H2, H3. reflexivity. Qed.

Lemma mapped_same (m m' : mem A) p n : (forall q, p <= q < p + n -> m' q = None -> m q = None) -> mapped A m p n -> mapped A m' p n.
Proof. intros H HM q Hq E. apply (HM q Hq). apply H; assumption. Qed.

(** ** Reading interleaved samples *)
Section ReadI.
Variable m0 : mem A.
Variables i0 lp0 rp0 size : Z.
Hypothesis Hs : 0 <= size.
Hypothesis Hi : mapped A m0 i0 size.
Hypothesis Hl : mapped A m0 lp0 (size / 2).
Hypothesis Hr : mapped A m0 rp0 (size / 2).
Definition disjoint (p n q k : Z) : Prop := p + n <= q \/ q + k <= p.
Hypothesis Dl : disjoint i0 size lp0 (size / 2).
Hypothesis Dr : disjoint i0 size rp0 (size / 2).
Hypothesis Dlr : disjoint lp0 (size / 2) rp0 (size / 2).

(** the memory after k frames *)
Definition deint (k q : Z) : option A :=
  if (lp0 <=? q) && (q <? lp0 + k) then m0 (i0 + 2 * (q - lp0))
  else if (rp0 <=? q) && (q <? rp0 + k) then m0 (i0 + 2 * (q - rp0) + 1) else m0 q.

Definition PR (k : Z) (s : istate A) : Prop :=
  let '(m, i, l, r) := s in i = i0 + 2 * k /\ l = lp0 + k /\ r = rp0 + k /\ 0 <= k /\ forall q, m q = deint k q.

Lemma half : 2 * (size / 2) <= size < 2 * (size / 2) + 2.
Proof. pose proof (Z.div_mod size 2 ltac:(lia)). pose proof (Z.mod_pos_bound size 2 ltac:(lia)). lia. Qed.

Lemma in_get : forall q, i0 <= q < i0 + size -> exists v, m0 q = Some v.
Proof. intros q Hq. specialize (Hi q Hq). destruct (m0 q) as [v|]; [eauto|contradiction]. Qed.

Ltac cases := repeat (match goal with
  | |- context [?a <=? ?b] => destruct (Z.leb_spec a b)
  | |- context [?a <? ?b] => destruct (Z.ltb_spec a b)
  | |- context [?a =? ?b] => destruct (Z.eqb_spec a b)
  end; cbn [andb]).

Lemma deint_in k q : 0 <= k <= size / 2 -> i0 <= q < i0 + size -> deint k q = m0 q.
Proof. intros Hk Hq. unfold deint, disjoint in *. cases; try reflexivity; lia. Qed.

Lemma mapped_deint k m : 0 <= k <= size / 2 -> (forall q, m q = deint k q) -> mapped A m lp0 (size / 2) /\ mapped A m rp0 (size / 2).
Proof.
  intros Hk HM. pose proof half as HH. split; intros q Hq; rewrite HM; unfold deint; cases;
    try (apply Hi; lia); try (apply Hl; lia); try (apply Hr; lia).
Qed.

Lemma read_one_ok k s : PR k s -> k < size / 2 -> exists s', read_one A s = Some s' /\ PR (k + 1) s'.
Proof.
  destruct s as [[[m i] l] r]. intros (-> & -> & -> & Hk & HM) HL. pose proof half as HH.
  destruct (mapped_deint k m ltac:(lia) HM) as [ML MR].
  destruct (in_get (i0 + 2 * k) ltac:(lia)) as [a Ea]. destruct (in_get (i0 + 2 * k + 1) ltac:(lia)) as [b Eb].
  cbn [read_one]. unfold ld at 1. rewrite HM, deint_in, Ea by lia. cbn [bind].
  pose proof (st_ok A m (lp0 + k) a lp0 (size / 2) ML ltac:(lia)) as E1. rewrite E1. cbn [bind].
  unfold ld at 1. destruct (Z.eqb_spec (i0 + 2 * k + 1) (lp0 + k)) as [X|_]; [unfold disjoint in *; lia|].
  rewrite HM, deint_in, Eb by lia. cbn [bind].
  pose proof (mapped_st A m _ _ _ rp0 (size / 2) E1 MR) as MR1.
  rewrite (st_ok A _ (rp0 + k) b rp0 (size / 2) MR1) by lia. cbn [bind].
  eexists. split; [reflexivity|]. cbn [PR]. repeat split; try lia. intros q.
  destruct (Z.eqb_spec q (rp0 + k)) as [->|N1].
  { unfold deint, disjoint in *. cases; try lia; rewrite <- Eb; f_equal; lia. }
  destruct (Z.eqb_spec q (lp0 + k)) as [->|N2].
  { unfold deint, disjoint in *. cases; try lia; rewrite <- Ea; f_equal; lia. }
  rewrite HM. unfold deint, disjoint in *. cases; try lia; reflexivity.
Qed.

Lemma read_four_ok k s : PR k s -> k + 4 <= size / 2 -> unaligned_i A s = false -> exists s', read_four A s = Some s' /\ PR (k + 4) s'.
Proof.
  destruct s as [[[m i] l] r]. intros (-> & -> & -> & Hk & HM) HL HA. pose proof half as HH.
  cbn [unaligned_i] in HA. apply orb_false_iff in HA. destruct HA as [A1 HA]. apply orb_false_iff in HA. destruct HA as [A2 A3].
  apply unaligned_false in A1, A2, A3.
  destruct (mapped_deint k m ltac:(lia) HM) as [ML MR].
  assert (IN : forall e, 0 <= e < 8 -> exists v, m (i0 + 2 * k + e) = Some v /\ m0 (i0 + 2 * k + e) = Some v).
  { intros e He. destruct (in_get (i0 + 2 * k + e) ltac:(lia)) as [v Ev]. exists v. rewrite HM, deint_in by lia. auto. }
  destruct (IN 0 ltac:(lia)) as (a0 & X0 & Y0). destruct (IN 1 ltac:(lia)) as (a1 & X1 & Y1).
  destruct (IN 2 ltac:(lia)) as (a2 & X2 & Y2). destruct (IN 3 ltac:(lia)) as (a3 & X3 & Y3).
  destruct (IN 4 ltac:(lia)) as (a4 & X4 & Y4). destruct (IN 5 ltac:(lia)) as (a5 & X5 & Y5).
  destruct (IN 6 ltac:(lia)) as (a6 & X6 & Y6). destruct (IN 7 ltac:(lia)) as (a7 & X7 & Y7). clear IN.
  rewrite Z.add_0_r in X0, Y0.
  cbn [read_four]. rewrite (ldv_ok m (i0 + 2 * k) a0 a1 a2 a3 A1 X0 X1 X2 X3). cbn [bind].
  rewrite (ldv_ok m (i0 + 2 * k + 4) a4 a5 a6 a7).
  2:{ apply mod4_add. exact A1. } 2: exact X4.
  2: replace (i0 + 2 * k + 4 + 1) with (i0 + 2 * k + 5) by lia; exact X5.
  2: replace (i0 + 2 * k + 4 + 2) with (i0 + 2 * k + 6) by lia; exact X6.
  2: replace (i0 + 2 * k + 4 + 3) with (i0 + 2 * k + 7) by lia; exact X7.
  cbn [bind l0 l1 l2 l3].
  destruct (stv_ok m (lp0 + k) (V4 A a0 a2 a4 a6) lp0 (size / 2) ML ltac:(lia) ltac:(lia) A2) as (m1 & E1 & W1). rewrite E1. cbn [bind].
  assert (MR1 : mapped A m1 rp0 (size / 2)).
  { apply (mapped_same m m1); [|exact MR]. intros q Hq. rewrite W1. cases; try (intros X; discriminate X). auto. }
  destruct (stv_ok m1 (rp0 + k) (V4 A a1 a3 a5 a7) rp0 (size / 2) MR1 ltac:(lia) ltac:(lia) A3) as (m2 & E2 & W2). rewrite E2. cbn [bind].
  eexists. split; [reflexivity|]. cbn [PR]. repeat split; try lia. intros q. rewrite W2, W1. cbn [l0 l1 l2 l3] in *.
  assert (QL : lp0 + k <= q < lp0 + k + 4 -> q = lp0 + k \/ q = lp0 + k + 1 \/ q = lp0 + k + 2 \/ q = lp0 + k + 3) by lia.
  assert (QR : rp0 + k <= q < rp0 + k + 4 -> q = rp0 + k \/ q = rp0 + k + 1 \/ q = rp0 + k + 2 \/ q = rp0 + k + 3) by lia.
  unfold disjoint in *.
  assert (CS : (lp0 + k <= q < lp0 + k + 4) \/ (rp0 + k <= q < rp0 + k + 4) \/ (~ (lp0 + k <= q < lp0 + k + 4) /\ ~ (rp0 + k <= q < rp0 + k + 4))) by lia.
  destruct CS as [CS|[CS|[CS1 CS2]]].
  - destruct (QL CS) as [->|[->|[->| ->]]]; unfold deint; cases; try lia;
      first [rewrite <- Y0; f_equal; lia|rewrite <- Y2; f_equal; lia|rewrite <- Y4; f_equal; lia|rewrite <- Y6; f_equal; lia].
  - destruct (QR CS) as [->|[->|[->| ->]]]; unfold deint; cases; try lia;
      first [rewrite <- Y1; f_equal; lia|rewrite <- Y3; f_equal; lia|rewrite <- Y5; f_equal; lia|rewrite <- Y7; f_equal; lia].
  - clear QL QR. destruct (Z.eqb_spec q (rp0 + k + 3)); [lia|]. destruct (Z.eqb_spec q (rp0 + k + 2)); [lia|].
    destruct (Z.eqb_spec q (rp0 + k + 1)); [lia|]. destruct (Z.eqb_spec q (rp0 + k)); [lia|].
    destruct (Z.eqb_spec q (lp0 + k + 3)); [lia|]. destruct (Z.eqb_spec q (lp0 + k + 2)); [lia|].
    destruct (Z.eqb_spec q (lp0 + k + 1)); [lia|]. destruct (Z.eqb_spec q (lp0 + k)); [lia|].
    rewrite HM. unfold deint. cases; try lia; reflexivity.
Qed.

Lemma PR0 : PR 0 (m0, i0, lp0, rp0).
Proof. cbn [PR]. repeat split; try lia. intros q. unfold deint. cases; try lia; reflexivity. Qed.

Lemma read_tail k s : PR k s -> k <= size / 2 -> exists s', while_ (Z.to_nat size + 1) (fun s => lead_i A s <? i0 + size - 1) (read_one A) s = Some s' /\
  PR (size / 2) s'.
Proof.
  intros HP HK. pose proof half as HH.
  destruct (while_inv PR (size / 2) (fun s => lead_i A s <? i0 + size - 1) (read_one A)) with (fuel := (Z.to_nat size + 1)%nat) (k := k) (s := s)
    as (s' & k' & E & P' & K' & C); auto.
  - intros j s1 P1 J1 C1. apply Z.ltb_lt in C1.
    assert (HJ : j < size / 2) by (destruct s1 as [[[m i] l] r]; destruct P1 as (-> & _); cbn [lead_i] in C1; lia).
    destruct (read_one_ok j s1 P1 HJ) as (s2 & E2 & P2). exists s2, (j + 1). split; [exact E2|]. split; [lia|exact P2].
  - assert (0 <= k) by (destruct s as [[[m i] l] r]; destruct HP as (_ & _ & _ & HP & _); exact HP). lia.
  - exists s'. split; [exact E|]. apply Z.ltb_ge in C.
    assert (k' = size / 2) by (destruct s' as [[[m i] l] r]; destruct P' as (-> & _); cbn [lead_i] in C; lia). subst k'. exact P'.
Qed.

Lemma readInterleaved_both : exists m1 m2,
  readInterleavedScalar A m0 i0 lp0 rp0 size = Some m1 /\ readInterleavedSSE A m0 i0 lp0 rp0 size = Some m2 /\
  (forall q, m1 q = deint (size / 2) q) /\ (forall q, m2 q = deint (size / 2) q).
Proof.
  pose proof half as HH.
  unfold readInterleavedScalar. destruct (read_tail 0 _ PR0 ltac:(lia)) as ([[[m1 x1] x2] x3] & E1 & P1). rewrite E1. cbn [bind].
  unfold readInterleavedSSE. set (lastA := prevAligned (i0 + size - 4)). pose proof (prevAligned_spec (i0 + size - 4)) as [LA LB]. fold lastA in LA, LB.
  destruct (while_inv PR (size / 2) (fun s => unaligned_i A s && (lead_i A s <? lastA)) (read_one A)) with
    (fuel := (Z.to_nat size + 1)%nat) (k := 0) (s := (m0, i0, lp0, rp0)) as (s1 & k1 & E2 & P2 & K2 & C2).
  - intros j s P J C. apply andb_true_iff in C. destruct C as [_ C]. apply Z.ltb_lt in C.
    assert (HJ : j < size / 2) by (destruct s as [[[m i] l] r]; destruct P as (-> & _); cbn [lead_i] in C; lia).
    destruct (read_one_ok j s P HJ) as (s' & E & P'). exists s', (j + 1). split; [exact E|]. split; [lia|exact P'].
  - exact PR0.
  - lia.
  - lia.
  - rewrite E2. cbn [bind].
    destruct (while_inv (fun k s => PR k s /\ 0 <= k /\ (lead_i A s < lastA -> unaligned_i A s = false)) (size / 2) (fun s => lead_i A s <? lastA) (read_four A)) with
      (fuel := (Z.to_nat size + 1)%nat) (k := k1) (s := s1) as (s2 & k2 & E3 & (P3 & _) & K3 & C3).
    + intros j s (P & J0 & HA) J C. apply Z.ltb_lt in C. specialize (HA C).
      assert (HJ : j + 4 <= size / 2).
      { destruct s as [[[m i] l] r]. destruct P as (-> & _). cbn [lead_i unaligned_i] in *. apply orb_false_iff in HA. destruct HA as [HA _].
        apply unaligned_false in HA. pose proof (aligned_le _ _ HA LA C). lia. }
      destruct (read_four_ok j s P HJ HA) as (s' & E & P'). exists s', (j + 4). split; [exact E|]. split; [lia|]. split; [exact P'|]. split; [lia|].
      intros _. destruct s as [[[m i] l] r], s' as [[[m' i'] l'] r']. destruct P as (-> & -> & -> & _). destruct P' as (-> & -> & -> & _).
      cbn [unaligned_i] in *. apply orb_false_iff in HA. destruct HA as [B1 HA]. apply orb_false_iff in HA. destruct HA as [B2 B3].
      apply unaligned_false in B1, B2, B3.
      assert (Z1 : unaligned (i0 + 2 * (j + 4)) = false).
      { apply unaligned_false. replace (i0 + 2 * (j + 4)) with (i0 + 2 * j + 4 + 4) by lia. apply mod4_add, mod4_add. exact B1. }
      assert (Z2 : unaligned (lp0 + (j + 4)) = false).
      { apply unaligned_false. replace (lp0 + (j + 4)) with (lp0 + j + 4) by lia. apply mod4_add. exact B2. }
      assert (Z3 : unaligned (rp0 + (j + 4)) = false).
      { apply unaligned_false. replace (rp0 + (j + 4)) with (rp0 + j + 4) by lia. apply mod4_add. exact B3. }
      rewrite Z1, Z2, Z3. reflexivity.
    + split; [exact P2|]. split; [lia|]. intros HL. apply Z.ltb_lt in HL. rewrite HL, andb_true_r in C2. exact C2.
    + lia.
    + lia.
    + rewrite E3. cbn [bind].
      destruct (read_tail k2 s2 P3 ltac:(lia)) as ([[[m2 y1] y2] y3] & E4 & P4). rewrite E4. cbn [bind].
      exists m1, m2. destruct P1 as (_ & _ & _ & _ & P1). destruct P4 as (_ & _ & _ & _ & P4). auto.
Qed.

End ReadI.
End More.

(** C81: taking interleaved samples apart: channel left has the even ones, channel right the odd ones, in order, and nothing else changes;
    with and without vectors, for every alignment and size (an odd size loses its last sample). *)
Theorem C81_readInterleaved : forall A (m : mem A) input left right size, 0 <= size -> mapped A m input size ->
  mapped A m left (size / 2) -> mapped A m right (size / 2) ->
  disjoint input size left (size / 2) -> disjoint input size right (size / 2) -> disjoint left (size / 2) right (size / 2) ->
  forall run, run = readInterleavedScalar A \/ run = readInterleavedSSE A ->
  exists m', run m input left right size = Some m' /\
    (forall i, 0 <= i < size / 2 -> m' (left + i) = m (input + 2 * i) /\ m' (right + i) = m (input + 2 * i + 1)) /\
    (forall q, ~ (left <= q < left + size / 2) -> ~ (right <= q < right + size / 2) -> m' q = m q).
Proof.
  intros A m i l r size Hs Hi Hl Hr Dl Dr Dlr run HR.
  destruct (readInterleaved_both A m i l r size Hs Hi Hl Hr Dl Dr Dlr) as (m1 & m2 & E1 & E2 & V1 & V2).
  assert (X : exists m', run m i l r size = Some m' /\ forall q, m' q = deint A m i l r (size / 2) q).
  { destruct HR as [-> | ->]; eauto. }
  destruct X as (m' & E & V). exists m'. split; [exact E|]. unfold disjoint in *. split.
  - intros j Hj. rewrite !V. unfold deint. split.
    + destruct (Z.leb_spec l (l + j)), (Z.ltb_spec (l + j) (l + size / 2)); try lia. cbn [andb]. f_equal. lia.
    + destruct (Z.leb_spec l (r + j)), (Z.ltb_spec (r + j) (l + size / 2)); cbn [andb]; try lia;
        destruct (Z.leb_spec r (r + j)), (Z.ltb_spec (r + j) (r + size / 2)); try lia; cbn [andb]; f_equal; lia.
  - intros q N1 N2. rewrite V. unfold deint.
    destruct (Z.leb_spec l q), (Z.ltb_spec q (l + size / 2)), (Z.leb_spec r q), (Z.ltb_spec q (r + size / 2)); cbn [andb]; try lia; reflexivity.
Qed.

Example C81_readInterleaved_ex : let m := fun q : Z => if (0 <=? q) && (q <? 60) then Some q else None in
  option_map (fun m => map m [20; 21; 29; 30; 40; 41; 49; 50]) (readInterleavedSSE Z m 0 20 40 20) =
    Some [Some 0; Some 2; Some 18; Some 30; Some 1; Some 3; Some 19; Some 50] /\
  option_map (fun m => map m [21; 22; 30; 31; 40; 41; 49]) (readInterleavedSSE Z m 0 21 40 20) =
    Some [Some 0; Some 2; Some 18; Some 31; Some 1; Some 3; Some 19].
Proof. split; vm_compute; reflexivity. Qed.

(** ** Writing interleaved samples *)
Section WriteI.
Variable A : Type.
Variable m0 : mem A.
Variables o0 lp0 rp0 size : Z.
Hypothesis Hs : 0 <= size.
Hypothesis Ho : mapped A m0 o0 size.
Hypothesis Hl : mapped A m0 lp0 (size / 2).
Hypothesis Hr : mapped A m0 rp0 (size / 2).
Hypothesis Dl : disjoint o0 size lp0 (size / 2).
Hypothesis Dr : disjoint o0 size rp0 (size / 2).

Definition inter (k q : Z) : option A :=
  if (o0 <=? q) && (q <? o0 + 2 * k)
  then (if (q - o0) mod 2 =? 0 then m0 (lp0 + (q - o0) / 2) else m0 (rp0 + (q - o0) / 2)) else m0 q.

Definition PW (k : Z) (s : istate A) : Prop :=
  let '(m, o, l, r) := s in o = o0 + 2 * k /\ l = lp0 + k /\ r = rp0 + k /\ 0 <= k /\ forall q, m q = inter k q.

Lemma inter_even k j : 0 <= j < k -> inter k (o0 + 2 * j) = m0 (lp0 + j).
Proof.
  intros Hj. unfold inter. destruct (Z.leb_spec o0 (o0 + 2 * j)), (Z.ltb_spec (o0 + 2 * j) (o0 + 2 * k)); try lia. cbn [andb].
  replace (o0 + 2 * j - o0) with (j * 2) by lia. rewrite Z.mod_mul, Z.div_mul by lia. reflexivity.
Qed.
Lemma inter_odd k j : 0 <= j < k -> inter k (o0 + 2 * j + 1) = m0 (rp0 + j).
Proof.
  intros Hj. unfold inter. destruct (Z.leb_spec o0 (o0 + 2 * j + 1)), (Z.ltb_spec (o0 + 2 * j + 1) (o0 + 2 * k)); try lia. cbn [andb].
  replace (o0 + 2 * j + 1 - o0) with (1 + j * 2) by lia. rewrite Z.mod_add, Z.div_add by lia. reflexivity.
Qed.
Lemma inter_more k k' q : ~ (o0 + 2 * k <= q < o0 + 2 * k') -> k <= k' -> inter k' q = inter k q.
Proof.
  intros H HK. unfold inter. destruct (Z.leb_spec o0 q), (Z.ltb_spec q (o0 + 2 * k)), (Z.ltb_spec q (o0 + 2 * k')); try lia; reflexivity.
Qed.
Lemma inter_out k q : 0 <= k <= size / 2 -> (q < o0 \/ o0 + size <= q) -> inter k q = m0 q.
Proof.
  intros Hk Hq. pose proof (half size). unfold inter. destruct (Z.leb_spec o0 q), (Z.ltb_spec q (o0 + 2 * k)); try lia; reflexivity.
Qed.
Lemma inter_l k j : 0 <= k <= size / 2 -> 0 <= j < size / 2 -> exists v, inter k (lp0 + j) = Some v /\ m0 (lp0 + j) = Some v.
Proof.
  intros Hk Hj. rewrite inter_out by (unfold disjoint in *; lia). assert (X := Hl (lp0 + j) ltac:(lia)).
  destruct (m0 (lp0 + j)) as [v|]; [eauto|contradiction].
Qed.
Lemma inter_r k j : 0 <= k <= size / 2 -> 0 <= j < size / 2 -> exists v, inter k (rp0 + j) = Some v /\ m0 (rp0 + j) = Some v.
Proof.
  intros Hk Hj. rewrite inter_out by (unfold disjoint in *; lia). assert (X := Hr (rp0 + j) ltac:(lia)).
  destruct (m0 (rp0 + j)) as [v|]; [eauto|contradiction].
Qed.

Lemma mapped_inter k m : 0 <= k <= size / 2 -> (forall q, m q = inter k q) -> mapped A m o0 size.
Proof.
  intros Hk HM q Hq. rewrite HM. pose proof (half size) as HH. unfold inter.
  destruct (Z.leb_spec o0 q), (Z.ltb_spec q (o0 + 2 * k)); cbn [andb]; try (apply Ho; lia).
  pose proof (Z.div_mod (q - o0) 2 ltac:(lia)). pose proof (Z.mod_pos_bound (q - o0) 2 ltac:(lia)).
  destruct ((q - o0) mod 2 =? 0); [apply Hl|apply Hr]; lia.
Qed.

Lemma write_one_ok k s : PW k s -> k < size / 2 -> exists s', write_one A s = Some s' /\ PW (k + 1) s'.
Proof.
  destruct s as [[[m o] l] r]. intros (-> & -> & -> & Hk & HM) HL. pose proof (half size) as HH.
  pose proof (mapped_inter k m ltac:(lia) HM) as MO.
  destruct (inter_l k k ltac:(lia) ltac:(lia)) as (a & Ea & Fa). destruct (inter_r k k ltac:(lia) ltac:(lia)) as (b & Eb & Fb).
  cbn [write_one]. unfold ld at 1. rewrite HM, Ea. cbn [bind].
  pose proof (st_ok A m (o0 + 2 * k) a o0 size MO ltac:(lia)) as E1. rewrite E1. cbn [bind].
  unfold ld at 1. destruct (Z.eqb_spec (rp0 + k) (o0 + 2 * k)) as [X|_]; [unfold disjoint in *; lia|]. rewrite HM, Eb. cbn [bind].
  pose proof (mapped_st A m _ _ _ o0 size E1 MO) as M1.
  rewrite (st_ok A _ (o0 + 2 * k + 1) b o0 size M1) by lia. cbn [bind].
  eexists. split; [reflexivity|]. cbn [PW]. repeat split; try lia. intros q.
  destruct (Z.eqb_spec q (o0 + 2 * k + 1)) as [->|N1]; [rewrite inter_odd by lia; symmetry; exact Fb|].
  destruct (Z.eqb_spec q (o0 + 2 * k)) as [->|N2]; [rewrite inter_even by lia; symmetry; exact Fa|].
  rewrite HM. symmetry. apply inter_more; lia.
Qed.

Lemma write_four_ok k s : PW k s -> k + 4 <= size / 2 -> unaligned_i A s = false -> exists s', write_four A s = Some s' /\ PW (k + 4) s'.
Proof.
  destruct s as [[[m o] l] r]. intros (-> & -> & -> & Hk & HM) HL HA. pose proof (half size) as HH.
  cbn [unaligned_i] in HA. apply orb_false_iff in HA. destruct HA as [A1 HA]. apply orb_false_iff in HA. destruct HA as [A2 A3].
  apply unaligned_false in A1, A2, A3. pose proof (mapped_inter k m ltac:(lia) HM) as MO.
  destruct (inter_l k k ltac:(lia) ltac:(lia)) as (a0 & X0 & Y0). destruct (inter_l k (k + 1) ltac:(lia) ltac:(lia)) as (a1 & X1 & Y1).
  destruct (inter_l k (k + 2) ltac:(lia) ltac:(lia)) as (a2 & X2 & Y2). destruct (inter_l k (k + 3) ltac:(lia) ltac:(lia)) as (a3 & X3 & Y3).
  destruct (inter_r k k ltac:(lia) ltac:(lia)) as (b0 & U0 & W0). destruct (inter_r k (k + 1) ltac:(lia) ltac:(lia)) as (b1 & U1 & W1).
  destruct (inter_r k (k + 2) ltac:(lia) ltac:(lia)) as (b2 & U2 & W2). destruct (inter_r k (k + 3) ltac:(lia) ltac:(lia)) as (b3 & U3 & W3).
  rewrite <- HM in X0, X1, X2, X3, U0, U1, U2, U3. rewrite Z.add_assoc in X1, X2, X3, U1, U2, U3.
  cbn [write_four]. rewrite (ldv_ok A m (lp0 + k) a0 a1 a2 a3 A2 X0 X1 X2 X3). cbn [bind].
  rewrite (ldv_ok A m (rp0 + k) b0 b1 b2 b3 A3 U0 U1 U2 U3). cbn [bind l0 l1 l2 l3].
  destruct (stv_ok A m (o0 + 2 * k) (V4 A a0 b0 a1 b1) o0 size MO ltac:(lia) ltac:(lia) A1) as (m1 & E1 & V1). rewrite E1. cbn [bind].
  assert (MO1 : mapped A m1 o0 size).
  { apply (mapped_same A m m1); [|exact MO]. intros q Hq. rewrite V1.
    repeat match goal with |- context [?a =? ?b] => destruct (a =? b) end; intros X; try discriminate X. exact X. }
  destruct (stv_ok A m1 (o0 + 2 * k + 4) (V4 A a2 b2 a3 b3) o0 size MO1 ltac:(lia) ltac:(lia) ltac:(apply mod4_add; exact A1)) as (m2 & E2 & V2).
  rewrite E2. cbn [bind]. eexists. split; [reflexivity|]. cbn [PW]. repeat split; try lia. intros q.
  rewrite V2, V1. cbn [l0 l1 l2 l3].
  assert (EV : forall j v, 0 <= j < k + 4 -> m0 (lp0 + j) = Some v -> q = o0 + 2 * j -> Some v = inter (k + 4) q) by (intros j v Hj E ->; rewrite inter_even by lia; auto).
  assert (OD : forall j v, 0 <= j < k + 4 -> m0 (rp0 + j) = Some v -> q = o0 + 2 * j + 1 -> Some v = inter (k + 4) q) by (intros j v Hj E ->; rewrite inter_odd by lia; auto).
  destruct (Z.eqb_spec q (o0 + 2 * k + 4 + 3)); [apply (OD (k + 3) b3); [lia|exact W3|lia]|].
  destruct (Z.eqb_spec q (o0 + 2 * k + 4 + 2)); [apply (EV (k + 3) a3); [lia|exact Y3|lia]|].
  destruct (Z.eqb_spec q (o0 + 2 * k + 4 + 1)); [apply (OD (k + 2) b2); [lia|exact W2|lia]|].
  destruct (Z.eqb_spec q (o0 + 2 * k + 4)); [apply (EV (k + 2) a2); [lia|exact Y2|lia]|].
  destruct (Z.eqb_spec q (o0 + 2 * k + 3)); [apply (OD (k + 1) b1); [lia|exact W1|lia]|].
  destruct (Z.eqb_spec q (o0 + 2 * k + 2)); [apply (EV (k + 1) a1); [lia|exact Y1|lia]|].
  destruct (Z.eqb_spec q (o0 + 2 * k + 1)); [apply (OD k b0); [lia|exact W0|lia]|].
  destruct (Z.eqb_spec q (o0 + 2 * k)); [apply (EV k a0); [lia|exact Y0|lia]|].
  rewrite HM. symmetry. apply inter_more; lia.
Qed.

Lemma PW0 : PW 0 (m0, o0, lp0, rp0).
Proof.
  cbn [PW]. repeat split; try lia. intros q. unfold inter. destruct (Z.leb_spec o0 q), (Z.ltb_spec q (o0 + 2 * 0)); try lia; reflexivity.
Qed.

Lemma write_tail k s : PW k s -> k <= size / 2 -> exists s', while_ (Z.to_nat size + 1) (fun s => lead_i A s <? o0 + size - 1) (write_one A) s = Some s' /\
  PW (size / 2) s'.
Proof.
  intros HP HK. pose proof (half size) as HH.
  destruct (while_inv PW (size / 2) (fun s => lead_i A s <? o0 + size - 1) (write_one A)) with (fuel := (Z.to_nat size + 1)%nat) (k := k) (s := s)
    as (s' & k' & E & P' & K' & C); auto.
  - intros j s1 P1 J1 C1. apply Z.ltb_lt in C1.
    assert (HJ : j < size / 2) by (destruct s1 as [[[m i] l] r]; destruct P1 as (-> & _); cbn [lead_i] in C1; lia).
    destruct (write_one_ok j s1 P1 HJ) as (s2 & E2 & P2). exists s2, (j + 1). split; [exact E2|]. split; [lia|exact P2].
  - assert (0 <= k) by (destruct s as [[[m i] l] r]; destruct HP as (_ & _ & _ & HP & _); exact HP). lia.
  - exists s'. split; [exact E|]. apply Z.ltb_ge in C.
    assert (k' = size / 2) by (destruct s' as [[[m i] l] r]; destruct P' as (-> & _); cbn [lead_i] in C; lia). subst k'. exact P'.
Qed.

Lemma writeInterleaved_both : exists m1 m2,
  writeInterleavedScalar A m0 lp0 rp0 o0 size = Some m1 /\ writeInterleavedSSE A m0 lp0 rp0 o0 size = Some m2 /\
  (forall q, m1 q = inter (size / 2) q) /\ (forall q, m2 q = inter (size / 2) q).
Proof.
  pose proof (half size) as HH.
  unfold writeInterleavedScalar. destruct (write_tail 0 _ PW0 ltac:(lia)) as ([[[m1 x1] x2] x3] & E1 & P1). rewrite E1. cbn [bind].
  unfold writeInterleavedSSE. set (lastA := prevAligned (o0 + size - 4)). pose proof (prevAligned_spec (o0 + size - 4)) as [LA LB]. fold lastA in LA, LB.
  destruct (while_inv PW (size / 2) (fun s => unaligned_i A s && (lead_i A s <? lastA)) (write_one A)) with
    (fuel := (Z.to_nat size + 1)%nat) (k := 0) (s := (m0, o0, lp0, rp0)) as (s1 & k1 & E2 & P2 & K2 & C2).
  - intros j s P J C. apply andb_true_iff in C. destruct C as [_ C]. apply Z.ltb_lt in C.
    assert (HJ : j < size / 2) by (destruct s as [[[m i] l] r]; destruct P as (-> & _); cbn [lead_i] in C; lia).
    destruct (write_one_ok j s P HJ) as (s' & E & P'). exists s', (j + 1). split; [exact E|]. split; [lia|exact P'].
  - exact PW0.
  - lia.
  - lia.
  - rewrite E2. cbn [bind].
    destruct (while_inv (fun k s => PW k s /\ 0 <= k /\ (lead_i A s < lastA -> unaligned_i A s = false)) (size / 2) (fun s => lead_i A s <? lastA) (write_four A)) with
      (fuel := (Z.to_nat size + 1)%nat) (k := k1) (s := s1) as (s2 & k2 & E3 & (P3 & _) & K3 & C3).
    + intros j s (P & J0 & HA) J C. apply Z.ltb_lt in C. specialize (HA C).
      assert (HJ : j + 4 <= size / 2).
      { destruct s as [[[m i] l] r]. destruct P as (-> & _). cbn [lead_i unaligned_i] in *. apply orb_false_iff in HA. destruct HA as [HA _].
        apply unaligned_false in HA. pose proof (aligned_le _ _ HA LA C). lia. }
      destruct (write_four_ok j s P HJ HA) as (s' & E & P'). exists s', (j + 4). split; [exact E|]. split; [lia|]. split; [exact P'|]. split; [lia|].
      intros _. destruct s as [[[m i] l] r], s' as [[[m' i'] l'] r']. destruct P as (-> & -> & -> & _). destruct P' as (-> & -> & -> & _).
      cbn [unaligned_i] in *. apply orb_false_iff in HA. destruct HA as [B1 HA]. apply orb_false_iff in HA. destruct HA as [B2 B3].
      apply unaligned_false in B1, B2, B3.
      assert (Z1 : unaligned (o0 + 2 * (j + 4)) = false).
      { apply unaligned_false. replace (o0 + 2 * (j + 4)) with (o0 + 2 * j + 4 + 4) by lia. apply mod4_add, mod4_add. exact B1. }
      assert (Z2 : unaligned (lp0 + (j + 4)) = false).
      { apply unaligned_false. replace (lp0 + (j + 4)) with (lp0 + j + 4) by lia. apply mod4_add. exact B2. }
      assert (Z3 : unaligned (rp0 + (j + 4)) = false).
      { apply unaligned_false. replace (rp0 + (j + 4)) with (rp0 + j + 4) by lia. apply mod4_add. exact B3. }
      rewrite Z1, Z2, Z3. reflexivity.
    + split; [exact P2|]. split; [lia|]. intros HL. apply Z.ltb_lt in HL. rewrite HL, andb_true_r in C2. exact C2.
    + lia.
    + lia.
    + rewrite E3. cbn [bind].
      destruct (write_tail k2 s2 P3 ltac:(lia)) as ([[[m2 y1] y2] y3] & E4 & P4). rewrite E4. cbn [bind].
      exists m1, m2. destruct P1 as (_ & _ & _ & _ & P1). destruct P4 as (_ & _ & _ & _ & P4). auto.
Qed.
End WriteI.

(** C81: putting two channels together: samples 2i and 2i + 1 are those of left and right at i, nothing else changes. *)
Theorem C81_writeInterleaved : forall A (m : mem A) left right output size, 0 <= size -> mapped A m output size ->
  mapped A m left (size / 2) -> mapped A m right (size / 2) ->
  disjoint output size left (size / 2) -> disjoint output size right (size / 2) ->
  forall run, run = writeInterleavedScalar A \/ run = writeInterleavedSSE A ->
  exists m', run m left right output size = Some m' /\
    (forall i, 0 <= i < size / 2 -> m' (output + 2 * i) = m (left + i) /\ m' (output + 2 * i + 1) = m (right + i)) /\
    (forall q, ~ (output <= q < output + 2 * (size / 2)) -> m' q = m q).
Proof.
  intros A m l r o size Hs Ho Hl Hr Dl Dr run HR.
  destruct (writeInterleaved_both A m o l r size Hs Ho Hl Hr Dl Dr) as (m1 & m2 & E1 & E2 & V1 & V2).
  assert (X : exists m', run m l r o size = Some m' /\ forall q, m' q = inter A m o l r (size / 2) q).
  { destruct HR as [-> | ->]; eauto. }
  destruct X as (m' & E & V). exists m'. split; [exact E|]. split.
  - intros j Hj. rewrite !V. split; [apply inter_even|apply inter_odd]; lia.
  - intros q N. rewrite V. unfold inter. destruct (Z.leb_spec o q), (Z.ltb_spec q (o + 2 * (size / 2))); cbn [andb]; try lia; reflexivity.
Qed.

Example C81_writeInterleaved_ex : let m := fun q : Z => if (0 <=? q) && (q <? 60) then Some q else None in
  option_map (fun m => map m [20; 21; 22; 38; 39; 40]) (writeInterleavedSSE Z m 0 12 24 16) =
    Some [Some 20; Some 21; Some 22; Some 7; Some 19; Some 40] /\
  option_map (fun m => map m [24; 25; 26; 27; 38; 39]) (writeInterleavedSSE Z m 0 12 24 15) = Some [Some 0; Some 12; Some 1; Some 13; Some 38; Some 39].
Proof. split; vm_compute; reflexivity. Qed.

(** ** Writing one value after the other *)
Section Written.
Variable A : Type.
Variable m0 : mem A.
Variables o0 size : Z.
Hypothesis Ho : mapped A m0 o0 size.
Variable g : Z -> A.

Definition written (k q : Z) : option A := if (o0 <=? q) && (q <? o0 + k) then Some (g (q - o0)) else m0 q.

Lemma written_0 q : written 0 q = m0 q.
Proof. unfold written. destruct (Z.leb_spec o0 q), (Z.ltb_spec q (o0 + 0)); try lia; reflexivity. Qed.
Lemma written_at k j : 0 <= j < k -> written k (o0 + j) = Some (g j).
Proof.
  intros Hj. unfold written. destruct (Z.leb_spec o0 (o0 + j)), (Z.ltb_spec (o0 + j) (o0 + k)); try lia. cbn [andb].
  do 2 f_equal. lia.
Qed.
Lemma written_out k q : ~ (o0 <= q < o0 + k) -> written k q = m0 q.
Proof. intros H. unfold written. destruct (Z.leb_spec o0 q), (Z.ltb_spec q (o0 + k)); try lia; reflexivity. Qed.
Lemma written_more k k' q : ~ (o0 + k <= q < o0 + k') -> k <= k' -> written k' q = written k q.
Proof.
  intros H HK. unfold written. destruct (Z.leb_spec o0 q), (Z.ltb_spec q (o0 + k)), (Z.ltb_spec q (o0 + k')); try lia; reflexivity.
Qed.
Lemma mapped_written k m : (forall q, m q = written k q) -> mapped A m o0 size.
Proof. intros HM q Hq. rewrite HM. unfold written. destruct ((o0 <=? q) && (q <? o0 + k)); [discriminate|]. apply Ho, Hq. Qed.

Lemma written_st k m v : 0 <= k < size -> (forall q, m q = written k q) -> v = g k ->
  exists m', st A m (o0 + k) v = Some m' /\ forall q, m' q = written (k + 1) q.
Proof.
  intros Hk HM ->. pose proof (mapped_written k m HM) as MO. rewrite (st_ok A m (o0 + k) (g k) o0 size MO) by lia.
  eexists. split; [reflexivity|]. intros q. cbv beta.
  destruct (Z.eqb_spec q (o0 + k)) as [->|N]; [rewrite written_at by lia; reflexivity|]. rewrite HM. symmetry. apply written_more; lia.
Qed.

Lemma written_stv k m v : 0 <= k -> k + 4 <= size -> (forall q, m q = written k q) -> (o0 + k) mod 4 = 0 ->
  l0 A v = g k -> l1 A v = g (k + 1) -> l2 A v = g (k + 2) -> l3 A v = g (k + 3) ->
  exists m', stv A m (o0 + k) v = Some m' /\ forall q, m' q = written (k + 4) q.
Proof.
  intros Hk HL HM HA G0 G1 G2 G3. pose proof (mapped_written k m HM) as MO.
  destruct (stv_ok A m (o0 + k) v o0 size MO ltac:(lia) ltac:(lia) HA) as (m' & E & V). exists m'. split; [exact E|].
  intros q. rewrite V, G0, G1, G2, G3.
  assert (AT : forall j, 0 <= j < k + 4 -> q = o0 + j -> Some (g j) = written (k + 4) q) by (intros j Hj ->; rewrite written_at by lia; reflexivity).
  destruct (Z.eqb_spec q (o0 + k + 3)); [apply AT; lia|]. destruct (Z.eqb_spec q (o0 + k + 2)); [apply AT; lia|].
  destruct (Z.eqb_spec q (o0 + k + 1)); [apply AT; lia|]. destruct (Z.eqb_spec q (o0 + k)); [apply AT; lia|].
  rewrite HM. symmetry. apply written_more; lia.
Qed.
End Written.

(** ** Ramps *)
(** the k-th value of a ramp *)
Fixpoint pw {A} (inc : A -> A -> A) (start step : A) (k : nat) : A :=
  match k with O => start | S k => inc (pw inc start step k) step end.

Section Ramp.
Variable A : Type.
Variables inc dec : A -> A -> A.
Variable m0 : mem A.
Variables o0 size : Z.
Hypothesis Hs : 0 <= size.
Hypothesis Ho : mapped A m0 o0 size.
Variables start step : A.
Let g (k : Z) := pw inc start step (Z.to_nat k).

Lemma g_next k : 0 <= k -> g (k + 1) = inc (g k) step.
Proof. intros Hk. unfold g. replace (Z.to_nat (k + 1)) with (S (Z.to_nat k)) by lia. reflexivity. Qed.

Definition PM (k : Z) (s : rstate A) : Prop :=
  let '(m, o, x) := s in o = o0 + k /\ 0 <= k /\ x = g k /\ forall q, m q = written A m0 o0 g k q.

Lemma ramp_one_ok k s : PM k s -> k < size -> exists s', ramp_one A inc step s = Some s' /\ PM (k + 1) s'.
Proof.
  destruct s as [[m o] x]. intros (-> & Hk & Ex & HM) HL.
  destruct (written_st A m0 o0 size Ho g k m x ltac:(lia) HM Ex) as (m' & E & V). cbn [ramp_one]. rewrite E. cbn [bind].
  eexists. split; [reflexivity|]. cbn [PM]. repeat split; try lia; [rewrite g_next by lia; congruence|exact V].
Qed.

Lemma ramp_loop (cond : rstate A -> bool) : (forall s, cond s = true -> snd (fst s) < o0 + size) ->
  forall k s, PM k s -> k <= size ->
  exists s' k', while_ (Z.to_nat size + 1) cond (ramp_one A inc step) s = Some s' /\ PM k' s' /\ k <= k' <= size /\ cond s' = false.
Proof.
  intros HC k s HP HK. apply (while_inv PM size).
  - intros j s1 P1 J1 C1. pose proof (HC s1 C1) as C2.
    assert (HJ : j < size) by (destruct s1 as [[m o] x]; destruct P1 as (-> & _); cbn [fst snd] in C2; lia).
    destruct (ramp_one_ok j s1 P1 HJ) as (s2 & E2 & P2). exists s2, (j + 1). split; [exact E2|]. split; [lia|exact P2].
  - exact HP.
  - exact HK.
  - assert (0 <= k) by (destruct s as [[m o] x]; destruct HP as (_ & HP & _); exact HP). lia.
Qed.

Lemma ramp_tail k s : PM k s -> k <= size ->
  exists m', while_ (Z.to_nat size + 1) (fun s : rstate A => snd (fst s) <? o0 + size) (ramp_one A inc step) s = Some (m', o0 + size, g size) /\
    forall q, m' q = written A m0 o0 g size q.
Proof.
  intros HP HK. destruct (ramp_loop (fun s : rstate A => snd (fst s) <? o0 + size)) with (k := k) (s := s) as (s' & k' & E & P' & K' & C); auto.
  - intros s1 C1. apply Z.ltb_lt in C1. exact C1.
  - apply Z.ltb_ge in C. destruct s' as [[m o] x]. destruct P' as (-> & _ & -> & V). cbn [fst snd] in C.
    assert (k' = size) by lia. subst k'. exists m. split; [exact E|exact V].
Qed.

Lemma PM0 : PM 0 (m0, o0, start).
Proof. cbn [PM]. repeat split; try lia. intros q. symmetry. apply written_0. Qed.

Lemma rampScalar_ok : exists m', rampScalar A inc m0 o0 start step size = Some (m', g size) /\ forall q, m' q = written A m0 o0 g size q.
Proof. destruct (ramp_tail 0 _ PM0 ltac:(lia)) as (m' & E & V). exists m'. unfold rampScalar. rewrite E. cbn [bind]. auto. Qed.

Hypothesis assoc : forall x a b, inc (inc x a) b = inc x (inc a b).
Hypothesis back : forall x, inc (dec x step) step = x.

Definition PV (k : Z) (s : rvstate A) : Prop :=
  let '(m, o, v) := s in o = o0 + k /\ 0 <= k /\ (exists w, v = set1 A w /\ inc w step = g k) /\ forall q, m q = written A m0 o0 g k q.

Lemma ramp_four_ok k s : PV k s -> k + 4 <= size -> (o0 + k) mod 4 = 0 -> exists s', ramp_four A inc step s = Some s' /\ PV (k + 4) s'.
Proof.
  destruct s as [[m o] v]. intros (-> & Hk & (w & -> & Ew) & HM) HL HA. cbn [ramp_four].
  assert (Q0 : inc w step = g k) by exact Ew.
  assert (Q1 : inc w (inc step step) = g (k + 1)) by (rewrite g_next, <- Q0, assoc by lia; reflexivity).
  assert (Q2 : inc w (inc (inc step step) step) = g (k + 2)).
  { replace (k + 2) with (k + 1 + 1) by lia. rewrite g_next, <- Q1, <- !assoc by lia. reflexivity. }
  assert (Q3 : inc w (inc (inc (inc step step) step) step) = g (k + 3)).
  { replace (k + 3) with (k + 2 + 1) by lia. rewrite g_next, <- Q2, <- !assoc by lia. reflexivity. }
  destruct (written_stv A m0 o0 size Ho g k m
    (map2 A inc (set1 A w) (V4 A step (inc step step) (inc (inc step step) step) (inc (inc (inc step step) step) step)))
    Hk HL HM HA Q0 Q1 Q2 Q3) as (m' & E & V).
  rewrite E. cbn [bind]. eexists. split; [reflexivity|]. cbn [PV]. repeat split; try lia; [|exact V].
  exists (g (k + 3)). split; [cbn [map2 set1 l3]; rewrite Q3; reflexivity|].
  replace (k + 4) with (k + 3 + 1) by lia. rewrite g_next by lia. reflexivity.
Qed.

Lemma rampSSE_ok : exists m', rampSSE A inc dec m0 o0 start step size = Some (m', g size) /\ forall q, m' q = written A m0 o0 g size q.
Proof.
  unfold rampSSE. set (lastA := prevAligned (o0 + size)). pose proof (prevAligned_spec (o0 + size)) as [LA LB]. fold lastA in LA, LB.
  destruct (ramp_loop (fun s : rstate A => unaligned (snd (fst s)) && (snd (fst s) <? lastA))) with (k := 0) (s := (m0, o0, start))
    as ([[m1 o1] x1] & k1 & E1 & P1 & K1 & C1).
  { intros s C. apply andb_true_iff in C. destruct C as [_ C]. apply Z.ltb_lt in C. lia. }
  { exact PM0. } { lia. }
  rewrite E1. cbn [bind]. destruct P1 as (-> & _ & -> & V1). cbn [fst snd] in C1.
  destruct (while_inv (fun k s => PV k s /\ (o0 + k < lastA -> (o0 + k) mod 4 = 0)) size (fun s : rvstate A => snd (fst s) <? lastA) (ramp_four A inc step)) with
    (fuel := (Z.to_nat size + 1)%nat) (k := k1) (s := (m1, o0 + k1, set1 A (dec (g k1) step))) as ([[m2 o2] v2] & k2 & E2 & (P2 & _) & K2 & C2).
  - intros j s (P & HA) J C. apply Z.ltb_lt in C.
    assert (EO : snd (fst s) = o0 + j) by (destruct s as [[m o] v]; destruct P as (-> & _); reflexivity). rewrite EO in C. specialize (HA C).
    assert (HJ : j + 4 <= size) by (pose proof (aligned_le _ _ HA LA C); lia).
    destruct (ramp_four_ok j s P HJ HA) as (s' & E & P'). exists s', (j + 4). split; [exact E|]. split; [lia|]. split; [exact P'|].
    intros _. rewrite Z.add_assoc. apply mod4_add. exact HA.
  - split.
    + cbn [PV]. repeat split; try lia; [|exact V1]. exists (dec (g k1) step). split; [reflexivity|apply back].
    + intros HL. apply Z.ltb_lt in HL. rewrite HL, andb_true_r in C1. apply unaligned_false. exact C1.
  - lia.
  - lia.
  - rewrite E2. cbn [bind]. destruct P2 as (-> & Hk2 & (w & -> & Ew) & V2). cbn [set1 l0].
    destruct (ramp_tail k2 (m2, o0 + k2, inc w step)) as (m' & E3 & V3).
    { cbn [PM]. repeat split; auto. } { lia. }
    exists m'. rewrite E3. cbn [bind]. auto.
Qed.
End Ramp.

(** C81: a ramp: output i is the start value incremented (added to, or multiplied by the step) i times, and the value returned goes on
    from there.  The plain loop does so with any arithmetic, the vector loop if the increment is associative and one step back and
    forth is the identity, as for exact numbers. *)
Theorem C81_ramp_scalar : forall A (inc : A -> A -> A) (m : mem A) output size start step, 0 <= size -> mapped A m output size ->
  exists m', rampScalar A inc m output start step size = Some (m', pw inc start step (Z.to_nat size)) /\
    (forall i, 0 <= i < size -> m' (output + i) = Some (pw inc start step (Z.to_nat i))) /\
    (forall q, ~ (output <= q < output + size) -> m' q = m q).
Proof.
  intros A inc m o size start step Hs Ho. destruct (rampScalar_ok A inc m o size Hs Ho start step) as (m' & E & V).
  exists m'. split; [exact E|]. split; [intros i Hi; rewrite V; apply (written_at A m o (fun k => pw inc start step (Z.to_nat k))); lia|].
  intros q Hq. rewrite V. apply written_out. exact Hq.
Qed.

Theorem C81_ramp_vector : forall A (inc dec : A -> A -> A) (m : mem A) output size start step, 0 <= size -> mapped A m output size ->
  (forall x a b, inc (inc x a) b = inc x (inc a b)) -> (forall x, inc (dec x step) step = x) ->
  exists m', rampSSE A inc dec m output start step size = Some (m', pw inc start step (Z.to_nat size)) /\
    (forall i, 0 <= i < size -> m' (output + i) = Some (pw inc start step (Z.to_nat i))) /\
    (forall q, ~ (output <= q < output + size) -> m' q = m q).
Proof.
  intros A inc dec m o size start step Hs Ho HA HB. destruct (rampSSE_ok A inc dec m o size Hs Ho start step HA HB) as (m' & E & V).
  exists m'. split; [exact E|]. split; [intros i Hi; rewrite V; apply (written_at A m o (fun k => pw inc start step (Z.to_nat k))); lia|].
  intros q Hq. rewrite V. apply written_out. exact Hq.
Qed.

(** With the rounding of binary32 the vector ramp may not even begin with its start value: from 1 with the factor 41/32 into an
    aligned buffer the first output is 1 - 2^-24.  A factor 0 divides by zero. *)
Theorem C81_ramp_vector_refuted :
  let m := fun q : Z => if (0 <=? q) && (q <? 3) then Some 0%Q else None in
  let mulf := fun x y => float24 (x * y)%Q in let divf := fun x y => float24 (x / y)%Q in
  option_map (fun r => option_map Qred (fst r 0)) (rampScalar Q mulf m 0 1%Q (41 # 32) 3) = Some (Some 1%Q) /\
  option_map (fun r => option_map Qred (fst r 0)) (rampSSE Q mulf divf m 0 1%Q (41 # 32) 3) = Some (Some (16777215 # 16777216)%Q).
Proof. split; vm_compute; reflexivity. Qed.

Example C81_ramp_ex : let m := fun q : Z => if (0 <=? q) && (q <? 60) then Some 0 else None in
  option_map (fun r => (map (fst r) [4; 5; 6; 10; 18; 19], snd r)) (rampSSE Z Z.add Z.sub m 5 100 3 14) =
    Some ([Some 0; Some 100; Some 103; Some 115; Some 139; Some 0], 142).
Proof. vm_compute. reflexivity. Qed.

(** ** Sums *)
(** the sum of the first k values *)
Fixpoint total {A} (zero : A) (add : A -> A -> A) (f : nat -> A) (k : nat) : A :=
  match k with O => zero | S k => add (total zero add f k) (f k) end.

Section Sum.
Variable A : Type.
Variable zero : A.
Variable add : A -> A -> A.
Variable sq : A -> A.
Variable m : mem A.
Variables p0 size : Z.
Hypothesis Hs : 0 <= size.
Variable x : nat -> A.
Hypothesis Hx : forall i, 0 <= i < size -> m (p0 + i) = Some (x (Z.to_nat i)).
Let g (k : Z) := total zero add (fun i => sq (x i)) (Z.to_nat k).

Lemma sum_next k : 0 <= k -> g (k + 1) = add (g k) (sq (x (Z.to_nat k))).
Proof. intros Hk. unfold g. replace (Z.to_nat (k + 1)) with (S (Z.to_nat k)) by lia. reflexivity. Qed.

Definition PS (k : Z) (s : Z * A) : Prop := fst s = p0 + k /\ 0 <= k /\ snd s = g k.

Lemma sum_loop (cond : Z * A -> bool) : (forall s, cond s = true -> fst s < p0 + size) ->
  forall k s, PS k s -> k <= size ->
  exists s' k', while_ (Z.to_nat size + 1) cond (sum_one A add sq m) s = Some s' /\ PS k' s' /\ k <= k' <= size /\ cond s' = false.
Proof.
  intros HC k s HP HK. apply (while_inv PS size).
  - intros j [p v] (E1 & J0 & E2) J1 C1. pose proof (HC _ C1) as C2. cbn [fst snd] in *. subst p v.
    exists (p0 + j + 1, add (g j) (sq (x (Z.to_nat j)))), (j + 1). cbn [sum_one]. unfold ld. rewrite Hx by lia. cbn [bind].
    split; [reflexivity|]. split; [lia|]. unfold PS. cbn [fst snd]. repeat split; try lia. symmetry. apply sum_next. exact J0.
  - exact HP.
  - exact HK.
  - destruct HP as (_ & HP & _). lia.
Qed.

Lemma sum_tail k s : PS k s -> k <= size ->
  exists s', while_ (Z.to_nat size + 1) (fun s : Z * A => fst s <? p0 + size) (sum_one A add sq m) s = Some s' /\ snd s' = g size.
Proof.
  intros HP HK. destruct (sum_loop (fun s : Z * A => fst s <? p0 + size)) with (k := k) (s := s) as (s' & k' & E & P' & K' & C); auto.
  - intros s1 C1. apply Z.ltb_lt in C1. exact C1.
  - apply Z.ltb_ge in C. exists s'. split; [exact E|]. destruct P' as (E1 & _ & E2). rewrite E1 in C. assert (k' = size) by lia. subst k'. exact E2.
Qed.

Lemma PS0 : PS 0 (p0, zero).
Proof. unfold PS. cbn [fst snd]. repeat split; lia. Qed.

Lemma sumScalar_ok : sumScalar A zero add sq m p0 size = Some (g size).
Proof.
  unfold sumScalar. destruct (Z.eqb_spec size 0) as [->|N]; [reflexivity|].
  destruct (sum_tail 0 _ PS0 ltac:(lia)) as (s' & E & V). rewrite E. cbn [bind]. rewrite V. reflexivity.
Qed.

Hypothesis assoc : forall a b c, add (add a b) c = add a (add b c).
Hypothesis comm : forall a b, add a b = add b a.
Hypothesis neutral : forall a, add a zero = a.

Lemma swap a b c : add (add a b) c = add (add a c) b.
Proof. rewrite !assoc, (comm b c). reflexivity. Qed.

Definition PSV (x0 : A) (k : Z) (s : Z * v4 A) : Prop :=
  let '(p, v) := s in p = p0 + k /\ 0 <= k /\ add (add (add (add x0 (l0 A v)) (l1 A v)) (l2 A v)) (l3 A v) = g k.

Lemma sum_four_ok x0 k s : PSV x0 k s -> k + 4 <= size -> (p0 + k) mod 4 = 0 -> exists s', sum_four A add sq m s = Some s' /\ PSV x0 (k + 4) s'.
Proof.
  destruct s as [p [a b c d]]. intros (-> & Hk & E) HL HA. cbn [l0 l1 l2 l3] in E. cbn [sum_four].
  pose proof (Hx k ltac:(lia)) as X0. pose proof (Hx (k + 1) ltac:(lia)) as X1. pose proof (Hx (k + 2) ltac:(lia)) as X2. pose proof (Hx (k + 3) ltac:(lia)) as X3.
  rewrite Z.add_assoc in X1, X2, X3. rewrite (ldv_ok A m (p0 + k) _ _ _ _ HA X0 X1 X2 X3). cbn [bind].
  eexists. split; [reflexivity|]. cbn [PSV map2 l0 l1 l2 l3]. repeat split; try lia.
  replace (k + 4) with (k + 1 + 1 + 1 + 1) by lia. rewrite !sum_next by lia.
  replace (k + 1 + 1) with (k + 2) by lia. replace (k + 2 + 1) with (k + 3) by lia.
  generalize (sq (x (Z.to_nat k))) (sq (x (Z.to_nat (k + 1)))) (sq (x (Z.to_nat (k + 2)))) (sq (x (Z.to_nat (k + 3)))). intros v0 v1 v2 v3.
  rewrite <- E, <- !assoc. rewrite (swap (add x0 a) v0 b), (swap (add (add (add x0 a) b) v0) v1 c), (swap (add (add x0 a) b) v0 c).
  rewrite (swap (add (add (add (add (add x0 a) b) c) v0) v1) v2 d), (swap (add (add (add (add x0 a) b) c) v0) v1 d), (swap (add (add (add x0 a) b) c) v0 d).
  reflexivity.
Qed.

Lemma sumSSE_ok : sumSSE A zero add sq m p0 size = Some (g size).
Proof.
  unfold sumSSE. destruct (Z.eqb_spec size 0) as [->|N]; [reflexivity|].
  set (lastA := prevAligned (p0 + size)). pose proof (prevAligned_spec (p0 + size)) as [LA LB]. fold lastA in LA, LB.
  destruct (sum_loop (fun s : Z * A => unaligned (fst s) && (fst s <? lastA))) with (k := 0) (s := (p0, zero)) as ([p1 x1] & k1 & E1 & P1 & K1 & C1).
  { intros s C. apply andb_true_iff in C. destruct C as [_ C]. apply Z.ltb_lt in C. lia. }
  { exact PS0. } { lia. }
  rewrite E1. cbn [bind]. destruct P1 as (F1 & _ & F2). cbn [fst snd] in F1, F2, C1. subst p1.
  destruct (while_inv (fun k s => PSV x1 k s /\ (p0 + k < lastA -> (p0 + k) mod 4 = 0)) size (fun s : Z * v4 A => fst s <? lastA) (sum_four A add sq m)) with
    (fuel := (Z.to_nat size + 1)%nat) (k := k1) (s := (p0 + k1, set1 A zero)) as ([p2 v2] & k2 & E2 & (P2 & _) & K2 & C2).
  - intros j s (P & HA) J C. apply Z.ltb_lt in C.
    assert (EO : fst s = p0 + j) by (destruct s as [p v]; destruct P as (-> & _); reflexivity). rewrite EO in C. specialize (HA C).
    assert (HJ : j + 4 <= size) by (pose proof (aligned_le _ _ HA LA C); lia).
    destruct (sum_four_ok x1 j s P HJ HA) as (s' & E & P'). exists s', (j + 4). split; [exact E|]. split; [lia|]. split; [exact P'|].
    intros _. rewrite Z.add_assoc. apply mod4_add. exact HA.
  - split.
    + cbn [PSV set1 l0 l1 l2 l3]. repeat split; try lia. rewrite !neutral. exact F2.
    + intros HL. apply Z.ltb_lt in HL. rewrite HL, andb_true_r in C1. apply unaligned_false. exact C1.
  - lia.
  - lia.
  - rewrite E2. cbn [bind]. destruct P2 as (-> & Hk2 & Ew).
    destruct (sum_tail k2 (p0 + k2, add (add (add (add x1 (l0 A v2)) (l1 A v2)) (l2 A v2)) (l3 A v2))) as (s' & E3 & V3).
    { unfold PS. cbn [fst snd]. auto. } { lia. }
    rewrite E3. cbn [bind]. rewrite V3. reflexivity.
Qed.
End Sum.

(** C81: the sum (of the samples for the mean, of their squares for the power): with the plain loop the sum in order from zero for any
    arithmetic; with vectors the same if addition is associative and commutative. *)
Theorem C81_sum_scalar : forall A zero add (sq : A -> A) (m : mem A) p size x, 0 <= size ->
  (forall i, 0 <= i < size -> m (p + i) = Some (x (Z.to_nat i))) ->
  sumScalar A zero add sq m p size = Some (total zero add (fun i => sq (x i)) (Z.to_nat size)).
Proof. intros A zero add sq m p size x Hs Hx. apply (sumScalar_ok A zero add sq m p size Hs x Hx). Qed.

Theorem C81_sum_vector : forall A zero add (sq : A -> A) (m : mem A) p size x, 0 <= size ->
  (forall i, 0 <= i < size -> m (p + i) = Some (x (Z.to_nat i))) ->
  (forall a b c, add (add a b) c = add a (add b c)) -> (forall a b, add a b = add b a) -> (forall a, add a zero = a) ->
  sumSSE A zero add sq m p size = Some (total zero add (fun i => sq (x i)) (Z.to_nat size)).
Proof. intros A zero add sq m p size x Hs Hx H1 H2 H3. apply (sumSSE_ok A zero add sq m p size Hs x Hx H1 H2 H3). Qed.

Example C81_sum_ex : let m := fun q : Z => if (0 <=? q) && (q <? 60) then Some q else None in
  sumSSE Z 0 Z.add (fun x => x) m 3 16 = Some 168 /\ sumSSE Z 0 Z.add (fun x => x * x) m 2 3 = Some 29 /\ sumSSE Z 0 Z.add (fun x => x) m 58 3 = None.
Proof. repeat split; vm_compute; reflexivity. Qed.

(** ** Running sums and differences *)
Section Cum.
Variable A : Type.
Variable zero : A.
Variables add sub : A -> A -> A.
Variable m0 : mem A.
Variables i0 o0 size : Z.
Hypothesis Hs : 0 < size.
Hypothesis Ho : mapped A m0 o0 size.
Variable x : nat -> A.
Hypothesis Hx : forall i, 0 <= i < size -> m0 (i0 + i) = Some (x (Z.to_nat i)).

(** the sum of the values up to and with the k-th, without a zero in front *)
Fixpoint upto (k : nat) : A := match k with O => x 0 | S k => add (upto k) (x (S k)) end.

Section CumSum.
Hypothesis D : i0 = o0 \/ disjoint i0 size o0 size.
Let g (k : Z) := upto (Z.to_nat k).

Lemma upto_next k : 0 <= k -> g (k + 1) = add (g k) (x (Z.to_nat (k + 1))).
Proof. intros Hk. unfold g. replace (Z.to_nat (k + 1)) with (S (Z.to_nat k)) by lia. reflexivity. Qed.

Definition PC (k : Z) (s : cstate A) : Prop :=
  let '(m, i, o) := s in i = i0 + k /\ o = o0 + k /\ 1 <= k /\ forall q, m q = written A m0 o0 g k q.

Lemma cum_in k j m : 0 <= k <= j -> j < size -> (forall q, m q = written A m0 o0 g k q) -> m (i0 + j) = Some (x (Z.to_nat j)).
Proof. intros Hk Hj HM. rewrite HM, written_out by (unfold disjoint in D; lia). apply Hx. lia. Qed.

Lemma cumsum_one_ok k s : PC k s -> k < size -> exists s', cumsum_one A add s = Some s' /\ PC (k + 1) s'.
Proof.
  destruct s as [[m i] o]. intros (-> & -> & Hk & HM) HL. cbn [cumsum_one]. unfold ld at 1.
  replace (o0 + k - 1) with (o0 + (k - 1)) by lia. rewrite HM, written_at by lia. cbn [bind]. unfold ld.
  rewrite (cum_in k k m) by (auto; lia). cbn [bind].
  destruct (written_st A m0 o0 size Ho g k m (add (g (k - 1)) (x (Z.to_nat k))) ltac:(lia) HM) as (m' & E & V).
  { pose proof (upto_next (k - 1) ltac:(lia)) as U. replace (k - 1 + 1) with k in U by lia. symmetry. exact U. }
  rewrite E. cbn [bind]. eexists. split; [reflexivity|]. cbn [PC]. repeat split; try lia. exact V.
Qed.

Lemma cum_loop (cond : cstate A -> bool) : (forall s, cond s = true -> snd s < o0 + size) ->
  forall k s, PC k s -> k <= size ->
  exists s' k', while_ (Z.to_nat size + 1) cond (cumsum_one A add) s = Some s' /\ PC k' s' /\ k <= k' <= size /\ cond s' = false.
Proof.
  intros HC k s HP HK. apply (while_inv PC size).
  - intros j s1 P1 J1 C1. pose proof (HC s1 C1) as C2.
    assert (HJ : j < size) by (destruct s1 as [[m i] o]; destruct P1 as (-> & -> & _); cbn [fst snd] in C2; lia).
    destruct (cumsum_one_ok j s1 P1 HJ) as (s2 & E2 & P2). exists s2, (j + 1). split; [exact E2|]. split; [lia|exact P2].
  - exact HP.
  - exact HK.
  - assert (1 <= k) by (destruct s as [[m i] o]; destruct HP as (_ & _ & HP & _); exact HP). lia.
Qed.

Lemma cum_tail k s : PC k s -> k <= size ->
  exists s', while_ (Z.to_nat size + 1) (fun s : cstate A => snd s <? o0 + size) (cumsum_one A add) s = Some s' /\
    forall q, fst (fst s') q = written A m0 o0 g size q.
Proof.
  intros HP HK. destruct (cum_loop (fun s : cstate A => snd s <? o0 + size)) with (k := k) (s := s) as (s' & k' & E & P' & K' & C); auto.
  - intros s1 C1. apply Z.ltb_lt in C1. exact C1.
  - apply Z.ltb_ge in C. exists s'. split; [exact E|]. destruct s' as [[m i] o]. destruct P' as (-> & -> & _ & V). cbn [fst snd] in *.
    assert (k' = size) by lia. subst k'. exact V.
Qed.

Lemma cum_first : ld A m0 i0 = Some (x 0) /\ exists m1, st A m0 o0 (x 0) = Some m1 /\ PC 1 (m1, i0 + 1, o0 + 1).
Proof.
  split; [unfold ld; rewrite <- (Z.add_0_r i0); apply (Hx 0); lia|].
  destruct (written_st A m0 o0 size Ho g 0 m0 (x 0) ltac:(lia)) as (m1 & E & V); [intros q; symmetry; apply written_0|reflexivity|].
  rewrite Z.add_0_r in E. exists m1. split; [exact E|]. cbn [PC]. repeat split; try lia. exact V.
Qed.

Lemma cumsumScalar_ok : exists m', cumsumScalar A add m0 i0 o0 size = Some m' /\ forall q, m' q = written A m0 o0 g size q.
Proof.
  unfold cumsumScalar. destruct (Z.eqb_spec size 0) as [X|_]; [lia|]. destruct cum_first as (E0 & m1 & E1 & P1). rewrite E0. cbn [bind]. rewrite E1. cbn [bind].
  destruct (cum_tail 1 _ P1 ltac:(lia)) as (s' & E & V). rewrite E. cbn [bind]. eauto.
Qed.

Hypothesis assoc : forall a b c, add (add a b) c = add a (add b c).
Hypothesis comm : forall a b, add a b = add b a.
Hypothesis neutral : forall a, add a zero = a.

Definition PCV (k : Z) (s : cvstate A) : Prop :=
  let '(m, i, o, v) := s in PC k (m, i, o) /\ v = set1 A (g (k - 1)).

Lemma cumsum_four_ok k s : PCV k s -> k + 4 <= size -> (i0 + k) mod 4 = 0 -> (o0 + k) mod 4 = 0 ->
  exists s', cumsum_four A zero add s = Some s' /\ PCV (k + 4) s'.
Proof.
  destruct s as [[[m i] o] v]. intros ((-> & -> & Hk & HM) & ->) HL HA HB. cbn [cumsum_four].
  pose proof (cum_in k k m ltac:(lia) ltac:(lia) HM) as X0. pose proof (cum_in k (k + 1) m ltac:(lia) ltac:(lia) HM) as X1.
  pose proof (cum_in k (k + 2) m ltac:(lia) ltac:(lia) HM) as X2. pose proof (cum_in k (k + 3) m ltac:(lia) ltac:(lia) HM) as X3.
  rewrite Z.add_assoc in X1, X2, X3. rewrite (ldv_ok A m (i0 + k) _ _ _ _ HA X0 X1 X2 X3). cbn [bind].
  cbn [map2 set1 l0 l1 l2 l3].
  assert (Q0 : add (g (k - 1)) (x (Z.to_nat k)) = g k).
  { pose proof (upto_next (k - 1) ltac:(lia)) as U. replace (k - 1 + 1) with k in U by lia. symmetry. exact U. }
  assert (Q1 : add (g k) (x (Z.to_nat (k + 1))) = g (k + 1)) by (symmetry; apply upto_next; lia).
  assert (Q2 : add (g (k + 1)) (x (Z.to_nat (k + 2))) = g (k + 2)) by (replace (k + 2) with (k + 1 + 1) by lia; symmetry; apply upto_next; lia).
  assert (Q3 : add (g (k + 2)) (x (Z.to_nat (k + 3))) = g (k + 3)) by (replace (k + 3) with (k + 2 + 1) by lia; symmetry; apply upto_next; lia).
  revert Q0 Q1 Q2 Q3. generalize (x (Z.to_nat k)) (x (Z.to_nat (k + 1))) (x (Z.to_nat (k + 2))) (x (Z.to_nat (k + 3))). intros x0 x1 x2 x3 Q0 Q1 Q2 Q3.
  assert (R0 : add (g (k - 1)) (add (add x0 zero) zero) = g k) by (rewrite !neutral; exact Q0).
  assert (R1 : add (g (k - 1)) (add (add x1 x0) zero) = g (k + 1)) by (rewrite neutral, (comm x1 x0), <- assoc, Q0; exact Q1).
  assert (R2 : add (g (k - 1)) (add (add x2 x1) (add x0 zero)) = g (k + 2)).
  { rewrite neutral, (comm (add x2 x1) x0), (comm x2 x1), <- !assoc, Q0, Q1. exact Q2. }
  assert (R3 : add (g (k - 1)) (add (add x3 x2) (add x1 x0)) = g (k + 3)).
  { rewrite (comm (add x3 x2) (add x1 x0)), (comm x1 x0), (comm x3 x2), <- !assoc, Q0, Q1, Q2. exact Q3. }
  destruct (written_stv A m0 o0 size Ho g k m (V4 A (add (g (k - 1)) (add (add x0 zero) zero)) (add (g (k - 1)) (add (add x1 x0) zero))
      (add (g (k - 1)) (add (add x2 x1) (add x0 zero))) (add (g (k - 1)) (add (add x3 x2) (add x1 x0)))) ltac:(lia) HL HM HB R0 R1 R2 R3) as (m' & E & V).
  unfold map2, set1. cbn [l0 l1 l2 l3].
  rewrite E. cbn [bind]. eexists. split; [reflexivity|]. cbn [PCV PC]. repeat split; try lia; [exact V|].
  rewrite R3. unfold set1. replace (k + 4 - 1) with (k + 3) by lia. reflexivity.
Qed.

Lemma cumsumSSE_ok : exists m', cumsumSSE A zero add m0 i0 o0 size = Some m' /\ forall q, m' q = written A m0 o0 g size q.
Proof.
  unfold cumsumSSE. destruct (Z.eqb_spec size 0) as [X|_]; [lia|]. destruct cum_first as (E0 & m1 & E1 & P1). rewrite E0. cbn [bind]. rewrite E1. cbn [bind].
  set (lastA := prevAligned (o0 + size)). pose proof (prevAligned_spec (o0 + size)) as [LA LB]. fold lastA in LA, LB.
  destruct (cum_loop (fun s : cstate A => (unaligned (snd (fst s)) || unaligned (snd s)) && (snd s <? lastA))) with (k := 1) (s := (m1, i0 + 1, o0 + 1))
    as ([[m2 i2] o2] & k2 & E2 & P2 & K2 & C2).
  { intros s C. apply andb_true_iff in C. destruct C as [_ C]. apply Z.ltb_lt in C. lia. }
  { exact P1. } { lia. }
  rewrite E2. cbn [bind]. cbn [fst snd] in C2. pose proof P2 as (-> & -> & _ & V2).
  unfold ld at 1. replace (o0 + k2 - 1) with (o0 + (k2 - 1)) by lia. rewrite V2, written_at by lia. cbn [bind].
  destruct (while_inv (fun k s => PCV k s /\ (o0 + k < lastA -> (i0 + k) mod 4 = 0 /\ (o0 + k) mod 4 = 0)) size
      (fun s : cvstate A => snd (fst s) <? lastA) (cumsum_four A zero add)) with
    (fuel := (Z.to_nat size + 1)%nat) (k := k2) (s := (m2, i0 + k2, o0 + k2, set1 A (g (k2 - 1)))) as ([[[m3 i3] o3] v3] & k3 & E3 & (P3 & _) & K3 & C3).
  - intros j s (P & HA) J C. apply Z.ltb_lt in C.
    assert (EO : snd (fst s) = o0 + j) by (destruct s as [[[m i] o] v]; destruct P as ((_ & -> & _) & _); reflexivity). rewrite EO in C.
    destruct (HA C) as [HA1 HA2].
    assert (HJ : j + 4 <= size) by (pose proof (aligned_le _ _ HA2 LA C); lia).
    destruct (cumsum_four_ok j s P HJ HA1 HA2) as (s' & E & P'). exists s', (j + 4). split; [exact E|]. split; [lia|]. split; [exact P'|].
    intros _. rewrite !Z.add_assoc. split; apply mod4_add; assumption.
  - split; [split; [exact P2|reflexivity]|].
    intros HL. apply Z.ltb_lt in HL. rewrite HL, andb_true_r in C2. apply orb_false_iff in C2. destruct C2 as [C2 C2'].
    split; apply unaligned_false; assumption.
  - lia.
  - lia.
  - rewrite E3. cbn [bind]. destruct P3 as [P3 _]. destruct (cum_tail k3 _ P3 ltac:(lia)) as (s' & E4 & V4). rewrite E4. cbn [bind]. eauto.
Qed.
End CumSum.

Section Diff.
Hypothesis D : disjoint i0 size o0 size.
Definition delta (k : Z) : A := if k =? 0 then x 0 else sub (x (Z.to_nat k)) (x (Z.to_nat (k - 1))).

Definition PD (k : Z) (s : cstate A) : Prop :=
  let '(m, i, o) := s in i = i0 + k /\ o = o0 + k /\ 1 <= k /\ forall q, m q = written A m0 o0 delta k q.

Lemma diff_in k j m : 0 <= k <= size -> 0 <= j < size -> (forall q, m q = written A m0 o0 delta k q) -> m (i0 + j) = Some (x (Z.to_nat j)).
Proof. intros Hk Hj HM. rewrite HM, written_out by (unfold disjoint in D; lia). apply Hx. lia. Qed.

Lemma diff_one_ok k s : PD k s -> k < size -> exists s', diff_one A sub s = Some s' /\ PD (k + 1) s'.
Proof.
  destruct s as [[m i] o]. intros (-> & -> & Hk & HM) HL. cbn [diff_one]. unfold ld.
  replace (i0 + k - 1) with (i0 + (k - 1)) by lia. rewrite (diff_in k k m), (diff_in k (k - 1) m) by (auto; lia). cbn [bind].
  destruct (written_st A m0 o0 size Ho delta k m (sub (x (Z.to_nat k)) (x (Z.to_nat (k - 1)))) ltac:(lia) HM) as (m' & E & V).
  { unfold delta. destruct (Z.eqb_spec k 0); [lia|reflexivity]. }
  rewrite E. cbn [bind]. eexists. split; [reflexivity|]. cbn [PD]. repeat split; try lia. exact V.
Qed.

Lemma diff_loop (cond : cstate A -> bool) : (forall s, cond s = true -> snd s < o0 + size) ->
  forall k s, PD k s -> k <= size ->
  exists s' k', while_ (Z.to_nat size + 1) cond (diff_one A sub) s = Some s' /\ PD k' s' /\ k <= k' <= size /\ cond s' = false.
Proof.
  intros HC k s HP HK. apply (while_inv PD size).
  - intros j s1 P1 J1 C1. pose proof (HC s1 C1) as C2.
    assert (HJ : j < size) by (destruct s1 as [[m i] o]; destruct P1 as (-> & -> & _); cbn [fst snd] in C2; lia).
    destruct (diff_one_ok j s1 P1 HJ) as (s2 & E2 & P2). exists s2, (j + 1). split; [exact E2|]. split; [lia|exact P2].
  - exact HP.
  - exact HK.
  - assert (1 <= k) by (destruct s as [[m i] o]; destruct HP as (_ & _ & HP & _); exact HP). lia.
Qed.

Lemma diff_tail k s : PD k s -> k <= size ->
  exists s', while_ (Z.to_nat size + 1) (fun s : cstate A => snd s <? o0 + size) (diff_one A sub) s = Some s' /\
    forall q, fst (fst s') q = written A m0 o0 delta size q.
Proof.
  intros HP HK. destruct (diff_loop (fun s : cstate A => snd s <? o0 + size)) with (k := k) (s := s) as (s' & k' & E & P' & K' & C); auto.
  - intros s1 C1. apply Z.ltb_lt in C1. exact C1.
  - apply Z.ltb_ge in C. exists s'. split; [exact E|]. destruct s' as [[m i] o]. destruct P' as (-> & -> & _ & V). cbn [fst snd] in *.
    assert (k' = size) by lia. subst k'. exact V.
Qed.

Lemma diff_first : ld A m0 i0 = Some (x 0) /\ exists m1, st A m0 o0 (x 0) = Some m1 /\ PD 1 (m1, i0 + 1, o0 + 1).
Proof.
  split; [unfold ld; rewrite <- (Z.add_0_r i0); apply (Hx 0); lia|].
  destruct (written_st A m0 o0 size Ho delta 0 m0 (x 0) ltac:(lia)) as (m1 & E & V); [intros q; symmetry; apply written_0|reflexivity|].
  rewrite Z.add_0_r in E. exists m1. split; [exact E|]. cbn [PD]. repeat split; try lia. exact V.
Qed.

Lemma diffScalar_ok : exists m', diffScalar A sub m0 i0 o0 size = Some m' /\ forall q, m' q = written A m0 o0 delta size q.
Proof.
  unfold diffScalar. destruct (Z.eqb_spec size 0) as [X|_]; [lia|]. destruct diff_first as (E0 & m1 & E1 & P1). rewrite E0. cbn [bind]. rewrite E1. cbn [bind].
  destruct (diff_tail 1 _ P1 ltac:(lia)) as (s' & E & V). rewrite E. cbn [bind]. eauto.
Qed.

Hypothesis sub_zero : forall a, sub a zero = a.
Hypothesis sub_sub : forall a b c, sub (sub a c) (sub b c) = sub a b.

Definition PDV (k : Z) (s : cvstate A) : Prop :=
  let '(m, i, o, v) := s in PD k (m, i, o) /\ v = set1 A (x (Z.to_nat (k - 1))).

Lemma diff_four_ok k s : PDV k s -> k + 4 <= size -> (i0 + k) mod 4 = 0 -> (o0 + k) mod 4 = 0 ->
  exists s', diff_four A zero sub s = Some s' /\ PDV (k + 4) s'.
Proof.
  destruct s as [[[m i] o] v]. intros ((-> & -> & Hk & HM) & ->) HL HA HB. cbn [diff_four].
  pose proof (diff_in k k m ltac:(lia) ltac:(lia) HM) as X0. pose proof (diff_in k (k + 1) m ltac:(lia) ltac:(lia) HM) as X1.
  pose proof (diff_in k (k + 2) m ltac:(lia) ltac:(lia) HM) as X2. pose proof (diff_in k (k + 3) m ltac:(lia) ltac:(lia) HM) as X3.
  rewrite Z.add_assoc in X1, X2, X3. rewrite (ldv_ok A m (i0 + k) _ _ _ _ HA X0 X1 X2 X3). cbn [bind].
  cbn [map2 set1 l0 l1 l2 l3].
  assert (DL : forall j, 0 <= j -> delta (k + j) = sub (x (Z.to_nat (k + j))) (x (Z.to_nat (k + j - 1)))).
  { intros j Hj. unfold delta. destruct (Z.eqb_spec (k + j) 0); [lia|reflexivity]. }
  pose proof (DL 0 ltac:(lia)) as D0. pose proof (DL 1 ltac:(lia)) as D1. pose proof (DL 2 ltac:(lia)) as D2. pose proof (DL 3 ltac:(lia)) as D3.
  rewrite !Z.add_0_r in D0. replace (k + 1 - 1) with k in D1 by lia. replace (k + 2 - 1) with (k + 1) in D2 by lia. replace (k + 3 - 1) with (k + 2) in D3 by lia.
  destruct (written_stv A m0 o0 size Ho delta k m
    (V4 A (sub (sub (x (Z.to_nat k)) (x (Z.to_nat (k - 1)))) zero)
          (sub (sub (x (Z.to_nat (k + 1))) (x (Z.to_nat (k - 1)))) (sub (x (Z.to_nat k)) (x (Z.to_nat (k - 1)))))
          (sub (sub (x (Z.to_nat (k + 2))) (x (Z.to_nat (k - 1)))) (sub (x (Z.to_nat (k + 1))) (x (Z.to_nat (k - 1)))))
          (sub (sub (x (Z.to_nat (k + 3))) (x (Z.to_nat (k - 1)))) (sub (x (Z.to_nat (k + 2))) (x (Z.to_nat (k - 1))))))
    ltac:(lia) HL HM HB) as (m' & E & V); cbn [l0 l1 l2 l3]; [rewrite sub_zero, D0|rewrite sub_sub, D1|rewrite sub_sub, D2|rewrite sub_sub, D3|]; try reflexivity.
  unfold map2, set1. cbn [l0 l1 l2 l3].
  rewrite E. cbn [bind]. eexists. split; [reflexivity|]. cbn [PDV PD]. repeat split; try lia; [exact V|]. replace (k + 4 - 1) with (k + 3) by lia. reflexivity.
Qed.

Lemma diffSSE_ok : exists m', diffSSE A zero sub m0 i0 o0 size = Some m' /\ forall q, m' q = written A m0 o0 delta size q.
Proof.
  unfold diffSSE. destruct (Z.eqb_spec size 0) as [X|_]; [lia|]. destruct diff_first as (E0 & m1 & E1 & P1). rewrite E0. cbn [bind]. rewrite E1. cbn [bind].
  set (lastA := prevAligned (o0 + size)). pose proof (prevAligned_spec (o0 + size)) as [LA LB]. fold lastA in LA, LB.
  destruct (diff_loop (fun s : cstate A => (unaligned (snd (fst s)) || unaligned (snd s)) && (snd s <? lastA))) with (k := 1) (s := (m1, i0 + 1, o0 + 1))
    as ([[m2 i2] o2] & k2 & E2 & P2 & K2 & C2).
  { intros s C. apply andb_true_iff in C. destruct C as [_ C]. apply Z.ltb_lt in C. lia. }
  { exact P1. } { lia. }
  rewrite E2. cbn [bind]. cbn [fst snd] in C2. pose proof P2 as (-> & -> & _ & V2).
  unfold ld at 1. replace (i0 + k2 - 1) with (i0 + (k2 - 1)) by lia. rewrite (diff_in k2 (k2 - 1) m2) by (auto; lia). cbn [bind].
  destruct (while_inv (fun k s => PDV k s /\ (o0 + k < lastA -> (i0 + k) mod 4 = 0 /\ (o0 + k) mod 4 = 0)) size
      (fun s : cvstate A => snd (fst s) <? lastA) (diff_four A zero sub)) with
    (fuel := (Z.to_nat size + 1)%nat) (k := k2) (s := (m2, i0 + k2, o0 + k2, set1 A (x (Z.to_nat (k2 - 1))))) as ([[[m3 i3] o3] v3] & k3 & E3 & (P3 & _) & K3 & C3).
  - intros j s (P & HA) J C. apply Z.ltb_lt in C.
    assert (EO : snd (fst s) = o0 + j) by (destruct s as [[[m i] o] v]; destruct P as ((_ & -> & _) & _); reflexivity). rewrite EO in C.
    destruct (HA C) as [HA1 HA2].
    assert (HJ : j + 4 <= size) by (pose proof (aligned_le _ _ HA2 LA C); lia).
    destruct (diff_four_ok j s P HJ HA1 HA2) as (s' & E & P'). exists s', (j + 4). split; [exact E|]. split; [lia|]. split; [exact P'|].
    intros _. rewrite !Z.add_assoc. split; apply mod4_add; assumption.
  - split; [split; [exact P2|reflexivity]|].
    intros HL. apply Z.ltb_lt in HL. rewrite HL, andb_true_r in C2. apply orb_false_iff in C2. destruct C2 as [C2 C2'].
    split; apply unaligned_false; assumption.
  - lia.
  - lia.
  - rewrite E3. cbn [bind]. destruct P3 as [P3 _]. destruct (diff_tail k3 _ P3 ltac:(lia)) as (s' & E4 & V4). rewrite E4. cbn [bind]. eauto.
Qed.
End Diff.
End Cum.

(** C81: the running sum: output i is the sum of the inputs up to i, in place or into another buffer. *)
Theorem C81_cumsum : forall A zero add (m : mem A) input output size x, 0 < size -> mapped A m output size ->
  (forall i, 0 <= i < size -> m (input + i) = Some (x (Z.to_nat i))) -> input = output \/ disjoint input size output size ->
  forall run, run = cumsumScalar A add \/
    (run = cumsumSSE A zero add /\ (forall a b c, add (add a b) c = add a (add b c)) /\ (forall a b, add a b = add b a) /\ (forall a, add a zero = a)) ->
  exists m', run m input output size = Some m' /\
    (forall i, 0 <= i < size -> m' (output + i) = Some (upto A add x (Z.to_nat i))) /\
    (forall q, ~ (output <= q < output + size) -> m' q = m q).
Proof.
  intros A zero add m i o size x Hs Ho Hx D run HR.
  assert (X : exists m', run m i o size = Some m' /\ forall q, m' q = written A m o (fun k => upto A add x (Z.to_nat k)) size q).
  { destruct HR as [-> |(-> & H1 & H2 & H3)]; [apply cumsumScalar_ok|apply cumsumSSE_ok]; assumption. }
  destruct X as (m' & E & V). exists m'. split; [exact E|]. split.
  - intros j Hj. rewrite V. apply (written_at A m o (fun k => upto A add x (Z.to_nat k))). lia.
  - intros q Hq. rewrite V. apply written_out. exact Hq.
Qed.

(** C81: the differences: output 0 is input 0, output i is input i minus input i - 1. *)
Theorem C81_diff : forall A zero sub (m : mem A) input output size x, 0 < size -> mapped A m output size ->
  (forall i, 0 <= i < size -> m (input + i) = Some (x (Z.to_nat i))) -> disjoint input size output size ->
  forall run, run = diffScalar A sub \/
    (run = diffSSE A zero sub /\ (forall a, sub a zero = a) /\ (forall a b c, sub (sub a c) (sub b c) = sub a b)) ->
  exists m', run m input output size = Some m' /\ m' output = Some (x 0%nat) /\
    (forall i, 1 <= i < size -> m' (output + i) = Some (sub (x (Z.to_nat i)) (x (Z.to_nat (i - 1))))) /\
    (forall q, ~ (output <= q < output + size) -> m' q = m q).
Proof.
  intros A zero sub m i o size x Hs Ho Hx D run HR.
  assert (X : exists m', run m i o size = Some m' /\ forall q, m' q = written A m o (delta A sub x) size q).
  { destruct HR as [-> |(-> & H1 & H2)]; [apply diffScalar_ok|apply diffSSE_ok]; assumption. }
  destruct X as (m' & E & V). exists m'. split; [exact E|]. split; [|split].
  - rewrite V. pose proof (written_at A m o (delta A sub x) size 0 ltac:(lia)) as W. rewrite Z.add_0_r in W. exact W.
  - intros j Hj. rewrite V, (written_at A m o (delta A sub x)) by lia. unfold delta. destruct (Z.eqb_spec j 0); [lia|reflexivity].
  - intros q Hq. rewrite V. apply written_out. exact Hq.
Qed.

Example C81_cumsum_ex : let m := fun q : Z => if (0 <=? q) && (q <? 60) then Some q else None in
  option_map (fun m => map m [20; 21; 22; 30; 33; 34]) (cumsumSSE Z 0 Z.add m 4 20 14) = Some [Some 4; Some 9; Some 15; Some 99; Some 147; Some 34] /\
  option_map (fun m => map m [4; 5; 17; 18]) (cumsumSSE Z 0 Z.add m 4 4 14) = Some [Some 4; Some 9; Some 147; Some 18] /\
  option_map (fun m => map m [20; 21; 33; 34]) (diffSSE Z 0 Z.sub m 4 20 14) = Some [Some 4; Some 1; Some 1; Some 34].
Proof. repeat split; vm_compute; reflexivity. Qed.

(** In place the plain loop does not give the differences, and the two versions differ. *)
Theorem C81_diff_in_place_refuted : let m := fun q : Z => if (0 <=? q) && (q <? 60) then Some (q * q) else None in
  option_map (fun m => map m [4; 5; 6; 7; 8]) (diffScalar Z Z.sub m 4 4 12) = Some [Some 16; Some 9; Some 27; Some 22; Some 42] /\
  option_map (fun m => map m [4; 5; 6; 7; 8]) (diffSSE Z 0 Z.sub m 4 4 12) = Some [Some 16; Some 9; Some 27; Some 22; Some 42] /\
  option_map (fun m => map m [9; 10]) (diffScalar Z Z.sub m 4 4 12) = Some [Some 39; Some 61] /\
  option_map (fun m => map m [9; 10]) (diffSSE Z 0 Z.sub m 4 4 12) = Some [Some 17; Some 19].
Proof. repeat split; vm_compute; reflexivity. Qed.

(** ** The range check *)
Section Within.
Variable A : Type.
Variable lt : A -> A -> bool.
Variable m : mem A.
Variables p0 size : Z.
Hypothesis Hs : 0 < size.
Variable x : nat -> A.
Hypothesis Hx : forall i, 0 <= i < size -> m (p0 + i) = Some (x (Z.to_nat i)).
Variables low high : A.

Definition out i := outside A lt low high (x (Z.to_nat i)).
Definition PB (k : Z) (s : Z * bool) : Prop :=
  (snd s = false /\ fst s = p0 + k /\ 0 <= k <= size /\ forall i, 0 <= i < k -> out i = false) \/
  (snd s = true /\ k = size + 1 /\ exists i, 0 <= i < size /\ out i = true).

Lemma within_loop (cond : Z * bool -> bool) : (forall s, cond s = true -> snd s = false /\ fst s < p0 + size) ->
  forall k s, PB k s -> 
  exists s' k', while_ (Z.to_nat size + 2) cond (within_one A lt low high m) s = Some s' /\ PB k' s' /\ k <= k' <= size + 1 /\ cond s' = false.
Proof.
  intros HC k s HP. apply (while_inv PB (size + 1)).
  - intros j [p b] P J C. destruct (HC _ C) as [C1 C2]. cbn [fst snd] in *. subst b.
    destruct P as [(_ & E & J0 & HA)|(X & _)]; [|discriminate X]. cbn [fst snd] in E. subst p.
    unfold within_one. cbn [fst]. unfold ld. rewrite Hx by lia. cbn [bind]. destruct (outside A lt low high (x (Z.to_nat j))) eqn:O.
    + exists (p0 + j, true), (size + 1). split; [reflexivity|]. split; [lia|]. right. cbn [snd]. repeat split. exists j. split; [lia|exact O].
    + exists (p0 + j + 1, false), (j + 1). split; [reflexivity|]. split; [lia|]. left. cbn [fst snd]. repeat split; try lia.
      intros i Hi. destruct (Z.eq_dec i j) as [->|N]; [exact O|apply HA; lia].
  - exact HP.
  - destruct HP as [(_ & _ & HP & _)|(_ & HP & _)]; lia.
  - destruct HP as [(_ & _ & HP & _)|(_ & HP & _)]; lia.
Qed.

Lemma within_end s k : PB k s -> negb (snd s) && (fst s <? p0 + size) = false -> (snd s = false <-> forall i, 0 <= i < size -> out i = false).
Proof.
  intros [(E1 & E2 & HK & HA)|(E1 & HK & (i & Hi & O))] C; rewrite E1 in C; cbn [negb andb] in C.
  - rewrite E2 in C. apply Z.ltb_ge in C. split; [intros _ i Hi; apply HA; lia|auto].
  - rewrite E1. split; [discriminate|]. intros HA. specialize (HA i Hi). congruence.
Qed.

Lemma within_four_ok j p : 0 <= j -> j + 4 <= size -> p = p0 + j -> p mod 4 = 0 -> (forall i, 0 <= i < j -> out i = false) ->
  exists s' k', within_four A lt low high m (p, false) = Some s' /\ j < k' <= size + 1 /\ PB k' s' /\ (k' = j + 4 \/ k' = size + 1).
Proof.
  intros J0 HL -> HA HO. unfold within_four. cbn [fst].
  pose proof (Hx j ltac:(lia)) as X0. pose proof (Hx (j + 1) ltac:(lia)) as X1. pose proof (Hx (j + 2) ltac:(lia)) as X2. pose proof (Hx (j + 3) ltac:(lia)) as X3.
  rewrite Z.add_assoc in X1, X2, X3. rewrite (ldv_ok A m (p0 + j) _ _ _ _ HA X0 X1 X2 X3). cbn [bind l0 l1 l2 l3].
  fold (out j) (out (j + 1)) (out (j + 2)) (out (j + 3)).
  destruct (out j || out (j + 1) || out (j + 2) || out (j + 3)) eqn:O.
  - exists (p0 + j, true), (size + 1). split; [reflexivity|]. split; [lia|]. split; [|lia]. right. cbn [snd]. repeat split.
    rewrite !orb_true_iff in O. destruct O as [[[O|O]|O]|O]; [exists j|exists (j + 1)|exists (j + 2)|exists (j + 3)]; (split; [lia|exact O]).
  - exists (p0 + j + 4, false), (j + 4). split; [reflexivity|]. split; [lia|]. split; [|lia]. left. cbn [fst snd]. repeat split; try lia.
    rewrite !orb_false_iff in O. destruct O as [[[O0 O1] O2] O3]. intros i Hi.
    assert (CS : i < j \/ i = j \/ i = j + 1 \/ i = j + 2 \/ i = j + 3) by lia. destruct CS as [H|[->|[->|[->| ->]]]]; auto. apply HO; lia.
Qed.

Lemma within_scalar : exists s, while_ (Z.to_nat size + 2) (fun s => negb (snd s) && (fst s <? p0 + size)) (within_one A lt low high m) (p0, false) = Some s /\
  (snd s = false <-> forall i, 0 <= i < size -> out i = false).
Proof.
  destruct (within_loop (fun s => negb (snd s) && (fst s <? p0 + size))) with (k := 0) (s := (p0, false)) as (s & k & E & P & _ & C).
  - intros s C. apply andb_true_iff in C. destruct C as [C1 C2]. apply Z.ltb_lt in C2. apply negb_true_iff in C1. auto.
  - left. cbn [fst snd]. repeat split; lia.
  - exists s. split; [exact E|]. apply (within_end s k P C).
Qed.

Lemma within_vector : exists s,
  (let* s := while_ (Z.to_nat size + 2) (fun s => negb (snd s) && (unaligned (fst s) && (fst s <? prevAligned (p0 + size)))) (within_one A lt low high m) (p0, false) in
   let* s := while_ (Z.to_nat size + 2) (fun s => negb (snd s) && (fst s <? prevAligned (p0 + size))) (within_four A lt low high m) s in
   while_ (Z.to_nat size + 2) (fun s => negb (snd s) && (fst s <? p0 + size)) (within_one A lt low high m) s) = Some s /\
  (snd s = false <-> forall i, 0 <= i < size -> out i = false).
Proof.
  pose proof (prevAligned_spec (p0 + size)) as [LA LB]. remember (prevAligned (p0 + size)) as lastA eqn:EL. clear EL.
  destruct (within_loop (fun s => negb (snd s) && (unaligned (fst s) && (fst s <? lastA)))) with (k := 0) (s := (p0, false)) as (s1 & k1 & E1 & P1 & K1 & C1).
  { intros s C. rewrite !andb_true_iff in C. destruct C as (C1 & _ & C2). apply Z.ltb_lt in C2. apply negb_true_iff in C1. split; [exact C1|lia]. }
  { left. cbn [fst snd]. repeat split; lia. }
  rewrite E1. cbn [bind].
  destruct (while_inv (fun k s => PB k s /\ (snd s = false -> fst s < lastA -> fst s mod 4 = 0)) (size + 1) (fun s => negb (snd s) && (fst s <? lastA)) (within_four A lt low high m)) with
    (fuel := (Z.to_nat size + 2)%nat) (k := k1) (s := s1) as (s2 & k2 & E2 & (P2 & _) & K2 & C2).
  - intros j [p b] (P & HA) J C. cbn [fst snd] in *. apply andb_true_iff in C. destruct C as [B C]. apply Z.ltb_lt in C.
    destruct b; [discriminate B|]. specialize (HA eq_refl C). destruct P as [(_ & E & J0 & HO)|(X & _)]; [|discriminate X]. cbn [fst snd] in E. subst p.
    assert (HJ : j + 4 <= size) by (pose proof (aligned_le _ _ HA LA C); lia).
    destruct (within_four_ok j (p0 + j) ltac:(lia) HJ eq_refl HA HO) as (s' & k' & E & K & P' & KK). exists s', k'. split; [exact E|]. split; [exact K|].
    split; [exact P'|]. intros S1 _. destruct P' as [(_ & E2 & K2 & _)|(X & _)]; [|congruence]. rewrite E2. destruct KK as [->|KK]; [|lia].
    rewrite Z.add_assoc. apply mod4_add. exact HA.
  - split; [exact P1|]. intros S1 L1. rewrite S1 in C1. apply Z.ltb_lt in L1. rewrite L1, andb_true_r in C1. cbn [negb andb] in C1. apply unaligned_false. exact C1.
  - lia.
  - lia.
  - rewrite E2. cbn [bind].
    destruct (within_loop (fun s => negb (snd s) && (fst s <? p0 + size))) with (k := k2) (s := s2) as (s & k & E & P & _ & C).
    + intros s C. apply andb_true_iff in C. destruct C as [C3 C4]. apply Z.ltb_lt in C4. apply negb_true_iff in C3. auto.
    + exact P2.
    + exists s. split; [exact E|]. apply (within_end s k P C).
Qed.
End Within.

(** C81: the range check answers whether no sample is below the lower or above the higher of the two bounds, with and without vectors
    and for any comparison (a NaN is below and above nothing). *)
Theorem C81_allWithin : forall A lt (m : mem A) p low high size x, 0 <= size ->
  (forall i, 0 <= i < size -> m (p + i) = Some (x (Z.to_nat i))) ->
  forall run, run = allWithinScalar A lt \/ run = allWithinSSE A lt ->
  exists b, run m p low high size = Some b /\
    (b = true <-> forall i, 0 <= i < size ->
       let '(a, z) := if lt high low then (high, low) else (low, high) in lt (x (Z.to_nat i)) a = false /\ lt z (x (Z.to_nat i)) = false).
Proof.
  intros A lt m p low high size x Hs Hx run HR.
  destruct (Z.eqb_spec size 0) as [->|N].
  { exists true. split; [destruct HR as [-> | ->]; reflexivity|]. split; [intros _ i Hi; lia|reflexivity]. }
  assert (SPEC : forall a z (b : bool), (b = false <-> forall i, 0 <= i < size -> out A lt x a z i = false) ->
    (negb b = true <-> forall i, 0 <= i < size -> lt (x (Z.to_nat i)) a = false /\ lt z (x (Z.to_nat i)) = false)).
  { intros a z b H. rewrite negb_true_iff, H. unfold out, outside. split; intros G i Hi; specialize (G i Hi); apply orb_false_iff; exact G. }
  destruct HR as [-> | ->]; [unfold allWithinScalar|unfold allWithinSSE]; (destruct (Z.eqb_spec size 0) as [X|_]; [contradiction|]);
    (destruct (if lt high low then (high, low) else (low, high)) as [a z]).
  - destruct (within_scalar A lt m p size ltac:(lia) x Hx a z) as (s & E & H). rewrite E. cbn [bind]. exists (negb (snd s)).
    split; [reflexivity|apply SPEC, H].
  - destruct (within_vector A lt m p size ltac:(lia) x Hx a z) as (s & E & H).
    revert E. destruct (while_ _ _ _ _) as [s1|]; cbn [bind]; [|discriminate]. destruct (while_ _ _ _ s1) as [s2|]; cbn [bind]; [|discriminate].
    intros ->. cbn [bind]. exists (negb (snd s)). split; [reflexivity|apply SPEC, H].
Qed.

Example C81_allWithin_ex : let m := fun q : Z => if (0 <=? q) && (q <? 60) then Some q else None in
  allWithinSSE Z Z.ltb m 3 3 18 16 = Some true /\ allWithinSSE Z Z.ltb m 3 17 3 16 = Some false /\ allWithinSSE Z Z.ltb m 50 0 100 12 = None.
Proof. repeat split; vm_compute; reflexivity. Qed.
