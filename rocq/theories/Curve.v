(** Curves (C35) and curve sets (C61). *)
From Coq Require Import QArith Qround ZArith List Lia Bool Lqa Setoid.
Import ListNotations.
From Verif Require Import AdsrModel AdsrRange CcEnvModel Rounding CurveModel Clock.
Open Scope Q_scope.

(** ** What a curve should be *)
(** The value given last to a point. *)
Fixpoint lastOf (i : nat) (l : list (nat * Q)) : option Q :=
  match l with
  | [] => None
  | (j, x) :: l => match lastOf i l with Some y => Some y | None => if Nat.eqb i j then Some x else None end
  end.
Definition definedAt (ends l : list (nat * Q)) (i : nat) : option Q :=
  match lastOf i l with Some y => Some y | None => lastOf i ends end.
(** Neighbours: two defined points with none between them. *)
Definition neighbours (d : nat -> option Q) (i j : nat) (a b : Q) : Prop :=
  (i < j)%nat /\ d i = Some a /\ d j = Some b /\ forall k, (i < k < j)%nat -> d k = None.
Definition between (a b x : Q) : Prop := (a <= x <= b) \/ (b <= x <= a).

Section Fill.
Variable rnd : Q -> Q.
Notation ramp := (ramp rnd). Notation lerpLoop := (lerpLoop rnd). Notation lerpFill := (lerpFill rnd).

Lemma ramp_length n : forall a s, length (ramp n a s) = n.
Proof. induction n as [|n IH]; intros; cbn [CurveModel.ramp length]; auto. Qed.
(** The values of a ramp. *)
Fixpoint steps (k : nat) (a s : Q) : Q := match k with O => a | S k => steps k (rnd (a + s)) s end.
Lemma ramp_nth n : forall k a s d, (k < n)%nat -> nth k (ramp n a s) d = steps k a s.
Proof.
  induction n as [|n IH]; intros k a s d L; [lia|]. destruct k; cbn [CurveModel.ramp nth steps]; [reflexivity|].
  apply IH. lia.
Qed.
Lemma next_spec fs : nth 127 fs false = true -> forall fuel right, (right <= 127)%nat -> (128 <= fuel + right)%nat ->
  (right <= nextFilled fuel right fs <= 127)%nat /\ nth (nextFilled fuel right fs) fs false = true /\
  forall k, (right <= k < nextFilled fuel right fs)%nat -> nth k fs false = false.
Proof.
  intros L. induction fuel as [|f IH]; intros right R F; [lia|]. cbn [nextFilled].
  destruct (Nat.ltb_spec right numValues) as [T|T]; unfold numValues in T; [|lia].
  destruct (nth right fs false) eqn:E.
  - repeat apply conj; auto. lia.
  - assert (right <> 127%nat) by (intros ->; congruence). destruct (IH (S right) ltac:(lia) ltac:(lia)) as (I1 & I2 & I3).
    repeat apply conj; auto; [lia|lia|]. intros k K. destruct (Nat.eq_dec k right) as [->|]; [assumption|]. apply I3. lia.
Qed.
Lemma overwrite_spec i xs l : (i + length xs <= length l)%nat -> exists l', overwrite i xs l = Some l' /\
  length l' = length l /\ forall k d, nth k l' d = if (i <=? k) && (k <? i + length xs) then nth (k - i) xs d else nth k l d.
Proof.
  intros L. unfold overwrite. destruct (Nat.leb_spec (i + length xs) (length l)); [|lia].
  eexists. split; [reflexivity|]. split.
  - rewrite !app_length, firstn_length, skipn_length. lia.
  - intros k d. destruct (Nat.leb_spec i k) as [A|A]; cbn [andb].
    + rewrite app_nth2; rewrite firstn_length, Nat.min_l by lia; [|lia].
      destruct (Nat.ltb_spec k (i + length xs)) as [B|B].
      * rewrite app_nth1 by lia. reflexivity.
      * rewrite app_nth2 by lia.
        assert (forall (l : list Q) n j, nth j (skipn n l) d = nth (n + j) l d) as SK.
        { clear. induction l as [|x l IH]; intros [|n] j; cbn [skipn nth plus]; auto. now destruct j. }
        rewrite SK. f_equal. lia.
    + rewrite app_nth1 by (rewrite firstn_length; lia).
      rewrite <- (firstn_skipn i l) at 2. rewrite app_nth1 by (rewrite firstn_length; lia). reflexivity.
Qed.

(** The mean slope between two points. *)
Definition slope (a b : Q) (n : nat) : Q := rnd (rnd (b - a) / inject_Z (Z.of_nat n)).
Lemma loop_spec fs : nth 127 fs false = true -> forall fuel left pts,
  (left <= 127)%nat -> (128 - left <= fuel)%nat -> length pts = 128%nat -> nth left fs false = true ->
  exists pts', lerpLoop fuel left (S left) fs pts = Some pts' /\ length pts' = 128%nat /\
  (forall k, (k < left)%nat -> nth k pts' 0 = nth k pts 0) /\
  (forall k, nth k fs false = true -> nth k pts' 0 = nth k pts 0) /\
  (forall i j k, (left <= i < j)%nat -> (j <= 127)%nat -> nth i fs false = true -> nth j fs false = true ->
     (forall m, (i < m < j)%nat -> nth m fs false = false) -> (i <= k < j)%nat ->
     nth k pts' 0 = steps (k - i) (nth i pts 0) (slope (nth i pts 0) (nth j pts 0) (j - i))).
Proof.
  intros L. induction fuel as [|f IH]; intros left pts Lf F Len FL; [lia|]. cbn [CurveModel.lerpLoop].
  destruct (Nat.ltb_spec (S left) numValues) as [T|T]; unfold numValues in T.
  2:{ exists pts. repeat apply conj; auto. intros i j k. lia. }
  destruct (next_spec fs L numValues (S left)) as (N1 & N2 & N3); [lia|unfold numValues; lia|].
  set (r := nextFilled numValues (S left) fs) in *.
  assert (exists p1, (if 1 <? r - left then
      match nth_error pts r with Some r1 => match nth_error pts left with
        Some l => overwrite left (ramp (r - left) l (rnd (rnd (r1 - l) / inject_Z (Z.of_nat (r - left))))) pts | None => None end
      | None => None end else Some pts) = Some p1 /\ length p1 = 128%nat /\
    (forall k, (k < left \/ r <= k)%nat -> nth k p1 0 = nth k pts 0) /\
    (forall k, (left <= k < r)%nat -> nth k p1 0 = steps (k - left) (nth left pts 0) (slope (nth left pts 0) (nth r pts 0) (r - left)))) as (p1 & E & Len1 & Same & New).
  { destruct (Nat.ltb_spec 1 (r - left)) as [G|G].
    - rewrite !(nth_error_nth' pts 0) by lia.
      destruct (overwrite_spec left (ramp (r - left) (nth left pts 0) (rnd (rnd (nth r pts 0 - nth left pts 0) / inject_Z (Z.of_nat (r - left))))) pts)
        as (p1 & E & L1 & H1); rewrite ramp_length in *; [lia|].
      exists p1. rewrite E. split; [reflexivity|]. split; [congruence|]. split; intros k K; rewrite H1.
      + destruct (Nat.leb_spec left k); cbn [andb]; [|reflexivity]. destruct (Nat.ltb_spec k (left + (r - left))); [lia|reflexivity].
      + destruct (Nat.leb_spec left k); cbn [andb]; [|lia]. destruct (Nat.ltb_spec k (left + (r - left))); [|lia].
        now rewrite ramp_nth by lia.
    - exists pts. repeat apply conj; auto. intros k K. replace k with left by lia. now rewrite Nat.sub_diag. }
  rewrite E. destruct (IH r p1) as (p2 & E2 & Len2 & A & B & C); try lia; try assumption.
  exists p2. split; [exact E2|]. split; [exact Len2|]. split; [|split].
  - intros k K. rewrite A by lia. apply Same. lia.
  - intros k K. rewrite B by assumption. destruct (Nat.lt_ge_cases k left); [apply Same; lia|].
    destruct (Nat.lt_ge_cases k r); [|apply Same; lia]. destruct (Nat.eq_dec k left) as [->|].
    + rewrite New by lia. now rewrite Nat.sub_diag.
    + rewrite N3 in K by lia. discriminate.
  - intros i j k I J Fi Fj M K. destruct (Nat.lt_ge_cases i r) as [Ir|Ir].
    + assert (i = left) as ->. { destruct (Nat.eq_dec i left); [assumption|]. rewrite N3 in Fi by lia. discriminate. }
      assert (j = r) as ->.
      { destruct (Nat.lt_trichotomy j r) as [H|[H|H]]; [rewrite N3 in Fj by lia; discriminate|assumption|rewrite M in N2 by lia; discriminate]. }
      rewrite A by lia. now apply New.
    + rewrite (C i j k) by (assumption || lia). now rewrite !Same by lia.
Qed.

(** The tables of the points. *)
Lemma upd_nth {A} (l : list A) i x d : (i < length l)%nat ->
  length (firstn i l ++ x :: skipn (S i) l) = length l /\
  forall k, nth k (firstn i l ++ x :: skipn (S i) l) d = if Nat.eqb k i then x else nth k l d.
Proof.
  intros L. split.
  - rewrite app_length, firstn_length. cbn [length]. rewrite skipn_length. lia.
  - revert i L. induction l as [|y l IH]; intros i L k; cbn [length] in L; [lia|].
    destruct i; cbn [firstn app skipn]; destruct k; cbn [nth Nat.eqb]; try reflexivity.
    apply (IH i ltac:(lia) k).
Qed.
Lemma points_spec l : forall t, length (fst t) = 128%nat -> length (snd t) = 128%nat ->
  Forall (fun p => (fst p < 128)%nat) l ->
  exists t', setPoints l t = Some t' /\ length (fst t') = 128%nat /\ length (snd t') = 128%nat /\
  forall k, match lastOf k l with
            | Some x => nth k (fst t') 0 = x /\ nth k (snd t') false = true
            | None => nth k (fst t') 0 = nth k (fst t) 0 /\ nth k (snd t') false = nth k (snd t) false
            end.
Proof.
  induction l as [|[i x] l IH]; intros t L1 L2 F; cbn [setPoints].
  - exists t. repeat apply conj; auto. cbn [lastOf]. auto.
  - inversion F as [|? ? F1 F2]; subst. cbn [fst] in F1. unfold setPoint, numValues. destruct (Nat.ltb_spec i 128); [|lia]. cbn [bind].
    destruct (upd_nth (fst t) i x 0 ltac:(lia)) as [U1 V1]. destruct (upd_nth (snd t) i true false ltac:(lia)) as [U2 V2].
    destruct (IH (firstn i (fst t) ++ x :: skipn (S i) (fst t), firstn i (snd t) ++ true :: skipn (S i) (snd t))) as (t' & E & A & B & C).
    { cbn [fst]. congruence. } { cbn [snd]. congruence. } { assumption. }
    exists t'. repeat apply conj; auto. intros k. specialize (C k). cbn [lastOf]. destruct (lastOf k l); [exact C|].
    cbn [fst snd] in C. rewrite V1, V2 in C. destruct (Nat.eqb_spec k i); [exact C|exact C].
Qed.
Lemma blank_nth k : nth k (fst blank) 0 = 0 /\ nth k (snd blank) false = false.
Proof.
  unfold blank. cbn [fst snd]. generalize numValues. intros n. revert k. induction n as [|n IH]; intros [|k]; cbn [repeat nth]; auto.
Qed.
Lemma lastOf_app k l1 l2 : lastOf k (l1 ++ l2) = match lastOf k l2 with Some y => Some y | None => lastOf k l1 end.
Proof.
  induction l1 as [|[i x] l1 IH]; cbn [app lastOf]; [now destruct (lastOf k l2)|]. rewrite IH. now destruct (lastOf k l2).
Qed.
(** Any list of points with the two ends gives a table, whose values are known. *)
Lemma build_spec l : Forall (fun p => (fst p < 128)%nat) l -> lastOf 0 l <> None -> lastOf 127 l <> None ->
  exists c, bind (setPoints l blank) (fun t => lerpFill (snd t) (fst t)) = Some c /\ length c = 128%nat /\
  (forall i a, lastOf i l = Some a -> nth i c 0 = a) /\
  (forall i j a b k, neighbours (fun i => lastOf i l) i j a b -> (i <= k < j)%nat -> nth k c 0 = steps (k - i) a (slope a b (j - i))).
Proof.
  intros F L0 L127. destruct (points_spec l blank eq_refl eq_refl F) as (t & E & A & B & C). rewrite E. cbn [bind].
  assert (forall k, nth k (snd t) false = match lastOf k l with Some _ => true | None => false end) as D.
  { intros k. specialize (C k). destruct (lastOf k l); [apply C|]. destruct C as [_ ->]. apply blank_nth. }
  assert (forall k a, lastOf k l = Some a -> nth k (fst t) 0 = a) as G.
  { intros k a K. specialize (C k). rewrite K in C. apply C. }
  destruct (loop_spec (snd t)) with (fuel := S numValues) (left := 0%nat) (pts := fst t) as (c & Ec & Lc & _ & H1 & H2).
  { rewrite D. destruct (lastOf 127 l); congruence. } { lia. } { unfold numValues. lia. } { assumption. }
  { rewrite D. destruct (lastOf 0 l); congruence. }
  exists c. split; [exact Ec|]. split; [exact Lc|]. split.
  - intros i a K. rewrite H1; [now apply G|]. now rewrite D, K.
  - intros i j a b k (Lij & Di & Dj & N) K. cbn beta in *.
    assert (j <= 127)%nat as J. { destruct (Nat.lt_ge_cases 127 j) as [J|]; [|assumption]. exfalso.
      assert (nth j (snd t) false = true) as X by now rewrite D, Dj. rewrite nth_overflow in X by lia. discriminate. }
    rewrite (H2 i j k); try lia.
    + now rewrite (G i a), (G j b).
    + now rewrite D, Di.
    + now rewrite D, Dj.
    + intros m M. now rewrite D, N.
Qed.
End Fill.

(** ** Evaluation *)
Lemma clamp_cases v lo hi : lo <= hi -> lo <= Qclamp v lo hi <= hi /\ (lo <= v <= hi -> Qclamp v lo hi == v).
Proof.
  intros L. unfold Qclamp, Qmaxf, Qminf. destruct (Qltb hi v) eqn:A.
  - apply Qltb_spec in A. destruct (Qltb lo hi) eqn:B; [apply Qltb_spec in B|apply Qltb_nspec in B]; split; intros; lra.
  - apply Qltb_nspec in A. destruct (Qltb lo v) eqn:B; [apply Qltb_spec in B|apply Qltb_nspec in B]; split; intros; lra.
Qed.
Lemma trunc_index v : 0 <= v <= 127 -> exists i, Z.to_nat (Qtrunc v) = i /\ (i <= 127)%nat /\ inject_Z (Z.of_nat i) <= v < inject_Z (Z.of_nat i) + 1.
Proof.
  intros V. destruct (Qtrunc_pos v ltac:(lra)) as [T1 T2]. exists (Z.to_nat (Qtrunc v)).
  assert (inject_Z (-1) < inject_Z (Qtrunc v)) as A by (change (inject_Z (-1)) with (-1); lra). rewrite <- Zlt_Qlt in A.
  assert (inject_Z (Qtrunc v) <= inject_Z 127) as B by (change (inject_Z 127) with 127; lra). rewrite <- Zle_Qle in B.
  rewrite Z2Nat.id by lia. repeat apply conj; auto. lia.
Qed.
(** C35: evaluation of a table of 128 entries never reads outside of it, with any rounding. *)
Theorem C35_never_outside rnd c : length c = 128%nat ->
  (forall v, exists y, evalCC7i c v = Some y) /\ (forall v, exists y, evalCC7 rnd c v = Some y) /\
  (forall v, exists y, evalNormalized rnd c v = Some y).
Proof.
  intros L.
  assert (forall v, exists y, evalCC7 rnd c v = Some y) as H.
  { intros v. unfold evalCC7. destruct (clamp_cases v 0 127 ltac:(lra)) as [B _].
    destruct (trunc_index _ B) as (i & -> & I & _).
    rewrite !(nth_error_nth' c 0) by lia. eexists. reflexivity. }
  repeat apply conj; auto.
  - intros v. unfold evalCC7i. rewrite (nth_error_nth' c 0) by lia. eexists. reflexivity.
  - intros v. apply H.
Qed.
Lemma steps_exact k : forall a s, steps id k a s == a + inject_Z (Z.of_nat k) * s.
Proof.
  induction k as [|k IH]; intros a s; cbn [steps].
  - change (inject_Z (Z.of_nat 0)) with 0. ring.
  - rewrite IH. rewrite Nat2Z.inj_succ, <- Z.add_1_r, inject_Z_plus. change (inject_Z 1) with 1. unfold id. ring.
Qed.
Definition nq (n : nat) : Q := inject_Z (Z.of_nat n).
Lemma nq_lt i j : (i < j)%nat -> nq i + 1 <= nq j.
Proof. intros L. unfold nq. change 1 with (inject_Z 1). rewrite <- inject_Z_plus, <- Zle_Qle. lia. Qed.
Lemma nq_le i j : (i <= j)%nat -> nq i <= nq j.
Proof. intros L. unfold nq. rewrite <- Zle_Qle. lia. Qed.
Lemma nq_sub i j : (i <= j)%nat -> nq (j - i) == nq j - nq i.
Proof.
  intros L. unfold nq. rewrite Nat2Z.inj_sub by assumption. unfold Z.sub. rewrite inject_Z_plus, inject_Z_opp. reflexivity.
Qed.
Lemma nq_S i : nq (i + 1) == nq i + 1.
Proof. unfold nq. rewrite Nat2Z.inj_add, inject_Z_plus. reflexivity. Qed.
Lemma nq_inv i j : nq i < nq j -> (i < j)%nat.
Proof. unfold nq. rewrite <- Zlt_Qlt. lia. Qed.

(** The straight line through two points. *)
Definition line (i j : nat) (a b x : Q) : Q := a + (x - nq i) / (nq j - nq i) * (b - a).
(** The table follows the line between neighbours; then so does the evaluation. *)
Definition follows (d : nat -> option Q) (c : curve) : Prop :=
  length c = 128%nat /\ (forall i a, d i = Some a -> nth i c 0 = a) /\
  forall i j a b k, neighbours d i j a b -> (i <= k <= j)%nat -> nth k c 0 == line i j a b (nq k).
Lemma eval_line d c i j a b x : follows d c -> neighbours d i j a b -> (j <= 127)%nat -> nq i <= x <= nq j ->
  exists y, evalCC7 id c x = Some y /\ y == line i j a b x.
Proof.
  intros (L & P & T) N J X. unfold evalCC7. destruct (clamp_cases x 0 127 ltac:(lra)) as [C1 C2].
  pose proof (nq_le 0 i ltac:(lia)) as I0. change (nq 0) with 0 in I0. pose proof (nq_le j 127 J) as J0. change (nq 127) with 127 in J0.
  specialize (C2 ltac:(lra)). set (v := Qclamp x 0 127) in *.
  destruct (trunc_index v C1) as (n & -> & N1 & N2). fold (nq n) in *.
  rewrite !(nth_error_nth' c 0) by lia. eexists. split; [reflexivity|]. unfold id.
  pose proof (proj1 N) as Lij. pose proof (nq_lt i j Lij) as IJ.
  assert (i <= n)%nat as A. { destruct (Nat.lt_ge_cases n i) as [H|]; [|assumption]. apply nq_lt in H. lra. }
  assert (n <= j)%nat as B. { destruct (Nat.lt_ge_cases j n) as [H|]; [|assumption]. apply nq_lt in H. lra. }
  rewrite (T i j a b n N ltac:(lia)).
  destruct (Nat.eq_dec n j) as [->|].
  - assert (v - nq j == 0) as Z by lra. rewrite Z. unfold line. assert (x == nq j) as -> by lra. ring.
  - rewrite Nat.min_r by lia. rewrite (T i j a b (n + 1)%nat N ltac:(lia)). unfold line. rewrite nq_S, C2. field. lra.
Qed.
Lemma on_points d c i a : follows d c -> d i = Some a -> (i <= 127)%nat ->
  evalCC7i c (Z.of_nat i) = Some a /\ exists y, evalCC7 id c (nq i) = Some y /\ y == a.
Proof.
  intros (L & P & _) D I. split.
  - unfold evalCC7i. rewrite Z.min_l, Z.max_l, Nat2Z.id by lia. rewrite (nth_error_nth' c 0) by lia. now rewrite (P i a D).
  - unfold evalCC7. destruct (clamp_cases (nq i) 0 127 ltac:(lra)) as [C1 C2].
    pose proof (nq_le 0 i ltac:(lia)) as I0. change (nq 0) with 0 in I0. pose proof (nq_le i 127 I) as J0. change (nq 127) with 127 in J0.
    specialize (C2 ltac:(lra)). destruct (trunc_index _ C1) as (n & -> & N1 & N2). fold (nq n) in *.
    assert (n = i) as ->.
    { destruct (Nat.lt_trichotomy n i) as [H|[H|H]]; [apply nq_lt in H; lra|assumption|apply nq_lt in H; lra]. }
    rewrite !(nth_error_nth' c 0) by lia. eexists. split; [reflexivity|]. unfold id. rewrite (P i a D), C2. ring.
Qed.
(** The line stays between its ends. *)
Lemma line_between i j a b x : (i < j)%nat -> nq i <= x <= nq j -> between a b (line i j a b x).
Proof.
  intros L X. apply nq_lt in L. unfold line, between. set (t := (x - nq i) / (nq j - nq i)).
  assert (0 <= t <= 1) as T. { unfold t. split; [apply Qle_shift_div_l; lra|apply Qle_shift_div_r; lra]. }
  destruct (Qlt_le_dec a b); [left|right]; split; nra.
Qed.
(** Every place on the axis is between two neighbours. *)
Lemma find_left (d : nat -> option Q) x : d 0%nat <> None -> 0 <= x -> forall n, x < nq n -> exists i a, (i < n)%nat /\ d i = Some a /\ nq i <= x /\ (forall k, (i < k)%nat -> nq k <= x -> d k = None).
Proof.
  intros D0 X. induction n as [|n IH]; intros L; [change (nq 0) with 0 in L; lra|].
  destruct (Qlt_le_dec x (nq n)) as [H|H].
  - destruct (IH H) as (i & a & A & B). exists i, a. split; [lia|exact B].
  - destruct (d n) as [a|] eqn:Dn.
    + exists n, a. repeat apply conj; auto. intros k K Kx. apply nq_lt in K. rewrite <- nq_S in K.
      rewrite <- Nat.add_1_r in L. lra.
    + destruct n as [|n]; [congruence|]. assert (exists i a, (i < S n)%nat /\ d i = Some a /\ forall k, (i < k <= S n)%nat -> d k = None) as (i & a & A & B & C).
      { clear -D0 Dn. revert Dn. generalize (S n). intros m. induction m as [|m IH]; intros Dm; [congruence|].
        destruct (d m) as [a|] eqn:E.
        - exists m, a. split; [lia|]. split; [assumption|]. intros k K. replace k with (S m) by lia. assumption.
        - destruct (IH eq_refl) as (i & a & A & B & C). exists i, a. split; [lia|]. split; [assumption|].
          intros k K. destruct (Nat.eq_dec k (S m)) as [->|]; [assumption|]. apply C. lia. }
      exists i, a. split; [lia|]. split; [assumption|]. split; [pose proof (nq_le i (S n) ltac:(lia)); lra|].
      intros k K Kx. apply C. split; [assumption|]. destruct (Nat.lt_ge_cases (S n) k) as [H1|]; [|assumption].
      apply nq_lt in H1. rewrite <- nq_S in H1. rewrite <- Nat.add_1_r in L. lra.
Qed.
Lemma find_neighbours (d : nat -> option Q) x : d 0%nat <> None -> d 127%nat <> None -> 0 <= x <= 127 ->
  exists i j a b, neighbours d i j a b /\ (j <= 127)%nat /\ nq i <= x <= nq j.
Proof.
  intros D0 D1 X. destruct (Qlt_le_dec x 127) as [Lx|Lx].
  - destruct (find_left d x D0 ltac:(lra) 127 Lx) as (i & a & A & B & C & D).
    assert (exists j b, (i < j <= 127)%nat /\ d j = Some b /\ forall k, (i < k < j)%nat -> d k = None) as (j & b & J1 & J2 & J3).
    { clear -D1 A. destruct (d 127%nat) as [b|] eqn:E; [|congruence].
      assert (forall n, (i < n <= 127)%nat -> d n <> None -> exists j b, (i < j <= n)%nat /\ d j = Some b /\ forall k, (i < k < j)%nat -> d k = None) as H.
      { induction n as [n IH] using lt_wf_ind. intros N Dn.
        assert ((exists k, (i < k < n)%nat /\ d k <> None) \/ forall k, (i < k < n)%nat -> d k = None) as [(k & K1 & K2)|K].
        { clear. induction n as [|n [(k & A & B)|H]]; [right; intros; lia|left; exists k; split; [lia|assumption]|].
          destruct (d n) eqn:E.
          - destruct (Nat.lt_ge_cases i n); [left; exists n; split; [lia|congruence]|right; intros; lia].
          - right. intros k K. destruct (Nat.eq_dec k n) as [->|]; [assumption|apply H; lia]. }
        - destruct (IH k ltac:(lia) ltac:(lia) K2) as (j & b' & Y & Z). exists j, b'. split; [lia|exact Z].
        - destruct (d n) as [b'|] eqn:En; [|congruence]. exists n, b'. repeat apply conj; auto; lia. }
      apply (H 127%nat); [lia|congruence]. }
    exists i, j, a, b. split; [repeat apply conj; auto; lia|]. split; [lia|]. split; [assumption|].
    destruct (Qlt_le_dec x (nq j)) as [H|H]; [lra|]. rewrite D in J2 by (lia || assumption). discriminate.
  - (* x = 127 *) destruct (d 127%nat) as [b|] eqn:E; [|congruence].
    assert (exists i a, (i < 127)%nat /\ d i = Some a /\ forall k, (i < k < 127)%nat -> d k = None) as (i & a & A & B & C).
    { clear -D0. assert (forall m, (0 < m)%nat -> exists i a, (i < m)%nat /\ d i = Some a /\ forall k, (i < k < m)%nat -> d k = None) as H.
      { induction m as [|m IH]; intros M; [lia|]. destruct (d m) as [a|] eqn:E.
        - exists m, a. repeat apply conj; auto; lia.
        - destruct m; [congruence|]. destruct (IH ltac:(lia)) as (i & a & A & B & C). exists i, a. repeat apply conj; auto.
          intros k K. destruct (Nat.eq_dec k (S m)) as [->|]; [assumption|apply C; lia]. }
      apply H. lia. }
    exists i, 127%nat, a, b. split; [repeat apply conj; auto|]. split; [lia|]. pose proof (nq_lt _ _ A). change (nq 127) with 127 in *. lra.
Qed.
(** A curve is increasing when its points are. *)
Lemma line_le i j a b x y : (i < j)%nat -> a <= b -> x <= y -> line i j a b x <= line i j a b y.
Proof.
  intros L AB XY. apply nq_lt in L. unfold line.
  assert ((x - nq i) / (nq j - nq i) <= (y - nq i) / (nq j - nq i)).
  { apply Qle_shift_div_l; [lra|]. setoid_replace ((x - nq i) / (nq j - nq i) * (nq j - nq i)) with (x - nq i) by (field; lra). lra. }
  nra.
Qed.
Lemma eval_monotone d c : follows d c -> d 0%nat <> None -> d 127%nat <> None ->
  (forall i j a b, (i <= j)%nat -> d i = Some a -> d j = Some b -> a <= b) ->
  forall x y u v, 0 <= x -> x <= y -> y <= 127 -> evalCC7 id c x = Some u -> evalCC7 id c y = Some v -> u <= v.
Proof.
  intros F D0 D1 M x y u v X0 XY Y1 U V.
  destruct (find_neighbours d x D0 D1 ltac:(lra)) as (i & j & a & b & N & J & Xr).
  destruct (find_neighbours d y D0 D1 ltac:(lra)) as (i' & j' & a' & b' & N' & J' & Yr).
  destruct (eval_line d c i j a b x F N J Xr) as (u' & U' & Hu). rewrite U in U'. injection U' as <-.
  destruct (eval_line d c i' j' a' b' y F N' J' Yr) as (v' & V' & Hv). rewrite V in V'. injection V' as <-.
  rewrite Hu, Hv. destruct N as (Lij & Di & Dj & Nb). destruct N' as (Lij' & Di' & Dj' & Nb').
  assert (a <= b) as AB by (apply (M i j); auto; lia). assert (a' <= b') as AB' by (apply (M i' j'); auto; lia).
  destruct (Nat.lt_ge_cases i' j) as [H|H].
  - destruct (Nat.lt_trichotomy i i') as [G|[G|G]]; [rewrite Nb in Di' by lia; discriminate| |].
    + subst i'. assert (j = j') as ->.
      { destruct (Nat.lt_trichotomy j j') as [K|[K|K]]; [rewrite Nb' in Dj by lia; discriminate|assumption|rewrite Nb in Dj' by lia; discriminate]. }
      rewrite Di in Di'. rewrite Dj in Dj'. injection Di' as <-. injection Dj' as <-. now apply line_le.
    + assert (j' <= i)%nat as H1. { destruct (Nat.lt_ge_cases i j') as [H1|]; [rewrite Nb' in Di by lia; discriminate|assumption]. }
      assert (j' = i) as ->. { destruct (Nat.eq_dec j' i); [assumption|]. assert (j' < i)%nat as H2 by lia. apply nq_lt in H2. lra. }
      rewrite Di in Dj'. injection Dj' as <-. apply nq_le in H1.
      unfold line. assert (x == nq i) as -> by lra. assert (y == nq i) as -> by lra. apply nq_lt in Lij, Lij'.
      setoid_replace ((nq i - nq i) / (nq j - nq i)) with 0 by (field; lra).
      setoid_replace ((nq i - nq i') / (nq i - nq i')) with 1 by (field; lra). lra.
  - assert (b <= a') as BA by (apply (M j i'); auto).
    destruct (line_between i j a b x Lij Xr); destruct (line_between i' j' a' b' y Lij' Yr); lra.
Qed.

(** ** The curves of a file *)
Definition ends : list (nat * Q) := [(0%nat, 0); (127%nat, 1)].
(** The points that count in a <curve> header: those of the numbers up to 127. *)
Definition headerDefined (l : list (nat * Q)) (i : nat) : option Q := if Nat.leb i 127 then definedAt ends l i else None.

Lemma lastOf_filter (f : nat * Q -> bool) k l : (forall x, f (k, x) = true) -> lastOf k (filter f l) = lastOf k l.
Proof.
  intros H. induction l as [|[i x] l IH]; cbn [filter lastOf]; [reflexivity|]. destruct (f (i, x)) eqn:E; cbn [lastOf]; rewrite IH; [reflexivity|].
  destruct (lastOf k l); [reflexivity|]. destruct (Nat.eqb_spec k i) as [->|]; [congruence|reflexivity].
Qed.
Lemma lastOf_none k l : Forall (fun p => (fst p < 128)%nat) l -> (128 <= k)%nat -> lastOf k l = None.
Proof.
  intros F K. induction F as [|[i x] l F1 F2 IH]; cbn [lastOf]; [reflexivity|]. rewrite IH. cbn [fst] in F1. destruct (Nat.eqb_spec k i); [lia|reflexivity].
Qed.
Lemma follows_build l c : Forall (fun p => (fst p < 128)%nat) l -> lastOf 0 l <> None -> lastOf 127 l <> None ->
  bind (setPoints l blank) (fun t => lerpFill id (snd t) (fst t)) = Some c -> follows (fun i => lastOf i l) c.
Proof.
  intros F A B E. destruct (build_spec id l F A B) as (c' & E' & L & P & T). rewrite E in E'. injection E' as <-.
  split; [assumption|]. split; [assumption|]. intros i j a b k N K. pose proof (proj1 N) as Lij. pose proof (nq_lt i j Lij) as IJ.
  destruct (Nat.eq_dec k j) as [->|].
  - destruct N as (_ & _ & Dj & _). rewrite (P j b Dj). unfold line. field. lra.
  - rewrite (T i j a b k N ltac:(lia)), steps_exact. unfold slope, id, line. fold (nq (k - i)) (nq (j - i)). rewrite !nq_sub by lia. field. lra.
Qed.
Lemma follows_ext d d' c : (forall i, d i = d' i) -> follows d c -> follows d' c.
Proof.
  intros H (L & P & T). split; [assumption|]. split; [intros i a D; apply P; now rewrite H|].
  intros i j a b k (N1 & N2 & N3 & N4) K. apply T; [|assumption]. repeat apply conj; rewrite ?H; auto. intros m M. rewrite H. auto.
Qed.
Lemma filter_bound l : Forall (fun p => (fst p < 128)%nat) (headerPoints l).
Proof. apply Forall_forall. intros p H. apply filter_In in H. now apply Nat.ltb_lt. Qed.
Lemma header_defined l i : lastOf i ((0%nat, 0) :: (127%nat, 1) :: headerPoints l) = headerDefined l i.
Proof.
  change ((0%nat, 0) :: (127%nat, 1) :: headerPoints l) with (ends ++ headerPoints l). unfold headerDefined, definedAt.
  destruct (Nat.leb_spec i 127).
  - rewrite lastOf_app. unfold headerPoints. rewrite lastOf_filter; [reflexivity|]. intros x. cbn [fst]. apply Nat.ltb_lt. unfold numValues. lia.
  - apply lastOf_none; [|lia]. apply Forall_app. split; [repeat constructor; cbn; lia|apply filter_bound].
Qed.
Lemma header_ends l : headerDefined l 0 <> None /\ headerDefined l 127 <> None.
Proof. unfold headerDefined, definedAt. cbn [Nat.leb]. split; [destruct (lastOf 0 l)|destruct (lastOf 127 l)]; discriminate. Qed.
Lemma header_bound l : Forall (fun p => (fst p < 128)%nat) ((0%nat, 0) :: (127%nat, 1) :: headerPoints l).
Proof. repeat constructor; cbn; try lia. apply filter_bound. Qed.
(** C35: every header gives a table of 128 entries, written and read inside its bounds, with any rounding; at each
    defined point it has exactly the value given there last, and 0 and 1 at the ends if nothing was given. *)
Theorem C35_points rnd l : exists c, buildCurveFromHeader rnd l = Some c /\ length c = 128%nat /\
  forall i a, headerDefined l i = Some a -> evalCC7i c (Z.of_nat i) = Some a.
Proof.
  destruct (header_ends l) as [A B]. rewrite <- header_defined in A, B.
  destruct (build_spec rnd _ (header_bound l) A B) as (c & E & L & P & _).
  exists c. split; [exact E|]. split; [exact L|]. intros i a D.
  assert (i <= 127)%nat. { unfold headerDefined in D. destruct (Nat.leb_spec i 127); [assumption|discriminate]. }
  unfold evalCC7i. rewrite Z.min_l, Z.max_l, Nat2Z.id by lia. rewrite (nth_error_nth' c 0) by lia. f_equal. apply P. now rewrite header_defined.
Qed.
(** C35: with exact arithmetic the curve is the line between neighbouring points, so that it stays between
    their values and is increasing when they are. *)
Theorem C35_between l c : buildCurveFromHeader id l = Some c ->
  (forall i j a b x, neighbours (headerDefined l) i j a b -> nq i <= x <= nq j ->
     exists y, evalCC7 id c x = Some y /\ y == line i j a b x /\ between a b y) /\
  (forall x, 0 <= x <= 127 -> exists i j a b, neighbours (headerDefined l) i j a b /\ nq i <= x <= nq j).
Proof.
  intros E. destruct (header_ends l) as [A B].
  assert (follows (headerDefined l) c) as F.
  { eapply follows_ext; [apply header_defined|]. apply follows_build; [apply header_bound|rewrite header_defined; assumption..|exact E]. }
  split.
  - intros i j a b x N X.
    assert (j <= 127)%nat. { destruct N as (_ & _ & D & _). unfold headerDefined in D. destruct (Nat.leb_spec j 127); [assumption|discriminate]. }
    destruct (eval_line _ c i j a b x F N ltac:(assumption) X) as (y & Y1 & Y2). exists y. split; [assumption|]. split; [assumption|].
    destruct (line_between i j a b x (proj1 N) X) as [H1|H1]; [left|right]; lra.
  - intros x X. destruct (find_neighbours _ x A B X) as (i & j & a & b & N & _ & Xr). now exists i, j, a, b.
Qed.
Theorem C35_increasing l c : buildCurveFromHeader id l = Some c ->
  (forall i j a b, (i <= j)%nat -> headerDefined l i = Some a -> headerDefined l j = Some b -> a <= b) ->
  forall x y u v, 0 <= x -> x <= y -> y <= 127 -> evalCC7 id c x = Some u -> evalCC7 id c y = Some v -> u <= v.
Proof.
  intros E M. destruct (header_ends l) as [A B]. apply (eval_monotone (headerDefined l)); auto.
  eapply follows_ext; [apply header_defined|]. apply follows_build; [apply header_bound|rewrite header_defined; assumption..|exact E].
Qed.
(** C35: the velocity curve of a region, from the points that its opcodes let through. *)
Theorem C35_velocity_curve rnd l invert : exists c, buildFromVelcurvePoints rnd (velcurvePoints l) invert = Some c /\ length c = 128%nat /\
  (forall i a, (i <= 127)%nat -> lastOf i l = Some a -> evalCC7i c (Z.of_nat i) = Some a) /\
  (lastOf 0 l = None -> evalCC7i c 0 = Some (if invert then 1 else 0)) /\
  (lastOf 127 l = None -> evalCC7i c 127 = Some (if invert then 0 else 1)).
Proof.
  unfold buildFromVelcurvePoints. set (e := if invert then _ else _).
  assert (forall k, (k <= 127)%nat -> lastOf k (e ++ velcurvePoints l) = match lastOf k l with Some y => Some y | None => lastOf k e end) as H.
  { intros k K. rewrite lastOf_app. unfold velcurvePoints. rewrite lastOf_filter; [reflexivity|]. intros x. cbn [fst]. destruct (Nat.ltb_spec 127 k); [lia|reflexivity]. }
  destruct (build_spec rnd (e ++ velcurvePoints l)) as (c & E & L & P & _).
  { apply Forall_app. split; [unfold e; destruct invert; repeat constructor; cbn; lia|].
    apply Forall_forall. intros p Hp. apply filter_In in Hp. destruct Hp as [_ Hp]. apply negb_true_iff, Nat.ltb_ge in Hp. lia. }
  { rewrite H by lia. destruct (lastOf 0 l); [discriminate|]. unfold e. now destruct invert. }
  { rewrite H by lia. destruct (lastOf 127 l); [discriminate|]. unfold e. now destruct invert. }
  assert (forall i a, (i <= 127)%nat -> lastOf i (e ++ velcurvePoints l) = Some a -> evalCC7i c (Z.of_nat i) = Some a) as G.
  { intros i a I D. unfold evalCC7i. rewrite Z.min_l, Z.max_l, Nat2Z.id by lia. rewrite (nth_error_nth' c 0) by lia. f_equal. now apply P. }
  exists c. split; [exact E|]. split; [exact L|]. split; [|split].
  - intros i a I D. apply G; [assumption|]. now rewrite H, D.
  - intros N. apply (G 0%nat); [lia|]. rewrite H, N by lia. unfold e. now destruct invert.
  - intros N. apply (G 127%nat); [lia|]. rewrite H, N by lia. unfold e. now destruct invert.
Qed.
(** The curves 0 to 3 are the lines that the format names, for all arguments between 0 and 1. *)
Theorem C35_predefined x : 0 <= x <= 1 ->
  forall i f, In (i, f) [(0%nat, x); (1%nat, 2 * x - 1); (2%nat, 1 - x); (3%nat, 1 - 2 * x)] ->
  exists c y, buildPredefinedCurve id i = Some c /\ evalNormalized id c x = Some y /\ y == f.
Proof.
  intros X i f H.
  assert (forall v1 v2, exists c y, buildBipolar id v1 v2 = Some c /\ evalNormalized id c x = Some y /\ y == v1 + x * (v2 - v1)) as B.
  { intros v1 v2. set (l := [(0%nat, v1); (127%nat, v2)]).
    assert (Forall (fun p => (fst p < 128)%nat) l) as F by (repeat constructor; cbn; lia).
    destruct (build_spec id l F) as (c & E & _); [discriminate..|].
    pose proof (follows_build l c F ltac:(discriminate) ltac:(discriminate) E) as Fo.
    assert (neighbours (fun i => lastOf i l) 0 127 v1 v2) as N.
    { repeat apply conj; auto; [lia|]. intros k K. unfold l. cbn [lastOf]. destruct (Nat.eqb_spec k 127); [lia|]. destruct (Nat.eqb_spec k 0); [lia|reflexivity]. }
    destruct (eval_line _ c 0 127 v1 v2 (id (x * 127)) Fo N ltac:(lia)) as (y & Y1 & Y2).
    { change (nq 0) with 0. change (nq 127) with 127. unfold id. lra. }
    exists c, y. split; [exact E|]. split; [exact Y1|]. rewrite Y2. unfold line, id. change (nq 0) with 0. change (nq 127) with 127. field. }
  destruct H as [H|[H|[H|[H|[]]]]]; injection H as <- <-.
  - destruct (B 0 1) as (c & y & E & Y & V). exists c, y. repeat apply conj; auto. rewrite V. ring.
  - destruct (B (-1) 1) as (c & y & E & Y & V). exists c, y. repeat apply conj; auto. rewrite V. ring.
  - destruct (B 1 0) as (c & y & E & Y & V). exists c, y. repeat apply conj; auto. rewrite V. ring.
  - destruct (B 1 (-1)) as (c & y & E & Y & V). exists c, y. repeat apply conj; auto. rewrite V. ring.
Qed.
(** A header with a repeated point, one beyond the table, and a decreasing stretch. *)
Definition demoPoints : list (nat * Q) := [(64%nat, 1 # 2); (200%nat, 7); (64%nat, 3 # 4); (96%nat, 1 # 4)].
Example C35_ex :
  (exists c, buildCurveFromHeader Qred demoPoints = Some c /\
    map (fun v => evalCC7i c v) [-5; 0; 32; 64; 96; 127; 500]%Z = map Some [0; 0; 3 # 8; 3 # 4; 1 # 4; 1; 1] /\
    map (fun v => evalCC7 Qred c v) [-5; 0; 32; 161 # 2; 96; 127; 500] = map Some [0; 0; 3 # 8; 63 # 128; 1 # 4; 1; 1]) /\
  neighbours (headerDefined demoPoints) 64 96 (3 # 4) (1 # 4).
Proof.
  split.
  - eexists. split; [vm_compute; reflexivity|]. split; vm_compute; reflexivity.
  - split; [lia|]. split; [reflexivity|]. split; [reflexivity|]. intros k K. unfold headerDefined, definedAt, demoPoints, ends. cbn [lastOf].
    destruct (Nat.eqb_spec k 96); [lia|]. destruct (Nat.eqb_spec k 64); [lia|]. destruct (Nat.eqb_spec k 200); [lia|].
    destruct (Nat.eqb_spec k 127); [lia|]. destruct (Nat.eqb_spec k 0); [lia|]. now destruct (Nat.leb k 127).
Qed.
(** C35: with the rounding of binary32 the accumulated ramp can pass the next point: here point 4 lies above both
    point 0 (the value 1) and point 5 (3 units in the last place above 1). *)
Theorem C35_rounding_refuted :
  let ulp := 1 # 8388608 in
  exists c y, buildCurveFromHeader float24 [(0%nat, 1); (5%nat, 1 + 3 * ulp)] = Some c /\
  evalCC7i c 4 = Some y /\ 1 + 3 * ulp < y /\ evalCC7i c 0 = Some 1 /\ evalCC7i c 5 = Some (1 + 3 * ulp).
Proof. cbv zeta. eexists _, _. split; [vm_compute; reflexivity|]. split; [vm_compute; reflexivity|]. repeat apply conj; vm_compute; reflexivity. Qed.

(** ** Curve sets (C61) *)
Section Sets.
Variable default : curve.
Notation get := (getCurve default).
(** A numbered curve is what its number gives from then on; all other numbers give what they gave before. *)
Theorem C61_explicit c i s : (0 <= i < 256)%Z ->
  get (Z.to_nat i) (addCurve c i s) = c /\ forall j, j <> Z.to_nat i -> get j (addCurve c i s) = get j s.
Proof.
  intros I. unfold addCurve, maxCurves. destruct (Z.ltb_spec i (-1)); [lia|]. destruct (Z.leb_spec 256 i); [lia|]. destruct (Z.eqb_spec i (-1)) as [|_]; [lia|].
  set (n := Z.to_nat i). set (l := if Nat.leb _ _ then _ else _).
  assert ((n < length l)%nat /\ forall j, match nth_error l j with Some (Some c) => c | _ => default end = get j s) as [Ln Lj].
  { unfold l. destruct (Nat.leb_spec (length (slots s)) n) as [G|G]; [|split; [assumption|reflexivity]].
    split; [rewrite app_length, repeat_length; lia|]. intros j. unfold getCurve.
    destruct (Nat.lt_ge_cases j (length (slots s))) as [J|J]; [now rewrite nth_error_app1|].
    rewrite nth_error_app2 by assumption. apply nth_error_None in J. rewrite J. clear.
    generalize (j - length (slots s))%nat. induction (S n - length (slots s))%nat as [|m IH]; intros [|k]; cbn [repeat nth_error]; auto. }
  unfold getCurve at 1 2. cbn [slots].
  assert (forall k, nth_error (firstn n l ++ Some c :: skipn (S n) l) k = if Nat.eqb k n then Some (Some c) else nth_error l k) as U.
  { clearbody l n. clear -Ln. revert n Ln. induction l as [|y l IH]; intros n L k; cbn [length] in L; [lia|].
    destruct n; cbn [firstn app skipn]; destruct k; cbn [nth_error Nat.eqb]; try reflexivity. apply (IH n ltac:(lia) k). }
  split.
  - now rewrite U, Nat.eqb_refl.
  - intros j J. rewrite U. destruct (Nat.eqb_spec j n); [contradiction|]. apply Lj.
Qed.
(** A curve without number takes the next free number, unless a number has been given before: then it is refused. *)
Theorem C61_implicit c s :
  (explicit s = true -> addCurve c (-1) s = s) /\
  (explicit s = false -> get (length (slots s)) (addCurve c (-1) s) = c /\ forall j, (j < length (slots s))%nat -> get j (addCurve c (-1) s) = get j s).
Proof.
  assert (addCurve c (-1) s = if explicit s then s else CurveSet (slots s ++ [Some c]) (explicit s)) as -> by reflexivity.
  split; intros ->; [reflexivity|]. unfold getCurve. cbn [slots]. split.
  - now rewrite nth_error_app2, Nat.sub_diag by lia.
  - intros j J. now rewrite nth_error_app1.
Qed.
(** Numbers out of range change nothing, and a number without curve gives the default. *)
Theorem C61_otherwise c i s : ((i < -1)%Z \/ (256 <= i)%Z -> addCurve c i s = s) /\ forall j, (length (slots s) <= j)%nat -> get j s = default.
Proof.
  unfold addCurve, maxCurves. split.
  - intros H. destruct (Z.ltb_spec i (-1)); [reflexivity|]. destruct (Z.leb_spec 256 i); [reflexivity|lia].
  - intros j J. unfold getCurve. apply nth_error_None in J. now rewrite J.
Qed.
End Sets.
Example C61_ex :
  let s := addCurve [3] 3 (addCurve [2] (-1) (addCurve [1] (-1) (CurveSet [] false))) in
  map (fun i => getCurve [0] i s) [0; 1; 2; 3; 4]%nat = [[1]; [2]; [0]; [3]; [0]] /\
  addCurve [4] (-1) s = s /\ getCurve [0] 1 (addCurve [5] 1 s) = [5] /\ headerIndex [7; 9]%Z = 9%Z /\ headerIndex [] = (-1)%Z.
Proof. vm_compute. auto 10. Qed.

(** The curve 4 has the squares at the 128 values of a controller. *)
Theorem C35_squares v : (0 <= v <= 127)%Z ->
  exists c y, buildPredefinedCurve id 4 = Some c /\ evalCC7i c v = Some y /\ y == (inject_Z v / 127) * (inject_Z v / 127).
Proof.
  intros V. eexists _, _. split; [reflexivity|]. unfold evalCC7i. rewrite Z.min_l, Z.max_l by lia.
  rewrite nth_error_map, (nth_error_nth' _ 0%nat) by (rewrite seq_length; unfold numValues; lia).
  rewrite seq_nth by (unfold numValues; lia). cbn [option_map]. split; [reflexivity|]. unfold id.
  rewrite Nat.add_0_l, Z2Nat.id by lia. reflexivity.
Qed.
Example C35_squares_ex : exists c, buildPredefinedCurve Qred 4 = Some c /\ evalCC7i c 64 = Some (4096 # 16129).
Proof. eexists. split; [reflexivity|]. vm_compute. reflexivity. Qed.
