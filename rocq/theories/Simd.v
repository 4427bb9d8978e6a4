(** C80: the operations on blocks do the same with vectors as without, for every alignment, size and overlap.  Model: SimdModel.v. *)
From Coq Require Import List ZArith Bool Lia.
From Verif Require Import SimdModel.
Import ListNotations.
Local Open Scope Z_scope.

(** ** Loops *)
Fixpoint iter {S : Type} (n : nat) (body : S -> option S) (s : S) : option S :=
  match n with O => Some s | Datatypes.S n' => match body s with Some s' => iter n' body s' | None => None end end.

Lemma iter_app {S : Type} (body : S -> option S) : forall n k s,
  iter (n + k) body s = match iter n body s with Some s' => iter k body s' | None => None end.
Proof.
  induction n as [|n IH]; intros k s; cbn [iter Nat.add]; [reflexivity|].
  destruct (body s) as [s'|]; [apply IH|reflexivity].
Qed.

Section Phases.
Variables S T : Type.
Variable body1 : S -> option S.
Variable body4 : T -> option T.
Variable toT : S -> option T.
Variable fromT : T -> S.
Variables cond1 cond3 : S -> bool.
Variable cond4 : T -> bool.
Variable N : nat.
(** the state after k elements *)
Variable G : nat -> S -> Prop.
(** the state of the vector loop stands for a plain state *)
Variable rep : nat -> T -> S -> Prop.
Hypothesis Hone : forall k s, G k s -> (k < N)%nat -> exists s', body1 s = Some s' /\ G (k + 1) s'.
Hypothesis Hend : forall k s, G k s -> cond3 s = (k <? N)%nat.
Hypothesis Hlow : forall k s, G k s -> cond1 s = true -> (k < N)%nat.
Hypothesis Hto : forall k s, G k s -> (k <= N)%nat -> cond1 s = false -> exists t, toT s = Some t /\ rep k t s.
Hypothesis Hfour : forall k t s, rep k t s -> G k s -> (k <= N)%nat -> cond4 t = true ->
  (k + 4 <= N)%nat /\ forall s', iter 4 body1 s = Some s' -> exists t', body4 t = Some t' /\ rep (k + 4) t' s'.
Hypothesis Hfrom : forall k t s, rep k t s -> G k s -> fromT t = s.

Lemma iter_G : forall n k s, G k s -> (k + n <= N)%nat -> exists s', iter n body1 s = Some s' /\ G (k + n) s'.
Proof.
  induction n as [|n IH]; intros k s HG HN; cbn [iter].
  - exists s. rewrite Nat.add_0_r. auto.
  - destruct (Hone k s HG ltac:(lia)) as [s1 [E1 G1]]. rewrite E1.
    destruct (IH (k + 1)%nat s1 G1 ltac:(lia)) as [s2 [E2 G2]]. exists s2. split; [exact E2|].
    replace (k + Datatypes.S n)%nat with (k + 1 + n)%nat by lia. exact G2.
Qed.

(** The plain loop. *)
Lemma loop3 : forall fuel k s, G k s -> (k <= N)%nat -> (N - k < fuel)%nat -> while_ fuel cond3 body1 s = iter (N - k) body1 s.
Proof.
  induction fuel as [|fuel IH]; intros k s HG HK HF; [lia|]. cbn [while_]. rewrite (Hend k s HG).
  destruct (Nat.ltb_spec k N) as [H|H].
  - replace (N - k)%nat with (Datatypes.S (N - (k + 1))) by lia. cbn [iter].
    destruct (Hone k s HG H) as [s1 [E1 G1]]. rewrite E1. apply IH; [exact G1|lia|lia].
  - replace (N - k)%nat with 0%nat by lia. reflexivity.
Qed.

Lemma loop1 : forall fuel k s, G k s -> (k <= N)%nat -> (N - k < fuel)%nat ->
  exists j s', while_ fuel cond1 body1 s = Some s' /\ iter j body1 s = Some s' /\ G (k + j) s' /\ (k + j <= N)%nat /\ cond1 s' = false.
Proof.
  induction fuel as [|fuel IH]; intros k s HG HK HF; [lia|]. cbn [while_].
  destruct (cond1 s) eqn:C.
  - pose proof (Hlow k s HG C) as HL. destruct (Hone k s HG HL) as [s1 [E1 G1]]. rewrite E1.
    destruct (IH (k + 1)%nat s1 G1 ltac:(lia) ltac:(lia)) as (j & s' & W & I & G' & L & C').
    exists (Datatypes.S j), s'. cbn [iter]. rewrite E1. replace (k + Datatypes.S j)%nat with (k + 1 + j)%nat by lia. auto.
  - exists 0%nat, s. rewrite Nat.add_0_r. cbn [iter]. auto.
Qed.

Lemma loop2 : forall fuel k t s, rep k t s -> G k s -> (k <= N)%nat -> (N - k < fuel)%nat ->
  exists j t' s', while_ fuel cond4 body4 t = Some t' /\ iter j body1 s = Some s' /\ rep (k + j) t' s' /\ G (k + j) s' /\ (k + j <= N)%nat.
Proof.
  induction fuel as [|fuel IH]; intros k t s HR HG HK HF; [lia|]. cbn [while_].
  destruct (cond4 t) eqn:C.
  - destruct (Hfour k t s HR HG HK C) as [HL HV].
    destruct (iter_G 4 k s HG HL) as [s1 [E1 G1]]. destruct (HV s1 E1) as [t1 [E2 R1]]. rewrite E2.
    destruct (IH (k + 4)%nat t1 s1 R1 G1 ltac:(lia) ltac:(lia)) as (j & t' & s' & W & I & R' & G' & L).
    exists (4 + j)%nat, t', s'. rewrite iter_app, E1. replace (k + (4 + j))%nat with (k + 4 + j)%nat by lia. auto.
  - exists 0%nat, t, s. rewrite Nat.add_0_r. cbn [iter]. auto.
Qed.

(** The three loops in a row make N plain steps. *)
Lemma three s fuel : G 0 s -> (N < fuel)%nat ->
  (let* s1 := while_ fuel cond1 body1 s in let* t := toT s1 in let* t' := while_ fuel cond4 body4 t in while_ fuel cond3 body1 (fromT t'))
    = iter N body1 s.
Proof.
  intros HG HF.
  destruct (loop1 fuel 0 s HG ltac:(lia) ltac:(lia)) as (j1 & s1 & W1 & I1 & G1 & L1 & C1). rewrite W1. cbn [bind].
  destruct (Hto _ s1 G1 L1 C1) as [t [ET HR]]. rewrite ET. cbn [bind].
  destruct (loop2 fuel _ t s1 HR G1 L1 ltac:(lia)) as (j2 & t2 & s2 & W2 & I2 & R2 & G2 & L2). rewrite W2. cbn [bind].
  rewrite (Hfrom _ t2 s2 R2 G2). rewrite (loop3 fuel _ s2 G2 L2) by lia.
  replace N with (j1 + (j2 + (N - (0 + j1 + j2))))%nat at 2 by lia.
  rewrite iter_app, I1, iter_app, I2. reflexivity.
Qed.

Lemma plain s fuel : G 0 s -> (N < fuel)%nat -> while_ fuel cond3 body1 s = iter N body1 s.
Proof. intros HG HF. rewrite (loop3 fuel 0 s HG ltac:(lia) ltac:(lia)). rewrite Nat.sub_0_r. reflexivity. Qed.

Lemma plain_some s : G 0 s -> exists s', iter N body1 s = Some s' /\ G N s'.
Proof. intros HG. exact (iter_G N 0 s HG ltac:(lia)). Qed.

End Phases.

(** ** Memory *)
Section Elementwise.
Variable A : Type.

(** The cells from [p] on, [n] of them, belong to the program. *)
Definition mapped (m : mem A) (p n : Z) : Prop := forall q, p <= q < p + n -> m q <> None.

Lemma mapped_st (m m' : mem A) p v q n : st A m p v = Some m' -> mapped m q n -> mapped m' q n.
Proof.
  unfold st. destruct (m p) eqn:E; [|intros H; discriminate H]. intros H. injection H as <-. intros HM x Hx. cbv beta.
  destruct (x =? p); [intros H; discriminate H|]. apply HM. exact Hx.
Qed.

Lemma st_ok (m : mem A) p v q n : mapped m q n -> q <= p < q + n ->
  st A m p v = Some (fun x => if x =? p then Some v else m x).
Proof. intros HM H. unfold st. specialize (HM p H). destruct (m p); [reflexivity|contradiction]. Qed.

Lemma ld_ok (m : mem A) p q n : mapped m q n -> q <= p < q + n -> exists v, ld A m p = Some v.
Proof. intros HM H. unfold ld. specialize (HM p H). destruct (m p) as [v|]; [exists v; reflexivity|contradiction]. Qed.

Lemma aligned_le p q : p mod 4 = 0 -> q mod 4 = 0 -> p < q -> p + 4 <= q.
Proof. intros Hp Hq H. pose proof (Z.div_mod p 4 ltac:(lia)). pose proof (Z.div_mod q 4 ltac:(lia)). lia. Qed.

Lemma prevAligned_spec p : prevAligned p mod 4 = 0 /\ p - 3 <= prevAligned p <= p.
Proof.
  unfold prevAligned. pose proof (Z.mod_pos_bound p 4 ltac:(lia)). split; [|lia].
  rewrite Zminus_mod, Z.mod_mod, Z.sub_diag by lia. reflexivity.
Qed.

Lemma unaligned_false p : unaligned p = false <-> p mod 4 = 0.
Proof. unfold unaligned. rewrite negb_false_iff, Z.eqb_eq. reflexivity. Qed.

Lemma mod4_add p : p mod 4 = 0 -> (p + 4) mod 4 = 0.
Proof. intros H. rewrite Zplus_mod, H. reflexivity. Qed.

Lemma mod4_conflict p q a b : p mod 4 = 0 -> q mod 4 = 0 -> 0 <= a < 4 -> 0 <= b < 4 -> a <> b -> p + a <> q + b.
Proof. intros Hp Hq Ha Hb N H. pose proof (Z.div_mod p 4 ltac:(lia)). pose proof (Z.div_mod q 4 ltac:(lia)). lia. Qed.

(** ** Sample by sample *)
Section Kernel.
Variable k : kernel A.
Hypothesis same : forall vs o, k_vop A k vs o = k_op A k vs o.

Lemma map_shift (ins : list Z) a b : map (fun p => p + b) (map (fun p => p + a) ins) = map (fun p => p + (a + b)) ins.
Proof. rewrite map_map. apply map_ext. intros. lia. Qed.

Lemma lds_ok (m : mem A) ins n d : Forall (fun p => mapped m p n) ins -> 0 <= d < n -> exists vs, lds A m (map (fun p => p + d) ins) = Some vs.
Proof.
  induction 1 as [|p ins Hp _ IH]; intros Hd; [exists []; reflexivity|].
  cbn [map lds]. destruct (ld_ok m (p + d) p n Hp ltac:(lia)) as [v ->]. cbn [bind]. destruct (IH Hd) as [vs ->]. cbn [bind]. eauto.
Qed.

Lemma lds_upd (m : mem A) o v ins : Forall (fun p => p <> o) ins ->
  lds A (fun x => if x =? o then Some v else m x) ins = lds A m ins.
Proof.
  induction 1 as [|p ins Hp _ IH]; [reflexivity|]. cbn [lds]. unfold ld.
  destruct (Z.eqb_spec p o); [contradiction|]. rewrite IH. reflexivity.
Qed.

(** A vector load is four loads of the pointers in turn. *)
Lemma ldvs_spec (m : mem A) ins : Forall (fun p => p mod 4 = 0) ins ->
  forall v0 v1 v2 v3,
  lds A m (map (fun p => p + 0) ins) = Some v0 -> lds A m (map (fun p => p + 1) ins) = Some v1 ->
  lds A m (map (fun p => p + 2) ins) = Some v2 -> lds A m (map (fun p => p + 3) ins) = Some v3 ->
  exists vs, ldvs A m ins = Some vs /\ map (l0 A) vs = v0 /\ map (l1 A) vs = v1 /\ map (l2 A) vs = v2 /\ map (l3 A) vs = v3.
Proof.
  induction 1 as [|p ins Hp _ IH]; intros v0 v1 v2 v3; cbn [map lds].
  - intros H0 H1 H2 H3. injection H0 as <-. injection H1 as <-. injection H2 as <-. injection H3 as <-. exists []. cbn. auto.
  - rewrite Z.add_0_r. intros H0 H1 H2 H3. cbn [ldvs]. unfold ldv. rewrite (proj2 (unaligned_false p) Hp).
    destruct (ld A m p) as [a0|]; [|discriminate H0]. destruct (ld A m (p + 1)) as [a1|]; [|discriminate H1].
    destruct (ld A m (p + 2)) as [a2|]; [|discriminate H2]. destruct (ld A m (p + 3)) as [a3|]; [|discriminate H3].
    cbn [bind] in *.
    destruct (lds A m (map (fun p => p + 0) ins)) as [w0|] eqn:E0; [|discriminate H0].
    destruct (lds A m (map (fun p => p + 1) ins)) as [w1|] eqn:E1; [|discriminate H1].
    destruct (lds A m (map (fun p => p + 2) ins)) as [w2|] eqn:E2; [|discriminate H2].
    destruct (lds A m (map (fun p => p + 3) ins)) as [w3|] eqn:E3; [|discriminate H3].
    cbn [bind] in *. injection H0 as <-. injection H1 as <-. injection H2 as <-. injection H3 as <-.
    destruct (IH w0 w1 w2 w3 eq_refl eq_refl eq_refl eq_refl) as (vs & EV & M0 & M1 & M2 & M3).
    rewrite EV. cbn [bind]. eexists. split; [reflexivity|]. cbn [map l0 l1 l2 l3]. rewrite M0, M1, M2, M3. auto.
Qed.

Variable m0 : mem A.
Variable ins0 : list Z.
Variables out0 size : Z.
Hypothesis Hsize : 0 <= size.

Definition GK (j : nat) (s : state A) : Prop :=
  let '(m, ins, out) := s in
  ins = map (fun p => p + Z.of_nat j) ins0 /\ out = out0 + Z.of_nat j /\
  Forall (fun p => mapped m p size) ins0 /\ mapped m out0 size.

Hypothesis lead_shift : forall j, k_lead A k (map (fun p => p + j) ins0) (out0 + j) = k_lead A k ins0 out0 + j.

Let N := Z.to_nat size.

Lemma one_ok f j s : GK j s -> (j < N)%nat -> exists s', one A f s = Some s' /\ GK (j + 1) s'.
Proof.
  destruct s as [[m ins] out]. intros (-> & -> & HI & HO) Hj. cbn [one].
  destruct (lds_ok m ins0 size (Z.of_nat j) HI ltac:(unfold N in *; lia)) as [vs ->]. cbn [bind].
  destruct (ld_ok m (out0 + Z.of_nat j) out0 size HO ltac:(unfold N in *; lia)) as [o ->]. cbn [bind].
  pose proof (st_ok m (out0 + Z.of_nat j) (f vs o) out0 size HO ltac:(unfold N in *; lia)) as ES.
  rewrite ES. cbn [bind]. eexists. split; [reflexivity|]. cbn [GK].
  rewrite map_shift. replace (Z.of_nat (j + 1)) with (Z.of_nat j + 1) by lia. split; [reflexivity|]. split; [lia|]. split.
  - revert HI. apply Forall_impl. intros p. apply (mapped_st m _ _ _ p size ES).
  - apply (mapped_st m _ _ _ out0 size ES HO).
Qed.

(** All pointers aligned: a vector step is four plain steps. *)
Lemma four_is_four_ones j s : GK j s -> (j + 4 <= N)%nat ->
  (let '(m, ins, out) := s in Forall (fun p => p mod 4 = 0) ins /\ out mod 4 = 0) ->
  four A (k_vop A k) s = iter 4 (one A (k_op A k)) s.
Proof.
  destruct s as [[m ins] out]. intros (-> & -> & HI & HO) Hj [HA HB].
  set (d := Z.of_nat j) in *. assert (Hd : 0 <= d /\ d + 4 <= size) by (unfold d, N in *; lia).
  set (ins := map (fun p => p + d) ins0) in *. set (out := out0 + d) in *.
  assert (LD : forall e, 0 <= e < 4 -> exists vs, lds A m (map (fun p => p + e) ins) = Some vs).
  { intros e He. unfold ins. rewrite map_shift. apply (lds_ok m ins0 size); [exact HI|lia]. }
  destruct (LD 0 ltac:(lia)) as [v0 E0]. destruct (LD 1 ltac:(lia)) as [v1 E1].
  destruct (LD 2 ltac:(lia)) as [v2 E2]. destruct (LD 3 ltac:(lia)) as [v3 E3].
  destruct (ldvs_spec m ins HA v0 v1 v2 v3 E0 E1 E2 E3) as (vs & EV & M0 & M1 & M2 & M3).
  assert (LO : forall e, 0 <= e < 4 -> exists x, ld A m (out + e) = Some x).
  { intros e He. apply (ld_ok m _ out0 size HO). unfold out. lia. }
  destruct (LO 0 ltac:(lia)) as [o0 O0]. destruct (LO 1 ltac:(lia)) as [o1 O1].
  destruct (LO 2 ltac:(lia)) as [o2 O2]. destruct (LO 3 ltac:(lia)) as [o3 O3].
  rewrite Z.add_0_r in O0.
  assert (NE : forall e a, 0 <= e < 4 -> 0 <= a < 4 -> a <> e -> Forall (fun p => p <> out + a) (map (fun p => p + e) ins)).
  { intros e a He Ha N1. apply Forall_forall. intros q Hq. apply in_map_iff in Hq. destruct Hq as [p [<- Hp]].
    apply mod4_conflict; try assumption; try lia. eapply Forall_forall in HA; [exact HA|exact Hp]. }
  cbn [four]. rewrite EV. cbn [bind]. unfold ldv. rewrite (proj2 (unaligned_false out) HB). rewrite O0, O1, O2, O3. cbn [bind l0 l1 l2 l3].
  rewrite M0, M1, M2, M3, !same.
  unfold stv. rewrite (proj2 (unaligned_false out) HB). cbn [l0 l1 l2 l3].
  cbn [iter]. unfold one at 1.
  assert (E0' : lds A m ins = Some v0) by (rewrite <- E0; rewrite (map_ext (fun p => p + 0) (fun p => p)) by (intros; lia); rewrite map_id; reflexivity).
  rewrite E0', O0. cbn [bind].
  assert (S0 : forall v, st A m out v = Some (fun x => if x =? out then Some v else m x)).
  { intros v. apply (st_ok m out v out0 size HO). unfold out; lia. }
  rewrite S0. cbn [bind].
  set (w0 := k_op A k v0 o0). set (m1 := fun x => if x =? out then Some w0 else m x).
  assert (H1 : mapped m1 out0 size) by (apply (mapped_st m m1 out w0 out0 size (S0 w0) HO)).
  assert (S1 : forall v, st A m1 (out + 1) v = Some (fun x => if x =? out + 1 then Some v else m1 x)).
  { intros v. apply (st_ok m1 (out + 1) v out0 size H1). unfold out; lia. }
  unfold one at 1.
  assert (LU1 : lds A m1 (map (fun p => p + 1) ins) = Some v1).
  { rewrite <- E1. unfold m1. apply lds_upd. pose proof (NE 1 0 ltac:(lia) ltac:(lia) ltac:(lia)) as X. rewrite Z.add_0_r in X. exact X. }
  assert (LO1 : ld A m1 (out + 1) = Some o1).
  { rewrite <- O1. unfold ld, m1. destruct (Z.eqb_spec (out + 1) out); [lia|reflexivity]. }
  rewrite LU1, LO1. cbn [bind]. rewrite !S1. cbn [bind].
  set (w1 := k_op A k v1 o1). set (m2 := fun x => if x =? out + 1 then Some w1 else m1 x).
  assert (H2 : mapped m2 out0 size) by (apply (mapped_st m1 m2 (out + 1) w1 out0 size (S1 w1) H1)).
  replace (out + 1 + 1) with (out + 2) by lia.
  assert (S2 : forall v, st A m2 (out + 2) v = Some (fun x => if x =? out + 2 then Some v else m2 x)).
  { intros v. apply (st_ok m2 (out + 2) v out0 size H2). unfold out; lia. }
  unfold one at 1. rewrite map_shift. change (1 + 1) with 2.
  assert (LU2 : lds A m2 (map (fun p => p + 2) ins) = Some v2).
  { rewrite <- E2. unfold m2. rewrite lds_upd by (apply NE; lia). unfold m1. apply lds_upd.
    pose proof (NE 2 0 ltac:(lia) ltac:(lia) ltac:(lia)) as X. rewrite Z.add_0_r in X. exact X. }
  assert (LO2 : ld A m2 (out + 2) = Some o2).
  { rewrite <- O2. unfold ld, m2, m1. destruct (Z.eqb_spec (out + 2) (out + 1)); [lia|]. destruct (Z.eqb_spec (out + 2) out); [lia|reflexivity]. }
  rewrite LU2, LO2. cbn [bind]. rewrite !S2. cbn [bind].
  set (w2 := k_op A k v2 o2). set (m3 := fun x => if x =? out + 2 then Some w2 else m2 x).
  assert (H3 : mapped m3 out0 size) by (apply (mapped_st m2 m3 (out + 2) w2 out0 size (S2 w2) H2)).
  replace (out + 2 + 1) with (out + 3) by lia.
  assert (S3 : forall v, st A m3 (out + 3) v = Some (fun x => if x =? out + 3 then Some v else m3 x)).
  { intros v. apply (st_ok m3 (out + 3) v out0 size H3). unfold out; lia. }
  unfold one at 1. rewrite map_shift. change (2 + 1) with 3.
  assert (LU3 : lds A m3 (map (fun p => p + 3) ins) = Some v3).
  { rewrite <- E3. unfold m3. rewrite lds_upd by (apply NE; lia). unfold m2. rewrite lds_upd by (apply NE; lia). unfold m1. apply lds_upd.
    pose proof (NE 3 0 ltac:(lia) ltac:(lia) ltac:(lia)) as X. rewrite Z.add_0_r in X. exact X. }
  assert (LO3 : ld A m3 (out + 3) = Some o3).
  { rewrite <- O3. unfold ld, m3, m2, m1. destruct (Z.eqb_spec (out + 3) (out + 2)); [lia|].
    destruct (Z.eqb_spec (out + 3) (out + 1)); [lia|]. destruct (Z.eqb_spec (out + 3) out); [lia|reflexivity]. }
  rewrite LU3, LO3. cbn [bind]. rewrite !S3. cbn [bind]. rewrite map_shift. change (3 + 1) with 4.
  replace (out + 3 + 1) with (out + 4) by lia. reflexivity.
Qed.

(** ** The three loops *)
Definition all_aligned (s : state A) : Prop := let '(_, ins, out) := s in Forall (fun p => p mod 4 = 0) ins /\ out mod 4 = 0.

Hypothesis lead_aligned : forall ins out, Forall (fun p => p mod 4 = 0) ins -> out mod 4 = 0 -> k_lead A k ins out mod 4 = 0.
Hypothesis checked : k_checked A k = map (fun _ => true) ins0.
Hypothesis Hins : Forall (fun p => mapped m0 p size) ins0.
Hypothesis Hout : mapped m0 out0 size.

Lemma any_unaligned_spec : forall (ins ins1 : list Z), length ins1 = length ins ->
  any_unaligned (map (fun _ => true) ins1) ins = false -> Forall (fun p => p mod 4 = 0) ins.
Proof.
  induction ins as [|p ins IH]; intros [|q ins1] HL H; cbn in HL; try discriminate HL; constructor.
  - cbn [map any_unaligned] in H. apply orb_false_iff in H. destruct H as [H _]. apply unaligned_false. exact H.
  - cbn [map any_unaligned] in H. apply orb_false_iff in H. destruct H as [_ H]. apply (IH ins1); [lia|exact H].
Qed.

Lemma GK0 : GK 0 (m0, ins0, out0).
Proof.
  cbn [GK]. rewrite (map_ext (fun p => p + Z.of_nat 0) (fun p => p)) by (intros; lia). rewrite map_id.
  split; [reflexivity|]. split; [lia|]. split; assumption.
Qed.

Lemma lead_GK j s : GK j s -> lead A k s = k_lead A k ins0 out0 + Z.of_nat j.
Proof. destruct s as [[m ins] out]. intros (-> & -> & _ & _). cbn [lead]. apply lead_shift. Qed.

Lemma scalar_iter : runScalar A k m0 ins0 out0 size = match iter N (one A (k_op A k)) (m0, ins0, out0) with Some s => Some (fst (fst s)) | None => None end.
Proof.
  unfold runScalar. set (sentinel := k_lead A k ins0 out0 + size).
  rewrite (plain (state A) (one A (k_op A k)) (fun s => lead A k s <? sentinel) N GK).
  - destruct (iter N _ _); reflexivity.
  - apply one_ok.
  - intros j s HG. rewrite (lead_GK j s HG). unfold sentinel, N.
    destruct (Z.ltb_spec (k_lead A k ins0 out0 + Z.of_nat j) (k_lead A k ins0 out0 + size)), (Nat.ltb_spec j (Z.to_nat size)); try reflexivity; lia.
  - exact GK0.
  - unfold N. lia.
Qed.

Lemma sse_iter : runSSE A k m0 ins0 out0 size = match iter N (one A (k_op A k)) (m0, ins0, out0) with Some s => Some (fst (fst s)) | None => None end.
Proof.
  unfold runSSE. set (sentinel := k_lead A k ins0 out0 + size). set (lastA := prevAligned sentinel).
  pose proof (prevAligned_spec sentinel) as [PA PB]. fold lastA in PA, PB.
  pose proof (three (state A) (state A) (one A (k_op A k)) (four A (k_vop A k)) (fun s => Some s) (fun t => t)
    (fun s => let '(_, ins, out) := s in (any_unaligned (k_checked A k) ins || unaligned out) && (lead A k s <? lastA))
    (fun s => lead A k s <? sentinel) (fun s => lead A k s <? lastA) N GK
    (fun j t s => t = s /\ (lead A k s < lastA -> all_aligned s))) as TH.
  specialize (TH (one_ok _)).
  rewrite <- TH with (fuel := (Z.to_nat size + 1)%nat); clear TH.
  - unfold bind, state.
    match goal with |- match ?w with _ => _ end = _ => destruct w as [s1|]; [|reflexivity] end.
    match goal with |- match ?w with _ => _ end = _ => destruct w as [s2|]; [|reflexivity] end.
    match goal with |- match ?w with _ => _ end = _ => destruct w; reflexivity end.
  - intros j s HG. rewrite (lead_GK j s HG). unfold sentinel, N.
    destruct (Z.ltb_spec (k_lead A k ins0 out0 + Z.of_nat j) (k_lead A k ins0 out0 + size)), (Nat.ltb_spec j (Z.to_nat size)); try reflexivity; lia.
  - intros j s HG C. assert (HL : lead A k s < lastA).
    { destruct s as [[m ins] out]. apply andb_true_iff in C. destruct C as [_ C]. apply Z.ltb_lt. exact C. }
    rewrite (lead_GK j s HG) in HL. unfold N, sentinel in *. lia.
  - intros j s HG _ C. exists s. split; [reflexivity|]. split; [reflexivity|]. intros HL.
    destruct s as [[m ins] out]. cbv beta iota in C. apply Z.ltb_lt in HL. rewrite HL, andb_true_r in C.
    apply orb_false_iff in C. destruct C as [C1 C2]. rewrite checked in C1. cbn [all_aligned]. split.
    + apply (any_unaligned_spec ins ins0); [|exact C1]. destruct HG as [-> _]. rewrite map_length. reflexivity.
    + apply unaligned_false. exact C2.
  - intros j t s [-> HA] HG HJ C. apply Z.ltb_lt in C. specialize (HA C).
    assert (HL : (j + 4 <= N)%nat).
    { assert (LM : lead A k s mod 4 = 0) by (destruct s as [[m ins] out]; destruct HA; apply lead_aligned; assumption).
      pose proof (aligned_le _ _ LM PA C) as H4. rewrite (lead_GK j s HG) in H4. unfold N, sentinel in *. lia. }
    split; [exact HL|]. intros s' E. exists s'. rewrite (four_is_four_ones j s HG HL HA). split; [exact E|]. split; [reflexivity|]. intros _.
    destruct (iter_G (state A) (one A (k_op A k)) N GK (one_ok _) 4 j s HG HL) as [s2 [E2 G2]].
    rewrite E in E2. injection E2 as <-. destruct s as [[m ins] out], s' as [[m' ins'] out'].
    destruct HG as (-> & -> & _ & _). destruct G2 as (-> & -> & _ & _). destruct HA as [HA HB]. cbn [all_aligned].
    replace (Z.of_nat (j + 4)) with (Z.of_nat j + 4) by lia. split.
    + rewrite <- (map_shift ins0 (Z.of_nat j) 4). apply Forall_forall. intros q Hq. apply in_map_iff in Hq. destruct Hq as [p [<- Hp]].
      apply mod4_add. eapply Forall_forall in HA; [exact HA|exact Hp].
    + replace (out0 + (Z.of_nat j + 4)) with (out0 + Z.of_nat j + 4) by lia. apply mod4_add. exact HB.
  - intros j t s [-> _] _. reflexivity.
  - exact GK0.
  - unfold N. lia.
Qed.

Lemma agree : runSSE A k m0 ins0 out0 size = runScalar A k m0 ins0 out0 size /\ exists m', runScalar A k m0 ins0 out0 size = Some m'.
Proof.
  rewrite sse_iter, scalar_iter. split; [reflexivity|].
  destruct (plain_some (state A) (one A (k_op A k)) N GK (one_ok _) _ GK0) as [s' [E _]]. rewrite E. eauto.
Qed.

(** What is written, when the output is apart from each input or is that input. *)
Hypothesis apart : Forall (fun p => p = out0 \/ p + size <= out0 \/ out0 + size <= p) ins0.

Definition written (j : Z) (q : Z) : option A :=
  if (out0 <=? q) && (q <? out0 + j)
  then let* vs := lds A m0 (map (fun p => p + (q - out0)) ins0) in let* o := m0 q in Some (k_op A k vs o)
  else m0 q.

Lemma values : exists m', runScalar A k m0 ins0 out0 size = Some m' /\ forall q, m' q = written size q.
Proof.
  destruct (plain_some (state A) (one A (k_op A k)) N
    (fun j s => GK j s /\ forall q, fst (fst s) q = written (Z.of_nat j) q)) with (s := (m0, ins0, out0)) as [s' [E [_ W]]].
  - intros j [[m ins] out] [HG W] HJ. destruct (one_ok (k_op A k) j _ HG HJ) as [s' [E G']]. exists s'. split; [exact E|].
    split; [exact G'|]. destruct HG as (-> & -> & HI & HO). cbn [one fst] in *.
    assert (HJ' : Z.of_nat j < size) by (unfold N in *; lia).
    assert (HLO : m (out0 + Z.of_nat j) = m0 (out0 + Z.of_nat j)).
    { rewrite W. unfold written. destruct (Z.leb_spec out0 (out0 + Z.of_nat j)), (Z.ltb_spec (out0 + Z.of_nat j) (out0 + Z.of_nat j)); try lia; reflexivity. }
    assert (HLS : lds A m (map (fun p => p + Z.of_nat j) ins0) = lds A m0 (map (fun p => p + Z.of_nat j) ins0)).
    { assert (W' : forall q, ~ (out0 <= q < out0 + Z.of_nat j) -> m q = m0 q).
      { intros q Hq. rewrite W. unfold written.
        destruct (Z.leb_spec out0 q), (Z.ltb_spec q (out0 + Z.of_nat j)); try lia; reflexivity. }
      assert (X : forall l, Forall (fun p => p = out0 \/ p + size <= out0 \/ out0 + size <= p) l ->
        lds A m (map (fun p => p + Z.of_nat j) l) = lds A m0 (map (fun p => p + Z.of_nat j) l)).
      { induction 1 as [|p l Hp _ IH]; [reflexivity|]. cbn [map lds]. rewrite IH. unfold ld. rewrite W' by lia. reflexivity. }
      exact (X ins0 apart). }
    rewrite HLS in E. destruct (lds A m0 (map (fun p => p + Z.of_nat j) ins0)) as [vs|] eqn:EL; [|discriminate E]. cbn [bind] in E.
    unfold ld in E. destruct (m (out0 + Z.of_nat j)) as [o|] eqn:EO; [|discriminate E]. cbn [bind] in E.
    unfold st in E. rewrite EO in E. cbn [bind] in E. injection E as <-. cbn [fst]. intros q.
    destruct (Z.eqb_spec q (out0 + Z.of_nat j)) as [->|NQ].
    + unfold written. replace (Z.of_nat (j + 1)) with (Z.of_nat j + 1) by lia.
      destruct (Z.leb_spec out0 (out0 + Z.of_nat j)); [|lia]. destruct (Z.ltb_spec (out0 + Z.of_nat j) (out0 + (Z.of_nat j + 1))); [|lia].
      cbn [andb]. replace (out0 + Z.of_nat j - out0) with (Z.of_nat j) by lia. rewrite EL. cbn [bind]. rewrite <- HLO. reflexivity.
    + rewrite W. unfold written. replace (Z.of_nat (j + 1)) with (Z.of_nat j + 1) by lia.
      destruct (Z.leb_spec out0 q), (Z.ltb_spec q (out0 + Z.of_nat j)), (Z.ltb_spec q (out0 + (Z.of_nat j + 1))); try lia; reflexivity.
  - split; [exact GK0|]. cbn [fst]. intros q. unfold written.
    destruct (Z.leb_spec out0 q), (Z.ltb_spec q (out0 + Z.of_nat 0)); try lia; reflexivity.
  - rewrite scalar_iter, E. eexists. split; [reflexivity|]. intros q. rewrite W. unfold written, N. rewrite Z2Nat.id by exact Hsize. reflexivity.
Qed.

End Kernel.

(** ** The operations *)
Variables add sub mul div : A -> A -> A.
Variable lt : A -> A -> bool.

Lemma lead_out (ins : list Z) (out : Z) (f g : list A -> A -> A) c : forall j,
  k_lead A (Kernel A f g c byOutput) (map (fun p => p + j) ins) (out + j) = k_lead A (Kernel A f g c byOutput) ins out + j.
Proof. reflexivity. Qed.

(** C80: each of these operations gives with vectors exactly the memory that it gives without, and neither leaves its buffers nor traps,
    for every alignment of the pointers, every size and every overlap of the buffers. *)
Theorem C80_gain1 : forall g m input output size, 0 <= size -> mapped m input size -> mapped m output size ->
  runSSE A (gain1K A mul g) m [input] output size = runScalar A (gain1K A mul g) m [input] output size /\
  exists m', runScalar A (gain1K A mul g) m [input] output size = Some m'.
Proof. intros. apply agree; auto. Qed.

Theorem C80_gain : forall m gain input output size, 0 <= size -> mapped m gain size -> mapped m input size -> mapped m output size ->
  runSSE A (gainK A mul) m [gain; input] output size = runScalar A (gainK A mul) m [gain; input] output size /\
  exists m', runScalar A (gainK A mul) m [gain; input] output size = Some m'.
Proof. intros. apply agree; auto. Qed.

Theorem C80_add : forall m input output size, 0 <= size -> mapped m input size -> mapped m output size ->
  runSSE A (addK A add) m [input] output size = runScalar A (addK A add) m [input] output size /\
  exists m', runScalar A (addK A add) m [input] output size = Some m'.
Proof. intros. apply agree; auto. Qed.

Theorem C80_subtract : forall m input output size, 0 <= size -> mapped m input size -> mapped m output size ->
  runSSE A (subtractK A sub) m [input] output size = runScalar A (subtractK A sub) m [input] output size /\
  exists m', runScalar A (subtractK A sub) m [input] output size = Some m'.
Proof. intros. apply agree; auto. Qed.

Theorem C80_add1 : forall v m output size, 0 <= size -> mapped m output size ->
  runSSE A (add1K A add v) m [] output size = runScalar A (add1K A add v) m [] output size /\
  exists m', runScalar A (add1K A add v) m [] output size = Some m'.
Proof. intros. apply agree; auto. Qed.

Theorem C80_subtract1 : forall v m output size, 0 <= size -> mapped m output size ->
  runSSE A (subtract1K A sub v) m [] output size = runScalar A (subtract1K A sub v) m [] output size /\
  exists m', runScalar A (subtract1K A sub v) m [] output size = Some m'.
Proof. intros. apply agree; auto. Qed.

Theorem C80_copy : forall m input output size, 0 <= size -> mapped m input size -> mapped m output size ->
  runSSE A (copyK A) m [input] output size = runScalar A (copyK A) m [input] output size /\
  exists m', runScalar A (copyK A) m [input] output size = Some m'.
Proof.
  intros. apply agree; auto.
  intros ins out HF HO. cbn [k_lead copyK byInput]. destruct HF; assumption.
Qed.

(** These two add or multiply the other way round with vectors; the arithmetic has to be commutative, as that of floats is. *)
Theorem C80_multiplyAdd1 : (forall x y, add x y = add y x) -> forall g m input output size, 0 <= size -> mapped m input size -> mapped m output size ->
  runSSE A (multiplyAdd1K A add mul g) m [input] output size = runScalar A (multiplyAdd1K A add mul g) m [input] output size /\
  exists m', runScalar A (multiplyAdd1K A add mul g) m [input] output size = Some m'.
Proof. intros. apply agree; auto. intros [|x [|? ?]] o; cbn; auto. Qed.

Theorem C80_multiplyMul1 : (forall x y, mul x y = mul y x) -> forall g m input output size, 0 <= size -> mapped m input size -> mapped m output size ->
  runSSE A (multiplyMul1K A mul g) m [input] output size = runScalar A (multiplyMul1K A mul g) m [input] output size /\
  exists m', runScalar A (multiplyMul1K A mul g) m [input] output size = Some m'.
Proof. intros. apply agree; auto. intros [|x [|? ?]] o; cbn; auto. Qed.

(** Clamping, when the comparison is that of a linear order (no NaN). *)
Theorem C80_clampAll : (forall x, lt x x = false) -> (forall x y z, lt x y = true -> lt y z = true -> lt x z = true) ->
  (forall x y, lt x y = false -> lt y x = false -> x = y) ->
  forall low high m input size, 0 <= size -> mapped m input size ->
  runSSE A (clampAllK A lt low high) m [] input size = runScalar A (clampAllK A lt low high) m [] input size /\
  exists m', runScalar A (clampAllK A lt low high) m [] input size = Some m'.
Proof.
  intros Irr Tr Tot low high m input size HS HM. apply agree; auto. intros [|? ?] o; cbn [k_op k_vop clampAllK nul]; [|reflexivity].
  unfold clampScalar, maxps, minps.
  destruct (lt o high) eqn:E1; destruct (lt high o) eqn:E2.
  - pose proof (Tr _ _ _ E1 E2) as X. rewrite Irr in X. discriminate X.
  - destruct (lt low o) eqn:E3, (lt o low) eqn:E4; try reflexivity.
    + pose proof (Tr _ _ _ E3 E4) as X. rewrite Irr in X. discriminate X.
    + symmetry. apply Tot; assumption.
  - destruct (lt low high) eqn:E3, (lt high low) eqn:E4; try reflexivity.
    + pose proof (Tr _ _ _ E3 E4) as X. rewrite Irr in X. discriminate X.
    + symmetry. apply Tot; assumption.
  - rewrite (Tot _ _ E1 E2). destruct (lt low high) eqn:E3, (lt high low) eqn:E4; try reflexivity.
    + pose proof (Tr _ _ _ E3 E4) as X. rewrite Irr in X. discriminate X.
    + symmetry. apply Tot; assumption.
Qed.

(** These three do not ask one of their pointers for its alignment. They agree when that pointer is aligned like another that is asked. *)
Lemma agree_skip : forall (op vop : list A -> A -> A) (c1 c2 : bool) m p1 p2 out size,
  (forall vs o, vop vs o = op vs o) -> 0 <= size -> mapped m p1 size -> mapped m p2 size -> mapped m out size ->
  (c1 = true \/ p1 mod 4 = out mod 4) -> (c2 = true \/ p2 mod 4 = out mod 4) ->
  let k := Kernel A op vop [c1; c2] byOutput in let kk := Kernel A op vop [true; true] byOutput in
  runSSE A k m [p1; p2] out size = runSSE A kk m [p1; p2] out size.
Proof.
  intros op vop c1 c2 m p1 p2 out size Hs HS H1 H2 HO C1 C2 k kk. unfold runSSE. cbn [k_lead k k_checked kk k_op k_vop].
  set (f := fun (c : list bool) (s : state A) => let '(_, ins, o) := s in (any_unaligned c ins || unaligned o) && (lead A kk s <? prevAligned (out + size))).
  assert (E : forall fuel d mm, while_ fuel (f [c1; c2]) (one A op) (mm, [p1 + d; p2 + d], out + d) =
                                while_ fuel (f [true; true]) (one A op) (mm, [p1 + d; p2 + d], out + d)).
  { induction fuel as [|fuel IH]; intros d mm; [reflexivity|]. cbn [while_].
    replace (f [c1; c2] (mm, [p1 + d; p2 + d], out + d)) with (f [true; true] (mm, [p1 + d; p2 + d], out + d)).
    - destruct (f [true; true] _); [|reflexivity]. unfold one at 1 3. cbn [lds].
      destruct (ld A mm (p1 + d)); cbn [bind]; [|reflexivity]. destruct (ld A mm (p2 + d)); cbn [bind]; [|reflexivity].
      destruct (ld A mm (out + d)); cbn [bind]; [|reflexivity]. destruct (st A mm (out + d) _); cbn [bind]; [|reflexivity].
      cbn [map]. rewrite <- !Z.add_assoc. apply IH.
    - unfold f. cbn [any_unaligned]. 
      assert (U : forall c p, c = true \/ p mod 4 = out mod 4 -> (c && unaligned (p + d)) || unaligned (out + d) = unaligned (p + d) || unaligned (out + d)).
      { intros c p [->|H]; [reflexivity|]. unfold unaligned. rewrite (Zplus_mod p), H, <- Zplus_mod.
        destruct c, ((out + d) mod 4 =? 0); reflexivity. }
      f_equal. pose proof (U c1 p1 C1) as U1. pose proof (U c2 p2 C2) as U2.
      destruct c1, c2, (unaligned (p1 + d)), (unaligned (p2 + d)), (unaligned (out + d)); cbn in *; try reflexivity; discriminate. }
  specialize (E (Z.to_nat size + 1)%nat 0 m). rewrite !Z.add_0_r in E.
  match goal with |- bind ?x ?F = bind ?y ?F' =>
    change (bind (while_ (Z.to_nat size + 1)%nat (f [c1; c2]) (one A op) (m, [p1; p2], out)) F' =
            bind (while_ (Z.to_nat size + 1)%nat (f [true; true]) (one A op) (m, [p1; p2], out)) F') end.
  rewrite E. reflexivity.
Qed.

Theorem C80_divide : forall m input divisor output size, 0 <= size -> mapped m input size -> mapped m divisor size -> mapped m output size ->
  divisor mod 4 = output mod 4 ->
  runSSE A (divideK A div) m [input; divisor] output size = runScalar A (divideK A div) m [input; divisor] output size /\
  exists m', runScalar A (divideK A div) m [input; divisor] output size = Some m'.
Proof.
  intros m i d o size HS HI HD HO HA. unfold divideK. rewrite agree_skip by auto.
  apply (agree (Kernel A (bin A (fun x d0 _ => div x d0)) (bin A (fun x d0 _ => div x d0)) [true; true] byOutput)); auto.
Qed.

Theorem C80_multiplyAdd : (forall x y, add x y = add y x) ->
  forall m gain input output size, 0 <= size -> mapped m gain size -> mapped m input size -> mapped m output size -> gain mod 4 = output mod 4 ->
  runSSE A (multiplyAddK A add mul) m [gain; input] output size = runScalar A (multiplyAddK A add mul) m [gain; input] output size /\
  exists m', runScalar A (multiplyAddK A add mul) m [gain; input] output size = Some m'.
Proof.
  intros HC m g i o size HS HG HI HO HA. unfold multiplyAddK.
  assert (SM : forall vs x, bin A (fun g x o => add (mul g x) o) vs x = bin A (fun g x o => add o (mul g x)) vs x).
  { intros [|? [|? [|? ?]]] x; cbn [bin]; auto. }
  rewrite agree_skip by auto.
  apply (agree (Kernel A (bin A (fun g x o => add o (mul g x))) (bin A (fun g x o => add (mul g x) o)) [true; true] byOutput)); auto.
Qed.

Theorem C80_multiplyMul : (forall x y, mul x y = mul y x) ->
  forall m gain input output size, 0 <= size -> mapped m gain size -> mapped m input size -> mapped m output size -> gain mod 4 = output mod 4 ->
  runSSE A (multiplyMulK A mul) m [gain; input] output size = runScalar A (multiplyMulK A mul) m [gain; input] output size /\
  exists m', runScalar A (multiplyMulK A mul) m [gain; input] output size = Some m'.
Proof.
  intros HC m g i o size HS HG HI HO HA. unfold multiplyMulK.
  assert (SM : forall vs x, bin A (fun g x o => mul (mul g x) o) vs x = bin A (fun g x o => mul o (mul g x)) vs x).
  { intros [|? [|? [|? ?]]] x; cbn [bin]; auto. }
  rewrite agree_skip by auto.
  apply (agree (Kernel A (bin A (fun g x o => mul o (mul g x))) (bin A (fun g x o => mul (mul g x) o)) [true; true] byOutput)); auto.
Qed.

(** What the operations write: each sample of the output is the result for the samples of the inputs at its index, nothing else changes.
    The output may be one of the inputs; otherwise it is apart from them. *)
Definition apart_or_same (p out size : Z) : Prop := p = out \/ p + size <= out \/ out + size <= p.

Lemma values1 (f : A -> A -> A) : forall m p out size, 0 <= size -> mapped m p size -> mapped m out size -> apart_or_same p out size ->
  forall g c, exists m', runScalar A (Kernel A (un A f) g c byOutput) m [p] out size = Some m' /\
    (forall i, 0 <= i < size -> exists x o, m (p + i) = Some x /\ m (out + i) = Some o /\ m' (out + i) = Some (f x o)) /\
    (forall q, ~ (out <= q < out + size) -> m' q = m q).
Proof.
  intros m p out size HS HP HO HA g c.
  destruct (values (Kernel A (un A f) g c byOutput) m [p] out size HS (lead_out _ _ _ _ _)) as [m' [E W]]; auto.
  exists m'. split; [exact E|]. split.
  - intros i Hi. specialize (W (out + i)). unfold written in W.
    destruct (Z.leb_spec out (out + i)), (Z.ltb_spec (out + i) (out + size)); try lia. cbn [andb map lds] in W.
    replace (out + i - out) with i in W by lia. unfold ld in W.
    pose proof (HP (p + i) ltac:(lia)) as N1. pose proof (HO (out + i) ltac:(lia)) as N2.
    destruct (m (p + i)) as [x|]; [|contradiction]. destruct (m (out + i)) as [o|]; [|contradiction].
    exists x, o. auto.
  - intros q Hq. rewrite W. unfold written. destruct (Z.leb_spec out q), (Z.ltb_spec q (out + size)); try lia; reflexivity.
Qed.

Lemma values2 (f : A -> A -> A -> A) : forall m p p2 out size, 0 <= size -> mapped m p size -> mapped m p2 size -> mapped m out size ->
  apart_or_same p out size -> apart_or_same p2 out size ->
  forall g c, exists m', runScalar A (Kernel A (bin A f) g c byOutput) m [p; p2] out size = Some m' /\
    (forall i, 0 <= i < size -> exists x y o, m (p + i) = Some x /\ m (p2 + i) = Some y /\ m (out + i) = Some o /\ m' (out + i) = Some (f x y o)) /\
    (forall q, ~ (out <= q < out + size) -> m' q = m q).
Proof.
  intros m p p2 out size HS HP HP2 HO HA HA2 g c.
  destruct (values (Kernel A (bin A f) g c byOutput) m [p; p2] out size HS (lead_out _ _ _ _ _)) as [m' [E W]]; auto.
  exists m'. split; [exact E|]. split.
  - intros i Hi. specialize (W (out + i)). unfold written in W.
    destruct (Z.leb_spec out (out + i)), (Z.ltb_spec (out + i) (out + size)); try lia. cbn [andb map lds] in W.
    replace (out + i - out) with i in W by lia. unfold ld in W.
    pose proof (HP (p + i) ltac:(lia)) as N1. pose proof (HP2 (p2 + i) ltac:(lia)) as N3. pose proof (HO (out + i) ltac:(lia)) as N2.
    destruct (m (p + i)) as [x|]; [|contradiction]. destruct (m (p2 + i)) as [y|]; [|contradiction].
    destruct (m (out + i)) as [o|]; [|contradiction]. exists x, y, o. auto.
  - intros q Hq. rewrite W. unfold written. destruct (Z.leb_spec out q), (Z.ltb_spec q (out + size)); try lia; reflexivity.
Qed.

Theorem C80_gain_value : forall m gain input output size, 0 <= size -> mapped m gain size -> mapped m input size -> mapped m output size ->
  apart_or_same gain output size -> apart_or_same input output size ->
  exists m', runSSE A (gainK A mul) m [gain; input] output size = Some m' /\
    (forall i, 0 <= i < size -> exists g x, m (gain + i) = Some g /\ m (input + i) = Some x /\ m' (output + i) = Some (mul g x)) /\
    (forall q, ~ (output <= q < output + size) -> m' q = m q).
Proof.
  intros m g p o size HS HG HP HO A1 A2. rewrite (proj1 (C80_gain m g p o size HS HG HP HO)).
  destruct (values2 (fun g x _ => mul g x) m g p o size HS HG HP HO A1 A2 (bin A (fun g x _ => mul g x)) [true; true]) as (m' & E & V & U).
  exists m'. split; [exact E|]. split; [|exact U]. intros i Hi. destruct (V i Hi) as (x & y & z & X & Y & _ & R). eauto.
Qed.

Theorem C80_gain1_value : forall g m input output size, 0 <= size -> mapped m input size -> mapped m output size ->
  apart_or_same input output size ->
  exists m', runSSE A (gain1K A mul g) m [input] output size = Some m' /\
    (forall i, 0 <= i < size -> exists x, m (input + i) = Some x /\ m' (output + i) = Some (mul g x)) /\
    (forall q, ~ (output <= q < output + size) -> m' q = m q).
Proof.
  intros g m p o size HS HP HO A1. rewrite (proj1 (C80_gain1 g m p o size HS HP HO)).
  destruct (values1 (fun x _ => mul g x) m p o size HS HP HO A1 (un A (fun x _ => mul g x)) [true]) as (m' & E & V & U).
  exists m'. split; [exact E|]. split; [|exact U]. intros i Hi. destruct (V i Hi) as (x & y & X & _ & R). eauto.
Qed.

Theorem C80_add_value : forall m input output size, 0 <= size -> mapped m input size -> mapped m output size ->
  apart_or_same input output size ->
  exists m', runSSE A (addK A add) m [input] output size = Some m' /\
    (forall i, 0 <= i < size -> exists x o, m (input + i) = Some x /\ m (output + i) = Some o /\ m' (output + i) = Some (add o x)) /\
    (forall q, ~ (output <= q < output + size) -> m' q = m q).
Proof.
  intros m p o size HS HP HO A1. rewrite (proj1 (C80_add m p o size HS HP HO)).
  exact (values1 (fun x o => add o x) m p o size HS HP HO A1 (un A (fun x o => add o x)) [true]).
Qed.

Theorem C80_subtract_value : forall m input output size, 0 <= size -> mapped m input size -> mapped m output size ->
  apart_or_same input output size ->
  exists m', runSSE A (subtractK A sub) m [input] output size = Some m' /\
    (forall i, 0 <= i < size -> exists x o, m (input + i) = Some x /\ m (output + i) = Some o /\ m' (output + i) = Some (sub o x)) /\
    (forall q, ~ (output <= q < output + size) -> m' q = m q).
Proof.
  intros m p o size HS HP HO A1. rewrite (proj1 (C80_subtract m p o size HS HP HO)).
  exact (values1 (fun x o => sub o x) m p o size HS HP HO A1 (un A (fun x o => sub o x)) [true]).
Qed.

Theorem C80_multiplyAdd_value : (forall x y, add x y = add y x) ->
  forall m gain input output size, 0 <= size -> mapped m gain size -> mapped m input size -> mapped m output size -> gain mod 4 = output mod 4 ->
  apart_or_same gain output size -> apart_or_same input output size ->
  exists m', runSSE A (multiplyAddK A add mul) m [gain; input] output size = Some m' /\
    (forall i, 0 <= i < size -> exists g x o, m (gain + i) = Some g /\ m (input + i) = Some x /\ m (output + i) = Some o /\
       m' (output + i) = Some (add o (mul g x))) /\
    (forall q, ~ (output <= q < output + size) -> m' q = m q).
Proof.
  intros HC m g p o size HS HG HP HO HA A1 A2. rewrite (proj1 (C80_multiplyAdd HC m g p o size HS HG HP HO HA)).
  exact (values2 (fun g x o => add o (mul g x)) m g p o size HS HG HP HO A1 A2 (bin A (fun g x o => add (mul g x) o)) [false; true]).
Qed.

End Elementwise.

(** ** Cases *)
(** Ten samples that start at address 3, in place: one before, two times four, one after. Cells outside do not belong to the program. *)
Definition cells (p n : Z) : mem Z := fun q => if (p <=? q) && (q <? p + n) then Some (q - p + 1) else None.
Example C80_gain1_ex :
  option_map (fun m => map m [2; 3; 4; 7; 8; 12; 13]) (runSSE Z (gain1K Z Z.mul 3) (cells 3 10) [3] 3 10) =
    Some [None; Some 3; Some 6; Some 15; Some 18; Some 30; None] /\ mapped Z (cells 3 10) 3 10.
Proof.
  split; [vm_compute; reflexivity|]. intros q Hq. unfold cells.
  destruct (Z.leb_spec 3 q), (Z.ltb_spec q (3 + 10)); try lia. intros X; discriminate X.
Qed.

(** Pointers that never align together: input at 0, output at 1 of the same buffer; each sample spreads as in the plain loop. *)
Example C80_overlap_ex :
  option_map (fun m => map m [0; 1; 2; 8; 9]) (runSSE Z (addK Z Z.add) (cells 0 10) [0] 1 9) =
    Some [Some 1; Some 3; Some 6; Some 45; Some 55].
Proof. vm_compute. reflexivity. Qed.

(** A defect: dividing traps when the divisor is not aligned like the others; the plain loop does not. Likewise multiplyAdd and
    multiplyMul with the gain. *)
Theorem C80_unchecked_refuted : let m := cells 0 16 in
  mapped Z m 0 4 /\ mapped Z m 5 4 /\ mapped Z m 12 4 /\
  runSSE Z (divideK Z Z.div) m [0; 5] 12 4 = None /\ runScalar Z (divideK Z Z.div) m [0; 5] 12 4 <> None /\
  runSSE Z (multiplyAddK Z Z.add Z.mul) m [5; 0] 12 4 = None /\ runScalar Z (multiplyAddK Z Z.add Z.mul) m [5; 0] 12 4 <> None /\
  runSSE Z (multiplyMulK Z Z.mul) m [5; 0] 12 4 = None /\ runScalar Z (multiplyMulK Z Z.mul) m [5; 0] 12 4 <> None.
Proof.
  assert (M : forall p, 0 <= p -> p + 4 <= 16 -> mapped Z (cells 0 16) p 4).
  { intros p H1 H2 q Hq. unfold cells. destruct (Z.leb_spec 0 q), (Z.ltb_spec q (0 + 16)); try lia. intros X; discriminate X. }
  cbv zeta. split; [apply M; lia|]. split; [apply M; lia|]. split; [apply M; lia|].
  split; [vm_compute; reflexivity|]. split; [vm_compute; intros H; discriminate H|].
  split; [vm_compute; reflexivity|]. split; [vm_compute; intros H; discriminate H|].
  split; [vm_compute; reflexivity|]. vm_compute; intros H; discriminate H.
Qed.

(** A difference: a sample that is not a number (here [None], below and above nothing) is kept by the plain clamp and becomes the upper
    bound in the vector clamp. *)
Definition ltn (x y : option Z) : bool := match x, y with Some x, Some y => x <? y | _, _ => false end.
Theorem C80_clamp_nan_refuted : let m := fun q : Z => if (0 <=? q) && (q <? 4) then Some (@None Z) else None in
  option_map (fun m => m 0) (runScalar _ (clampAllK _ ltn (Some 0) (Some 1)) m [] 0 4) = Some (Some None) /\
  option_map (fun m => m 0) (runSSE _ (clampAllK _ ltn (Some 0) (Some 1)) m [] 0 4) = Some (Some (Some 1)).
Proof. split; vm_compute; reflexivity. Qed.
