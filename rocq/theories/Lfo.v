(** Phases (C38) and low frequency oscillators (C62). *)
From Coq Require Import QArith Qround Qabs Qminmax ZArith List Lia Bool Lqa Setoid.
Import ListNotations.
From Verif Require Import AdsrModel AdsrRange CcEnvModel Rounding LfoModel.
From Verif Require Smoother Clock.
Open Scope Q_scope.
Notation exact := Smoother.exact.

Lemma trunc_pos x : 0 <= x -> Qtrunc x = Qfloor x.
Proof. intros H. unfold Qtrunc. apply Qle_bool_iff in H. now rewrite H. Qed.
Lemma trunc_neg x : x < 0 -> Qtrunc x = (- Qfloor (- x))%Z.
Proof. intros H. unfold Qtrunc. apply (proj2 (Qle_bool_nspec 0 x)) in H. now rewrite H. Qed.
Lemma floor_bounds x : inject_Z (Qfloor x) <= x < inject_Z (Qfloor x) + 1.
Proof. split; [apply Qfloor_le|]. pose proof (Qlt_floor x) as L. rewrite inject_Z_plus in L. exact L. Qed.
(** C38: with exact arithmetic a wrapped phase is in [0,1) and differs from the phase by a whole number. *)
Theorem C38_wrap x : 0 <= wrapPhase exact x < 1 /\ exists k, wrapPhase exact x == x - inject_Z k.
Proof.
  unfold wrapPhase, exact. destruct (Qlt_le_dec x 0) as [N|P].
  - rewrite (trunc_neg x N). rewrite inject_Z_opp. pose proof (floor_bounds (- x)) as [F1 F2]. set (f := Qfloor (- x)) in *.
    destruct (Qltb (x - - inject_Z f) 0) eqn:L.
    + apply Qltb_spec in L. split; [split; lra|]. exists (- f - 1)%Z. unfold Z.sub. rewrite inject_Z_plus, !inject_Z_opp. change (inject_Z 1) with 1. ring.
    + apply Qltb_nspec in L. split; [split; lra|]. exists (- f)%Z. rewrite inject_Z_opp. reflexivity.
  - rewrite (trunc_pos x P). pose proof (floor_bounds x) as [F1 F2]. destruct (Qltb (x - inject_Z (Qfloor x)) 0) eqn:L.
    + apply Qltb_spec in L. lra.
    + split; [split; lra|]. exists (Qfloor x). reflexivity.
Qed.
(** C38: in binary32, for a phase that is not negative, the same: wrapping is exact there.  For a negative one, the
    result can be 1 but not more. *)
Theorem C38_wrap_float x : rep24 x ->
  rep24 (wrapPhase float24 x) /\ 0 <= wrapPhase float24 x <= 1 /\
  (0 <= x -> wrapPhase float24 x == x - inject_Z (Qfloor x) /\ wrapPhase float24 x < 1).
Proof.
  intros R. unfold wrapPhase. destruct (Qlt_le_dec x 0) as [N|P].
  - rewrite (trunc_neg x N), inject_Z_opp. pose proof (floor_bounds (- x)) as [F1 F2].
    assert (rep24 (x - - inject_Z (Qfloor (- x)))) as Rf.
    { eapply rep24_wd; [|apply rep24_opp, (rep24_frac (- x)); [lra|now apply rep24_opp]]. ring. }
    pose proof (float24_of_rep _ Rf) as E. set (w := float24 (x - - inject_Z (Qfloor (- x)))) in *.
    destruct (Qltb w 0) eqn:L.
    + apply Qltb_spec in L. split; [apply float24_rep|]. split; [|intros; lra].
      assert (float24 0 <= float24 (w + 1)) as A by (apply float24_mono; lra). assert (float24 (w + 1) <= float24 1) as B by (apply float24_mono; lra).
      change (float24 0) with 0 in A. change (float24 1) with 1 in B. lra.
    + apply Qltb_nspec in L. split; [apply float24_rep|]. split; [lra|intros; lra].
  - rewrite (trunc_pos x P). pose proof (floor_bounds x) as [F1 F2]. pose proof (float24_of_rep _ (rep24_frac x P R)) as E.
    destruct (Qltb (float24 (x - inject_Z (Qfloor x))) 0) eqn:L; [apply Qltb_spec in L; lra|].
    split; [apply float24_rep|]. split; [lra|]. intros _. split; [exact E|lra].
Qed.
(** C38: a small negative phase wraps to 1, and the step chosen is one past the last. *)
Theorem C38_wrap_rounding_refuted :
  let x := float24 (- (1 # 1000000000)) in rep24 x /\ wrapPhase float24 x = 1 /\ stepIndex float24 8 (wrapPhase float24 x) = 8%Z.
Proof. split; [apply float24_rep|]. split; vm_compute; reflexivity. Qed.
(** C38: for a phase in [0,1) the index of the step is in range, rounding included. *)
Theorem C38_step_index n p : (0 < n)%nat -> (Z.of_nat n < 2 ^ 24)%Z -> rep24 p -> 0 <= p < 1 ->
  (0 <= stepIndex float24 n p < Z.of_nat n)%Z.
Proof.
  intros N M R P. unfold stepIndex. set (q := inject_Z (Z.of_nat n)).
  assert (1 <= q < 16777216) as Q.
  { unfold q. change 1 with (inject_Z 1). change 16777216 with (inject_Z 16777216). rewrite <- Zle_Qle, <- Zlt_Qlt. change (2 ^ 24)%Z with 16777216%Z in M. lia. }
  pose proof (rep24_below_1 p R (proj2 P)) as B. set (x := p * q).
  assert (0 <= x <= q - q * (1 # 16777216)) as X by (unfold x; nra).
  assert (0 <= float24 x) as F0. { change 0 with (float24 0) at 1. apply float24_mono. lra. }
  assert (float24 x < q) as F1.
  { assert (rep24 q) as Rq by (apply rep24_Z; rewrite Z.abs_eq by lia; assumption).
    assert (~ q == 0) as Nz by lra. pose proof (ulp_spec q Nz) as [U1 U2]. rewrite (Qabs_pos q) in U1, U2 by lra. set (e := ulpExp q) in *.
    pose proof (p2_pos e) as Pe. set (u := Qpower 2 e) in *. change (Qpower 2 23) with (8388608 # 1) in U1. change (Qpower 2 24) with (16777216 # 1) in U2.
    assert (8388608 * u <= q < 16777216 * u) as [V1 V2].
    { assert (q == q / u * u) as E by (field; lra). split; rewrite E; nra. }
    (* the number before q *)
    assert (exists m, q == inject_Z m * u) as (m & Em).
    { destruct Rq as (m & e' & Hm & Eq). destruct (Z_le_gt_dec e e') as [L|L].
      - exists (m * 2 ^ (e' - e))%Z. rewrite inject_Z_mult, <- p2_Z by lia. unfold u. rewrite <- Qmult_assoc, <- p2_add. replace (e' - e + e)%Z with e' by lia. exact Eq.
      - exfalso. assert (Qpower 2 e' * 2 <= u) as L2.
        { unfold u. replace e with (e - (e' + 1) + (e' + 1))%Z by lia. rewrite (p2_add (e - (e' + 1))), p2_succ. rewrite (p2_Z (e - (e' + 1))) by lia.
          assert (1 <= inject_Z (2 ^ (e - (e' + 1)))) as G1. { change 1 with (inject_Z 1). rewrite <- Zle_Qle. pose proof (Z.pow_pos_nonneg 2 (e - (e' + 1)) ltac:(lia) ltac:(lia)). lia. }
          pose proof (p2_pos e'). nra. }
        assert (inject_Z m <= 16777215) as Lm. { change 16777215 with (inject_Z 16777215). rewrite <- Zle_Qle. change (2 ^ 24)%Z with 16777216%Z in Hm. lia. }
        pose proof (p2_pos e'). nra. }
    assert (8388608 <= m < 16777216)%Z as Bm.
    { split; [rewrite Zle_Qle; change (inject_Z 8388608) with 8388608|rewrite Zlt_Qlt; change (inject_Z 16777216) with 16777216].
      - destruct (Qlt_le_dec (inject_Z m) 8388608); [nra|assumption].
      - destruct (Qlt_le_dec (inject_Z m) 16777216); [assumption|nra]. }
    assert (float24 x <= q) as Le. { rewrite <- (float24_of_rep q Rq). apply float24_mono. lra. }
    destruct (Z.eq_dec m 8388608) as [E8|E8].
    - (* a power of two: half a unit below is a number *)
      assert (rep24 (q - (1 # 2) * u)) as Rp.
      { exists 16777215%Z, (e - 1)%Z. split; [reflexivity|]. pose proof (p2_succ (e - 1)) as S1. replace (e - 1 + 1)%Z with e in S1 by lia. fold u in S1.
        rewrite Em, E8. change (inject_Z 8388608) with 8388608. change (inject_Z 16777215) with 16777215. rewrite S1. ring. }
      assert (float24 x <= float24 (q - (1 # 2) * u)) as L. { apply float24_mono. rewrite Em, E8 in X. change (inject_Z 8388608) with 8388608 in X. rewrite Em, E8. change (inject_Z 8388608) with 8388608. lra. }
      rewrite (float24_of_rep _ Rp) in L. lra.
    - assert (rep24 (q - u)) as Rp.
      { exists (m - 1)%Z, e. split; [change (2 ^ 24)%Z with 16777216%Z; lia|]. unfold Z.sub. rewrite inject_Z_plus, Em. change (inject_Z (- (1))) with (-1). fold u. ring. }
      destruct (Qlt_le_dec (float24 x) q) as [L|L]; [exact L|]. exfalso. assert (float24 x == q) as Eq by lra.
      pose proof (float24_nearest x (q - u) Rp) as Ne. rewrite Eq in Ne.
      assert (8388609 <= inject_Z m) as Lm. { change 8388609 with (inject_Z 8388609). rewrite <- Zle_Qle. lia. }
      assert (q * (1 # 16777216) > (1 # 2) * u) as Gap by (rewrite Em; nra).
      revert Ne. apply Qabs_case; intros A1; apply Qabs_case; intros A2 Ne; try lra. }
  rewrite (trunc_pos _ F0). split.
  - rewrite <- (Qfloor_Z 0). now apply Qfloor_resp_le.
  - apply Z.lt_nge. intros C. rewrite Zle_Qle in C. pose proof (Qfloor_le (float24 x)). unfold q in F1. lra.
Qed.

(** ** The phases of an oscillator in binary32 *)
Definition phaseOk (p : Q) : Prop := rep24 p /\ 0 <= p <= 1.
Definition phaseIn (p : Q) : Prop := rep24 p /\ 0 <= p < 1.
Lemma wrap_ok x : rep24 x -> phaseOk (wrapPhase float24 x).
Proof. intros R. destruct (C38_wrap_float x R) as (A & B & _). split; assumption. Qed.
Lemma generate_ok n d u per : forall mods p l e, phaseOk p -> generate float24 n d u per mods p = (l, e) -> Forall phaseOk l /\ phaseOk e.
Proof.
  induction n as [|n IH]; intros mods p l e P G; cbn [generate] in G; [injection G as <- <-; auto|].
  destruct (generate float24 n d u per (option_map (tl (A:=Q)) mods) _) as [l' e'] eqn:E. injection G as <- <-.
  apply IH in E; [|apply wrap_ok, float24_rep]. destruct E. split; [constructor; assumption|assumption].
Qed.
Lemma offsets_ok d l : 0 <= d_phase0 d <= 1 -> Forall phaseOk l -> Forall phaseIn (offsets float24 d None l).
Proof.
  intros D F. induction F as [|p l P F IH]; cbn [offsets option_map]; constructor; [|exact IH].
  assert (0 <= float24 (p + d_phase0 d)) as Z. { change 0 with (float24 0) at 1. apply float24_mono. destruct P. lra. }
  destruct (C38_wrap_float _ (float24_rep (p + d_phase0 d))) as (A & B & C). destruct (C Z) as [_ C2]. split; [exact A|lra].
Qed.
Lemma addValues_some rnd f ps : (forall p, In p ps -> exists v, f p = Some v) -> forall out, exists r, addValues rnd f ps out = Some r.
Proof.
  induction ps as [|p ps IH]; intros H out; cbn [addValues]; [eauto|]. destruct out as [|o out]; [eauto|].
  destruct (H p (or_introl eq_refl)) as (v & ->). destruct (IH (fun q Hq => H q (or_intror Hq)) out) as (r & ->). eauto.
Qed.
Lemma stepValue_some steps u p : steps <> [] -> (Z.of_nat (length steps) < 2 ^ 24)%Z -> phaseIn p -> exists v, stepValue float24 steps u p = Some v.
Proof.
  intros Ne L [R P]. assert (0 < length steps)%nat as Lp by (destruct steps; [congruence|cbn; lia]).
  pose proof (C38_step_index (length steps) p Lp L R P) as I. unfold stepValue. destruct (Z.ltb_spec (stepIndex float24 (length steps) p) 0); [lia|].
  destruct (nth_error steps (Z.to_nat (stepIndex float24 (length steps) p))) eqn:E; [eauto|]. apply nth_error_None in E. lia.
Qed.
(** The states that occur, and the inputs without modulation of the phase. *)
Definition stateOk (o : lfo) : Prop := Forall phaseOk (o_phases o).
Definition clockOk (i : inputs) : Prop := forall c, i_clock i = Some c -> Forall (Forall phaseOk) c.
Lemma subs_some n d per i : 0 <= d_phase0 d <= 1 -> i_phaseMod i = None -> clockOk i ->
  (forall s, d_seq d = Some s -> (Z.of_nat (length s) < 2 ^ 24)%Z) ->
  forall l k phases out, Forall phaseOk phases -> exists out' ph', subs float24 n k d per i l phases out = Some (out', ph') /\ Forall phaseOk ph'.
Proof.
  intros D Pm Ck Sq. induction l as [|u l IH]; intros k phases out F; cbn [subs]; [eauto|].
  destruct (generatePhase float24 n k d u per i (hd 0 phases)) as [ps e] eqn:G.
  assert (phaseOk (hd 0 phases)) as Ph. { destruct F; [|assumption]. split; [apply rep24_0|cbn; lra]. }
  assert (Forall phaseIn ps /\ phaseOk e) as [Ps Pe].
  { unfold generatePhase in G. destruct (i_clock i) as [c|] eqn:Ec.
    - injection G as <- <-. rewrite Pm. split; [|assumption]. apply offsets_ok; [assumption|]. specialize (Ck c Ec).
      assert (Forall phaseOk (nth k c [])) as H. { destruct (Nat.lt_ge_cases k (length c)); [|rewrite nth_overflow by assumption; constructor]. rewrite Forall_forall in Ck. apply Ck. now apply nth_In. }
      rewrite Forall_forall in *. intros x Hx. apply H. rewrite <- (firstn_skipn n (nth k c [])). apply in_or_app. now left.
    - destruct (generate float24 n d u per (i_freqMod i) (hd 0 phases)) as [l' e'] eqn:E. injection G as <- <-. rewrite Pm.
      destruct (generate_ok _ _ _ _ _ _ _ _ Ph E). split; [now apply offsets_ok|assumption]. }
  assert (Forall phaseOk (tl phases)) as Ft by (destruct F; [constructor|assumption]).
  assert (forall f, (forall p, In p ps -> exists v, f p = Some v) ->
    exists out' ph', match addValues float24 f ps out with Some out => match subs float24 n (S k) d per i l (tl phases) out with Some (out, phases') => Some (out, e :: phases') | None => None end | None => None end = Some (out', ph') /\ Forall phaseOk ph') as Go.
  { intros f Hf. destruct (addValues_some float24 f ps Hf out) as (r & ->). destruct (IH (S k) (tl phases) r Ft) as (o' & p' & -> & Hp). exists o', (e :: p'). split; [reflexivity|]. now constructor. }
  destruct k as [|k].
  - destruct (d_seq d) as [[|s0 st]|] eqn:Es.
    + destruct (IH 1%nat (tl phases) out Ft) as (o' & p' & -> & Hp). exists o', (e :: p'). split; [reflexivity|]. now constructor.
    + apply Go. intros p Hp. apply stepValue_some; [discriminate|apply Sq; reflexivity|]. rewrite Forall_forall in Ps. now apply Ps.
    + apply Go. intros p _. eauto.
  - apply Go. intros p _. eauto.
Qed.
(** C38: without modulation of the phase, an oscillator in binary32 never reads outside its steps, whatever the
    frequency and its modulation, and however many blocks. *)
Theorem C38_lfo_in_range n d per i o : 0 <= d_phase0 d <= 1 -> i_phaseMod i = None -> clockOk i ->
  (forall s, d_seq d = Some s -> (Z.of_nat (length s) < 2 ^ 24)%Z) -> stateOk o ->
  exists out o', process float24 n d per i o = Some (out, o') /\ stateOk o'.
Proof.
  intros D Pm Ck Sq S. unfold process. destruct (d_sub d) as [|u l]; [eexists _, _; split; [reflexivity|]; exact S|].
  destruct (subs_some (n - Nat.min n (o_delay o)) d per i D Pm Ck Sq (u :: l) 0 (o_phases o) (repeat 0 (n - Nat.min n (o_delay o))) S) as (out & ph & E & F).
  cbn [o_phases o_delay o_fade o_fadeTime]. rewrite E. unfold fadeIn. cbn [o_fade o_fadeTime o_phases o_delay].
  destruct (Qle_bool 1 (o_fade o)); [eexists _, _; split; [reflexivity|]; exact F|].
  destruct (fadeLoop float24 (float24 (per / o_fadeTime o)) out (o_fade o)) as [l' e']. eexists _, _; split; [reflexivity|]. exact F.
Qed.
(** C38: with a modulation of the phase by less than half a unit below zero the read is outside. *)
Definition stepDesc : desc := Desc 0 0 (Some [1; 2; 3; 4]) [Sub Ramp 0 1 1].
Theorem C38_phase_modulation_refuted :
  process float24 1 stepDesc (1 # 48000) (Inputs None (Some [float24 (- (1 # 1000000000))]) None) (Lfo [0] 0 1 0) = None /\
  exists r, process float24 1 stepDesc (1 # 48000) (Inputs None (Some [float24 (- (1 # 1000))]) None) (Lfo [0] 0 1 0) = Some r.
Proof. split; [vm_compute; reflexivity|]. eexists. vm_compute. reflexivity. Qed.
Example C38_ex :
  map (wrapPhase Qred) [7 # 4; - (1 # 4); -3; 0; - (9 # 4)] = [3 # 4; 3 # 4; 0; 0; 3 # 4] /\
  map (stepIndex Qred 4) [0; 1 # 4; 999 # 1000] = [0; 1; 3]%Z /\
  option_map fst (process Qred 6 (Desc 1 (1 # 8) (Some [1; 2; 3; 4]) [Sub Ramp 0 1 1]) (1 # 5) (Inputs None None None) (Lfo [0] 0 1 0)) = Some [1; 2; 3; 3; 4; 1].
Proof. split; [vm_compute; reflexivity|]. split; vm_compute; reflexivity. Qed.

(** ** Block boundaries (C62) *)
(** What is left of the inputs after the first [n] frames. *)
Definition drop (n : nat) (i : inputs) : inputs :=
  Inputs (option_map (skipn n) (i_freqMod i)) (option_map (skipn n) (i_phaseMod i)) (option_map (map (skipn n)) (i_clock i)).
Definition unmodulated : inputs := Inputs None None None.
Section Blocks.
Variable rnd : Q -> Q.
Variables (d : desc) (per : Q).
Lemma skipn_S {A} n (l : list A) : skipn n (tl l) = skipn (S n) l.
Proof. destruct l; [now rewrite !skipn_nil|reflexivity]. Qed.
Lemma omap_skipn_S {A} n (l : option (list A)) : option_map (skipn n) (option_map (@tl A) l) = option_map (skipn (S n)) l.
Proof. destruct l; cbn [option_map]; [now rewrite skipn_S|reflexivity]. Qed.
Lemma generate_split b u : forall a mods p l1 e1 l2 e2, generate rnd a d u per mods p = (l1, e1) ->
  generate rnd b d u per (option_map (skipn a) mods) e1 = (l2, e2) -> generate rnd (a + b) d u per mods p = (l1 ++ l2, e2) /\ length l1 = a.
Proof.
  induction a as [|a IH]; intros mods p l1 e1 l2 e2 A B; cbn [generate Nat.add] in *.
  - injection A as <- <-. cbn [app length]. rewrite <- B. split; [|reflexivity]. now destruct mods.
  - destruct (generate rnd a d u per (option_map (@tl Q) mods) _) as [l e] eqn:E. injection A as <- <-.
    rewrite <- omap_skipn_S in B. destruct (IH _ _ _ _ _ _ E B) as [-> <-]. split; reflexivity.
Qed.
Lemma offsets_length : forall l mods, length (offsets rnd d mods l) = length l.
Proof. induction l as [|p l IH]; intros mods; cbn; [reflexivity|]. now rewrite IH. Qed.
Lemma offsets_split l2 : forall l1 mods, offsets rnd d mods (l1 ++ l2) = offsets rnd d mods l1 ++ offsets rnd d (option_map (skipn (length l1)) mods) l2.
Proof.
  induction l1 as [|p l IH]; intros mods; cbn [offsets app length]; [now destruct mods|]. now rewrite IH, omap_skipn_S.
Qed.
Lemma generatePhase_split a b k u i p : exists l1 e1 l2 e2,
  generatePhase rnd a k d u per i p = (l1, e1) /\ generatePhase rnd b k d u per (drop a i) e1 = (l2, e2) /\
  generatePhase rnd (a + b) k d u per i p = (l1 ++ l2, e2) /\ (length l1 = a \/ (length l1 <= a)%nat /\ l2 = []).
Proof.
  unfold generatePhase. cbn [drop i_freqMod i_phaseMod i_clock]. destruct (i_clock i) as [c|]; cbn [option_map].
  - assert (nth k (map (skipn a) c) [] = skipn a (nth k c [])) as ->. { rewrite <- (map_nth (skipn a)). now rewrite skipn_nil. }
    set (x := nth k c []). assert (firstn (a + b) x = firstn a x ++ firstn b (skipn a x)) as Es.
    { clearbody x. clear. revert x. induction a as [|n IH]; intros [|q x]; cbn; auto; [now rewrite firstn_nil|]. now rewrite IH. }
    eexists _, _, _, _. split; [reflexivity|]. split; [reflexivity|]. split.
    + rewrite Es, offsets_split. f_equal. f_equal. destruct (Nat.le_gt_cases a (length x)) as [G|G].
      * now rewrite firstn_length_le.
      * rewrite (skipn_all2 x (n := a)) by lia. now rewrite firstn_nil.
    + rewrite !offsets_length. destruct (Nat.le_gt_cases a (length x)) as [G|G]; [left; now apply firstn_length_le|].
      right. rewrite firstn_length. split; [lia|]. rewrite (skipn_all2 x (n := a)) by lia. now rewrite firstn_nil.
  - destruct (generate rnd a d u per (i_freqMod i) p) as [l1 e1] eqn:E1. destruct (generate rnd b d u per (option_map (skipn a) (i_freqMod i)) e1) as [l2 e2] eqn:E2.
    destruct (generate_split _ _ _ _ _ _ _ _ _ E1 E2) as [E L]. rewrite E. eexists _, _, _, _. split; [reflexivity|]. rewrite E2. split; [reflexivity|].
    rewrite offsets_split, L. split; [reflexivity|]. left. now rewrite offsets_length.
Qed.
Lemma addValues_length f : forall ps out r, addValues rnd f ps out = Some r -> length r = length out.
Proof.
  induction ps as [|p ps IH]; intros out r A; cbn [addValues] in A; [injection A as <-; reflexivity|].
  destruct out as [|o out]; [injection A as <-; reflexivity|]. destruct (f p); [|discriminate]. destruct (addValues rnd f ps out) as [r'|] eqn:E; [|discriminate].
  injection A as <-. cbn. now rewrite (IH _ _ E).
Qed.
Definition join (x y : option (list Q)) : option (list Q) := match x, y with Some x, Some y => Some (x ++ y) | _, _ => None end.
Lemma addValues_split f ps2 o2 : forall ps1 o1, length ps1 = length o1 \/ (length ps1 <= length o1)%nat /\ ps2 = [] ->
  addValues rnd f (ps1 ++ ps2) (o1 ++ o2) = join (addValues rnd f ps1 o1) (addValues rnd f ps2 o2).
Proof.
  induction ps1 as [|p ps IH]; intros o1 L; cbn [app].
  - cbn [addValues]. destruct L as [L|[_ ->]].
    + destruct o1; [|discriminate]. cbn [app join]. now destruct (addValues rnd f ps2 o2).
    + cbn [addValues join]. reflexivity.
  - destruct o1 as [|o o1]; [cbn in L; exfalso; lia|]. cbn [app addValues]. rewrite IH by (cbn [length] in L; destruct L as [L|[L1 L2]]; [left; lia|right; split; [lia|exact L2]]).
    destruct (f p); [|reflexivity]. destruct (addValues rnd f ps o1); [|reflexivity]. cbn [join]. now destruct (addValues rnd f ps2 o2).
Qed.
Lemma subs_length n i : forall l k ph out r ph', subs rnd n k d per i l ph out = Some (r, ph') -> length r = length out.
Proof.
  induction l as [|u l IH]; intros k ph out r ph' A; cbn [subs] in A; [injection A as <- <-; reflexivity|].
  destruct (generatePhase rnd n k d u per i (hd 0 ph)) as [ps e].
  assert (forall x, (match x with Some out => match subs rnd n (S k) d per i l (tl ph) out with Some (out, phases') => Some (out, e :: phases') | None => None end | None => None end) = Some (r, ph') -> (forall y, x = Some y -> length y = length out) -> length r = length out) as H.
  { intros [x|] B C; [|discriminate]. destruct (subs rnd n (S k) d per i l (tl ph) x) as [[o' p']|] eqn:E; [|discriminate]. injection B as <- <-. rewrite (IH _ _ _ _ _ E). now apply C. }
  apply H in A; [exact A|]. intros y. destruct k; [destruct (d_seq d) as [[|]|]|]; try (intros; injection H0 as <-; reflexivity); apply addValues_length.
Qed.
Definition joinS (x : option (list Q * list Q)) (f : list Q -> option (list Q * list Q)) : option (list Q * list Q) :=
  match x with Some (r1, ph1) => match f ph1 with Some (r2, ph2) => Some (r1 ++ r2, ph2) | None => None end | None => None end.
Lemma subs_split a b i : forall l k ph o1 o2, length o1 = a ->
  subs rnd (a + b) k d per i l ph (o1 ++ o2) = joinS (subs rnd a k d per i l ph o1) (fun ph1 => subs rnd b k d per (drop a i) l ph1 o2).
Proof.
  induction l as [|u l IH]; intros k ph o1 o2 L; cbn [subs]; [reflexivity|].
  destruct (generatePhase_split a b k u i (hd 0 ph)) as (l1 & e1 & l2 & e2 & E1 & E2 & E & Le). rewrite E1, E. cbn [joinS].
  assert (forall x1 x2, (forall y, x1 = Some y -> length y = a) ->
    match join x1 x2 with Some out => match subs rnd (a + b) (S k) d per i l (tl ph) out with Some (out, phases') => Some (out, e2 :: phases') | None => None end | None => None end =
    joinS (match x1 with Some out => match subs rnd a (S k) d per i l (tl ph) out with Some (out, phases') => Some (out, e1 :: phases') | None => None end | None => None end)
      (fun ph1 => match x2 with Some out => match subs rnd b (S k) d per (drop a i) l (tl ph1) out with Some (out, phases') => Some (out, e2 :: phases') | None => None end | None => None end)) as H.
  { intros [x1|] x2 Lx; [|reflexivity]. cbn [join]. destruct x2 as [x2|].
    - rewrite (IH (S k) (tl ph) x1 x2 (Lx _ eq_refl)). destruct (subs rnd a (S k) d per i l (tl ph) x1) as [[r1 p1]|]; [|reflexivity]. cbn [joinS tl].
      destruct (subs rnd b (S k) d per (drop a i) l p1 x2) as [[r2 p2]|]; reflexivity.
    - destruct (subs rnd a (S k) d per i l (tl ph) x1) as [[r1 p1]|]; reflexivity. }
  assert (forall f, length l1 = length o1 \/ (length l1 <= length o1)%nat /\ l2 = [] -> addValues rnd f (l1 ++ l2) (o1 ++ o2) = join (addValues rnd f l1 o1) (addValues rnd f l2 o2)) as Ad by (intros; now apply addValues_split).
  rewrite <- L in Le at 1 2. 
  assert (forall x1 x2 y f2, y = join x1 x2 -> (forall y, x1 = Some y -> length y = a) -> 
    (forall phs, f2 (e1 :: phs) = match x2 with Some out => match subs rnd b (S k) d per (drop a i) l phs out with Some (out, phases') => Some (out, e2 :: phases') | None => None end | None => None end) ->
    match y with Some out => match subs rnd (a + b) (S k) d per i l (tl ph) out with Some (out, phases') => Some (out, e2 :: phases') | None => None end | None => None end =
    joinS (match x1 with Some out => match subs rnd a (S k) d per i l (tl ph) out with Some (out, phases') => Some (out, e1 :: phases') | None => None end | None => None end) f2) as H2.
  { intros x1 x2 y f2 -> Lx F2. rewrite H by exact Lx. destruct x1 as [x1|]; [|reflexivity]. destruct (subs rnd a (S k) d per i l (tl ph) x1) as [[r1 p1]|]; [|reflexivity]. cbn [joinS]. now rewrite F2. }
  destruct k as [|k].
  - destruct (d_seq d) as [[|s0 st]|].
    + apply (H2 (Some o1) (Some o2) (Some (o1 ++ o2))); [reflexivity|intros y Hy; injection Hy as <-; exact L|]. intros phs. cbn [hd tl]. rewrite E2. reflexivity.
    + eapply H2; [apply Ad, Le|intros y Hy; apply addValues_length in Hy; congruence|]. intros phs. cbn [hd tl]. rewrite E2. reflexivity.
    + eapply H2; [apply Ad, Le|intros y Hy; apply addValues_length in Hy; congruence|]. intros phs. cbn [hd tl]. rewrite E2. reflexivity.
  - eapply H2; [apply Ad, Le|intros y Hy; apply addValues_length in Hy; congruence|]. intros phs. cbn [hd tl]. rewrite E2. reflexivity.
Qed.
Lemma fadeLoop_1 st : forall o pos, Qltb pos 1 = false -> fadeLoop rnd st o pos = (o, pos).
Proof. intros [|x o] pos H; cbn [fadeLoop]; [reflexivity|]. now rewrite H. Qed.
Lemma fadeLoop_split st o2 : forall o1 pos, fadeLoop rnd st (o1 ++ o2) pos =
  let (l1, e1) := fadeLoop rnd st o1 pos in let (l2, e2) := fadeLoop rnd st o2 e1 in (l1 ++ l2, e2).
Proof.
  induction o1 as [|x o IH]; intros pos; cbn [fadeLoop app]; [now destruct (fadeLoop rnd st o2 pos)|].
  destruct (Qltb pos 1) eqn:L; [|now rewrite (fadeLoop_1 _ _ _ L)]. rewrite IH.
  destruct (fadeLoop rnd st o _) as [l1 e1]. destruct (fadeLoop rnd st o2 e1) as [l2 e2]. reflexivity.
Qed.
Lemma fadeIn_loop out o : fadeIn rnd per out o =
  let (l, e) := fadeLoop rnd (rnd (per / o_fadeTime o)) out (o_fade o) in (l, Lfo (o_phases o) (o_delay o) e (o_fadeTime o)).
Proof.
  unfold fadeIn. destruct (Qle_bool 1 (o_fade o)) eqn:L; [|reflexivity]. rewrite fadeLoop_1; [now destruct o|]. apply Qltb_nspec. now apply Qle_bool_iff.
Qed.
(** One block and then another. *)
Definition then_ (x : option (list Q * lfo)) (f : lfo -> option (list Q * lfo)) : option (list Q * lfo) :=
  match x with Some (r1, o1) => match f o1 with Some (r2, o2) => Some (r1 ++ r2, o2) | None => None end | None => None end.
(** C62: the output and the state after some frames do not depend on how they are cut into blocks, for any rounding:
    with modulation or a beat clock when the delay is over, and without at any time. *)
Theorem C62_blocks a b i o : o_delay o = 0%nat \/ i = unmodulated ->
  process rnd (a + b) d per i o = then_ (process rnd a d per i o) (fun o1 => process rnd b d per (drop a i) o1).
Proof.
  intros Al. unfold process. cbn [o_phases o_delay o_fade o_fadeTime].
  set (s1 := Nat.min a (o_delay o)). destruct (d_sub d) as [|u l] eqn:Ed.
  { cbn [then_ o_delay o_phases o_fade o_fadeTime]. rewrite repeat_app. do 2 f_equal. f_equal. lia. }
  set (a' := (a - s1)%nat). set (s2 := Nat.min b (o_delay o - s1)). set (b' := (b - s2)%nat).
  assert (a + b - Nat.min (a + b) (o_delay o) = a' + b')%nat as -> by lia.
  assert (drop a i = drop a' i) as Dr. { destruct Al as [Z| ->]; [|reflexivity]. unfold a', s1. rewrite Z, Nat.min_0_r, Nat.sub_0_r. reflexivity. }
  rewrite repeat_app, subs_split by apply repeat_length.
  destruct (subs rnd a' 0 d per i (u :: l) (o_phases o) (repeat 0 a')) as [[r1 p1]|] eqn:E1; [|reflexivity]. cbn [joinS].
  pose proof (subs_length _ _ _ _ _ _ _ _ E1) as L1. rewrite repeat_length in L1. rewrite !fadeIn_loop. cbn [o_phases o_delay o_fade o_fadeTime].
  destruct (fadeLoop rnd (rnd (per / o_fadeTime o)) r1 (o_fade o)) as [m1 f1] eqn:F1. cbn [then_ o_phases o_delay o_fade o_fadeTime].
  fold s2. fold b'. rewrite Dr. destruct (subs rnd b' 0 d per (drop a' i) (u :: l) p1 (repeat 0 b')) as [[r2 p2]|] eqn:E2; [|reflexivity].
  rewrite !fadeIn_loop. cbn [o_phases o_delay o_fade o_fadeTime]. rewrite fadeLoop_split, F1.
  destruct (fadeLoop rnd (rnd (per / o_fadeTime o)) r2 f1) as [m2 f2]. do 2 f_equal; [|f_equal; lia].
  assert (Nat.min (a + b) (o_delay o) = s1 + s2)%nat as -> by lia. rewrite repeat_app, <- !app_assoc. f_equal.
  destruct (Nat.eq_dec s2 0) as [Z|Nz]; [rewrite Z; reflexivity|].
  assert (a' = 0)%nat as Z by lia. rewrite Z in L1. destruct r1; [|discriminate]. cbn [fadeLoop] in F1. injection F1 as <- <-. reflexivity.
Qed.
(** C62: a block gives as many values as frames, and those of the delay are zero. *)
Theorem C62_delay n i o out o' : process rnd n d per i o = Some (out, o') ->
  length out = n /\ (forall k, (k < o_delay o)%nat -> (k < n)%nat -> nth_error out k = Some 0) /\ o_delay o' = (o_delay o - n)%nat.
Proof.
  unfold process. cbn [o_phases o_delay o_fade o_fadeTime]. intros P.
  assert (forall r, length r = (n - Nat.min n (o_delay o))%nat -> length (repeat 0 (Nat.min n (o_delay o)) ++ r) = n /\
    (forall k, (k < o_delay o)%nat -> (k < n)%nat -> nth_error (repeat 0 (Nat.min n (o_delay o)) ++ r) k = Some 0)) as H.
  { intros r L. rewrite app_length, repeat_length. split; [lia|]. intros k K1 K2. rewrite nth_error_app1 by (rewrite repeat_length; lia).
    rewrite nth_error_repeat by lia. reflexivity. }
  destruct (d_sub d) as [|u l].
  { injection P as <- <-. destruct (H (repeat 0 (n - Nat.min n (o_delay o)))) as [A B]; [apply repeat_length|]. rewrite <- repeat_app in A, B.
    replace (Nat.min n (o_delay o) + (n - Nat.min n (o_delay o)))%nat with n in A, B by lia. split; [exact A|]. split; [exact B|]. cbn. lia. }
  destruct (subs rnd _ 0 d per i (u :: l) (o_phases o) _) as [[r p]|] eqn:E; [|discriminate].
  pose proof (subs_length _ _ _ _ _ _ _ _ E) as L. rewrite repeat_length in L. rewrite fadeIn_loop in P. cbn [o_phases o_delay o_fade o_fadeTime] in P.
  destruct (fadeLoop rnd (rnd (per / o_fadeTime o)) r (o_fade o)) as [m f] eqn:F. injection P as <- <-.
  assert (length m = length r) as Lm. { clear - F. revert m f F. generalize (o_fade o). induction r as [|x r IH]; intros q m f F; cbn [fadeLoop] in F; [injection F as <- <-; reflexivity|].
    destruct (Qltb q 1); [|injection F as <- <-; reflexivity]. destruct (fadeLoop rnd _ r _) as [m' f'] eqn:E. injection F as <- <-. cbn. now rewrite (IH _ _ _ E). }
  destruct (H m) as [A B]; [congruence|]. split; [exact A|]. split; [exact B|]. cbn. lia.
Qed.
End Blocks.

(** ** The values (C62), for exact arithmetic *)
Definition frac (x : Q) : Q := x - inject_Z (Qfloor x).
Lemma frac_range x : 0 <= frac x < 1. Proof. unfold frac. pose proof (floor_bounds x). lra. Qed.
Lemma frac_comp x y : x == y -> frac x == frac y.
Proof. intros E. unfold frac. rewrite (Qfloor_comp x y E). lra. Qed.
Lemma frac_unique x y k : 0 <= y < 1 -> y == x - inject_Z k -> y == frac x.
Proof.
  intros R E. unfold frac. assert (Qfloor x = k) as ->; [|exact E]. pose proof (floor_bounds x) as [A B].
  assert (inject_Z (Qfloor x) < inject_Z k + 1) as U by lra. assert (inject_Z k < inject_Z (Qfloor x) + 1) as L by lra.
  change 1 with (inject_Z 1) in U, L. rewrite <- inject_Z_plus, <- Zlt_Qlt in U, L. lia.
Qed.
Lemma wrap_frac x y : x == y -> wrapPhase exact x == frac y.
Proof. intros E. destruct (C38_wrap x) as [R (k & K)]. apply (frac_unique _ _ k R). rewrite K, E. reflexivity. Qed.
Lemma frac_add x k : frac (x + inject_Z k) == frac x.
Proof. symmetry. apply (frac_unique _ _ (Qfloor x + k)%Z); [apply frac_range|]. unfold frac. rewrite inject_Z_plus. ring. Qed.
(** The shapes over a period: a parabola for each half of the sine. *)
Definition shape (w : wave) (p : Q) : Q :=
  let pulse x := if Qlt_le_dec p x then 1 else 0 in
  match w with
  | Triangle => if Qlt_le_dec p (1 # 4) then 4 * p else if Qlt_le_dec (3 # 4) p then 4 * (p - 1) else 4 * ((1 # 2) - p)
  | Sine => if Qlt_le_dec p (1 # 2) then 16 * p * ((1 # 2) - p) else -(16) * (p - (1 # 2)) * (1 - p)
  | Pulse75 => pulse (3 # 4) | Square => pulse (1 # 2) | Pulse25 => pulse (1 # 4) | Pulse12_5 => pulse (1 # 8)
  | Ramp => 2 * p - 1
  | Saw => 1 - 2 * p
  end.
Lemma eval_shape w p q : p == q -> eval exact w p == shape w q.
Proof.
  intros E. unfold eval, shape, exact.
  destruct w; repeat match goal with |- context [Qltb ?a ?b] => let L := fresh in destruct (Qltb a b) eqn:L; [apply Qltb_spec in L|apply Qltb_nspec in L] end;
    repeat match goal with |- context [Qlt_le_dec ?a ?b] => destruct (Qlt_le_dec a b) end; try lra.
  all: apply Qabs_case; intros A; rewrite E; try ring; try lra; assert (q == 1 # 2) as -> by lra; ring.
Qed.
(** C62: the shapes stay between -1 and 1. *)
Theorem C62_shape_range w p : 0 <= p < 1 -> -1 <= eval exact w p <= 1.
Proof.
  intros P. rewrite (eval_shape w p p) by reflexivity. unfold shape.
  destruct w; repeat match goal with |- context [Qlt_le_dec ?a ?b] => destruct (Qlt_le_dec a b) end; try lra.
  all: assert (forall y : Q, 0 <= y * y) as Sq by (intros y; destruct (Qlt_le_dec y 0); nra).
  - pose proof (Sq (4 * p - 1)). split; nra.
  - pose proof (Sq (4 * p - 3)). split; nra.
Qed.
Section Values.
Variables (d : desc) (per : Q).
(** The phase of a sub-oscillator that started at [p], [k] frames after the delay, before it is wrapped: that of the
    oscillator, the offset and its modulation, and the frequency with its modulation summed over the frames so far. *)
Definition at_ (m : option (list Q)) (k : nat) : Q := match m with Some l => nth k l 0 | None => 0 end.
Fixpoint upTo (m : option (list Q)) (k : nat) : Q := match k with O => 0 | S k => upTo m k + at_ m k end.
Definition angle (u : sub) (i : inputs) (p : Q) (k : nat) : Q :=
  p + d_phase0 d + at_ (i_phaseMod i) k + u_ratio u * per * (inject_Z (Z.of_nat k) * d_freq d + upTo (i_freqMod i) k).
(** The sum of the sub-oscillators: the first takes its values from the steps when there are any. *)
Fixpoint total (j : nat) (l : list sub) (i : inputs) (phases : list Q) (k : nat) : Q :=
  match l with
  | [] => 0
  | u :: l =>
      let p := frac (angle u i (hd 0 phases) k) in
      u_offset u + u_scale u * match j, d_seq d with
                               | O, Some steps => nth (Z.to_nat (Qfloor (p * inject_Z (Z.of_nat (length steps))))) steps 0
                               | _, _ => shape (u_wave u) p
                               end + total (S j) l i (tl phases) k
  end.
Lemma at_tl m k : at_ (option_map (@tl Q) m) k = at_ m (S k).
Proof. destruct m as [[|x l]|]; cbn; [now destruct k|reflexivity..]. Qed.
Lemma upTo_tl m k : upTo m (S k) == at_ m 0 + upTo (option_map (@tl Q) m) k.
Proof. induction k as [|k IH]; [cbn; lra|]. cbn [upTo] in *. rewrite at_tl, IH. ring. Qed.
Lemma hd_at m : forall x, option_map (hd 0) m = x -> match x with None => d_freq d | Some v => d_freq d + v end == d_freq d + at_ m 0.
Proof. intros x <-. destruct m as [[|y l]|]; cbn; lra. Qed.
Lemma generate_value u : forall n mods p l e, generate exact n d u per mods p = (l, e) -> length l = n /\
  forall k q, nth_error l k = Some q -> exists z, q == p + u_ratio u * per * (inject_Z (Z.of_nat k) * d_freq d + upTo mods k) + inject_Z z.
Proof.
  induction n as [|n IH]; intros mods p l e G; cbn [generate] in G; [injection G as <- <-; split; [reflexivity|]; intros [|k] q Hq; discriminate|].
  destruct (generate exact n d u per (option_map (tl (A:=Q)) mods) _) as [l' e'] eqn:E. injection G as <- <-. destruct (IH _ _ _ _ E) as [L H].
  split; [cbn; now rewrite L|]. intros [|k] q Hq; cbn in Hq.
  - injection Hq as <-. exists 0%Z. cbn [upTo]. change (inject_Z (Z.of_nat 0)) with 0. change (inject_Z 0) with 0. ring.
  - destruct (H k q Hq) as (z & Ez). unfold exact in Ez at 2. destruct (C38_wrap (p + increment exact d u per (option_map (hd 0) mods))) as [_ (y & Ey)].
    exists (z - y)%Z. rewrite Ez, Ey, upTo_tl. unfold increment. unfold exact at 1 2. pose proof (hd_at mods _ eq_refl) as Hm. unfold exact. rewrite Hm.
    rewrite Nat2Z.inj_succ, <- Z.add_1_r. unfold Z.sub. rewrite !inject_Z_plus, inject_Z_opp. change (inject_Z 1) with 1. ring.
Qed.
Lemma offsets_value : forall l mods k q, nth_error l k = Some q -> exists w, nth_error (offsets exact d mods l) k = Some w /\ w == frac (q + d_phase0 d + at_ mods k).
Proof.
  induction l as [|p l IH]; intros mods k q Hk; [destruct k; discriminate|]. destruct k as [|k]; cbn in Hk.
  - injection Hk as <-. cbn [offsets nth_error]. eexists. split; [reflexivity|]. apply wrap_frac. destruct mods as [[|m ms]|]; cbn; unfold exact; lra.
  - cbn [offsets nth_error]. destruct (IH (option_map (@tl Q) mods) k q Hk) as (w & W & E). exists w. split; [exact W|]. now rewrite E, at_tl.
Qed.
Lemma generatePhase_value n j u i p : i_clock i = None -> exists l e, generatePhase exact n j d u per i p = (l, e) /\ length l = n /\
  forall k, (k < n)%nat -> exists w, nth_error l k = Some w /\ w == frac (angle u i p k).
Proof.
  intros Ck. unfold generatePhase. rewrite Ck. destruct (generate exact n d u per (i_freqMod i) p) as [l e] eqn:G. destruct (generate_value _ _ _ _ _ _ G) as [L H].
  eexists _, _. split; [reflexivity|]. rewrite offsets_length. split; [exact L|]. intros k K. destruct (nth_error l k) as [q|] eqn:Q; [|apply nth_error_None in Q; lia].
  destruct (offsets_value l (i_phaseMod i) k q Q) as (w & W & E). exists w. split; [exact W|]. destruct (H k q Q) as (z & Ez).
  rewrite E, <- (frac_add (angle u i p k) z). apply frac_comp. unfold angle. rewrite Ez. ring.
Qed.
Lemma addValues_value f : forall ps out, length ps = length out -> (forall p, In p ps -> exists v, f p = Some v) ->
  exists r, addValues exact f ps out = Some r /\ length r = length out /\
  forall k p o, nth_error ps k = Some p -> nth_error out k = Some o -> exists v, f p = Some v /\ nth_error r k = Some (o + v).
Proof.
  induction ps as [|p ps IH]; intros [|o out] L F; try discriminate; cbn [addValues].
  - eexists. split; [reflexivity|]. split; [reflexivity|]. intros [|k] ? ? H; discriminate.
  - destruct (F p (or_introl eq_refl)) as (v & Ev). rewrite Ev. destruct (IH out) as (r & -> & Lr & H); [now injection L|intros q Hq; apply F; now right|].
    eexists. split; [reflexivity|]. split; [cbn; now rewrite Lr|]. intros [|k] q x Hq Hx; cbn in Hq, Hx |- *.
    + injection Hq as <-. injection Hx as <-. eauto.
    + now apply H.
Qed.
Lemma stepValue_value steps u p q : steps <> [] -> 0 <= p < 1 -> p == q -> exists v, stepValue exact steps u p = Some v /\
  v == u_offset u + u_scale u * nth (Z.to_nat (Qfloor (q * inject_Z (Z.of_nat (length steps))))) steps 0.
Proof.
  intros Ne P E. assert (0 < length steps)%nat as Lp by (destruct steps; [congruence|cbn; lia]).
  assert (1 <= inject_Z (Z.of_nat (length steps))) as L1 by (change 1 with (inject_Z 1); rewrite <- Zle_Qle; lia).
  unfold stepValue, stepIndex, exact. rewrite trunc_pos by nra. assert (p * inject_Z (Z.of_nat (length steps)) == q * inject_Z (Z.of_nat (length steps))) as Em by (rewrite E; reflexivity).
  rewrite <- (Qfloor_comp _ _ Em). set (x := p * inject_Z (Z.of_nat (length steps))). assert (0 <= x < inject_Z (Z.of_nat (length steps))) as X by (unfold x; nra).
  assert (0 <= Qfloor x < Z.of_nat (length steps))%Z as F.
  { pose proof (floor_bounds x) as [A B]. split.
    - assert (-1 < inject_Z (Qfloor x)) as C by lra. change (-1) with (inject_Z (-1)) in C. rewrite <- Zlt_Qlt in C. lia.
    - rewrite Zlt_Qlt. lra. }
  destruct (Z.ltb_spec (Qfloor x) 0); [lia|]. destruct (nth_error steps (Z.to_nat (Qfloor x))) as [s|] eqn:N; [|apply nth_error_None in N; lia].
  eexists. split; [reflexivity|]. rewrite (nth_error_nth _ _ _ N). reflexivity.
Qed.
Lemma subs_value n i : i_clock i = None -> d_seq d <> Some [] -> forall l j ph out, length out = n ->
  exists r ph', subs exact n j d per i l ph out = Some (r, ph') /\ length r = n /\
  forall k o, nth_error out k = Some o -> exists v, nth_error r k = Some v /\ v == o + total j l i ph k.
Proof.
  intros Ck Sq. induction l as [|u l IH]; intros j ph out L; cbn [subs total].
  - eexists _, _. split; [reflexivity|]. split; [exact L|]. intros k o Ho. exists o. split; [exact Ho|lra].
  - destruct (generatePhase_value n j u i (hd 0 ph) Ck) as (ps & e & -> & Lp & W).
    set (val := fun k => match j, d_seq d with O, Some steps => nth (Z.to_nat (Qfloor (frac (angle u i (hd 0 ph) k) * inject_Z (Z.of_nat (length steps))))) steps 0 | _, _ => shape (u_wave u) (frac (angle u i (hd 0 ph) k)) end).
    assert (forall f, (forall p k, 0 <= p < 1 -> p == frac (angle u i (hd 0 ph) k) -> exists v, f p = Some v /\ v == u_offset u + u_scale u * val k) ->
      exists r ph', match addValues exact f ps out with Some out => match subs exact n (S j) d per i l (tl ph) out with Some (out, phases') => Some (out, e :: phases') | None => None end | None => None end = Some (r, ph') /\ length r = n /\
      forall k o, nth_error out k = Some o -> exists v, nth_error r k = Some v /\ v == o + (u_offset u + u_scale u * val k + total (S j) l i (tl ph) k)) as Go.
    { intros f Hf. destruct (addValues_value f ps out) as (r & -> & Lr & Hr); [congruence| |].
      - intros p Hp. apply In_nth_error in Hp. destruct Hp as (k & Hk). assert (k < n)%nat as K by (rewrite <- Lp; apply nth_error_Some; congruence).
        destruct (W k K) as (w & W1 & W2). assert (p = w) as -> by congruence. pose proof (frac_range (angle u i (hd 0 ph) k)). destruct (Hf w k) as (v & V & _); [lra|exact W2|]. eauto.
      - destruct (IH (S j) (tl ph) r) as (r' & ph' & -> & Lr' & Hr'); [congruence|]. eexists _, _. split; [reflexivity|]. split; [exact Lr'|].
        intros k o Ho. assert (k < n)%nat as K by (rewrite <- L; apply nth_error_Some; congruence). destruct (W k K) as (w & W1 & W2).
        destruct (Hr k w o W1 Ho) as (v & V1 & V2). destruct (Hr' k _ V2) as (v' & V3 & V4). exists v'. split; [exact V3|].
        pose proof (frac_range (angle u i (hd 0 ph) k)). destruct (Hf w k) as (v2 & V5 & V6); [lra|exact W2|]. assert (v2 = v) as -> by congruence. rewrite V4, V6. ring. }
    fold (val).
    assert (forall p k, 0 <= p < 1 -> p == frac (angle u i (hd 0 ph) k) -> exists v, Some (waveValue exact u p) = Some v /\ v == u_offset u + u_scale u * shape (u_wave u) (frac (angle u i (hd 0 ph) k))) as Wv.
    { intros p k _ E. eexists. split; [reflexivity|]. unfold waveValue. unfold exact at 1 2. rewrite (eval_shape _ _ _ E). reflexivity. }
    unfold val in Go. destruct j as [|j].
    + destruct (d_seq d) as [[|s0 st]|] eqn:Es; [congruence| |].
      * apply Go. intros p k P E. apply stepValue_value; [discriminate|assumption..].
      * apply Go. exact Wv.
    + apply Go. exact Wv.
Qed.
Lemma minr a b : b <= a -> Qmin a b == b. Proof. apply Q.min_r. Qed.
Lemma minl a b : a <= b -> Qmin a b == a. Proof. apply Q.min_l. Qed.
(** The factor of the fade after [k] frames. *)
Definition fadeFactor (o : lfo) (k : nat) : Q := Qmin 1 (o_fade o + inject_Z (Z.of_nat k) * (per / o_fadeTime o)).
Lemma fade_value st : 0 <= st -> forall out pos l e, fadeLoop exact st out pos = (l, e) ->
  forall k x, nth_error out k = Some x -> exists y, nth_error l k = Some y /\ y == x * Qmin 1 (pos + inject_Z (Z.of_nat k) * st).
Proof.
  intros St. induction out as [|x out IH]; intros pos l e F k z Hk; cbn [fadeLoop] in F; [destruct k; discriminate|].
  destruct (Qltb pos 1) eqn:L.
  - apply Qltb_spec in L. destruct (fadeLoop exact st out _) as [l' e'] eqn:E. injection F as <- <-. destruct k as [|k]; cbn in Hk |- *.
    + injection Hk as <-. eexists. split; [reflexivity|]. change (inject_Z 0) with 0. unfold exact. rewrite minr by lra. ring.
    + destruct (IH _ _ _ E k z Hk) as (y & Y1 & Y2). exists y. split; [exact Y1|]. rewrite Y2. apply Qmult_comp; [reflexivity|].
      assert (0 <= inject_Z (Z.of_nat k)) as Pk by (change 0 with (inject_Z 0); rewrite <- Zle_Qle; lia).
      change (Z.pos (Pos.of_succ_nat k)) with (Z.of_nat (S k)). rewrite Nat2Z.inj_succ, <- Z.add_1_r, inject_Z_plus. change (inject_Z 1) with 1.
      assert (0 <= inject_Z (Z.of_nat k) * st) by nra.
      unfold Qminf, exact. destruct (Qltb (pos + st) 1) eqn:M; [apply Qltb_spec in M|apply Qltb_nspec in M].
      * apply Q.min_compat; [reflexivity|ring].
      * rewrite !minl by lra. reflexivity.
  - apply Qltb_nspec in L. injection F as <- <-. exists z. split; [exact Hk|].
    assert (0 <= inject_Z (Z.of_nat k)) as Pk by (change 0 with (inject_Z 0); rewrite <- Zle_Qle; lia). assert (0 <= inject_Z (Z.of_nat k) * st) by nra.
    rewrite minl by lra. ring.
Qed.
(** C62: the value at each frame: zero during the delay, then the sum of the shapes at their phases times the fade. *)
Theorem C62_value n i o : i_clock i = None -> d_seq d <> Some [] -> 0 <= per / o_fadeTime o ->
  exists out o', process exact n d per i o = Some (out, o') /\ length out = n /\
  forall k, (k < n)%nat -> exists v, nth_error out k = Some v /\
    v == if (k <? o_delay o)%nat then 0 else total 0 (d_sub d) i (o_phases o) (k - o_delay o) * fadeFactor o (k - o_delay o).
Proof.
  intros Ck Sq St.
  assert (exists out o', process exact n d per i o = Some (out, o') /\ forall k, (k < n)%nat -> (o_delay o <= k)%nat -> exists v, nth_error out k = Some v /\
    v == total 0 (d_sub d) i (o_phases o) (k - o_delay o) * fadeFactor o (k - o_delay o)) as (out & o' & P & H).
  { unfold process. cbn [o_phases o_delay o_fade o_fadeTime]. destruct (d_sub d) as [|u l] eqn:Ed.
    - eexists _, _. split; [reflexivity|]. intros k K _. exists 0. rewrite nth_error_repeat by assumption. split; [reflexivity|]. cbn [total]. ring.
    - set (m := (n - Nat.min n (o_delay o))%nat). destruct (subs_value m i Ck Sq (u :: l) 0 (o_phases o) (repeat 0 m) (repeat_length _ _)) as (r & ph & -> & Lr & Hr).
      rewrite fadeIn_loop. cbn [o_phases o_delay o_fade o_fadeTime]. destruct (fadeLoop exact (exact (per / o_fadeTime o)) r (o_fade o)) as [q f] eqn:F.
      eexists _, _. split; [reflexivity|]. intros k K G. rewrite nth_error_app2 by (rewrite repeat_length; lia). rewrite repeat_length.
      replace (k - Nat.min n (o_delay o))%nat with (k - o_delay o)%nat by lia. destruct (Hr (k - o_delay o)%nat 0) as (v & V1 & V2); [apply nth_error_repeat; lia|].
      destruct (fade_value _ St _ _ _ _ F _ _ V1) as (y & Y1 & Y2). exists y. split; [exact Y1|]. rewrite Y2, V2. unfold fadeFactor. rewrite Qplus_0_l. reflexivity. }
  destruct (C62_delay exact d per n i o out o' P) as (L & Z & _). eexists _, _. split; [exact P|]. split; [exact L|].
  intros k K. destruct (Nat.ltb_spec k (o_delay o)) as [G|G]; [exists 0; split; [now apply Z|reflexivity]|]. now apply H.
Qed.
End Values.
(** C62: with a modulated frequency and a delay that ends inside a block, the output depends on the block boundaries: the
    modulation is read from the start of its buffer whatever the delay. *)
Definition delayed : lfo := Lfo [0] 2 1 0.
Definition plain : desc := Desc 1 0 None [Sub Ramp 0 1 1].
Definition rising : inputs := Inputs (Some [0; 0; 4; 4; 4]) None None.
Theorem C62_modulated_delay_refuted :
  option_map fst (process Qred 5 plain (1 # 16) rising delayed) = Some [0; 0; -1; - (7 # 8); - (3 # 4)] /\
  option_map fst (then_ (process Qred 2 plain (1 # 16) rising delayed) (fun o => process Qred 3 plain (1 # 16) (drop 2 rising) o)) = Some [0; 0; -1; - (3 # 8); 1 # 4].
Proof. split; vm_compute; reflexivity. Qed.
(** C62: so it does with the beat clock, whose phases are also read from the start of the block. *)
Theorem C62_clocked_delay_refuted :
  let i := Inputs None None (Some [[0; 1 # 8; 1 # 4; 3 # 8]]) in
  option_map fst (process Qred 4 plain (1 # 16) i delayed) = Some [0; 0; -1; - (3 # 4)] /\
  option_map fst (then_ (process Qred 2 plain (1 # 16) i delayed) (fun o => process Qred 2 plain (1 # 16) (drop 2 i) o)) = Some [0; 0; - (1 # 2); - (1 # 4)].
Proof. split; vm_compute; reflexivity. Qed.
Example C62_ex :
  let d := Desc 1 (1 # 4) None [Sub Triangle 0 1 1; Sub Square (1 # 2) 2 (1 # 4)] in
  option_map fst (process Qred 6 d (1 # 4) (Inputs (Some [0; 0; 1; 1; 0]) (Some [0; 1 # 8]) None) (Lfo [0; 0] 1 0 1)) =
  Some [0; 0; 0; - (1 # 8); 21 # 16; - (1 # 4)].
Proof. vm_compute. reflexivity. Qed.
