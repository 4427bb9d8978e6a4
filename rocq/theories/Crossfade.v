(** Crossfades (C39). *)
From Coq Require Import QArith Qround ZArith List Lia Bool Lqa Setoid.
Import ListNotations.
From Verif Require Import AdsrModel AdsrRange CcEnvModel.
Open Scope Q_scope.

Lemma unit_div a b : 0 < b -> 0 <= a -> 0 <= a / b.
Proof. intros B A. apply Qle_shift_div_l; lra. Qed.
Lemma div_mono a a' b : 0 < b -> a <= a' -> a / b <= a' / b.
Proof. intros B A. unfold Qdiv. apply Qmult_le_compat_r; [assumption|]. apply Qlt_le_weak, Qinv_lt_0_compat. assumption. Qed.

Section Xfade.
Variable sq : Q -> Q.
(** What is used of the square root. *)
Hypothesis sq_mono : forall x y, 0 <= x -> x <= y -> sq x <= sq y.
Hypothesis sq_zero : sq 0 == 0.
Hypothesis sq_one : sq 1 == 1.
Lemma sq_comp x y : 0 <= x -> x == y -> sq x == sq y.
Proof. intros P E. pose proof (sq_mono x y). pose proof (sq_mono y x). lra. Qed.
Lemma sq_unit x : 0 <= x <= 1 -> 0 <= sq x <= 1.
Proof. intros [A B]. pose proof (sq_mono 0 x). pose proof (sq_mono x 1). lra. Qed.

Lemma in_range gap s e l v c : l == e - s -> 0 <= gap -> (v <= e - gap \/ e <= v) -> 0 <= crossfadeIn sq gap s e l v c <= 1.
Proof.
  intros El G N. unfold crossfadeIn. cbv zeta. destruct (Qltb v s) eqn:L1; [lra|]. apply Qltb_nspec in L1.
  destruct (Qle_bool (l - gap) 0) eqn:L2; [lra|]. apply Qle_bool_nspec in L2.
  destruct (Qltb v e) eqn:L3; [|lra]. apply Qltb_spec in L3.
  assert (0 <= (v - s) / (l - gap) <= 1) as P.
  { split; [apply unit_div; lra|]. apply Qle_shift_div_r; lra. }
  destruct c; [exact P|now apply sq_unit].
Qed.
(** C39: fade-in. Outside the gap that the library leaves below the end of the range the gain is in [0,1]. *)
Theorem C39_in_range_partial s e v c : (v <= e - (1 # 127) \/ e <= v) -> 0 <= xinF sq s e v c <= 1.
Proof. intros N. unfold xinF, gap7. apply in_range; [reflexivity|lra|assumption]. Qed.
(** The gain everywhere: in the gap it goes up to the quotient of the lengths. *)
Theorem C39_in_bound s e v : s + (1 # 127) < e -> 0 <= xinF sq s e v XGain <= (e - s) / (e - s - (1 # 127)).
Proof.
  intros W. unfold xinF, crossfadeIn, gap7. cbv zeta.
  assert (1 <= (e - s) / (e - s - (1 # 127))) as One by (apply Qle_shift_div_l; lra).
  destruct (Qltb v s) eqn:L1; [lra|]. apply Qltb_nspec in L1.
  destruct (Qle_bool _ _) eqn:L2; [lra|].
  destruct (Qltb v e) eqn:L3; [|lra]. apply Qltb_spec in L3.
  split; [apply unit_div; lra|apply div_mono; lra].
Qed.
(** C39: silent before the fade-in, full after it. *)
Theorem C39_in_ends s e v c : (v < s -> xinF sq s e v c == 0) /\ (s <= v -> e <= v -> xinF sq s e v c == 1) /\
  (s + (1 # 127) < e -> v == s -> xinF sq s e v c == 0) /\ (s + (1 # 127) < e -> v == e - (1 # 127) -> xinF sq s e v c == 1).
Proof.
  unfold xinF, crossfadeIn, gap7. cbv zeta. split; [|split; [|split]].
  - intros L. apply Qltb_spec in L. rewrite L. reflexivity.
  - intros A B. apply Qltb_nspec in A, B. rewrite A, B. destruct (Qle_bool _ _); reflexivity.
  - intros W E. destruct (Qltb v s) eqn:L1; [reflexivity|].
    assert (Qle_bool (e - s - (1 # 127)) 0 = false) as -> by (apply Qle_bool_nspec; lra).
    assert (Qltb v e = true) as -> by (apply Qltb_spec; lra).
    assert ((v - s) / (e - s - (1 # 127)) == 0) as Z.
    { setoid_replace (v - s) with 0 by lra. unfold Qdiv. ring. }
    destruct c; [exact Z|]. rewrite <- sq_zero. symmetry. apply sq_comp; [lra|now symmetry].
  - intros W E. destruct (Qltb v s) eqn:L1; [apply Qltb_spec in L1; lra|].
    assert (Qle_bool (e - s - (1 # 127)) 0 = false) as -> by (apply Qle_bool_nspec; lra).
    assert (Qltb v e = true) as -> by (apply Qltb_spec; lra).
    assert ((v - s) / (e - s - (1 # 127)) == 1) as Z.
    { setoid_replace (v - s) with (e - s - (1 # 127)) by lra. field. lra. }
    destruct c; [exact Z|]. rewrite <- sq_one. symmetry. apply sq_comp; [lra|now symmetry].
Qed.
Theorem C39_in_monotone s e v v' c : v <= v' -> (v <= e - (1 # 127) \/ e <= v) -> xinF sq s e v c <= xinF sq s e v' c.
Proof.
  intros V N.
  assert (0 <= xinF sq s e v' c) as P'.
  { unfold xinF, crossfadeIn, gap7. cbv zeta. destruct (Qltb v' s) eqn:L1; [lra|]. apply Qltb_nspec in L1.
    destruct (Qle_bool _ _) eqn:L2; [lra|]. apply Qle_bool_nspec in L2. destruct (Qltb v' e); [|lra].
    assert (0 <= (v' - s) / (e - s - (1 # 127))) as X by (apply unit_div; lra).
    destruct c; [exact X|]. pose proof (sq_mono 0 _ ltac:(lra) X). lra. }
  pose proof (C39_in_range_partial s e v c N) as B.
  revert P' B. unfold xinF, crossfadeIn, gap7. cbv zeta.
  destruct (Qltb v s) eqn:L1; [intros; lra|]. apply Qltb_nspec in L1.
  destruct (Qltb v' s) eqn:L1'; [apply Qltb_spec in L1'; lra|].
  destruct (Qle_bool (e - s - (1 # 127)) 0) eqn:L2; [intros; lra|]. apply Qle_bool_nspec in L2.
  destruct (Qltb v e) eqn:L3.
  - destruct (Qltb v' e) eqn:L3'; [|intros; assumption || lra]. intros _ _.
    assert ((v - s) / (e - s - (1 # 127)) <= (v' - s) / (e - s - (1 # 127))) as X by (apply div_mono; lra).
    destruct c; [exact X|]. apply sq_mono; [apply unit_div; lra|exact X].
  - apply Qltb_nspec in L3. destruct (Qltb v' e) eqn:L3'; [apply Qltb_spec in L3'; lra|]. intros; lra.
Qed.

Lemma out_range gap s l v c : 0 <= crossfadeOut sq gap s l v c <= 1.
Proof.
  unfold crossfadeOut. cbv zeta. destruct (Qle_bool _ _) eqn:L2; [lra|]. apply Qle_bool_nspec in L2.
  destruct (Qltb s v) eqn:L1; [|lra]. apply Qltb_spec in L1.
  assert (0 <= (v - s) / (l - gap)) as P by (apply unit_div; lra).
  destruct (Qltb 1 _) eqn:L3; [lra|]. apply Qltb_nspec in L3.
  destruct c; [lra|apply sq_unit; lra].
Qed.
(** C39: fade-out: always in [0,1] ... *)
Theorem C39_out_range s e v c : 0 <= xoutF sq s e v c <= 1.
Proof. apply out_range. Qed.
(** ... full before the range, silent from its last value on ... *)
Theorem C39_out_ends s e v c : (v <= s -> xoutF sq s e v c == 1) /\
  (s + (1 # 127) < e -> e - (1 # 127) <= v -> xoutF sq s e v c == 0).
Proof.
  unfold xoutF, crossfadeOut, gap7. cbv zeta. split.
  - intros L. apply Qltb_nspec in L. rewrite L. destruct (Qle_bool _ _); reflexivity.
  - intros W V. assert (Qle_bool (e - s - (1 # 127)) 0 = false) as -> by (apply Qle_bool_nspec; lra).
    assert (Qltb s v = true) as -> by (apply Qltb_spec; lra).
    destruct (Qltb 1 _) eqn:L3; [reflexivity|]. apply Qltb_nspec in L3.
    assert (1 <= (v - s) / (e - s - (1 # 127))) as G by (apply Qle_shift_div_l; lra).
    destruct c; [lra|]. rewrite <- sq_zero. apply sq_comp; lra.
Qed.
(** ... and falling in between. *)
Theorem C39_out_monotone s e v v' c : v <= v' -> xoutF sq s e v' c <= xoutF sq s e v c.
Proof.
  intros V. pose proof (C39_out_range s e v c) as B. pose proof (C39_out_range s e v' c) as B'.
  revert B B'. unfold xoutF, crossfadeOut, gap7. cbv zeta.
  destruct (Qle_bool _ _) eqn:L2; [intros; lra|]. apply Qle_bool_nspec in L2.
  destruct (Qltb s v) eqn:L1; [|intros; lra]. apply Qltb_spec in L1.
  destruct (Qltb s v') eqn:L1'; [|apply Qltb_nspec in L1'; lra].
  assert ((v - s) / (e - s - (1 # 127)) <= (v' - s) / (e - s - (1 # 127))) as X by (apply div_mono; lra).
  destruct (Qltb 1 ((v - s) / (e - s - (1 # 127)))) eqn:L3.
  - destruct (Qltb 1 ((v' - s) / (e - s - (1 # 127)))) eqn:L3'; [intros; lra|].
    apply Qltb_spec in L3. apply Qltb_nspec in L3'. lra.
  - destruct (Qltb 1 ((v' - s) / (e - s - (1 # 127)))) eqn:L3'; [intros; lra|].
    apply Qltb_nspec in L3'. intros _ _. destruct c; [lra|]. apply sq_mono; lra.
Qed.

(** C39: keys. No gap, and the fades stay in [0,1] whatever the range, also when its ends are exchanged. *)
Theorem C39_keys s e v c : (0 <= s < 256)%Z -> (0 <= e < 256)%Z ->
  0 <= xinK sq s e v c <= 1 /\ 0 <= xoutK sq s e v c <= 1.
Proof.
  intros S E. split; [|apply out_range]. unfold xinK.
  destruct (Z.le_gt_cases s e) as [L|L].
  - rewrite (Z.mod_small (e - s) 256) by lia. apply in_range; [|lra|].
    + unfold Zminus. rewrite inject_Z_plus, inject_Z_opp. reflexivity.
    + destruct (Z.le_gt_cases v e) as [Lv|Lv]; [left|right].
      * rewrite Zle_Qle in Lv. lra.
      * assert (e <= v)%Z as Lv' by lia. now rewrite Zle_Qle in Lv'.
  - unfold crossfadeIn. cbv zeta. destruct (Qltb (inject_Z v) (inject_Z s)) eqn:L1; [lra|]. apply Qltb_nspec in L1.
    destruct (Qle_bool _ _); [lra|]. destruct (Qltb (inject_Z v) (inject_Z e)) eqn:L3; [|lra].
    apply Qltb_spec in L3. rewrite <- Zlt_Qlt in L3. rewrite <- Zle_Qle in L1. lia.
Qed.
(** C39: the product over all controllers. *)
Theorem C39_gain ins outs c :
  Forall (fun '(s, e, v) => v <= e - (1 # 127) \/ e <= v) ins ->
  0 <= crossfadeGain sq ins outs c <= 1.
Proof.
  intros F. unfold crossfadeGain.
  assert (forall l g, 0 <= g <= 1 -> 0 <= fold_left (fun g '(s, e, v) => g * xoutF sq s e v c) l g <= 1) as Ho.
  { induction l as [|[[s e] v] l IH]; intros g G; cbn [fold_left]; [assumption|]. apply IH.
    pose proof (C39_out_range s e v c). split; nra. }
  apply Ho. clear Ho outs.
  assert (forall l g, Forall (fun '(s, e, v) => v <= e - (1 # 127) \/ e <= v) l -> 0 <= g <= 1 ->
    0 <= fold_left (fun g '(s, e, v) => g * xinF sq s e v c) l g <= 1) as Hi.
  { induction l as [|[[s e] v] l IH]; intros g Fl G; cbn [fold_left]; [assumption|].
    inversion Fl as [|? ? F1 F2]; subst. apply IH; [assumption|].
    pose proof (C39_in_range_partial s e v c F1). split; nra. }
  apply Hi; [assumption|lra].
Qed.
(** C39: with ranges as the opcodes give them, the values of 7 bit messages never lie in the gap, if the
    upper end is taken as the exact quotient. *)
Theorem C39_midi_values lo hi k c : (0 <= lo <= 127)%Z -> (0 <= hi <= 127)%Z -> (0 <= k <= 127)%Z ->
  0 <= xinF sq (inject_Z lo / 127) (xfadeEnd (fun x => x) hi) (inject_Z k / 127) c <= 1.
Proof.
  intros L H K. apply C39_in_range_partial. unfold xfadeEnd.
  assert (forall a b : Z, inject_Z a / 127 - inject_Z b / 127 == inject_Z (a - b) / 127) as D.
  { intros. unfold Zminus. rewrite inject_Z_plus, inject_Z_opp. field. }
  assert (forall a : Z, (a <= 0)%Z -> inject_Z a / 127 <= 0) as Neg.
  { intros a A. apply Qle_shift_div_r; [lra|]. rewrite Zle_Qle in A. change (inject_Z 0) with 0 in A. lra. }
  destruct (Z.leb_spec hi 126).
  - destruct (Z.le_gt_cases k hi) as [A|A]; [left|right].
    + pose proof (D k (hi + 1)%Z) as E1. pose proof (Neg (k - (hi + 1) + 1)%Z ltac:(lia)) as E2.
      rewrite inject_Z_plus in E2. change (inject_Z 1) with 1 in E2.
      assert ((inject_Z (k - (hi + 1)) + 1) / 127 == inject_Z (k - (hi + 1)) / 127 + (1 # 127)) as E3 by field. lra.
    + pose proof (D (hi + 1)%Z k) as E1. pose proof (Neg (hi + 1 - k)%Z ltac:(lia)). lra.
  - assert (hi = 127%Z) as -> by lia. destruct (Z.le_gt_cases k 126) as [A|A]; [left|right].
    + pose proof (D k 126%Z) as E1. pose proof (Neg (k - 126)%Z ltac:(lia)).
      assert (inject_Z 127 / 127 - (1 # 127) == inject_Z 126 / 127) by reflexivity. lra.
    + assert (k = 127%Z) as -> by lia. lra.
Qed.
End Xfade.

(** C39: between two 7 bit values the gain goes up to 2. *)
Theorem C39_gap_amplifies_refuted :
  let s := 64 / 127 in let e := xfadeEnd (fun x => x) 65 in
  xinF (fun x => x) s e (65 / 127) XGain == 1 /\ xinF (fun x => x) s e ((659 # 10) / 127) XGain == 19 # 10 /\
  xinF (fun x => x) s e (66 / 127) XGain == 1.
Proof. vm_compute. repeat split. Qed.
(** With the number just below the quotient as end of the range (here at a distance of 2^-30) the gain at the
    upper value itself is above 1. *)
Theorem C39_end_amplifies_refuted :
  1 < xinF (fun x => x) (0 / 127) (xfadeEnd (fun x => x - (1 # 1073741824)) 1) (1 / 127) XGain.
Proof. vm_compute. reflexivity. Qed.
(** A fade from 32 to 95 over the key velocity, and an exchanged key range, which never fades out. *)
Example C39_ex :
  xinF (fun x => x) (32 / 127) (xfadeEnd (fun x => x) 95) (53 / 127) XGain == 1 # 3 /\
  xoutF (fun x => x) (32 / 127) (xfadeEnd (fun x => x) 95) (53 / 127) XGain == 2 # 3 /\
  xoutK (fun x => x) 80 60 90 XGain == 1 - (10 # 236) /\ xoutK (fun x => x) 60 80 70 XGain == 1 # 2 /\
  crossfadeGain (fun x => x) [(0, 1 # 2, 1 # 4)] [(0, 1, 1 # 2)] XGain == (127 # 250) * (1 - (127 # 252)).
Proof. vm_compute. repeat split. Qed.
