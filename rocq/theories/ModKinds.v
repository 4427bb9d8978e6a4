(** Which targets multiply, and which signals are shared by all voices (C60). *)
From Coq Require Import ZArith List Bool.
From Verif Require Import ModModel ModEvalModel.
Import ListNotations.

(** The linear gains, which are the product of their modulations; all other targets are sums. *)
Definition gains : list modid :=
  [MMasterAmplitude; MAmplitude; MOscillatorModDepth; MLFOAmplitudeDepth; MEGAmplitudeDepth].
(** The signals that are the same for all voices; all others are computed for each voice. *)
Definition shared : list modid := [MController; MChannelAftertouch].
(** C60: the neutral element and the operation of each target. *)
Theorem C60_kinds k : k_id k <> MUndefined ->
  (isMul k = true <-> In (k_id k) gains) /\
  (isPerCycle k = true <-> In (k_id k) shared) /\ (isPerVoice k = false <-> In (k_id k) shared).
Proof.
  unfold isMul, isPerCycle, isPerVoice. destruct (k_id k); intros N; try (now elim N); clear N; cbn;
    (split; [|split]); (split; [intros H; (discriminate H || tauto)|]);
    intros H; (reflexivity || (exfalso; repeat (destruct H as [H|H]; [discriminate H|]); exact H)).
Qed.
(** C60: a key without an identifier passes every test of the flags. *)
Theorem C60_undefined k : k_id k = MUndefined -> isPerVoice k = true /\ isPerCycle k = true /\ isMul k = true.
Proof. unfold isPerVoice, isPerCycle, isMul. intros ->. cbn. auto. Qed.
Example C60_kinds_ex k : k_id k = MAmplitude -> isMul k = true /\ isPerCycle k = false.
Proof. unfold isMul, isPerCycle. intros ->. split; reflexivity. Qed.
