(** Model of the ADSR envelope: src/sfizz/ADSREnvelope.cpp, ADSREnvelope.h.

    Numbers: [float] values are rationals; every arithmetic operation is followed by [rnd], of
    which the theorems assume what they need (nothing at all, that it is monotone and idempotent,
    or that it is exact). NaN and infinities are not modelled. [exp] is the parameter [expo].
    [int] counters are integers without bounds; decrements beyond -1 do not accumulate. *)
From Coq Require Import QArith Qround ZArith List Lia.
Import ListNotations.
Open Scope Q_scope.

Definition Qltb (x y : Q) : bool := negb (Qle_bool y x).
(** max and min, MathHelpers.h 36-52; clamp, 144-148. *)
Definition Qmaxf (x y : Q) : Q := if Qltb y x then x else y.
Definition Qminf (x y : Q) : Q := if Qltb y x then y else x.
Definition Qclamp (v lo hi : Q) : Q := Qmaxf (Qminf v hi) lo.

(** State, ADSREnvelope.h 94-103. *)
Inductive stage := SDelay | SAttack | SHold | SDecay | SSustain | SRelease | SFadeout | SDone.
(** The order of the enumerators, used by [currentState < State::Release] (cpp 113). *)
Definition rank (s : stage) : nat :=
  match s with SDelay => 0 | SAttack => 1 | SHold => 2 | SDecay => 3 | SSustain => 4
             | SRelease => 5 | SFadeout => 6 | SDone => 7 end.
Definition beforeRelease (s : stage) : bool := Nat.ltb (rank s) 5.

(** The fields, h 104-122. [e_fade] stands for sampleRate * config::egTransitionTime,
    [e_rate] for sampleRate. *)
Record env := Env {
  e_st : stage; e_v : Q; e_rel : bool; e_rd : Z; e_td : Q;
  e_delay : Z; e_hold : Z; e_astep : Q; e_drate : Q; e_rrate : Q;
  e_start : Q; e_sus : Q; e_thr : Q; e_free : bool; e_dyn : bool; e_rate : Q }.

Definition set_st s e := Env s (e_v e) (e_rel e) (e_rd e) (e_td e) (e_delay e) (e_hold e)
  (e_astep e) (e_drate e) (e_rrate e) (e_start e) (e_sus e) (e_thr e) (e_free e) (e_dyn e) (e_rate e).
Definition set_v v e := Env (e_st e) v (e_rel e) (e_rd e) (e_td e) (e_delay e) (e_hold e)
  (e_astep e) (e_drate e) (e_rrate e) (e_start e) (e_sus e) (e_thr e) (e_free e) (e_dyn e) (e_rate e).
Definition set_rel r e := Env (e_st e) (e_v e) r (e_rd e) (e_td e) (e_delay e) (e_hold e)
  (e_astep e) (e_drate e) (e_rrate e) (e_start e) (e_sus e) (e_thr e) (e_free e) (e_dyn e) (e_rate e).
Definition set_rd r e := Env (e_st e) (e_v e) (e_rel e) r (e_td e) (e_delay e) (e_hold e)
  (e_astep e) (e_drate e) (e_rrate e) (e_start e) (e_sus e) (e_thr e) (e_free e) (e_dyn e) (e_rate e).
Definition set_td r e := Env (e_st e) (e_v e) (e_rel e) (e_rd e) r (e_delay e) (e_hold e)
  (e_astep e) (e_drate e) (e_rrate e) (e_start e) (e_sus e) (e_thr e) (e_free e) (e_dyn e) (e_rate e).
Definition set_delay d e := Env (e_st e) (e_v e) (e_rel e) (e_rd e) (e_td e) d (e_hold e)
  (e_astep e) (e_drate e) (e_rrate e) (e_start e) (e_sus e) (e_thr e) (e_free e) (e_dyn e) (e_rate e).
Definition set_hold h e := Env (e_st e) (e_v e) (e_rel e) (e_rd e) (e_td e) (e_delay e) h
  (e_astep e) (e_drate e) (e_rrate e) (e_start e) (e_sus e) (e_thr e) (e_free e) (e_dyn e) (e_rate e).
Definition set_rrate r e := Env (e_st e) (e_v e) (e_rel e) (e_rd e) (e_td e) (e_delay e) (e_hold e)
  (e_astep e) (e_drate e) r (e_start e) (e_sus e) (e_thr e) (e_free e) (e_dyn e) (e_rate e).
Definition set_dyn b e := Env (e_st e) (e_v e) (e_rel e) (e_rd e) (e_td e) (e_delay e) (e_hold e)
  (e_astep e) (e_drate e) (e_rrate e) (e_start e) (e_sus e) (e_thr e) (e_free e) b (e_rate e).

(** config, Config.h 50, 91, 96, 155; Default::offTime, Defaults.h (0.006 s). *)
Definition virtuallyZero : Q := 1 # 1000.
Definition egReleaseThreshold : Q := 1 # 10000.
Definition egTransitionTime : Q := 1 # 20.
Definition sustainFreeRunningThreshold : Q := 32 # 10000.
Definition processChunkSize : nat := 16.

(** The getters of EGDescription, with controllers, curves and velocity already applied:
    values in seconds (levels without unit) as functions of the delay in the block. *)
Record desc := Desc {
  d_delay : Z -> Q; d_attack : Z -> Q; d_hold : Z -> Q; d_decay : Z -> Q;
  d_release : Z -> Q; d_sustain : Z -> Q; d_start : Z -> Q; d_dynamic : bool }.

Section Adsr.
Variable rnd : Q -> Q.
Variable expo : Q -> Q.
(** Default::offTime *)
Variable offTime : Q.

Definition fade (e : env) : Q := rnd (e_rate e * egTransitionTime).

(** secondsToSamples, cpp 16-22. *)
Definition secondsToSamples (rate t : Q) : Z :=
  if Qle_bool t 0 then 0%Z else Qfloor (rnd (t * rate)).
(** secondsToLinRate, cpp 24-30. *)
Definition secondsToLinRate (rate t : Q) : Q :=
  if Qle_bool t 0 then 1 else rnd (1 / rnd (rate * t)).
(** secondsToExpRate, cpp 32-39. *)
Definition secondsToExpRate (rate t : Q) : Q :=
  if Qle_bool t 0 then 0 else rnd (expo (rnd ((-9 # 1) / rnd (Qmaxf offTime t * rate)))).

(** updateValues, cpp 58-69. *)
Definition updateValues (d : desc) (p : Z) (e : env) : env :=
  let sus := Qclamp (d_sustain d p) 0 1 in
  Env (e_st e) (e_v e) (e_rel e) (e_rd e) (e_td e)
      (match e_st e with SDelay => (p + secondsToSamples (e_rate e) (d_delay d p))%Z | _ => e_delay e end)
      (secondsToSamples (e_rate e) (d_hold d p))
      (secondsToLinRate (e_rate e) (d_attack d p))
      (secondsToExpRate (e_rate e) (d_decay d p))
      (secondsToExpRate (e_rate e) (d_release d p))
      (Qclamp (d_start d p) 0 1) sus (rnd (sus + virtuallyZero))
      (e_free e) (e_dyn e) (e_rate e).

(** reset, cpp 41-56; [oneShotOscillator] is the condition on the region at 53. *)
Definition reset (d : desc) (oneShotOscillator : bool) (delay : Z) (rate : Q) (e : env) : env :=
  let e := updateValues d delay
             (Env SDelay (e_v e) (e_rel e) (e_rd e) (e_td e) (e_delay e) (e_hold e) (e_astep e) (e_drate e)
                  (e_rrate e) (e_start e) (e_sus e) (e_thr e) (e_free e) (d_dynamic d) rate) in
  Env SDelay (e_start e) false 0 (e_td e) (e_delay e) (e_hold e) (e_astep e) (e_drate e)
      (e_rrate e) (e_start e) (e_sus e) (e_thr e)
      (Qle_bool (e_sus e) sustainFreeRunningThreshold || oneShotOscillator) (e_dyn e) (e_rate e).

(** The loops [while (count < size && test) output[count++] = value]: [step] makes the update that
    is part of the test and gives the value to write, or none when the test fails. *)
Fixpoint loop (step : env -> option Q * env) (size : nat) (e : env) : list Q * env :=
  match size with
  | O => ([], e)
  | S n => match step e with
           | (Some y, e') => let '(l, e'') := loop step n e' in (y :: l, e'')
           | (None, e') => ([], e')
           end
  end.
(** cpp 123-126 *)
Definition stepDelay (e : env) : option Q * env :=
  let e' := set_delay (e_delay e - 1)%Z e in
  if (0 <? e_delay e)%Z then (Some (e_start e), set_v (e_start e) e') else (None, e').
(** cpp 131-132 *)
Definition stepAttack (e : env) : option Q * env :=
  let v := rnd (e_v e + e_astep e) in
  (if Qltb v 1 then Some v else None, set_v v e).
(** cpp 139-140 *)
Definition stepHold (e : env) : option Q * env :=
  (if (0 <? e_hold e)%Z then Some (e_v e) else None, set_hold (e_hold e - 1)%Z e).
(** cpp 145-146 *)
Definition stepDecay (e : env) : option Q * env :=
  let v := rnd (e_v e * e_drate e) in
  (if Qltb (e_sus e) v then Some v else None, set_v v e).
(** cpp 158-162 *)
Definition stepSustain (e : env) : option Q * env :=
  let v := if Qltb (e_sus e) (e_v e) then rnd (e_v e + e_td e) else e_v e in
  (Some v, set_v v e).
(** cpp 166-167 *)
Definition stepRelease (e : env) : option Q * env :=
  let v := rnd (e_v e * e_rrate e) in
  (if Qltb egReleaseThreshold v then Some v else None, set_v v e).
(** cpp 176-177 *)
Definition stepFadeout (e : env) : option Q * env :=
  let v := rnd (e_v e + e_td e) in
  (if Qltb 0 v then Some v else None, set_v v e).

(** What follows each loop. *)
Definition afterDelay (e : env) : env := if (e_delay e <=? 0)%Z then set_st SAttack e else e.
Definition afterAttack (e : env) : env :=
  if Qle_bool 1 (e_v e) then set_st SHold (set_v 1 e) else e.
Definition afterHold (e : env) : env := if (e_hold e <=? 0)%Z then set_st SDecay e else e.
Definition afterDecay (e : env) : env :=
  if Qle_bool (e_v e) (e_thr e)
  then let v := Qmaxf (e_sus e) (e_v e) in
       set_td (rnd (rnd (e_sus e - v) / fade e)) (set_v v (set_st SSustain e))
  else e.
Definition afterRelease (prev : Q) (e : env) : env :=
  if Qle_bool (e_v e) egReleaseThreshold
  then set_td (rnd (- Qmaxf egReleaseThreshold prev / fade e)) (set_v prev (set_st SFadeout e))
  else e.
Definition afterFadeout (e : env) : env :=
  if Qle_bool (e_v e) 0 then set_st SDone (set_v 0 e) else e.

(** The switch, cpp 121-188; [previousValue] is the last value written, or the one before the loop. *)
Definition segment (size : nat) (e : env) : list Q * env :=
  match e_st e with
  | SDelay => let '(l, e') := loop stepDelay size e in (l, afterDelay e')
  | SAttack => let '(l, e') := loop stepAttack size e in (l, afterAttack e')
  | SHold => let '(l, e') := loop stepHold size e in (l, afterHold e')
  | SDecay => let '(l, e') := loop stepDecay size e in (l, afterDecay e')
  | SSustain => if negb (e_rel e) && e_free e then ([], set_rel true e)
                else loop stepSustain size e
  | SRelease => let '(l, e') := loop stepRelease size e in (l, afterRelease (last l (e_v e)) e')
  | SFadeout => let '(l, e') := loop stepFadeout size e in (l, afterFadeout e')
  | SDone => (repeat 0 size, set_v 0 e)
  end.

(** The handling of a pending release, cpp 97-117. *)
Definition pending (size : nat) (e : env) : nat * env :=
  if e_rel e then
    if (0 <? e_rd e)%Z then (Nat.min size (Z.to_nat (e_rd e)), e)
    else if (e_rd e =? 0)%Z && (e_delay e <=? 0)%Z then
      if (e_delay e <? 0)%Z then (size, set_rd (-1) (set_st SRelease e))
      else (1%nat, set_rd (-1) e)
    else if (e_rd e =? -1)%Z && beforeRelease (e_st e) && (e_delay e <=? 0)%Z
      then (size, set_st SRelease e)
      else (size, e)
  else (size, e).
(** cpp 190-191 *)
Definition countdown (count : nat) (e : env) : env :=
  if e_rel e then set_rd (Z.max (-1) (e_rd e - Z.of_nat count)) e else e.
Definition iteration (size : nat) (e : env) : list Q * env :=
  let '(n, e) := pending size e in
  let '(l, e) := segment n e in (l, countdown (length l) e).

(** getBlockInternal, cpp 88-203; [None] when the fuel does not suffice. *)
Fixpoint getBlockInternal (fuel : nat) (size : nat) (e : env) : option (list Q * env) :=
  match size with
  | O => Some ([], e)
  | _ => match fuel with
         | O => None
         | S fuel =>
             let '(l, e) := iteration size e in
             match getBlockInternal fuel (size - length l) e with
             | Some (l', e') => Some (l ++ l', e')
             | None => None
             end
         end
  end.

(** getBlock with dynamic_, cpp 71-86. *)
Fixpoint getBlockDynamic (d : desc) (fuel steps : nat) (processed remaining : nat) (e : env) : option (list Q * env) :=
  match remaining with
  | O => Some ([], e)
  | _ =>
    match steps with
    | O => None
    | S steps =>
      let chunk := Nat.min processChunkSize remaining in
      match getBlockInternal fuel chunk (updateValues d (Z.of_nat processed) e) with
      | Some (l, e) =>
          match getBlockDynamic d fuel steps (processed + chunk) (remaining - chunk) e with
          | Some (l', e') => Some (l ++ l', e')
          | None => None
          end
      | None => None
      end
    end
  end.
Definition getBlock (d : desc) (fuel size : nat) (e : env) : option (list Q * env) :=
  if e_dyn e then getBlockDynamic d fuel size 0 size e else getBlockInternal fuel size e.

(** startRelease, cpp 205-209; cancelRelease, 211-217; setReleaseTime, 219-222;
    stopDynamicUpdates and isReleased, h 84, 72. *)
Definition startRelease (delay : Z) (e : env) : env := set_rd delay (set_rel true e).
Definition cancelRelease (e : env) : env := set_rd (-1) (set_rel false (set_st SSustain e)).
Definition setReleaseTime (t : Q) (e : env) : env := set_rrate (secondsToExpRate (e_rate e) t) e.
Definition stopDynamicUpdates (e : env) : env := set_dyn false e.
Definition isReleased (e : env) : bool := negb (beforeRelease (e_st e)) || e_rel e.
End Adsr.
