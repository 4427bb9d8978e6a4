(** Transcription of src/sfizz/FlexEnvelope.cpp: envelopes made of points with a time, a level and a
    shape.

    Simplifications: the controllers stand still while the envelope runs, so that the time and
    level of a point are constants (FlexEGPoint::getTime and getLevel, FlexEGDescription.cpp
    86-102); [dynamic] envelopes, which read them again every chunk, are left out.  Floats are
    rationals, every operation followed by [rnd]; no value is infinite or NaN. *)
From Coq Require Import ZArith QArith List Bool.
Import ListNotations.

(** FlexEGPoint, FlexEGDescription.h 22-41: [pt_curve] is Curve::evalNormalized, which keeps its
    argument within 0 and 1 (Curve.h 36-51). *)
Record point := Point { pt_time : Q; pt_level : Q; pt_curve : Q -> Q }.
(** FlexEGDescription, FlexEGDescription.h 43-49. *)
Record desc := Desc { d_sustain : nat; d_points : list point }.

Definition Qltb (a b : Q) : bool := negb (Qle_bool b a).

Section Flex.
  Variable rnd : Q -> Q.
  (** samplePeriod_ *)
  Variable period : Q.
  Variable d : desc.

  (** FlexEnvelope::Impl, FlexEnvelope.cpp 35-59. *)
  Record flex := Flex {
    f_delay : nat;
    f_src : Q; f_tgt : Q; f_time : Q; f_sustained : bool; f_curve : Q -> Q;
    f_stage : nat; f_level : Q; f_now : Q;
    f_until : option nat; f_released : bool; f_free : bool }.

  (** advanceToStage with updateCurrentTimeAndLevel, 259-276 and 283-293: false when there is no
      such stage. *)
  Definition advanceTo (n : nat) (s : flex) : bool * flex :=
    match nth_error (d_points d) n with
    | None =>
        (false, Flex (f_delay s) (f_src s) (f_tgt s) (f_time s) (f_sustained s) (f_curve s)
                  n (f_level s) (f_now s) (f_until s) (f_released s) (f_free s))
    | Some p =>
        (true, Flex (f_delay s) (f_level s) (pt_level p) (pt_time p) (Nat.eqb n (d_sustain d))
                 (pt_curve p) n (f_level s) 0 (f_until s) (f_released s) (f_free s))
    end.
  Definition finished (s : flex) : bool := Nat.leb (List.length (d_points d)) (f_stage s).

  (** configure, setFreeRunning and start, 80-107; without a point the stage has no curve and
      never reads one. *)
  Definition start (free : bool) (delay : nat) : flex :=
    snd (advanceTo 0 (Flex delay 0 0 0 false (fun _ => 0) 0 0 0 None false free)).
  (** release, 109-113. *)
  Definition release (delay : nat) (s : flex) : flex :=
    Flex (f_delay s) (f_src s) (f_tgt s) (f_time s) (f_sustained s) (f_curve s)
      (f_stage s) (f_level s) (f_now s) (Some delay) (f_released s) (f_free s).
  (** cancelRelease, 115-133. *)
  Definition cancelRelease (s : flex) : flex :=
    match f_until s with
    | Some _ =>
        Flex (f_delay s) (f_src s) (f_tgt s) (f_time s) (f_sustained s) (f_curve s)
          (f_stage s) (f_level s) (f_now s) None (f_released s) (f_free s)
    | None =>
        if f_released s then
          let s1 := snd (advanceTo (d_sustain d)
                      (Flex (f_delay s) (f_src s) (f_tgt s) (f_time s) (f_sustained s) (f_curve s)
                         (f_stage s) (f_level s) (f_now s) (f_until s) false (f_free s))) in
          Flex (f_delay s1) (f_src s1) (f_level s1) (f_time s1) (f_sustained s1) (f_curve s1)
            (f_stage s1) (f_level s1) (f_now s1) (f_until s1) (f_released s1) (f_free s1)
        else s
    end.

  (** The check for the release, 197-200. *)
  Definition checkRelease (s : flex) : flex :=
    match f_until s with
    | Some O =>
        Flex (f_delay s) (f_src s) (f_tgt s) (f_time s) (f_sustained s) (f_curve s)
          (f_stage s) (f_level s) (f_now s) None true (f_free s)
    | _ => s
    end.
  (** The loops over the stages, 203-226; [false] when the envelope has ended.  [fuel] bounds the
      rounds by the number of points. *)
  Fixpoint fastForward (fuel : nat) (s : flex) : bool * flex :=
    match fuel with
    | O => (false, s)
    | S fuel' =>
        if Nat.leb (f_stage s) (d_sustain d) then
          let '(ok, s1) := advanceTo (S (f_stage s)) s in
          if ok then fastForward fuel' s1 else (false, s1)
        else (true, s)
    end.
  Fixpoint passDone (fuel : nat) (s : flex) : bool * flex :=
    match fuel with
    | O => (false, s)
    | S fuel' =>
        if (negb (f_sustained s) || f_free s) && Qle_bool (f_time s) (f_now s) then
          let s1 :=
            if Qeq_bool (f_time s) 0 then
              Flex (f_delay s) (f_src s) (f_tgt s) (f_time s) (f_sustained s) (f_curve s)
                (f_stage s) (f_tgt s) (f_now s) (f_until s) (f_released s) (f_free s)
            else s in
          let '(ok, s2) := advanceTo (S (f_stage s1)) s1 in
          if ok then passDone fuel' s2 else (false, s2)
        else (true, s)
    end.
  Definition rounds : nat := S (S (List.length (d_points d))).
  Definition transitions (s : flex) : bool * flex :=
    let s1 := checkRelease s in
    let '(ok, s2) := if f_released s1 then fastForward rounds s1 else (true, s1) in
    if ok then passDone rounds s2 else (false, s2).

  (** The level at a time of a stage, 244-247.  Without a duration the quotient is infinite, and
      the curve gives its last value. *)
  Definition levelAt (curve : Q -> Q) (src tgt duration time : Q) : Q :=
    let x := if Qeq_bool duration 0 then 1 else rnd (time * rnd (1 / duration)) in
    rnd (src + rnd (curve x * rnd (tgt - src))).
  (** The loop over the frames of a stage, 243-250: the frames, the time and the level. *)
  Fixpoint stageFrames (s : flex) (n : nat) (time level : Q) : list Q * (Q * Q) :=
    match n with
    | O => ([], (time, level))
    | S n' =>
        if Qltb time (f_time s) || f_sustained s then
          let time' := rnd (time + period) in
          let level' := levelAt (f_curve s) (f_src s) (f_tgt s) (f_time s) time' in
          let '(out, end_) := stageFrames s n' time' level' in
          (level' :: out, end_)
        else ([], (time, level))
    end.

  (** The loop of process, 195-257; [n] is the number of frames left, [fuel] the rounds. *)
  Fixpoint loop (fuel n : nat) (s : flex) : list Q * flex :=
    match fuel with
    | O => ([], s)
    | S fuel' =>
        match n with
        | O => ([], s)
        | _ =>
            let '(ok, s1) := transitions s in
            if ok then
              let max := match f_until s1 with Some r => Nat.min n r | None => n end in
              let '(out, (time, level)) := stageFrames s1 max (f_now s1) (f_level s1) in
              let done := List.length out in
              let s2 :=
                Flex (f_delay s1) (f_src s1) (f_tgt s1) (f_time s1) (f_sustained s1) (f_curve s1)
                  (f_stage s1) level time
                  (match f_until s1 with Some r => Some (r - done)%nat | None => None end)
                  (f_released s1) (f_free s1) in
              let '(rest, s3) := loop fuel' (n - done)%nat s2 in
              (out ++ rest, s3)
            else (repeat 0 n, s1)
        end
    end.
  (** process, 171-258. *)
  Definition process (n : nat) (s : flex) : list Q * flex :=
    let skip := Nat.min n (f_delay s) in
    let s1 := Flex (f_delay s - skip)%nat (f_src s) (f_tgt s) (f_time s) (f_sustained s) (f_curve s)
                (f_stage s) (f_level s) (f_now s) (f_until s) (f_released s) (f_free s) in
    let '(out, s2) :=
      if finished s1 then (repeat 0 (n - skip)%nat, s1) else loop (n - skip)%nat (n - skip)%nat s1 in
    (repeat 0 skip ++ out, s2).
  (** A series of blocks. *)
  Fixpoint blocks (l : list nat) (s : flex) : list Q * flex :=
    match l with
    | [] => ([], s)
    | n :: r => let '(a, s1) := process n s in let '(b, s2) := blocks r s1 in (a ++ b, s2)
    end.
End Flex.
