(** Model of the low frequency oscillators.

    Code: src/sfizz/MathHelpers.h 318-327 (wrapPhase), LFO.cpp 60-406, LFODescription.h.

    Numbers are rational and [rnd] is the rounding after each operation; the conversion to int of a phase is defined
    when the phase is below 2^31 in absolute value, which is not checked here.  Not modelled: the sample-and-hold wave
    (random numbers), the failure of the buffer pool, and start's evaluation of the controllers: the state after start
    is the argument.  The modulation buffers and the phases computed from the beat clock are arguments of a block. *)
From Coq Require Import QArith Qround Qabs ZArith List Bool.
Import ListNotations.
From Verif Require Import AdsrModel CcEnvModel.
Open Scope Q_scope.

Inductive wave := Triangle | Sine | Pulse75 | Square | Pulse25 | Pulse12_5 | Ramp | Saw.
(** LFODescription::Sub. *)
Record sub := Sub { u_wave : wave; u_offset : Q; u_ratio : Q; u_scale : Q }.
(** LFODescription, the members that the processing uses. *)
Record desc := Desc { d_freq : Q; d_phase0 : Q; d_seq : option (list Q); d_sub : list sub }.
(** LFO::Impl: subPhases_, delayFramesLeft_, fadePosition_, fadeTime_. *)
Record lfo := Lfo { o_phases : list Q; o_delay : nat; o_fade : Q; o_fadeTime : Q }.
(** What a block brings: the modulation buffers of the frequency and the phase, and the phases computed by
    BeatClock::calculatePhase for each sub-oscillator, when the host plays and beats are set; all from the first frame
    of the block. *)
Record inputs := Inputs { i_freqMod : option (list Q); i_phaseMod : option (list Q); i_clock : option (list (list Q)) }.

Section Lfo.
Variable rnd : Q -> Q.
(** wrapPhase, MathHelpers.h 322-327. *)
Definition wrapPhase (phase : Q) : Q :=
  let wrapped := rnd (phase - inject_Z (Qtrunc phase)) in
  if Qltb wrapped 0 then rnd (wrapped + 1) else wrapped.
(** eval, LFO.cpp 101-155. *)
Definition eval (w : wave) (p : Q) : Q :=
  match w with
  | Triangle =>
      if Qltb (3 # 4) p then rnd (rnd (4 * p) - 4)
      else if Qltb p (1 # 4) then rnd (4 * p) else rnd (rnd (-4 * p) + 2)
  | Sine => let x := rnd (rnd (p + p) - 1) in rnd (rnd (-4 * x) * rnd (1 - Qabs x))
  | Pulse75 => if Qltb p (3 # 4) then 1 else 0
  | Square => if Qltb p (1 # 2) then 1 else 0
  | Pulse25 => if Qltb p (1 # 4) then 1 else 0
  | Pulse12_5 => if Qltb p (1 # 8) then 1 else 0
  | Ramp => rnd (rnd (2 * p) - 1)
  | Saw => rnd (1 - rnd (2 * p))
  end.
(** processWave, lines 157-172, the value added for a phase. *)
Definition waveValue (u : sub) (p : Q) : Q := rnd (u_offset u + rnd (u_scale u * eval (u_wave u) p)).
(** The index of processSteps, line 228. *)
Definition stepIndex (n : nat) (p : Q) : Z := Qtrunc (rnd (p * inject_Z (Z.of_nat n))).
(** processSteps, lines 208-231, the value added for a phase; [None] is a read outside the steps. *)
Definition stepValue (steps : list Q) (u : sub) (p : Q) : option Q :=
  let i := stepIndex (length steps) p in
  if (i <? 0)%Z then None else
  match nth_error steps (Z.to_nat i) with Some s => Some (rnd (u_offset u + rnd (u_scale u * s))) | None => None end.
(** generatePhase, lines 376-390, the phases from the frequency; [period] is samplePeriod.  The modulation is read
    from the start of its buffer. *)
Definition increment (d : desc) (u : sub) (period : Q) (m : option Q) : Q :=
  rnd (rnd (u_ratio u * period) * match m with None => d_freq d | Some m => rnd (d_freq d + m) end).
Fixpoint generate (n : nat) (d : desc) (u : sub) (period : Q) (mods : option (list Q)) (phase : Q) : list Q * Q :=
  match n with
  | O => ([], phase)
  | S n =>
      let incr := increment d u period (option_map (hd 0) mods) in
      let (l, e) := generate n d u period (option_map (@tl Q) mods) (wrapPhase (rnd (phase + incr))) in (phase :: l, e)
  end.
(** The phase offsets, lines 394-401. *)
Fixpoint offsets (d : desc) (mods : option (list Q)) (l : list Q) : list Q :=
  match l with
  | [] => []
  | p :: l =>
      let x := rnd (p + d_phase0 d) in
      wrapPhase (match mods with None => x | Some m => rnd (x + hd 0 m) end) :: offsets d (option_map (@tl Q) mods) l
  end.
(** generatePhase, lines 327-404, for the sub-oscillator [nth]; with the beat clock the phase of the oscillator stays. *)
Definition generatePhase (n k : nat) (d : desc) (u : sub) (period : Q) (i : inputs) (phase : Q) : list Q * Q :=
  let (l, e) := match i_clock i with
                | Some c => (firstn n (nth k c []), phase)
                | None => generate n d u period (i_freqMod i) phase
                end in
  (offsets d (i_phaseMod i) l, e).
(** Addition of the values of a sub-oscillator to the output; [None] when a read was outside. *)
Fixpoint addValues (f : Q -> option Q) (phases out : list Q) : option (list Q) :=
  match phases, out with
  | p :: ps, o :: os =>
      match f p, addValues f ps os with Some v, Some r => Some (rnd (o + v) :: r) | _, _ => None end
  | _, _ => Some out
  end.
(** The sub-oscillators in turn, process lines 264-301: the first uses the steps if there is a sequence. *)
Fixpoint subs (n k : nat) (d : desc) (period : Q) (i : inputs) (l : list sub) (phases out : list Q) : option (list Q * list Q) :=
  match l with
  | [] => Some (out, phases)
  | u :: l =>
      let (ps, e) := generatePhase n k d u period i (hd 0 phases) in
      let f := match k, d_seq d with
               | O, Some [] => fun _ => None
               | O, Some steps => stepValue steps u
               | _, _ => fun p => Some (waveValue u p)
               end in
      match (match k, d_seq d with O, Some [] => Some out | _, _ => addValues f ps out end) with
      | Some out => match subs n (S k) d period i l (tl phases) out with
                    | Some (out, phases') => Some (out, e :: phases')
                    | None => None
                    end
      | None => None
      end
  end.
(** processFadeIn, lines 306-326. *)
Fixpoint fadeLoop (step : Q) (out : list Q) (pos : Q) : list Q * Q :=
  match out with
  | [] => ([], pos)
  | x :: out =>
      if Qltb pos 1 then let (l, e) := fadeLoop step out (Qminf 1 (rnd (pos + step))) in (rnd (x * pos) :: l, e)
      else (x :: out, pos)
  end.
Definition fadeIn (period : Q) (out : list Q) (o : lfo) : list Q * lfo :=
  if Qle_bool 1 (o_fade o) then (out, o)
  else let (l, e) := fadeLoop (rnd (period / o_fadeTime o)) out (o_fade o) in (l, Lfo (o_phases o) (o_delay o) e (o_fadeTime o)).
(** process, lines 233-304. *)
Definition process (n : nat) (d : desc) (period : Q) (i : inputs) (o : lfo) : option (list Q * lfo) :=
  let skip := Nat.min n (o_delay o) in
  let o := Lfo (o_phases o) (o_delay o - skip) (o_fade o) (o_fadeTime o) in
  let rest := (n - skip)%nat in
  match d_sub d with
  | [] => Some (repeat 0 n, o)
  | l =>
      match subs rest 0 d period i l (o_phases o) (repeat 0 rest) with
      | Some (out, phases) =>
          let (out, o) := fadeIn period out (Lfo phases (o_delay o) (o_fade o) (o_fadeTime o)) in
          Some (repeat 0 skip ++ out, o)
      | None => None
      end
  end.
End Lfo.
