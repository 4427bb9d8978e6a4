(** Model of the beat clock: src/sfizz/BeatClock.cpp, BeatClock.h.

    [double] values are rationals with [rnd] after every operation. [toFloat] is the conversion to float.
    The running buffers are the list of the frames written in the current cycle; frames of earlier cycles that
    stay behind in the buffers are never read, because the readers fill the cycle first. Overflow of [int] and
    division by zero (tempo 0) are not modelled. *)
From Coq Require Import QArith Qround ZArith List Bool.
Import ListNotations.
From Verif Require Import AdsrModel CcEnvModel.
Open Scope Q_scope.

(** TimeSignature and BBT, BeatClock.h 17-72. *)
Record sig := Sig { perBar : Z; unit_ : Z }.
Record bbt := BBT { bar : Z; beat : Q }.
Definition valid (s : sig) : bool := (0 <? perBar s)%Z && (0 <? unit_ s)%Z.
Definition sig_eqb (a b : sig) : bool := (perBar a =? perBar b)%Z && (unit_ a =? unit_ b)%Z.

Section Clock.
Variable rnd : Q -> Q.
Variable toFloat : Q -> Q.

(** cpp 34-37, 39-44, 27-32 *)
Definition toBeats (s : sig) (p : bbt) : Q := rnd (beat p + inject_Z (bar p * perBar s)).
Definition fromBeats (s : sig) (b : Q) : bbt :=
  let newBar := Qtrunc (rnd (b / inject_Z (perBar s))) in BBT newBar (rnd (b - inject_Z (newBar * perBar s))).
Definition toSignature (o n : sig) (p : bbt) : bbt :=
  fromBeats n (rnd (rnd (toBeats o p * inject_Z (unit_ n)) / inject_Z (unit_ o))).

(** quantize, 54-59; dequantize<int>, 61-65: a division of integers. *)
Definition quantizeBeats (b : Q) : Z :=
  let d := rnd (b * 65536) in Qtrunc (if Qle_bool 0 d then rnd ((1 # 2) + d) else - rnd ((1 # 2) + - d)).
Definition dequantize (q : Z) : Z := Z.quot q 65536.

Record frame := Frame { f_number : Z; f_position : Q; f_perBar : Z }.
(** The members, BeatClock.h 176-205. *)
Record clock := Clock {
  c_period : Q; c_frames : nat; c_fill : nat;
  c_bps : Q; c_sig : sig; c_playing : bool;
  c_host : bbt; c_must : bool; c_client : bbt;
  c_out : list frame }.

Definition frame_at (s : sig) (p : bbt) : frame :=
  let b := toBeats s p in Frame (dequantize (quantizeBeats b)) (toFloat b) (perBar s).
(** getBeatsPerFrame, h 154 *)
Definition perFrame (c : clock) : Q := rnd (c_bps c * c_period c).

(** One turn of the loop, 201-210. *)
Definition tick (c : clock) : clock :=
  let moved := fromBeats (c_sig c) (rnd (toBeats (c_sig c) (c_client c) + perFrame c)) in
  let p := if c_must c then c_host c else moved in
  Clock (c_period c) (c_frames c) (c_fill c + 1) (c_bps c) (c_sig c) (c_playing c) (c_host c) false p
        (c_out c ++ [frame_at (c_sig c) p]).
Fixpoint ticks (n : nat) (c : clock) : clock := match n with O => c | S n => ticks n (tick c) end.
(** fillBufferUpTo, 171-217. *)
Definition fillUpTo (d : nat) (c : clock) : clock :=
  if c_playing c then ticks (d - c_fill c) c
  else
    let p := if c_must c then c_host c else c_client c in
    Clock (c_period c) (c_frames c) (Nat.max (c_fill c) d) (c_bps c) (c_sig c) (c_playing c) (c_host c) false p
          (c_out c ++ repeat (frame_at (c_sig c) p) (d - c_fill c)).

(** beginCycle, 79-84; endCycle, 86-89. *)
Definition beginCycle (n : nat) (c : clock) : clock :=
  Clock (c_period c) n 0 (c_bps c) (c_sig c) (c_playing c) (c_host c) (c_must c) (c_client c) [].
Definition endCycle (c : clock) : clock := fillUpTo (c_frames c) c.

(** The events, 103-149. *)
Inductive event :=
| Tempo (secondsPerBeat : Q)
| Signature (s : sig)
| Position (p : bbt)
| Playing (b : bool).
Definition apply (e : event) (c : clock) : clock :=
  match e with
  | Tempo t => Clock (c_period c) (c_frames c) (c_fill c) (rnd (1 / t)) (c_sig c) (c_playing c) (c_host c) (c_must c) (c_client c) (c_out c)
  | Signature s =>
      if negb (valid s) || sig_eqb (c_sig c) s then c
      else Clock (c_period c) (c_frames c) (c_fill c) (c_bps c) s (c_playing c)
             (toSignature (c_sig c) s (c_host c)) (c_must c) (toSignature (c_sig c) s (c_client c)) (c_out c)
  | Position p => Clock (c_period c) (c_frames c) (c_fill c) (c_bps c) (c_sig c) (c_playing c) p true (c_client c) (c_out c)
  | Playing b => Clock (c_period c) (c_frames c) (c_fill c) (c_bps c) (c_sig c) b (c_host c) (c_must c) (c_client c) (c_out c)
  end.
Definition set (d : nat) (e : event) (c : clock) : clock := apply e (fillUpTo d c).

(** getRunningBeatNumber, getRunningBeatPosition, getRunningBeatsPerBar, 139-169: all fill the cycle. *)
Definition running (c : clock) : list frame * clock := let c := fillUpTo (c_frames c) c in (firstn (c_frames c) (c_out c), c).
(** The initial state, h 176-205. *)
Definition fresh (rate : Q) : clock :=
  Clock (1 / rate) 0 0 2 (Sig 4 4) false (BBT 0 0) false (BBT 0 0) [].

(** What a cycle does with the clock: fills up to some frame, and events. *)
Inductive act := Fill (d : nat) | Set_ (d : nat) (e : event).
Definition act_delay (a : act) : nat := match a with Fill d => d | Set_ d _ => d end.
Definition do (a : act) (c : clock) : clock := match a with Fill d => fillUpTo d c | Set_ d e => set d e c end.
Definition acts (l : list act) (c : clock) : clock := fold_left (fun c a => do a c) l c.

(** calculatePhase, 219-238, for one frame. *)
Definition phase (period pos : Q) : Q :=
  if Qle_bool period 0 then 0 else
  let p := (Qmaxf 0 pos) * (1 / period) in p - inject_Z (Qtrunc p).
End Clock.

(** Synth: what the host sends comes before the block is rendered, Synth.cpp 1605-1652 and 1129-1235. *)
Definition block (rnd toFloat : Q -> Q) (events : list (nat * event)) (n : nat) (c : clock) : list frame * clock :=
  let c := fold_left (fun c '(d, e) => set rnd toFloat d e c) events c in
  let c := beginCycle n c in
  let c := endCycle rnd toFloat c in (c_out c, c).
