(** Model of the power follower of a voice.

    Code: src/sfizz/PowerFollower.cpp, PowerFollower.h, Config.h (powerFollowerStep).

    Numbers are rational, arithmetic is exact or rounded by [rnd] after each operation; the vector version of
    sumSquares is not modelled.  A buffer is the list of its channels. *)
From Coq Require Import QArith ZArith List Bool.
Import ListNotations.
From Verif Require Import AdsrModel.
Open Scope Q_scope.

(** config::powerFollowerStep. *)
Definition followerStep : nat := 512.
(** PowerFollower.h, the members; the two factors are in (0,1] (updateTrackingFactor, PowerFollower.cpp 91-96). *)
Record follower := Follower { f_attack : Q; f_release : Q; f_power : Q; f_sum : Q; f_count : nat }.

Section Follower.
Variable rnd : Q -> Q.
(** add of two spans of the same size. *)
Fixpoint addSpan (a b : list Q) : list Q :=
  match a, b with x :: a, y :: b => rnd (x + y) :: addSpan a b | _, _ => [] end.
Definition subspan (i n : nat) (l : list Q) : list Q := firstn n (skipn i l).
(** The mixed part of the buffer, PowerFollower.cpp 59-61. *)
Definition mixed (i n : nat) (b : list (list Q)) : list Q :=
  match b with [] => [] | c :: r => fold_left (fun t c => addSpan (subspan i n c) t) r (subspan i n c) end.
(** sumSquares, scalar version. *)
Definition sumSquares (l : list Q) : Q := fold_left (fun s x => rnd (s + rnd (x * x))) l 0.
(** The end of a step, lines 66-74. *)
Definition follow (f : follower) : follower :=
  let mean := rnd (f_sum f / inject_Z (Z.of_nat followerStep)) in
  let track k := rnd (rnd (f_power f * k) + rnd (mean * rnd (1 - k))) in
  Follower (f_attack f) (f_release f) (Qmaxf (track (f_attack f)) (track (f_release f))) 0 0.
(** The body of the loop, lines 55-78, for [n] frames. *)
Definition feed (l : list Q) (f : follower) : follower :=
  let f := Follower (f_attack f) (f_release f) (f_power f) (rnd (f_sum f + sumSquares l)) (f_count f + length l) in
  if Nat.eqb (f_count f) followerStep then follow f else f.
Fixpoint loop (fuel index frames : nat) (b : list (list Q)) (f : follower) : follower :=
  match fuel with
  | O => f
  | S fuel =>
      if Nat.ltb index frames then
        let n := Nat.min (followerStep - f_count f) (frames - index) in
        loop fuel (index + n) frames b (feed (mixed index n b) f)
      else f
  end.
(** PowerFollower::process, lines 38-82. *)
Definition process (b : list (list Q)) (f : follower) : follower :=
  let frames := length (hd [] b) in loop frames 0 frames b f.
End Follower.
(** PowerFollower::clear, lines 84-89. *)
Definition clear (f : follower) : follower := Follower (f_attack f) (f_release f) 0 0 0.
