(** Model of the reading position of a voice that plays a sample: the positions of a block, loops, loop counts, sample
    counts, the end of the sample, the frames read by the interpolation, and the age of the voice.
    Code: src/sfizz/Voice.cpp (renderBlock, fillWithData, updateLoopInformation), RegionStateful.cpp (sampleEnd,
    loopStart, loopEnd), Interpolators.hpp, SIMDHelpers.h (sfzInterpolationCast).
    Simplifications: positions are rational numbers without rounding; integers do not overflow; the source of a voice
    keeps its number of frames during the blocks considered (the whole sample is loaded); the pitch of each frame is
    given as its jump, which is positive; the buffer pool does not run out. *)
From Coq Require Import ZArith QArith Qround List Bool Lia.
Import ListNotations.
Local Open Scope Z_scope.

(** loop_, Voice.cpp 250-259. *)
Record loopInfo := LoopInfo { lo_start : Z; lo_end : Z; lo_size : Z; lo_xfSize : Z; lo_xfOut : Z; lo_xfIn : Z }.
Definition clampZ (v lo hi : Z) : Z := Z.max lo (Z.min v hi).
(** sampleEnd, loopStart and loopEnd, RegionStateful.cpp 45-73: [v] with the controllers added. *)
Definition clampEnd (regionEnd v : Z) : Z := clampZ v 0 regionEnd.
(** updateLoopInformation, Voice.cpp 1752-1759; [xf] is the crossfade in frames, not negative. *)
Definition loopOf (regionEnd start end_ xf : Z) : loopInfo :=
  let s := clampEnd regionEnd start in
  let e := Z.max (clampEnd regionEnd end_) s in
  let x := Z.min s xf in
  LoopInfo s e (e + 1 - s) x (e + 1 - x) (s - x).

(** What does not change during a block: the loop, the frames of the source, FileInformation::end, sampleEnd_ and
    sampleSize_, whether the mode loops now (loop_continuous, or loop_sustain before the release) and at all, loop_count
    and count. *)
Record params := Params {
  p_loop : loopInfo; p_frames : Z; p_infoEnd : Z; p_sampleEnd : Z; p_sampleSize : Z;
  p_loopsNow : bool; p_loops : bool; p_loopCount : option Z; p_sampleCount : option Z }.
(** sourcePosition_, floatPositionOffset_, loop_.restarts and count_. *)
Record vstate := VState { s_pos : Z; s_frac : Q; s_restarts : Z; s_count : Z }.

(** ** Positions of a block *)
(** cumsum, sfzInterpolationCast and add1, Voice.cpp 1110-1113 and SIMDHelpers.h 642-649: [a] is the sum so far. *)
Definition maxJump : Q := inject_Z (2 ^ 24).
Definition limit (a : Q) : Q := if Qle_bool a maxJump then a else maxJump.
Fixpoint raws (pos : Z) (a : Q) (jumps : list Q) : list (Z * Q) :=
  match jumps with
  | [] => []
  | j :: js =>
      let a := (a + j)%Q in
      (pos + Qfloor (limit a), Qred (limit a - inject_Z (Qfloor (limit a)))) :: raws pos a js
  end.
(** The first frame of a voice takes no jump, Voice.cpp 1107-1108. *)
Definition firstJump (young : bool) (jumps : list Q) : list Q :=
  match jumps with [] => [] | j :: js => (if young then 0%Q else j) :: js end.
Definition almostOne : Q := 16777215 # 16777216.
(** sampleEnd, line 1165. *)
Definition lastIndex (p : params) : Z := Z.min (Z.min (p_sampleEnd p) (p_infoEnd p)) (p_frames p) - 1.
Definition reached (count : option Z) (n : Z) : bool := match count with Some c => c <=? n | None => false end.
(** shouldLoop, lines 1121-1125. *)
Definition shouldLoop (p : params) (s : vstate) : bool :=
  (lo_end (p_loop p) <? p_frames p) && p_loopsNow p && negb (reached (p_loopCount p) (s_restarts s)).
(** The loop of lines 1191-1195: subtractions until the index is in the loop. *)
Fixpoint subtractions (lo : loopInfo) (fuel : nat) (w : Z) : Z :=
  match fuel with
  | O => 0
  | S fuel => if lo_end lo <? w then 1 + subtractions lo fuel (w - lo_size lo) else 0
  end.
Definition wraps (lo : loopInfo) (w : Z) : Z := subtractions lo (Z.to_nat (w - lo_end lo)) w.
Definition xfading (lo : loopInfo) (w : Z) : bool := (lo_start lo <=? w) && (lo_xfOut lo <=? w).
(** A frame of the block: index, coefficient, whether it fades, and whether a partition starts at it. *)
Record frame := Frame { f_index : Z; f_coeff : Q; f_fades : bool; f_starts : bool }.
(** Lines 1188-1206 with addPartitionIfNecessary (1171-1186): the frames, blockRestarts and restarts after them, and the
    frames left when the loop count is reached. *)
Fixpoint loopFrames (lo : loopInfo) (count : option Z) (first : bool) (l : list (Z * Q)) (br restarts old : Z) (oldFades : bool) :
  list frame * Z * Z * list (Z * Q) :=
  match l with
  | [] => ([], br, restarts, [])
  | (r, c) :: l =>
      let w0 := r - lo_size lo * br in
      let n := wraps lo w0 in
      let w := w0 - lo_size lo * n in
      let wrapped := w <? old in
      let fades := xfading lo w in
      let fr := Frame w c fades (first || wrapped || negb (Bool.eqb fades oldFades)) in
      if wrapped && reached count (restarts + n) then ([fr], br + n, restarts + n, l) else
      let '(frs, br', re', rest) := loopFrames lo count false l (br + n) (restarts + n) w fades in
      (fr :: frs, br', re', rest)
  end.
(** Lines 1208-1216: the frames after the loop count. *)
Fixpoint tailFrames (last shift : Z) (l : list (Z * Q)) : list (Z * Q) :=
  match l with
  | [] => []
  | (r, c) :: l' =>
      if last <=? r - shift then map (fun _ => (last, almostOne)) l
      else (r - shift, c) :: tailFrames last shift l'
  end.
(** Lines 1218-1235: one shots; the positions, count_, and the frame at which the voice goes off. *)
Fixpoint shotFrames (p : params) (l : list (Z * Q)) (i : nat) (br count : Z) : list (Z * Q) * Z * option nat :=
  match l with
  | [] => ([], count, None)
  | (r, c) :: l' =>
      let r := r - p_sampleSize p * br in
      if lastIndex p <=? r then
        if match p_sampleCount p with Some n => count <? n | None => false end && negb (p_loops p) then
          let '(fs, count', off) := shotFrames p l' (S i) (br + 1) (count + 1) in
          ((r - p_sampleSize p, c) :: fs, count', off)
        else (map (fun _ => (lastIndex p, almostOne)) l, count, Some i)
      else
        let '(fs, count', off) := shotFrames p l' (S i) br count in
        ((r, c) :: fs, count', off)
  end.
(** Partitions, lines 1168-1186 and 1241-1252: the last one extends to the end of the block. *)
Fixpoint groups (fades : bool) (cur : list Z) (l : list frame) (rest : list Z) : list (bool * list Z) :=
  match l with
  | [] => [(fades, rev cur ++ rest)]
  | f :: l => if f_starts f then (fades, rev cur) :: groups (f_fades f) [f_index f] l rest else groups fades (f_index f :: cur) l rest
  end.
Definition partitions (l : list frame) (rest : list Z) : list (bool * list Z) :=
  match l with
  | [] => []
  | f :: l => groups (f_fades f) [f_index f] l rest
  end.
(** fillWithData: the positions, the partitions, the frame at which the voice goes off, and the state after. *)
Record filled := Filled { o_frames : list (Z * Q); o_parts : list (bool * list Z); o_off : option nat; o_state : vstate }.
Definition after (s : vstate) (fs : list (Z * Q)) (restarts count : Z) : vstate :=
  let (i, c) := last fs (s_pos s, s_frac s) in VState i c restarts count.
Definition fill (p : params) (s : vstate) (young : bool) (jumps : list Q) : filled :=
  let l := raws (s_pos s) (s_frac s) (firstJump young jumps) in
  match l with
  | [] => Filled [] [] None s
  | _ =>
      if shouldLoop p s then
        let '(frs, br, restarts, rest) := loopFrames (p_loop p) (p_loopCount p) true l 0 (s_restarts s) 0 false in
        let t := tailFrames (lastIndex p) (lo_size (p_loop p) * br) rest in
        let fs := map (fun f => (f_index f, f_coeff f)) frs ++ t in
        Filled fs (partitions frs (map fst t)) None (after s fs restarts (s_count s))
      else
        let '(fs, count, off) := shotFrames p l 0 0 (s_count s) in
        Filled fs [(false, map fst fs)] off (after s fs (s_restarts s) count)
  end.
(** The indices given to the interpolation: those of a partition, and for one that fades those of the crossfade input
    (lines 1297-1309), without the negative ones at its start. *)
Fixpoint dropNegative (l : list Z) : list Z := match l with [] => [] | x :: l' => if x <? 0 then dropNegative l' else l end.
Definition partReads (lo : loopInfo) (pt : bool * list Z) : list Z :=
  snd pt ++ (if fst pt then dropNegative (map (fun w => w - (lo_xfOut lo - lo_xfIn lo)) (snd pt)) else []).
Definition reads (p : params) (o : filled) : list Z := List.concat (map (partReads (p_loop p)) (o_parts o)).
(** The frames of the source used by the interpolators, Interpolators.hpp: 2 points for nearest and linear, 4 for the
    third order ones, 8 to 72 for the windowed sinc. *)
Definition taps (points index : Z) : list Z := map (fun i => index + 1 - points / 2 + Z.of_nat i) (seq 0 (Z.to_nat points)).

(** ** The voice *)
(** initialDelay_, age_, triggerDelay_ and the rest. *)
Record voice := Voice { v_delay : Z; v_age : Z; v_trigger : option Z; v_state : vstate }.
(** startVoice, lines 437-438 and 486-488: [offset] is the position at the start; [delay] that of the event and
    [regionDelay] that of the region. *)
Definition startVoice (offset delay regionDelay : Z) : voice := Voice (delay + regionDelay) 0 (Some delay) (VState offset 0 0 1).
(** renderBlock, lines 784-824: [jumps] are those of all the frames of the block, of which the first ones fall in the
    delay. *)
Definition renderBlock (p : params) (v : voice) (jumps : list Q) : filled * voice :=
  let n := Z.of_nat (length jumps) in
  let delay := Z.min (v_delay v) n in
  let o := fill p (v_state v) (v_age v =? 0) (skipn (Z.to_nat delay) jumps) in
  let age := v_age v + n in
  (o, Voice (v_delay v - delay) (match v_trigger v with Some d => Z.min (age - d) 0 | None => age end) None (o_state o)).
Fixpoint renderBlocks (p : params) (v : voice) (bs : list (list Q)) : list (Z * Q) * voice :=
  match bs with
  | [] => ([], v)
  | b :: bs => let (o, v) := renderBlock p v b in let (fs, v) := renderBlocks p v bs in (o_frames o ++ fs, v)
  end.
