(** Model of the mixing of a block: voices into effect buses, buses into the output channels.
    Source: src/sfizz/Synth.cpp (renderBlock, handleEffectOpcodes, addEffectBusesIfNecessary), src/sfizz/Effects.cpp, Effects.h.
    Samples are an abstract type with addition, multiplication and a test for zero.  An effect is a state with a function from the
    samples of a block to those it gives back, the same whether it works in place or not.  The buffers of a bus are longer than the
    block; only the part of the block is kept here, the rest is never read.  The names of the opcodes and their values are already
    read (OpcodeModel, ValueModel).  Not modelled: timing, modulation, the clock, the failure of temporary buffers. *)
From Coq Require Import List Arith ZArith Bool.
Import ListNotations.

Section Mix.
Variable A : Type.
Variable zero : A.
Variables add mul : A -> A -> A.
Variable isz : A -> bool.          (* x == 0 *)
Variable fx : Type.                (* an effect with its state *)
Definition stereo : Type := (list A * list A)%type.
Variable run : fx -> stereo -> fx * stereo.   (* Effect::process *)

(** simd multiplyAdd1, HelpersScalar.h: output[i] += gain * input[i]; add likewise. *)
Fixpoint madd (g : A) (xs os : list A) : list A :=
  match xs, os with x :: xs, o :: os => add o (mul g x) :: madd g xs os | _, _ => [] end.
Fixpoint addl (xs os : list A) : list A :=
  match xs, os with x :: xs, o :: os => add o x :: addl xs os | _, _ => [] end.
Definition madd2 (g : A) (x o : stereo) : stereo := (madd g (fst x) (fst o), madd g (snd x) (snd o)).
Definition silence (n : nat) : stereo := (repeat zero n, repeat zero n).

(** Effects.h:187-191 *)
Record bus := Bus { b_fx : list fx; b_main : A; b_mix : A; b_in : stereo; b_out : stereo }.

(** EffectBus::clearInputs, Effects.cpp:111-115 *)
Definition clearInputs (n : nat) (b : bus) : bus := Bus (b_fx b) (b_main b) (b_mix b) (silence n) (silence n).

(** EffectBus::addToInputs, Effects.cpp:117-126 *)
Definition addToInputs (x : stereo) (g : A) (b : bus) : bus :=
  if isz g then b else Bus (b_fx b) (b_main b) (b_mix b) (madd2 g x (b_in b)) (b_out b).

(** EffectBus::process, Effects.cpp:151-166: the first effect goes from the inputs to the outputs, the others work in place; without
    effects, or without a gain to anywhere, the inputs are copied. *)
Fixpoint inPlace (fs : list fx) (x : stereo) : list fx * stereo :=
  match fs with [] => ([], x) | f :: fs => let '(f, x) := run f x in let '(fs, x) := inPlace fs x in (f :: fs, x) end.
Definition process (b : bus) : bus :=
  match b_fx b with
  | f :: fs => if negb (isz (b_main b)) || negb (isz (b_mix b))
               then let '(f, out) := run f (b_in b) in let '(fs, out) := inPlace fs out in Bus (f :: fs) (b_main b) (b_mix b) (b_in b) out
               else Bus (b_fx b) (b_main b) (b_mix b) (b_in b) (b_in b)
  | [] => Bus (b_fx b) (b_main b) (b_mix b) (b_in b) (b_in b)
  end.

(** EffectBus::mixOutputsTo, Effects.cpp:168-178 *)
Definition mixOutputsTo (b : bus) (main mix : stereo) : stereo * stereo := (madd2 (b_main b) (b_out b) main, madd2 (b_mix b) (b_out b) mix).

(** A voice that sounds: the output and the gains to the buses of its region, and the block it renders. *)
Record voice := Voice { v_output : nat; v_gains : list A; v_block : stereo }.

(** Region::getGainToEffectBus, Region.cpp:1840-1846 *)
Definition gainTo (v : voice) (i : nat) : A := nth i (v_gains v) zero.

Fixpoint upd {T : Type} (l : list T) (i : nat) (x : T) : list T :=
  match l, i with [], _ => [] | _ :: l, O => x :: l | y :: l, S i => y :: upd l i x end.

(** the loop over the buses of the output of a voice, Synth.cpp:1174-1180 *)
Fixpoint addVoice (v : voice) (i : nat) (bs : list (option bus)) : list (option bus) :=
  match bs with
  | [] => []
  | Some b :: bs => Some (addToInputs (v_block v) (gainTo v i) b) :: addVoice v (S i) bs
  | None :: bs => None :: addVoice v (S i) bs
  end.

(** the loop over the voices, Synth.cpp:1161-1191; an output without buses is undefined behaviour *)
Fixpoint addVoices (vs : list voice) (outs : list (list (option bus))) : option (list (list (option bus))) :=
  match vs with
  | [] => Some outs
  | v :: vs => match nth_error outs (v_output v) with
               | Some bs => addVoices vs (upd outs (v_output v) (addVoice v 0 bs))
               | None => None
               end
  end.

(** the buses of one output, Synth.cpp:1204-1209 *)
Fixpoint mixBuses (bs : list (option bus)) (main mix : stereo) : list (option bus) * stereo * stereo :=
  match bs with
  | [] => ([], main, mix)
  | Some b :: bs => let b := process b in let '(main, mix) := mixOutputsTo b main mix in
                    let '(bs, main, mix) := mixBuses bs main mix in (Some b :: bs, main, mix)
  | None :: bs => let '(bs, main, mix) := mixBuses bs main mix in (None :: bs, main, mix)
  end.

(** AudioSpan::getStereoSpan, AudioSpan.h:463-467: beyond the channels the pointers are not initialised *)
Definition getStereo (buf : list (list A)) (start : nat) : option stereo :=
  match nth_error buf start, nth_error buf (S start) with Some l, Some r => Some (l, r) | _, _ => None end.

(** the loop over the outputs, Synth.cpp:1199-1218, from output i for k outputs *)
Fixpoint mixOutputs (n k i : nat) (outs : list (list (option bus))) (buf : list (list A)) : option (list (list (option bus)) * list (list A)) :=
  match k with
  | O => Some (outs, buf)
  | S k =>
    let start := if length buf =? 0 then 0 else (2 * i) mod length buf in
    match getStereo buf start, nth_error outs i with
    | Some main, Some bs =>
        let '(bs, main, mix) := mixBuses bs main (silence n) in
        let buf := upd (upd buf start (addl (fst mix) (fst main))) (S start) (addl (snd mix) (snd main)) in
        mixOutputs n k (S i) (upd outs i bs) buf
    | _, _ => None
    end
  end.

(** the part of Synth::renderBlock, Synth.cpp:1093-1222, that makes the samples: n frames into numChannels channels *)
Definition clearBuses (n numOutputs : nat) (outs : list (list (option bus))) : list (list (option bus)) :=
  map (map (option_map (clearInputs n))) (firstn numOutputs outs) ++ skipn numOutputs outs.
Definition renderBlock (n numChannels numOutputs : nat) (volume : A) (vs : list voice) (outs : list (list (option bus)))
  : option (list (list (option bus)) * list (list A)) :=
  match addVoices vs (clearBuses n numOutputs outs) with
  | None => None
  | Some outs =>
    match mixOutputs n numOutputs 0 outs (repeat (repeat zero n) numChannels) with
    | None => None
    | Some (outs, buf) => Some (outs, map (map (mul volume)) buf)
    end
  end.

(** ** Loading of <effect> *)
Variable one : A.
(** An opcode of an <effect> header. *)
Inductive eop := OBus (name : list Z) | OOutput (n : nat) | ODirect (g : A) | OToMain (k : Z) (g : A) | OToMix (k : Z) (g : A) | OOther.

(** Synth::Impl::addEffectBusesIfNecessary, Synth.cpp:241-254; a new bus has Default::effect = 0 as both gains *)
Definition newBus (gain : A) : bus := Bus [] gain zero ([], []) ([], []).
Definition addBuses (outs : list (list (option bus))) (output : nat) : list (list (option bus)) :=
  outs ++ repeat [Some (newBus one)] (S output - length outs).

(** getOrCreateBus with a change made to the bus, Synth.cpp:493-505 *)
Definition withBus (outs : list (list (option bus))) (output index : nat) (f : bus -> bus) : list (list (option bus)) :=
  match nth_error outs output with
  | None => outs
  | Some bs =>
    let bs := bs ++ repeat None (S index - length bs) in
    let b := match nth index bs None with Some b => b | None => newBus zero end in
    upd outs output (upd bs index (Some (f b)))
  end.

Definition setMain (g : A) (b : bus) : bus := Bus (b_fx b) g (b_mix b) (b_in b) (b_out b).
Definition setMix (g : A) (b : bus) : bus := Bus (b_fx b) (b_main b) g (b_in b) (b_out b).
Definition addEffect (f : fx) (b : bus) : bus := Bus (b_fx b ++ [f]) (b_main b) (b_mix b) (b_in b) (b_out b).

(** config::maxEffectBuses, Config.h:105 *)
Definition maxEffectBuses : Z := 256.
Definition validBus (k : Z) : bool := ((1 <=? k) && (k <=? maxEffectBuses))%Z.

(** the loop over the members, Synth.cpp:507-536 *)
Definition effectOpcode (output : nat) (outs : list (list (option bus))) (o : eop) : list (list (option bus)) :=
  match o with
  | ODirect g => withBus outs output 0 (setMain g)
  | OToMain k g => if validBus k then withBus outs output (Z.to_nat k) (setMain g) else outs
  | OToMix k g => if validBus k then withBus outs output (Z.to_nat k) (setMix g) else outs
  | _ => outs
  end.

(** absl::SimpleAtoi to unsigned: white space around is skipped, then an optional plus and decimal digits, below 2^32.
    (A minus sign fails.) *)
Definition isSpace (c : Z) : bool := ((c =? 32) || ((9 <=? c) && (c <=? 13)))%Z.
Fixpoint skipSpace (s : list Z) : list Z := match s with c :: r => if isSpace c then skipSpace r else s | [] => [] end.
Fixpoint digits (s : list Z) (acc : Z) : option Z :=
  match s with
  | [] => Some acc
  | c :: r => if ((48 <=? c) && (c <=? 57))%Z then (let v := (acc * 10 + (c - 48))%Z in if (v <? 2 ^ 32)%Z then digits r v else None) else None
  end.
Definition simpleAtoi (s : list Z) : option Z :=
  let s := rev (skipSpace (rev (skipSpace s))) in
  let s := match s with 43%Z :: r => r | _ => s end in
  match s with [] => None | _ => digits s 0 end.

(** the choice of the bus, Synth.cpp:538-546: "main" is 109 97 105 110, "fx" is 102 120 *)
Definition busIndex (name : list Z) : option nat :=
  match name with
  | [] => Some 0
  | [109; 97; 105; 110]%Z => Some 0
  | 102%Z :: 120%Z :: (_ :: _) as r => match simpleAtoi (skipn 2 name) with Some k => if validBus k then Some (Z.to_nat k) else None | None => None end
  | _ => None
  end.

(** Synth::Impl::handleEffectOpcodes, Synth.cpp:477-553; [make] is EffectFactory::makeEffect *)
Variable make : list eop -> fx.
Definition lastOutput (ms : list eop) : nat := fold_left (fun o m => match m with OOutput n => n | _ => o end) ms 0.
Definition lastName (ms : list eop) : list Z := fold_left (fun o m => match m with OBus s => s | _ => o end) ms [109; 97; 105; 110]%Z.
Definition handleEffect (outs : list (list (option bus))) (ms : list eop) : list (list (option bus)) :=
  let output := lastOutput ms in
  let outs := addBuses outs output in
  let outs := fold_left (effectOpcode output) ms outs in
  match busIndex (lastName ms) with
  | Some k => withBus outs output k (addEffect (make ms))
  | None => outs
  end.

(** Loading: initEffectBuses, Synth.cpp:256-260, the <effect> headers in their order, and the outputs of the regions in finalizeSfzLoad,
    Synth.cpp:886, 954. *)
Definition numOutputsOf (regions : list nat) : nat := fold_left (fun n o => Nat.max (o + 1) n) regions 1.
Definition loadEffects (headers : list (list eop)) (regions : list nat) : list (list (option bus)) :=
  addBuses (fold_left handleEffect headers (addBuses [] 0)) (numOutputsOf regions).

End Mix.
