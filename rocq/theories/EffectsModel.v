(** The effects of the buses: what they do to the samples of a block, on which buffers, and what they remember.
    Source: src/sfizz/effects/{Nothing,Gain,Width,Apan,Lofi,Rectify,Disto,Strings,Compressor,Gate,Limiter,Fverb}.cpp,
    effects/impl/ResonantArray.cpp, Effects.cpp 145-168, OversamplerHelpers.hxx, src/external/hiir/hiir/{StageProcFpu,
    Upsampler2xFpu,Downsampler2xFpu}.hpp.
    Samples are elements of a type [V] with the operations that the code applies to them.  Parameters of the model: what the code
    generated by Faust does to one sample or frame (compressor, gate, distortion stage, limiter, reverb) and one string of the
    resonator.  Coefficients that the code computes from settings before its loops are settings of the model.  The effects filter and
    eq are not here (FilterUnionModel.v).  Temporary buffers belong to one effect and are large enough: they are
    lists; the inputs and outputs are in a store because a bus gives the same buffers for both.  The oversamplers are the scalar ones
    of hiir (the others compute the same function with vectors); their loops run at least once, so blocks of no frames, which the
    synthesizer does not render (Synth.cpp 1107-1111), are not covered for them. *)
From Coq Require Import List Arith Bool.
Import ListNotations.

(** Everything the model is about but does not define. *)
Record world := World {
  w_V : Type; w_add : w_V -> w_V -> w_V; w_sub : w_V -> w_V -> w_V; w_mul : w_V -> w_V -> w_V; w_abs : w_V -> w_V;
  w_zero : w_V; w_one : w_V; w_half : w_V;
  (** [y != lastValue] negated, [phase > 1.0f], and [x - (float)(int)x]. *)
  w_eqb : w_V -> w_V -> bool; w_gt1 : w_V -> bool; w_frac : w_V -> w_V;
  (** OSCoeffs2x, OSCoeffs4x, OSCoeffs8x, OversamplerHelpers.hxx 18-44. *)
  w_cs2 : list w_V; w_cs4 : list w_V; w_cs8 : list w_V;
  (** faustDisto: memory, memory after instanceClear, one sample with a depth. *)
  w_DS : Type; w_ds0 : w_DS; w_disto : w_V -> w_DS -> w_V -> w_DS * w_V;
  (** ResonantString: settings, memory, memory after clear, process. *)
  w_RP : Type; w_RS : Type; w_rs0 : w_RS; w_string : w_RP -> w_RS -> w_V -> w_RS * w_V;
  (** faustCompressor and faustGate. *)
  w_CP : Type; w_CS : Type; w_c0 : w_CS; w_gain : w_CP -> w_CS -> w_V -> w_CS * w_V;
  (** faustLimiter. *)
  w_LS : Type; w_l0 : w_LS; w_limit : w_LS -> w_V * w_V -> w_LS * (w_V * w_V);
  (** faustFverb. *)
  w_FP : Type; w_FS : Type; w_f0 : w_FS; w_reverb : w_FP -> w_FS -> w_V * w_V -> w_FS * (w_V * w_V) }.

Section Effects.
  Context {X : world}.
  Notation V := (w_V X).
  Notation vadd := (w_add X). Notation vsub := (w_sub X). Notation vmul := (w_mul X). Notation vabs := (w_abs X).
  Notation zero := (w_zero X). Notation one := (w_one X). Notation half := (w_half X).
  Notation veqb := (w_eqb X). Notation gt1 := (w_gt1 X). Notation frac := (w_frac X).
  Notation cs2 := (w_cs2 X). Notation cs4 := (w_cs4 X). Notation cs8 := (w_cs8 X).
  Notation DS := (w_DS X). Notation ds0 := (w_ds0 X). Notation distoStage := (w_disto X).
  Notation RP := (w_RP X). Notation RS := (w_RS X). Notation rs0 := (w_rs0 X). Notation stringStep := (w_string X).
  Notation CP := (w_CP X). Notation CS := (w_CS X). Notation gainOf := (w_gain X).
  Notation LS := (w_LS X). Notation limit := (w_limit X).
  Notation FP := (w_FP X). Notation FS := (w_FS X). Notation reverb := (w_reverb X).

  (** Buffers by number, samples by index. *)
  Definition store := nat -> nat -> V.
  Definition write (m : store) (b i : nat) (v : V) : store := fun b' i' => if (b' =? b) && (i' =? i) then v else m b' i'.
  (** The first [n] samples of a buffer. *)
  Definition block (m : store) (b n : nat) : list V := map (m b) (seq 0 n).
  (** A function that fills the buffer [b] from a temporary list. *)
  Definition put (m : store) (b : nat) (l : list V) : store := fun b' i' => if b' =? b then nth i' l (m b i') else m b' i'.
  (** [for (unsigned i = 0; i < n; ++i)]. *)
  Definition loop {A} (n : nat) (body : nat -> A -> A) (x : A) : A := fold_left (fun x i => body i x) (seq 0 n) x.

  (** StageProcFpu<REMAINING>::process_sample_pos, StageProcFpu.hpp 44-89: coefficients, pairs of [x] and [y], two samples. *)
  Fixpoint stages (cs : list V) (mem : list (V * V)) (s0 s1 : V) : list (V * V) * (V * V) :=
    match cs, mem with
    | c0 :: c1 :: cs', (x0, y0) :: (x1, y1) :: mem' =>
        let t0 := vadd (vmul (vsub s0 y0) c0) x0 in
        let t1 := vadd (vmul (vsub s1 y1) c1) x1 in
        let '(m, r) := stages cs' mem' t0 t1 in ((s0, t0) :: (s1, t1) :: m, r)
    | [c0], [(x0, y0)] => let t0 := vadd (vmul (vsub s0 y0) c0) x0 in ([(s0, t0)], (t0, s1))
    | _, _ => (mem, (s0, s1))
    end.
  Definition hmem := list (V * V).
  (** clear_buffers of both classes. *)
  Definition hclear (cs : list V) : hmem := map (fun _ => (zero, zero)) cs.
  (** Upsampler2xFpu::process_sample, 108-124. *)
  Definition upSample (cs : list V) (mem : hmem) (x : V) : hmem * (V * V) := stages cs mem x x.
  (** Upsampler2xFpu::process_block, 142-163. *)
  Fixpoint upBlock (cs : list V) (mem : hmem) (l : list V) : hmem * list V :=
    match l with
    | [] => (mem, [])
    | x :: l' => let '(m, (a, b)) := upSample cs mem x in let '(m', r) := upBlock cs m l' in (m', a :: b :: r)
    end.
  (** Downsampler2xFpu::process_sample, 108-131. *)
  Definition downSample (cs : list V) (mem : hmem) (p : V * V) : hmem * V :=
    let '(m, (a, b)) := stages cs mem (snd p) (fst p) in (m, vmul half (vadd a b)).
  (** Downsampler2xFpu::process_block, 146-162, of [n] samples. *)
  Fixpoint downBlock (n : nat) (cs : list V) (mem : hmem) (l : list V) : hmem * list V :=
    match n, l with
    | S n', a :: b :: l' => let '(m, y) := downSample cs mem (a, b) in let '(m', r) := downBlock n' cs m l' in (m', y :: r)
    | _, _ => (mem, [])
    end.

  (** A loop in generated code or over a temporary buffer: one value in, one value out. *)
  Fixpoint run {S A B} (f : S -> A -> S * B) (s : S) (l : list A) : S * list B :=
    match l with
    | [] => (s, [])
    | a :: l' => let '(s', b) := f s a in let '(s'', r) := run f s' l' in (s'', b :: r)
    end.
  (** A loop that reads in[i] and writes out[i]. *)
  Definition pass {S} (f : S -> V -> S * V) (src dst n : nat) (s : S) (m : store) : S * store :=
    loop n (fun i '(s, m) => let '(s', y) := f s (m src i) in (s', write m dst i y)) (s, m).
  (** The same for both channels. *)
  Definition pass2 {S} (f : S -> V * V -> S * (V * V)) (i0 i1 o0 o1 n : nat) (s : S) (m : store) : S * store :=
    loop n (fun i '(s, m) => let '(s', (y, z)) := f s (m i0 i, m i1 i) in (s', write (write m o0 i y) o1 i z)) (s, m).
  (** memcpy when the pointers differ. *)
  Definition copy (src dst n : nat) (m : store) : store := if src =? dst then m else put m dst (block m src n).

  (** ** Lofi, Lofi.cpp 69-209 *)
  Record bitred := Bitred { b_last : V; b_down : hmem }.
  Definition bitredClear : bitred := Bitred zero (hclear cs2).
  (** The two samples of 138-139 and 190-191 and process_sample. *)
  Definition halfway (last y : V) (down : hmem) : hmem * V :=
    downSample cs2 down (if veqb y last then y else vmul half (vadd y last), y).
  (** 133-145; [quant] is the rounding to steps of 136. *)
  Definition bitredStep (quant : V -> V) (s : bitred) (x : V) : bitred * V :=
    let y := quant x in let '(d, o) := halfway (b_last s) y (b_down s) in (Bitred y d, o).
  (** Bitred::process, 118-148; no [quant] is fDepth == 0. *)
  Definition bitredProcess (quant : option (V -> V)) (src dst n : nat) (s : bitred) (m : store) : bitred * store :=
    match quant with None => (bitredClear, copy src dst n m) | Some q => pass (bitredStep q) src dst n s m end.
  Record decim := Decim { d_phase : V; d_last : V; d_down : hmem }.
  Definition decimClear : decim := Decim zero zero (hclear cs2).
  (** 190-204. *)
  Definition decimStep (dt : V) (s : decim) (x : V) : decim * V :=
    let phase := vadd (d_phase s) dt in
    let y := if gt1 phase then x else d_last s in
    let '(d, o) := halfway (d_last s) y (d_down s) in (Decim (frac phase) y d, o).
  (** Decim::process, 170-209; no [dt] is fDepth == 0. *)
  Definition decimProcess (dt : option V) (src dst n : nat) (s : decim) (m : store) : decim * store :=
    match dt with None => (decimClear, copy src dst n m) | Some q => pass (decimStep q) src dst n s m end.
  Record lofi := Lofi { lf_quant : option (V -> V); lf_dt : option V; lf_b0 : bitred; lf_d0 : decim; lf_b1 : bitred; lf_d1 : decim }.
  (** Lofi::process, 69-78. *)
  Definition lofiProcess (e : lofi) (i0 i1 o0 o1 n : nat) (m : store) : lofi * store :=
    let '(b0, m) := bitredProcess (lf_quant e) i0 o0 n (lf_b0 e) m in
    let '(d0, m) := decimProcess (lf_dt e) o0 o0 n (lf_d0 e) m in
    let '(b1, m) := bitredProcess (lf_quant e) i1 o1 n (lf_b1 e) m in
    let '(d1, m) := decimProcess (lf_dt e) o1 o1 n (lf_d1 e) m in
    (Lofi (lf_quant e) (lf_dt e) b0 d0 b1 d1, m).

  (** ** Apan, Apan.cpp 49-75 and 125-144 *)
  Record apan := Apan { a_inc : V; a_offset : V; a_wave : V -> V; a_depth : V; a_dry : V; a_wet : V; a_phase : V }.
  (** One turn of the loop of computeLfos, 132-142: the phase, and the values of left and right. *)
  Definition apanLfo (e : apan) (phase : V) (_ : V) : V * (V * V) :=
    (frac (vadd phase (a_inc e)), (a_wave e phase, a_wave e (frac (vadd phase (a_offset e))))).
  (** The gains of 66-70 and the products of 72-73. *)
  Definition apanOut (e : apan) (mods : V * V) (x : V * V) : V * V :=
    let dd := vmul (vmul (a_depth e) half) (vsub (fst mods) (snd mods)) in
    (vmul (fst x) (vadd (vmul (vsub one dd) (a_wet e)) (a_dry e)), vmul (snd x) (vadd (vmul (vadd one dd) (a_wet e)) (a_dry e))).
  (** Apan::process: the modulators first, for the whole block, then the loop. *)
  Definition apanProcess (e : apan) (i0 i1 o0 o1 n : nat) (m : store) : apan * store :=
    let '(ph, mods) := run (apanLfo e) (a_phase e) (repeat zero n) in
    (Apan (a_inc e) (a_offset e) (a_wave e) (a_depth e) (a_dry e) (a_wet e) ph,
     loop n (fun i m => let '(y, z) := apanOut e (nth i mods (zero, zero)) (m i0 i, m i1 i) in write (write m o0 i y) o1 i z) m).

  (** ** Width, Width.cpp 39-60: the coefficients of 54-56; Gain, Gain.cpp 39-55: the gain of 48. *)
  Definition widthOut (c1 c2 : V) (x : V * V) : V * V :=
    (vadd (vmul (fst x) c2) (vmul (snd x) c1), vadd (vmul (fst x) c1) (vmul (snd x) c2)).
  Definition widthProcess (c1 c2 : V) (i0 i1 o0 o1 n : nat) (m : store) : store :=
    snd (pass2 (fun s x => (s, widthOut c1 c2 x)) i0 i1 o0 o1 n tt m).
  Definition gainProcess (g : V) (i0 i1 o0 o1 n : nat) (m : store) : store :=
    snd (pass (fun s x => (s, vmul g x)) i1 o1 n tt (snd (pass (fun s x => (s, vmul g x)) i0 o0 n tt m))).
  (** Nothing::process, Nothing.cpp 27-33. *)
  Definition nothingProcess (i0 i1 o0 o1 n : nat) (m : store) : store := copy i1 o1 n (copy i0 o0 n m).

  (** ** Rectify, Rectify.cpp 50-80 *)
  Record rect := Rect { r_up : hmem; r_down : hmem }.
  (** 66-77, [amount] after normalizePercents. *)
  Definition rectStep (amount : V) (s : rect) (x : V) : rect * V :=
    let '(u, (a, b)) := upSample cs2 (r_up s) x in
    let f v := vadd (vmul amount (vabs v)) (vmul (vsub one amount) v) in
    let '(d, y) := downSample cs2 (r_down s) (f a, f b) in (Rect u d, y).
  Record rectify := Rectify { re_amount : V; re_0 : rect; re_1 : rect }.
  Definition rectifyProcess (e : rectify) (i0 i1 o0 o1 n : nat) (m : store) : rectify * store :=
    let '(s0, m) := pass (rectStep (re_amount e)) i0 o0 n (re_0 e) m in
    let '(s1, m) := pass (rectStep (re_amount e)) i1 o1 n (re_1 e) m in (Rectify (re_amount e) s0 s1, m).

  (** ** Disto, Disto.cpp 113-160 *)
  Record dchan := DChan { dc_lpf : V; dc_up2 : hmem; dc_up4 : hmem; dc_up8 : hmem; dc_stages : list DS;
                          dc_down8 : hmem; dc_down4 : hmem; dc_down2 : hmem }.
  (** [dt_stages]: _numStages of the [dc_stages]; [dt_pole]: toneLpfPole. *)
  Record disto := Disto { dt_pole : V; dt_depth : V; dt_dry : V; dt_wet : V; dt_stages : nat; dt_0 : dchan; dt_1 : dchan }.
  (** Upsampler::process8x, OversamplerHelpers.hxx 170-186, with room for the whole block: one turn of its loop. *)
  Definition up8 (u2 u4 u8 : hmem) (l : list V) : hmem * hmem * hmem * list V :=
    let '(u2, l) := upBlock cs2 u2 l in let '(u4, l) := upBlock cs4 u4 l in let '(u8, l) := upBlock cs8 u8 l in (u2, u4, u8, l).
  (** Downsampler::process8x, 378-394, likewise. *)
  Definition down8 (n : nat) (d8 d4 d2 : hmem) (l : list V) : hmem * hmem * hmem * list V :=
    let '(d8, l) := downBlock (4 * n) cs8 d8 l in let '(d4, l) := downBlock (2 * n) cs4 d4 l in
    let '(d2, l) := downBlock n cs2 d2 l in (d8, d4, d2, l).
  (** 140-150: the first [k] stages, each over the whole block. *)
  Fixpoint distoStages (k : nat) (depth : V) (st : list DS) (l : list V) : list DS * list V :=
    match k, st with
    | S k', s :: st' => let '(s', l) := run (distoStage depth) s l in let '(st'', l) := distoStages k' depth st' l in (s' :: st'', l)
    | _, _ => (st, l)
    end.
  (** The body of the loop over channels, 123-159. *)
  Definition distoChannel (e : disto) (c : dchan) (src dst n : nat) (m : store) : dchan * store :=
    let '(lpf, m) := pass (fun mem x => let y := vadd (vmul (vmul x (dt_dry e)) (vsub one (dt_pole e))) (vmul mem (dt_pole e)) in (y, y))
                       src dst n (dc_lpf c) m in
    let '(u2, u4, u8, l) := up8 (dc_up2 c) (dc_up4 c) (dc_up8 c) (block m dst n) in
    let '(st, l) := distoStages (dt_stages e) (dt_depth e) (dc_stages c) l in
    let '(d8, d4, d2, l) := down8 n (dc_down8 c) (dc_down4 c) (dc_down2 c) l in
    let m := put m dst l in
    let m := loop n (fun i m => write m dst i (vadd (vmul (m dst i) (dt_wet e)) (vmul (m src i) (vsub one (dt_wet e))))) m in
    (DChan lpf u2 u4 u8 st d8 d4 d2, m).
  Definition distoProcess (e : disto) (i0 i1 o0 o1 n : nat) (m : store) : disto * store :=
    let '(c0, m) := distoChannel e (dt_0 e) i0 o0 n m in
    let '(c1, m) := distoChannel e (dt_1 e) i1 o1 n m in
    (Disto (dt_pole e) (dt_depth e) (dt_dry e) (dt_wet e) (dt_stages e) c0 c1, m).
  (** Disto::clear, 98-111. *)
  Definition dchanClear (c : dchan) : dchan :=
    DChan zero (hclear cs2) (hclear cs4) (hclear cs8) (map (fun _ => ds0) (dc_stages c)) (hclear cs8) (hclear cs4) (hclear cs2).

  (** ** Strings, Strings.cpp 99-125, ResonantArray.cpp 57-73 *)
  (** The settings and the memory of every string, the gain of 104-105. *)
  Record strings := Strings { sg_wet : V; sg_mix : V; sg_strings : list (RP * RS) }.
  Fixpoint zipWith (f : V -> V -> V) (a b : list V) : list V :=
    match a, b with x :: a', y :: b' => f x y :: zipWith f a' b' | _, _ => [] end.
  (** ResonantArrayScalar::process: the strings one after the other, each adds to the output. *)
  Fixpoint resonate (ss : list (RP * RS)) (inp out : list V) : list (RP * RS) * list V :=
    match ss with
    | [] => ([], out)
    | (p, s) :: ss' =>
        let '(s', l) := run (stringStep p) s inp in
        let '(r, o) := resonate ss' inp (zipWith vadd out l) in ((p, s') :: r, o)
    end.
  (** Strings::process. *)
  Definition stringsProcess (e : strings) (i0 i1 o0 o1 n : nat) (m : store) : strings * store :=
    let resIn := zipWith vadd (map (vmul (sg_mix e)) (block m i0 n)) (map (vmul (sg_mix e)) (block m i1 n)) in
    let '(ss, resOut) := resonate (sg_strings e) resIn (repeat zero n) in
    let m := copy i1 o1 n (copy i0 o0 n m) in
    let m := loop n (fun i m => write m o0 i (vadd (m o0 i) (vmul (sg_wet e) (nth i resOut zero)))) m in
    let m := loop n (fun i m => write m o1 i (vadd (m o1 i) (vmul (sg_wet e) (nth i resOut zero)))) m in
    (Strings (sg_wet e) (sg_mix e) ss, m).

  (** ** Compressor and Gate, the same code: Compressor.cpp 77-146, Gate.cpp 80-149 *)
  Record dyn := Dyn { dy_par : CP; dy_link : bool; dy_in : V; dy_c0 : CS; dy_c1 : CS;
                      dy_up0 : hmem; dy_up1 : hmem; dy_down0 : hmem; dy_down1 : hmem }.
  Definition dynProcess (e : dyn) (i0 i1 o0 o1 n : nat) (m : store) : dyn * store :=
    let '(u0, lft) := upBlock cs2 (dy_up0 e) (block m i0 n) in
    let '(u1, rgt) := upBlock cs2 (dy_up1 e) (block m i1 n) in
    let lft := map (fun x => vmul x (dy_in e)) lft in
    let rgt := map (fun x => vmul x (dy_in e)) rgt in
    let '(k0, k1, lft, rgt) :=
      if dy_link e then
        let '(k0, g) := run (gainOf (dy_par e)) (dy_c0 e) (map (fun x => vadd (vabs x) (vabs (nth 1 rgt zero))) lft) in
        (k0, dy_c1 e, zipWith vmul lft g, zipWith vmul rgt g)
      else
        let '(k0, gl) := run (gainOf (dy_par e)) (dy_c0 e) lft in
        let '(k1, gr) := run (gainOf (dy_par e)) (dy_c1 e) rgt in
        (k0, k1, zipWith vmul lft gl, zipWith vmul rgt gr) in
    let '(d0, outl) := downBlock n cs2 (dy_down0 e) lft in
    let '(d1, outr) := downBlock n cs2 (dy_down1 e) rgt in
    (Dyn (dy_par e) (dy_link e) (dy_in e) k0 k1 u0 u1 d0 d1, put (put m o0 outl) o1 outr).
  (** Compressor::clear, 77-82, Gate::clear, 80-85. *)
  Definition dynClear (e : dyn) : dyn :=
    Dyn (dy_par e) (dy_link e) (dy_in e) (w_c0 X) (w_c0 X) (dy_up0 e) (dy_up1 e) (dy_down0 e) (dy_down1 e).

  (** ** Limiter, Limiter.cpp 52-68; Fverb, Fverb.cpp 157-171 *)
  Record limiter := Limiter { li_s : LS; li_up0 : hmem; li_up1 : hmem; li_down0 : hmem; li_down1 : hmem }.
  Definition limiterProcess (e : limiter) (i0 i1 o0 o1 n : nat) (m : store) : limiter * store :=
    let '(u0, lft) := upBlock cs2 (li_up0 e) (block m i0 n) in
    let '(u1, rgt) := upBlock cs2 (li_up1 e) (block m i1 n) in
    let '(s, fr) := run limit (li_s e) (combine lft rgt) in
    let '(d0, outl) := downBlock n cs2 (li_down0 e) (map fst fr) in
    let '(d1, outr) := downBlock n cs2 (li_down1 e) (map snd fr) in
    (Limiter s u0 u1 d0 d1, put (put m o0 outl) o1 outr).

  (** ** Effects and buses *)
  Inductive effect :=
  | ENothing | EGain (g : V) | EWidth (c1 c2 : V) | EApan (e : apan) | ELofi (e : lofi) | ERectify (e : rectify) | EDisto (e : disto)
  | EStrings (e : strings) | EDyn (e : dyn) | ELimiter (e : limiter) | EFverb (p : FP) (s : FS).
  (** Effect::process. *)
  Definition process (e : effect) (i0 i1 o0 o1 n : nat) (m : store) : effect * store :=
    match e with
    | ENothing => (e, nothingProcess i0 i1 o0 o1 n m)
    | EGain g => (e, gainProcess g i0 i1 o0 o1 n m)
    | EWidth c1 c2 => (e, widthProcess c1 c2 i0 i1 o0 o1 n m)
    | EApan s => let '(s, m) := apanProcess s i0 i1 o0 o1 n m in (EApan s, m)
    | ELofi s => let '(s, m) := lofiProcess s i0 i1 o0 o1 n m in (ELofi s, m)
    | ERectify s => let '(s, m) := rectifyProcess s i0 i1 o0 o1 n m in (ERectify s, m)
    | EDisto s => let '(s, m) := distoProcess s i0 i1 o0 o1 n m in (EDisto s, m)
    | EStrings s => let '(s, m) := stringsProcess s i0 i1 o0 o1 n m in (EStrings s, m)
    | EDyn s => let '(s, m) := dynProcess s i0 i1 o0 o1 n m in (EDyn s, m)
    | ELimiter s => let '(s, m) := limiterProcess s i0 i1 o0 o1 n m in (ELimiter s, m)
    | EFverb p s => let '(s, m) := pass2 (reverb p) i0 i1 o0 o1 n s m in (EFverb p s, m)
    end.
  (** Effect::clear: Apan.cpp 44-47, Lofi.cpp 61-67, Rectify.cpp 42-48, Strings.cpp 94-97, Limiter.cpp 52-55, Fverb.cpp 157-163. *)
  Definition clear (e : effect) : effect :=
    match e with
    | ENothing | EGain _ | EWidth _ _ => e
    | EApan s => EApan (Apan (a_inc s) (a_offset s) (a_wave s) (a_depth s) (a_dry s) (a_wet s) zero)
    | ELofi s => ELofi (Lofi (lf_quant s) (lf_dt s) bitredClear decimClear bitredClear decimClear)
    | ERectify s => ERectify (Rectify (re_amount s) (Rect (hclear cs2) (hclear cs2)) (Rect (hclear cs2) (hclear cs2)))
    | EDisto s => EDisto (Disto (dt_pole s) (dt_depth s) (dt_dry s) (dt_wet s) (dt_stages s) (dchanClear (dt_0 s)) (dchanClear (dt_1 s)))
    | EStrings s => EStrings (Strings (sg_wet s) (sg_mix s) (map (fun '(p, _) => (p, rs0)) (sg_strings s)))
    | EDyn s => EDyn (dynClear s)
    | ELimiter s => ELimiter (Limiter (w_l0 X) (li_up0 s) (li_up1 s) (li_down0 s) (li_down1 s))
    | EFverb p _ => EFverb p (w_f0 X)
    end.
  (** The buffers of a bus: _inputs are 0 and 1, _outputs 2 and 3. *)
  Fixpoint busRest (es : list effect) (n : nat) (m : store) : list effect * store :=
    match es with
    | [] => ([], m)
    | e :: es' => let '(e', m) := process e 2 3 2 3 n m in let '(r, m) := busRest es' n m in (e' :: r, m)
    end.
  (** EffectBus::process, Effects.cpp 151-168; [audible]: hasNonZeroOutput. *)
  Definition busProcess (audible : bool) (es : list effect) (n : nat) (m : store) : list effect * store :=
    match es, audible with
    | e :: es', true => let '(e', m) := process e 0 1 2 3 n m in let '(r, m) := busRest es' n m in (e' :: r, m)
    | _, _ => (es, nothingProcess 0 1 2 3 n m)
    end.
End Effects.

From Coq Require Import QArith.
(** The number [w] of Width.cpp 54 for the effect made with a value of the opcode width or without one: Width.h 45, Width.cpp 68-72,
    Defaults.cpp 92 (kNormalizePercent: the value is divided by 100; kPermissiveBounds: values outside the bounds are kept). *)
Definition widthOf (written : option Q) : Q :=
  let w := match written with None => 100 | Some v => v / 100 end%Q in
  let x := ((w + 100) * (5 # 1000))%Q in
  if Qle_bool x 0 then 0%Q else if Qle_bool x 1 then x else 1%Q.
