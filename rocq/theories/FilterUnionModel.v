(** The filters and equalizers of voices: the object that lives in the union, its sample rate, its processing in chunks.
    Source: src/sfizz/SfzFilter.cpp (Filter 20-213, FilterEq 218-412: the same code), SfzFilter.h 92-117 and 197-202,
    SfzFilterImpls.hpp 13-36 and 102-178, gen/filters/*.hxx (init, instanceClear, compute), FilterPool.cpp, EQPool.cpp,
    Voice.cpp 510-516 and 1032-1065, Config.h 22 and 86.
    What one frame of a filter computes is a parameter ([step]): from the kind of filter, its sample rate, its settings, whether its
    coefficients are smoothed, and its memory.  A frame holds the samples of all channels; the generated code reads the samples of a
    frame before it writes them, so that in and out may be the same buffers.  The generated classes read exactly the settings that
    their wrapper writes (SfzFilterImpls.hpp 102-165), so settings are replaced as a whole. *)
From Coq Require Import ZArith List Bool.
Import ListNotations.
Local Open Scope Z_scope.

(** config::filterControlInterval, Config.h 86. *)
Definition interval : nat := 16.

(** Impl::idDsp, SfzFilter.cpp 40-43, on 32-bit unsigned numbers. *)
Definition idDsp (channels type : Z) : Z := Z.lor (type mod 2 ^ 32) (Z.shiftl channels 16 mod 2 ^ 32).
(** SFZ_EACH_FILTER and SFZ_EACH_EQ with CASE: the types from 1 to [kinds], 23 or 3, each with one and two channels. *)
Definition cases (kinds : nat) : list (Z * Z) := flat_map (fun t => [(1, Z.of_nat t); (2, Z.of_nat t)]) (seq 1 kinds).
(** Impl::getDsp, 189-200: the member of the union that the pointer refers to, none for nullptr. *)
Definition getDsp (kinds : nat) (channels type : Z) : option (Z * Z) :=
  find (fun '(c, t) => idDsp c t =? idDsp channels type) (cases kinds).

(** What happens to the union: a constructor, a call of a method, a destructor, each on one of its members. *)
Inductive event := Construct (k : Z * Z) | Use (k : Z * Z) | Destroy (k : Z * Z).

Section Filter.
  Variables Rate Param Mem Fr Base Mod : Type.
  (** dsp->init takes an int. *)
  Variable toInt : Rate -> Z.
  Variable defaultRate : Rate.
  Variable par0 : Param.
  Variable mem0 : Z * Z -> Mem.
  Variable zero : Fr.
  Variable step : Z * Z -> Z -> Param -> bool -> Mem -> Fr -> Fr * Mem.
  Variable kinds : nat.

  (** The data of a generated class with fSmoothEnable. *)
  Record obj := Obj { o_rate : Z; o_par : Param; o_smooth : bool; o_mem : Mem }.
  (** The constructor only sets fSmoothEnable, SfzFilterImpls.hpp 35. *)
  Definition construct (o : obj) : obj := Obj (o_rate o) (o_par o) true (o_mem o).
  Definition initDsp (k : Z * Z) (r : Z) (o : obj) : obj := Obj r par0 (o_smooth o) (mem0 k).
  Definition instanceClear (k : Z * Z) (o : obj) : obj := Obj (o_rate o) (o_par o) (o_smooth o) (mem0 k).
  Definition configure (p : Param) (o : obj) : obj := Obj (o_rate o) p (o_smooth o) (o_mem o).
  Definition setSmoothing (b : bool) (o : obj) : obj := Obj (o_rate o) (o_par o) b (o_mem o).
  Definition setMem (m : Mem) (o : obj) : obj := Obj (o_rate o) (o_par o) (o_smooth o) m.
  (** compute: the loop over the frames. *)
  Fixpoint compute (k : Z * Z) (o : obj) (ins : list Fr) : list Fr * obj :=
    match ins with
    | [] => ([], o)
    | x :: ins =>
        let '(y, m) := step k (o_rate o) (o_par o) (o_smooth o) (o_mem o) x in
        let '(ys, o) := compute k (setMem m o) ins in (y :: ys, o)
    end.

  (** Filter::Impl: the storage of the union is there all the time, whatever it holds; the events are newest first. *)
  Record filt := Filt { f_rate : Rate; f_type : Z; f_ch : Z; f_obj : obj; f_log : list event }.
  Definition newFilter (raw : obj) : filt := Filt defaultRate 0 1 raw [].
  Definition dspOf (f : filt) : option (Z * Z) := getDsp kinds (f_ch f) (f_type f).
  (** A call of a method through the pointer. *)
  Definition use (k : Z * Z) (g : obj -> obj) (f : filt) : filt :=
    Filt (f_rate f) (f_type f) (f_ch f) (g (f_obj f)) (Use k :: f_log f).
  Definition onDsp (g : Z * Z -> filt -> filt) (f : filt) : filt := match dspOf f with Some k => g k f | None => f end.
  (** ~Filter, 51-57; the start of setChannels and setType. *)
  Definition destroy (f : filt) : filt :=
    onDsp (fun k f => Filt (f_rate f) (f_type f) (f_ch f) (f_obj f) (Destroy k :: f_log f)) f.
  (** newDsp, 202-213, and init with the stored sample rate. *)
  Definition renew (f : filt) : filt :=
    onDsp (fun k f => use k (initDsp k (toInt (f_rate f))) (Filt (f_rate f) (f_type f) (f_ch f) (construct (f_obj f)) (Construct k :: f_log f))) f.
  (** setChannels, 153-167; setType, 174-187. *)
  Definition setChannels (c : Z) (f : filt) : filt :=
    if f_ch f =? c then f else let f := destroy f in renew (Filt (f_rate f) (f_type f) c (f_obj f) (f_log f)).
  Definition setType (t : Z) (f : filt) : filt :=
    if f_type f =? t then f else let f := destroy f in renew (Filt (f_rate f) t (f_ch f) (f_obj f) (f_log f)).
  (** init, 59-67. *)
  Definition init (r : Rate) (f : filt) : filt :=
    let f := onDsp (fun k => use k (initDsp k (toInt r))) f in Filt r (f_type f) (f_ch f) (f_obj f) (f_log f).
  (** clear, 69-75. *)
  Definition clear (f : filt) : filt := onDsp (fun k => use k (instanceClear k)) f.
  (** prepare, 77-98. *)
  Definition prepare (p : Param) (f : filt) : filt :=
    match dspOf f with
    | None => f
    | Some k =>
        let en := o_smooth (f_obj f) in
        let f := use k (instanceClear k) f in
        let f := use k (configure p) f in
        let f := use k (setSmoothing false) f in
        let f := use k (fun o => snd (compute k o [zero])) f in
        use k (setSmoothing en) f
    end.
  Definition computeUse (k : Z * Z) (ins : list Fr) (f : filt) : list Fr * filt :=
    (fst (compute k (f_obj f) ins), use k (fun o => snd (compute k o ins)) f).
  (** process, 100-113. *)
  Definition process (ins : list Fr) (p : Param) (f : filt) : list Fr * filt :=
    match dspOf f with None => (ins, f) | Some k => computeUse k ins (use k (configure p) f) end.
  (** The loop of processModulated, 126-145, from frame [frame]. *)
  Fixpoint chunks (fuel : nat) (k : Z * Z) (ins : list Fr) (ps : list Param) (frame : nat) (f : filt) : list Fr * filt :=
    match fuel with
    | O => ([], f)
    | S fuel =>
        if (frame <? length ins)%nat then
          let current := Nat.min (length ins - frame) interval in
          let f := use k (configure (nth frame ps par0)) f in
          let '(out, f) := computeUse k (firstn current (skipn frame ins)) f in
          let '(rest, f) := chunks fuel k ins ps (frame + current) f in (out ++ rest, f)
        else ([], f)
    end.
  Definition processModulated (ins : list Fr) (ps : list Param) (f : filt) : list Fr * filt :=
    match dspOf f with None => (ins, f) | Some k => chunks (S (length ins)) k ins ps 0 f end.

  (** The public methods of Filter, and any sequence of calls of them. *)
  Inductive call :=
  | CInit (r : Rate) | CClear | CPrepare (p : Param) | CProcess (ins : list Fr) (p : Param) | CModulated (ins : list Fr) (ps : list Param)
  | CChannels (c : Z) | CType (t : Z).
  Definition doCall (f : filt) (c : call) : filt :=
    match c with
    | CInit r => init r f | CClear => clear f | CPrepare p => prepare p f | CProcess ins p => snd (process ins p f)
    | CModulated ins ps => snd (processModulated ins ps f) | CChannels c => setChannels c f | CType t => setType t f
    end.
  Definition calls (f : filt) (l : list call) : filt := fold_left doCall l f.

  (** FilterHolder, FilterPool.cpp, and EQHolder, EQPool.cpp, without the buffers: [param] gives the settings at a frame from the base values of
      the note and the modulations.  [zeroCheck]: FilterPool.cpp 65-66, not in EQPool.cpp, where the settings of the frame before the
      first are read ([front] of an empty span, [par0] here).  The pointer to the description is not initialised by the constructor;
      here it is null until the first setup. *)
  Variable param : Base -> Mod -> Param.
  Variable zeroCheck : bool.
  Record holder := Holder { h_filt : filt; h_base : option Base; h_prepared : bool }.
  (** FilterHolder::FilterHolder, 11-16. *)
  Definition newHolder (raw : obj) : holder := Holder (init defaultRate (newFilter raw)) None false.
  (** reset, 18-22; setSampleRate, 114-117. *)
  Definition holderReset (h : holder) : holder := Holder (clear (h_filt h)) (h_base h) false.
  Definition holderRate (r : Rate) (h : holder) : holder := Holder (init r (h_filt h)) (h_base h) (h_prepared h).
  (** setup, 24-61: the type of the description, whether the region is stereo, the base values. *)
  Definition setup (type : Z) (stereo : bool) (b : Base) (h : holder) : holder :=
    Holder (setChannels (if stereo then 2 else 1) (setType type (h_filt h))) (Some b) false.
  (** process, 63-111: [free] if the pool has the three buffers. *)
  Definition holderProcess (ins : list Fr) (mods : nat -> Mod) (free : bool) (h : holder) : list Fr * holder :=
    if zeroCheck && (length ins =? 0)%nat then (ins, h) else
    match h_base h with
    | None => (ins, h)
    | Some b =>
        if negb free then (ins, h) else
        let ps := map (fun i => param b (mods i)) (seq 0 (length ins)) in
        let f := if h_prepared h then h_filt h else prepare (hd par0 ps) (h_filt h) in
        let '(out, f) := processModulated ins ps f in
        (out, Holder f (Some b) true)
    end.
  (** What a voice does with one of its holders. *)
  Inductive hcall := HReset | HRate (r : Rate) | HSetup (type : Z) (stereo : bool) (b : Base) | HProcess (ins : list Fr) (mods : nat -> Mod) (free : bool).
  Definition doHcall (h : holder) (c : hcall) : holder :=
    match c with
    | HReset => holderReset h | HRate r => holderRate r h | HSetup t s b => setup t s b h
    | HProcess ins mods free => snd (holderProcess ins mods free h)
    end.
  Definition hcalls (h : holder) (l : list hcall) : holder := fold_left doHcall l h.

  (** The stages of a voice, Voice.cpp 1032-1065: one block goes through the holders in order, in place; [cs j] are the modulations of the holder
      with number j and whether the pool has buffers for it.  The loop over the equalizers, 1043-1045, comes after that over the filters, on
      the same buffers. *)
  Fixpoint stage (j : nat) (hs : list holder) (cs : nat -> (nat -> Mod) * bool) (ins : list Fr) : list Fr * list holder :=
    match hs with
    | [] => (ins, [])
    | h :: hs =>
        let '(out, h) := holderProcess ins (fst (cs j)) (snd (cs j)) h in
        let '(out, hs) := stage (S j) hs cs out in (out, h :: hs)
    end.
  (** A note: its blocks one after the other. *)
  Fixpoint note (j : nat) (hs : list holder) (bs : list (list Fr * (nat -> (nat -> Mod) * bool))) : list (list Fr) :=
    match bs with
    | [] => []
    | (ins, cs) :: bs => let '(out, hs) := stage j hs cs ins in out :: note j hs bs
    end.
End Filter.

(** The settings of filters, FilterPool.cpp 83-96, over rational numbers: [cents] is centsFactor; base cutoff (clamped at 49), resonance and gain;
    Default::filterCutoff.bounds, Defaults.cpp 101. *)
From Coq Require Import QArith Qminmax.
Definition clampQ (lo hi x : Q) : Q := Qmax lo (Qmin hi x).
Definition filterParam (cents : Q -> Q) (b m : Q * Q * Q) : Q * Q * Q :=
  let '(c, r, g) := b in let '(mc, mr, mg) := m in
  (clampQ 0 (inject_Z 20000) (c * cents mc)%Q, (r + mr)%Q, (g + mg)%Q).
(** The settings of equalizers, EQPool.cpp 63-73: frequency, bandwidth and gain. *)
Definition eqParam (b m : Q * Q * Q) : Q * Q * Q :=
  let '(c, r, g) := b in let '(mc, mr, mg) := m in ((c + mc)%Q, (r + mr)%Q, (g + mg)%Q).
