(** The gains of the dynamics effects, and the effects of EffectsModel over the rational numbers.
    Source: src/sfizz/effects/gen/{compressor,gate,limiter}.hxx (generated by Faust), OversamplerHelpers.hxx 18-44.
    Arithmetic is exact.  Poles such as exp(-1/(rate*time)) and the functions log10 and pow are settings.  The stages of the
    distortion, the strings and the reverb stay parameters ([rest]); so are the poles of the limiter. *)
From Coq Require Import QArith Qabs ZArith List Bool.
Import ListNotations.
From Verif Require Import EffectsModel EffectBus.
Open Scope Q_scope.

Definition above (a b : Q) : bool := negb (Qle_bool a b).
Definition Qabsq (a : Q) : Q := if Qle_bool 0 a then a else Qred (- a).
(** What the two kernels remember between samples: fRec2[1] and fRec0[1] of the compressor; fRec3[1], fRec1[1], iVec0[1] and iRec4[1]
    of the gate.  fRec1 of the compressor and fRec0 of the gate are copies. *)
Record kstate := KState { k_env : Q; k_gain : Q; k_above : bool; k_hold : Z }.
(** Compressor: fSlow3, fSlow4, fSlow6, fSlow9, max(20*log10(x) - fSlow10, 0) and pow(10, 0.05*x).  Gate: fSlow4, fSlow6, iSlow7,
    fSlow9, fSlow11. *)
Inductive kernel :=
| Comp (knee slope rise fall : Q) (over power : Q -> Q)
| Gate (pole threshold : Q) (hold : Z) (rise fall : Q).
(** A pole of the loops: [(rec * t) + (x * (1 - t))]. *)
Definition follow (t rec x : Q) : Q := Qred (rec * t + x * (1 - t)).
(** One turn of the loop of compute: compressor.hxx 131-143, gate.hxx 141-160. *)
Definition kernelStep (k : kernel) (s : kstate) (x : Q) : kstate * Q :=
  match k with
  | Comp knee slope rise fall over power =>
      let a := Qabsq x in
      let env := follow (if above (k_env s) a then fall else rise) (k_env s) a in
      let g := Qred (knee * k_gain s + slope * (over env * (1 - knee))) in
      (KState env g false 0, power g)
  | Gate pole threshold hold rise fall =>
      let env := follow pole (k_env s) (Qabsq x) in
      let up := above env threshold in
      let h := Z.max (if negb up && k_above s then hold else 0) (k_hold s - 1) in
      let open_ := if up || (0 <? h)%Z then 1 else 0 in
      let g := follow (if above (k_gain s) open_ then fall else rise) (k_gain s) open_ in
      (KState env g up h, g)
  end.
(** instanceClear *)
Definition k0 : kstate := KState 0 0 false 0.

(** One channel of the limiter, limiter.hxx 137-144: fRec2, fRec1 and fRec0; the poles fConst5, fConst3 and fConst1. *)
Record lchan := LChan { l_peak : Q; l_env : Q; l_gain : Q }.
Definition limitStep (c1 c3 c5 : Q) (s : lchan) (x : Q) : lchan * Q :=
  let a := Qabsq x in
  let p := let d := follow c5 (l_peak s) a in if above d a then d else a in
  let env := follow c3 (l_env s) p in
  let g := follow c1 (l_gain s) (if above env 1 then Qred (/ env) else 1) in
  (LChan p env g, Qred (x * g)).

(** What is not defined here. *)
Record rest := Rest {
  r_c1 : Q; r_c3 : Q; r_c5 : Q;
  r_DS : Type; r_ds0 : r_DS; r_disto : Q -> r_DS -> Q -> r_DS * Q;
  r_RP : Type; r_RS : Type; r_rs0 : r_RS; r_string : r_RP -> r_RS -> Q -> r_RS * Q;
  r_FP : Type; r_FS : Type; r_f0 : r_FS; r_reverb : r_FP -> r_FS -> Q * Q -> r_FS * (Q * Q) }.
(** The effects over the rational numbers. *)
Definition exactly (r : rest) : world := {|
  w_V := Q; w_add := fun a b => Qred (a + b); w_sub := fun a b => Qred (a - b); w_mul := fun a b => Qred (a * b); w_abs := Qabsq;
  w_zero := 0; w_one := 1; w_half := 1 # 2; w_eqb := Qeq_bool; w_gt1 := fun a => above a 1;
  w_frac := fun a => Qred (a - inject_Z (Z.quot (Qnum a) (Zpos (Qden a))));
  w_cs2 := coefs2; w_cs4 := coefs4; w_cs8 := coefs8;
  w_DS := r_DS r; w_ds0 := r_ds0 r; w_disto := r_disto r;
  w_RP := r_RP r; w_RS := r_RS r; w_rs0 := r_rs0 r; w_string := r_string r;
  w_CP := kernel; w_CS := kstate; w_c0 := k0; w_gain := kernelStep;
  w_LS := lchan * lchan; w_l0 := (LChan 0 0 0, LChan 0 0 0);
  w_limit := fun s x => let '(a, y) := limitStep (r_c1 r) (r_c3 r) (r_c5 r) (fst s) (fst x) in
                        let '(b, z) := limitStep (r_c1 r) (r_c3 r) (r_c5 r) (snd s) (snd x) in ((a, b), (y, z));
  w_FP := r_FP r; w_FS := r_FS r; w_f0 := r_f0 r; w_reverb := r_reverb r |}.

(** New effects: Compressor.cpp 61-75 and Gate.cpp 64-78, Limiter.cpp 39-50, Rectify.cpp 34-48: everything cleared. *)
Definition newRectify (r : rest) (amount : Q) : @effect (exactly r) :=
  let z := @hclear (exactly r) coefs2 in
  @ERectify (exactly r) (@Rectify (exactly r) amount (@Rect (exactly r) z z) (@Rect (exactly r) z z)).
Definition newDyn (r : rest) (k : kernel) (link : bool) (gain : Q) : @effect (exactly r) :=
  let z := @hclear (exactly r) coefs2 in @EDyn (exactly r) (@Dyn (exactly r) k link gain k0 k0 z z z z).
Definition newLimiter (r : rest) : @effect (exactly r) :=
  let z := @hclear (exactly r) coefs2 in @ELimiter (exactly r) (@Limiter (exactly r) (LChan 0 0 0, LChan 0 0 0) z z z z).

(** The blocks an effect is given one after the other, each with its number of frames, and what it puts out. *)
Fixpoint play {X : world} (e : @effect X) (i0 i1 o0 o1 : nat) (bs : list (nat * @store X)) : list (w_V X) * list (w_V X) :=
  match bs with
  | [] => ([], [])
  | (n, m) :: bs' =>
      let '(e', m') := process e i0 i1 o0 o1 n m in
      let '(l, r) := play e' i0 i1 o0 o1 bs' in (block m' o0 n ++ l, block m' o1 n ++ r)
  end.
