(** The level and the pitch a note starts with.
    Code: src/sfizz/RegionStateful.cpp 12-22 and 75-162, the part of Voice::startVoice that uses them (Voice.cpp 411-425, 490-505),
    Region::getBaseGain (Region.cpp 1780-1789), fast_real_distribution (MathHelpers.h 670-712), db2mag (MathHelpers.h 105-109), centsFactor
    (SfzHelpers.h 110-114).

    Numbers are exact: rationals, and reals from the power functions on.  A draw of the random generator is a number [u] between 0 and 1 that is not
    otherwise restricted.  The square root of crossfades is a parameter, as in CcEnvModel. *)
From Coq Require Import QArith ZArith List Bool Reals Qreals.
Import ListNotations.
From Verif Require Import AdsrModel CcEnvModel CurveModel.
Local Open Scope Q_scope.

(** The members of Region used, Region.h 310-365.  Controller modulations (CCMap of ModifierCurvePair): controller, curve, amount. *)
Record noteRegion := NoteRegion {
  nr_volume : Q; nr_globalVolume : Q; nr_masterVolume : Q; nr_groupVolume : Q; nr_ampRandom : Q;
  nr_release : bool; nr_rtDecay : Q;
  nr_amplitude : Q; nr_globalAmplitude : Q; nr_masterAmplitude : Q; nr_groupAmplitude : Q;
  nr_keytrack : Q; nr_keycenter : Z; nr_kin : Z * Z; nr_kout : Z * Z; nr_kcurve : xcurve;
  nr_vin : Q * Q; nr_vout : Q * Q; nr_vcurve : xcurve;
  nr_velCurve : option curve; nr_veltrack : Q; nr_veltrackCC : list (Z * nat * Q);
  nr_pitchKeytrack : Q; nr_pitchKeycenter : Z; nr_tune : Q; nr_transpose : Q;
  nr_pitchVeltrack : Q; nr_pitchVeltrackCC : list (Z * nat * Q); nr_pitchRandom : Q;
  nr_previous : bool  (* velocityOverride == previous *) }.

(** A region without opcodes: Defaults.cpp 84-124, Defaults.h 382-385. *)
Definition freshNote : noteRegion :=
  NoteRegion 0 0 0 0 0 false 0 1 1 1 1 0 60 (0, 0)%Z (127, 127)%Z XPower (0, 0) (1, 1) XPower None 1 [] 100 60 0 0 0 [] 0 false.

(** fast_real_distribution::operator(), MathHelpers.h 682-686, of the draw [u] *)
Definition draw (a b u : Q) : Q := a + u * (b - a).

(** baseVolumedB, RegionStateful.cpp 12-22; [held]: how long the note lasted, MidiState::getNoteDuration *)
Definition baseVolumedB (r : noteRegion) (u held : Q) : Q :=
  let v := nr_volume r + draw 0 (nr_ampRandom r) u in
  let v := v + nr_globalVolume r in
  let v := v + nr_masterVolume r in
  let v := v + nr_groupVolume r in
  if nr_release r then v - nr_rtDecay r * held else v.

(** The loops of velocityCurve 130-134 and of basePitchVariation 153-157.  [cs]: the curves by their index; [cc]: the controllers *)
Fixpoint track (cs : nat -> curve) (cc : Z -> Q) (base : Q) (mods : list (Z * nat * Q)) : option Q :=
  match mods with
  | [] => Some base
  | (n, c, amount) :: rest =>
      match evalNormalized Datatypes.id (cs c) (cc n) with
      | Some y => track cs cc (base + y * amount) rest
      | None => None
      end
  end.

(** velocityCurve, 118-140 *)
Definition velocityCurve (r : noteRegion) (cs : nat -> curve) (cc : Z -> Q) (v : Q) : option Q :=
  match (match nr_velCurve r with Some c => evalNormalized Datatypes.id c v | None => Some (v * v) end), track cs cc (nr_veltrack r) (nr_veltrackCC r) with
  | Some gain, Some t =>
      let gain := Qabsf t * (1 - gain) in
      Some (if Qltb t 0 then gain else 1 - gain)
  | _, _ => None
  end.

(** db2mag and centsFactor *)
Definition db2mag (x : R) : R := Rpower 10 (x * (5 / 100)).
Definition centsFactor (x : R) : R := Rpower 2 (x / 1200).

Section Start.
Variable sq : Q -> Q.
(** noteGain, 75-96 *)
Definition noteGain (r : noteRegion) (cs : nat -> curve) (cc : Z -> Q) (note : Z) (v : Q) : option R :=
  match velocityCurve r cs cc v with
  | Some g =>
      Some (1 * db2mag (Q2R (nr_keytrack r * inject_Z (note - nr_keycenter r)))
        * Q2R (xinK sq (fst (nr_kin r)) (snd (nr_kin r)) note (nr_kcurve r))
        * Q2R (xoutK sq (fst (nr_kout r)) (snd (nr_kout r)) note (nr_kcurve r))
        * Q2R g
        * Q2R (xinF sq (fst (nr_vin r)) (snd (nr_vin r)) v (nr_vcurve r))
        * Q2R (xoutF sq (fst (nr_vout r)) (snd (nr_vout r)) v (nr_vcurve r)))%R
  | None => None
  end.

(** Region::getBaseGain *)
Definition getBaseGain (r : noteRegion) : Q := nr_amplitude r * nr_globalAmplitude r * nr_masterAmplitude r * nr_groupAmplitude r.

(** Why the voice starts: TriggerEvent, SfzHelpers.h; a controller start has the value of the controller *)
Inductive trigger := ByNote (note : Z) (v : Q) | ByCC (cc : Z) (v : Q).
(** Voice::startVoice, Voice.cpp 419-425: the key and the velocity used; [last]: MidiState::getVelocityOverride *)
Definition startKey (r : noteRegion) (t : trigger) : Z := match t with ByNote n _ => n | ByCC _ _ => nr_pitchKeycenter r end.
Definition startVelocity (r : noteRegion) (last : Q) (t : trigger) : Q :=
  if nr_previous r then last else match t with ByNote _ v | ByCC _ v => v end.
(** ... and its base gain, 503-505 *)
Definition startGain (r : noteRegion) (cs : nat -> curve) (cc : Z -> Q) (last : Q) (t : trigger) : option R :=
  let byNote := match t with ByNote _ _ => true | ByCC _ _ => false end in
  if byNote || nr_previous r then
    match noteGain r cs cc (startKey r t) (startVelocity r last t) with
    | Some g => Some (Q2R (getBaseGain r) * g)%R
    | None => None
    end
  else Some (Q2R (getBaseGain r)).
End Start.

(** basePitchVariation, 142-162; [note] is fractional (a tuning may be in use); config::centPerSemitone is 100 *)
Definition baseCents (r : noteRegion) (cs : nat -> curve) (cc : Z -> Q) (note v u : Q) : option Q :=
  match track cs cc (nr_pitchVeltrack r) (nr_pitchVeltrackCC r) with
  | Some t =>
      Some (nr_pitchKeytrack r * (note - inject_Z (nr_pitchKeycenter r)) + nr_tune r + 100 * nr_transpose r
        + v * t + draw 0 (nr_pitchRandom r) u)
  | None => None
  end.
Definition basePitchVariation (r : noteRegion) (cs : nat -> curve) (cc : Z -> Q) (note v u : Q) : option R :=
  match baseCents r cs cc note v u with Some c => Some (centsFactor (Q2R c)) | None => None end.
