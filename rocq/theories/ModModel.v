(** The modulation matrix: src/sfizz/modulations/ModId.h, ModId.cpp, ModKey.h, ModKey.cpp,
    ModMatrix.cpp. *)
From Coq Require Import ZArith List Bool Lia.
Import ListNotations.
Local Open Scope Z_scope.
Local Open Scope list_scope.

(** * Identifiers *)

(** ModId, ModId.h 15-96, without the markers. *)
Inductive modid :=
| MUndefined
| MController
| MEnvelope
| MLFO
| MAmpLFO
| MPitchLFO
| MFilLFO
| MAmpEG
| MPitchEG
| MFilEG
| MChannelAftertouch
| MPolyAftertouch
| MPerVoiceController
| MMasterAmplitude
| MAmplitude
| MPan
| MWidth
| MPosition
| MPitch
| MVolume
| MFilGain
| MFilCutoff
| MFilResonance
| MEqGain
| MEqFrequency
| MEqBandwidth
| MOscillatorDetune
| MOscillatorModDepth
| MPitchEGDepth
| MFilEGDepth
| MAmpLFODepth
| MAmpLFOFrequency
| MPitchLFODepth
| MPitchLFOFrequency
| MFilLFODepth
| MFilLFOFrequency
| MLFOFrequency
| MLFOBeats
| MLFOPhase
| MLFOAmplitudeDepth
| MLFOPanDepth
| MLFOWidthDepth
| MLFOPositionDepth
| MLFOPitchDepth
| MLFOVolumeDepth
| MLFOFilCutoffDepth
| MLFOFilResonanceDepth
| MLFOFilGainDepth
| MLFOEqGainDepth
| MLFOEqFrequencyDepth
| MLFOEqBandwidthDepth
| MEGAmplitudeDepth
| MEGPanDepth
| MEGWidthDepth
| MEGPositionDepth
| MEGPitchDepth
| MEGVolumeDepth
| MEGFilCutoffDepth
| MEGFilResonanceDepth
| MEGFilGainDepth
| MEGEqGainDepth
| MEGEqFrequencyDepth
| MEGEqBandwidthDepth
| MEGLFOFreqDepth.
Definition modid_eq_dec (a b : modid) : {a = b} + {a <> b}.
Proof. decide equality. Defined.
Definition modid_eqb (a b : modid) : bool := if modid_eq_dec a b then true else false.

(** The bits of ModFlags, ModId.h 101-113: per voice or per cycle, and for targets additive or
    multiplicative. *)
Inductive kind := KSource | KAdd | KMul.
Record flags_t := Flags { f_perVoice : bool; f_kind : kind }.
(** ModIds::flags, ModId.cpp 23-160; [None] is kModFlagsInvalid. *)
Definition flags (id : modid) : option flags_t :=
  match id with
  | MController => Some (Flags false KSource)
  | MEnvelope => Some (Flags true KSource)
  | MLFO => Some (Flags true KSource)
  | MAmpLFO => Some (Flags true KSource)
  | MPitchLFO => Some (Flags true KSource)
  | MFilLFO => Some (Flags true KSource)
  | MAmpEG => Some (Flags true KSource)
  | MPitchEG => Some (Flags true KSource)
  | MFilEG => Some (Flags true KSource)
  | MChannelAftertouch => Some (Flags false KSource)
  | MPolyAftertouch => Some (Flags true KSource)
  | MPerVoiceController => Some (Flags true KSource)
  | MMasterAmplitude => Some (Flags true KMul)
  | MAmplitude => Some (Flags true KMul)
  | MPan => Some (Flags true KAdd)
  | MWidth => Some (Flags true KAdd)
  | MPosition => Some (Flags true KAdd)
  | MPitch => Some (Flags true KAdd)
  | MVolume => Some (Flags true KAdd)
  | MFilGain => Some (Flags true KAdd)
  | MFilCutoff => Some (Flags true KAdd)
  | MFilResonance => Some (Flags true KAdd)
  | MEqGain => Some (Flags true KAdd)
  | MEqFrequency => Some (Flags true KAdd)
  | MEqBandwidth => Some (Flags true KAdd)
  | MOscillatorDetune => Some (Flags true KAdd)
  | MOscillatorModDepth => Some (Flags true KMul)
  | MPitchEGDepth => Some (Flags true KAdd)
  | MFilEGDepth => Some (Flags true KAdd)
  | MAmpLFODepth => Some (Flags true KAdd)
  | MAmpLFOFrequency => Some (Flags true KAdd)
  | MPitchLFODepth => Some (Flags true KAdd)
  | MPitchLFOFrequency => Some (Flags true KAdd)
  | MFilLFODepth => Some (Flags true KAdd)
  | MFilLFOFrequency => Some (Flags true KAdd)
  | MLFOFrequency => Some (Flags true KAdd)
  | MLFOBeats => Some (Flags true KAdd)
  | MLFOPhase => Some (Flags true KAdd)
  | MLFOAmplitudeDepth => Some (Flags true KMul)
  | MLFOPanDepth => Some (Flags true KAdd)
  | MLFOWidthDepth => Some (Flags true KAdd)
  | MLFOPositionDepth => Some (Flags true KAdd)
  | MLFOPitchDepth => Some (Flags true KAdd)
  | MLFOVolumeDepth => Some (Flags true KAdd)
  | MLFOFilCutoffDepth => Some (Flags true KAdd)
  | MLFOFilResonanceDepth => Some (Flags true KAdd)
  | MLFOFilGainDepth => Some (Flags true KAdd)
  | MLFOEqGainDepth => Some (Flags true KAdd)
  | MLFOEqFrequencyDepth => Some (Flags true KAdd)
  | MLFOEqBandwidthDepth => Some (Flags true KAdd)
  | MEGAmplitudeDepth => Some (Flags true KMul)
  | MEGPanDepth => Some (Flags true KAdd)
  | MEGWidthDepth => Some (Flags true KAdd)
  | MEGPositionDepth => Some (Flags true KAdd)
  | MEGPitchDepth => Some (Flags true KAdd)
  | MEGVolumeDepth => Some (Flags true KAdd)
  | MEGFilCutoffDepth => Some (Flags true KAdd)
  | MEGFilResonanceDepth => Some (Flags true KAdd)
  | MEGFilGainDepth => Some (Flags true KAdd)
  | MEGEqGainDepth => Some (Flags true KAdd)
  | MEGEqFrequencyDepth => Some (Flags true KAdd)
  | MEGEqBandwidthDepth => Some (Flags true KAdd)
  | MEGLFOFreqDepth => Some (Flags true KAdd)
  | MUndefined => None
  end.

(** * Keys *)

(** NumericId<Region>, utility/NumericId.h: -1 when there is none. *)
Definition noRegion : Z := -1.
(** The little endian bytes of an unsigned number. *)
Fixpoint le_bytes (n : nat) (v : Z) : list Z :=
  match n with
  | O => []
  | S n => Z.modulo v 256 :: le_bytes n (Z.div v 256)
  end.
(** ModKey, ModKey.h 22-116; the parameters are the twelve bytes of RawParameters (54-65),
    compared with memcmp (78-82).  flags_ and hash_ are functions of the rest. *)
Record key := Key { k_id : modid; k_region : Z; k_params : list Z }.
Definition key_eqb (a b : key) : bool :=
  modid_eqb (k_id a) (k_id b) && (k_region a =? k_region b) &&
  (if list_eq_dec Z.eq_dec (k_params a) (k_params b) then true else false).
(** ModKey(), 26, and operator bool, 36. *)
Definition noKey : key := Key MUndefined noRegion (repeat 0 12).
Definition isKey (k : key) : bool := negb (modid_eqb (k_id k) MUndefined).
(** createCC, ModKey.cpp 59-67: uint16_t cc, uint8_t curve, a byte of padding, uint16_t smooth,
    two bytes of padding, float step (here its bits).  Arguments are cut to their types. *)
Definition createCC (cc curve smooth step : Z) : key :=
  Key MController noRegion
    (le_bytes 2 cc ++ le_bytes 1 curve ++ [0] ++ le_bytes 2 smooth ++ [0; 0] ++ le_bytes 4 step).
(** createNXYZ, 69-78: four uint8_t arguments. *)
Definition createNXYZ (id : modid) (region n x y z : Z) : key :=
  Key id region (le_bytes 1 n ++ le_bytes 1 x ++ le_bytes 1 y ++ le_bytes 1 z ++ repeat 0 8).
(** parameters().N and .X. *)
Definition p_N (k : key) : Z := nth 0 (k_params k) 0.
Definition p_X (k : key) : Z := nth 1 (k_params k) 0.

(** getSourceDepthKey, 231-352. *)
Definition getSourceDepthKey (source target : key) : key :=
  let region := k_region source in
  let mk id := createNXYZ id region 0 0 0 0 in
  let mkN id := createNXYZ id region (p_N target) 0 0 0 in
  let mkNX id := createNXYZ id region (p_N target) (p_X target) 0 0 in
  match k_id source with
  | MAmpLFO => match k_id target with MVolume => mk MAmpLFODepth | _ => noKey end
  | MPitchLFO => match k_id target with MPitch => mk MPitchLFODepth | _ => noKey end
  | MFilLFO => match k_id target with MFilCutoff => mk MFilLFODepth | _ => noKey end
  | MPitchEG => match k_id target with MPitch => mk MPitchEGDepth | _ => noKey end
  | MFilEG => match k_id target with MFilCutoff => mk MFilEGDepth | _ => noKey end
  | MLFO =>
      match k_id target with
      | MAmplitude => mkN MLFOAmplitudeDepth
      | MPan => mkN MLFOPanDepth
      | MWidth => mkN MLFOWidthDepth
      | MPosition => mkN MLFOPositionDepth
      | MPitch => mkN MLFOPitchDepth
      | MVolume => mkN MLFOVolumeDepth
      | MFilCutoff => mkNX MLFOFilCutoffDepth
      | MFilResonance => mkNX MLFOFilResonanceDepth
      | MFilGain => mkNX MLFOFilGainDepth
      | MEqGain => mkNX MLFOEqGainDepth
      | MEqFrequency => mkNX MLFOEqFrequencyDepth
      | MEqBandwidth => mkNX MLFOEqBandwidthDepth
      | _ => noKey
      end
  | MEnvelope =>
      match k_id target with
      | MAmplitude => mkN MEGAmplitudeDepth
      | MPan => mkN MEGPanDepth
      | MWidth => mkN MEGWidthDepth
      | MPosition => mkN MEGPositionDepth
      | MPitch => mkN MEGPitchDepth
      | MVolume => mkN MEGVolumeDepth
      | MFilCutoff => mkNX MEGFilCutoffDepth
      | MFilResonance => mkNX MEGFilResonanceDepth
      | MFilGain => mkNX MEGFilGainDepth
      | MEqGain => mkNX MEGEqGainDepth
      | MEqFrequency => mkNX MEGEqFrequencyDepth
      | MEqBandwidth => mkNX MEGEqBandwidthDepth
      | MLFOFrequency => mkNX MEGLFOFreqDepth
      | _ => noKey
      end
  | _ => noKey
  end.

(** * Registry *)

Section Matrix.
(** Depths and samples: floats in the code, any type here. *)
Variable V : Type.

(** ConnectionData, ModMatrix.cpp 39-44; the identifier is [None] when it is not valid. *)
Record conn := Conn {
  c_depth : V;
  c_mod : key;
  c_modId : option nat;
  c_vel : V }.
(** Target, 46-52, with the map connectedSources as a list in the order in which it is
    traversed; any order may come from the hash map. *)
Record target := Target { t_key : key; t_conns : list (nat * conn) }.
(** Impl, 54-67.  The generator of a source is given by its key. *)
Record matrix := Matrix {
  m_sourceIndex : list (key * nat);
  m_targetIndex : list (key * nat);
  m_sources : list key;
  m_targets : list target }.
(** clear, 80-93. *)
Definition emptyMatrix : matrix := Matrix [] [] [] [].

Fixpoint lookup (l : list (key * nat)) (k : key) : option nat :=
  match l with
  | [] => None
  | (k', i) :: l' => if key_eqb k' k then Some i else lookup l' k
  end.
(** findSource, 177-186, and findTarget, 188-197. *)
Definition findSource (m : matrix) (k : key) : option nat := lookup (m_sourceIndex m) k.
Definition findTarget (m : matrix) (k : key) : option nat := lookup (m_targetIndex m) k.
(** registerSource, 125-152. *)
Definition registerSource (m : matrix) (k : key) : nat * matrix :=
  match findSource m k with
  | Some i => (i, m)
  | None =>
      let i := length (m_sources m) in
      (i, Matrix ((k, i) :: m_sourceIndex m) (m_targetIndex m) (m_sources m ++ [k]) (m_targets m))
  end.
(** registerTarget, 154-175. *)
Definition registerTarget (m : matrix) (k : key) : nat * matrix :=
  match findTarget m k with
  | Some i => (i, m)
  | None =>
      let i := length (m_targets m) in
      (i, Matrix (m_sourceIndex m) ((k, i) :: m_targetIndex m) (m_sources m)
            (m_targets m ++ [Target k []]))
  end.

Fixpoint update_nth {A} (n : nat) (f : A -> A) (l : list A) : list A :=
  match n, l with
  | _, [] => []
  | O, x :: r => f x :: r
  | S n, x :: r => x :: update_nth n f r
  end.
(** connectedSources[sourceIndex] and the assignments to it, 216-223. *)
Fixpoint set_conn (s : nat) (d : V) (dm : key) (id : option nat) (v : V) (l : list (nat * conn)) :
  list (nat * conn) :=
  match l with
  | [] => [(s, Conn d dm id v)]
  | (s', c) :: r =>
      if Nat.eqb s' s
      then (s, Conn d dm (match id with Some _ => id | None => c_modId c end) v) :: r
      else (s', c) :: set_conn s d dm id v r
  end.
(** connect, 199-226; [sourceId] and [targetId] as numbers, -1 when not valid, cast to unsigned. *)
Definition connect (m : matrix) (sourceId targetId : Z) (d : V) (dm : key) (v : V) : bool * matrix :=
  let s := Z.modulo sourceId (2 ^ 32) in
  let t := Z.modulo targetId (2 ^ 32) in
  if (Z.of_nat (length (m_sources m)) <=? s) || (Z.of_nat (length (m_targets m)) <=? t)
  then (false, m)
  else
    let '(id, m) := if isKey dm then let '(i, m') := registerTarget m dm in (Some i, m')
                    else (None, m) in
    (true, Matrix (m_sourceIndex m) (m_targetIndex m) (m_sources m)
             (update_nth (Z.to_nat t)
                (fun g => Target (t_key g) (set_conn (Z.to_nat s) d dm id v (t_conns g)))
                (m_targets m))).
End Matrix.
