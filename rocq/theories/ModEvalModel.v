(** Evaluation of the modulation matrix: src/sfizz/modulations/ModMatrix.cpp 228-508,
    ModGenerator.h, LFO.cpp 328-353. *)
From Coq Require Import ZArith List Bool Lia.
From Verif Require Import ModModel.
Import ListNotations.
Local Open Scope Z_scope.
Local Open Scope list_scope.

(** Tests of the flag bits; kModFlagsInvalid is -1, which has all of them. *)
Definition isPerVoice (k : key) : bool :=
  match flags (k_id k) with Some f => f_perVoice f | None => true end.
Definition isPerCycle (k : key) : bool :=
  match flags (k_id k) with Some f => negb (f_perVoice f) | None => true end.
Definition isMul (k : key) : bool :=
  match flags (k_id k) with Some f => match f_kind f with KMul => true | _ => false end | None => true end.

Section Eval.
(** Samples: floats in the code; rounding is not modelled. *)
Variable V : Type.
Variables (zero one : V) (add mul : V -> V -> V).
(** sourceDepth == 1. *)
Variable is_one : V -> bool.

(** The numFrames_ first frames of a buffer. *)
Definition buf : Type := nat -> V.
Variable M : matrix V.
(** What generate does for a source: it asks for some modulations (an LFO for its beats,
    frequency and phase, LFO.cpp 351-353, when it has a waveform; the others for none), then
    fills the buffer from the answers and its own state, which is the same during a block. *)
Variable queries : nat -> list (option nat).
Variable gen : nat -> list (option buf) -> buf.
(** currentRegionId_ and currentVoiceTriggerValue_. *)
Variable region : Z.
Variable trigger : V.

(** What the matrix asks from generators and when it starts to compute a target. *)
Inductive event := Generate (s : nat) | Compute (t : nat).
Record est := Est {
  e_sready : nat -> bool;
  e_sbuf : nat -> buf;
  e_tready : nat -> bool;
  e_tbuf : nat -> buf;
  e_log : list event }.

Definition upd {A} (f : nat -> A) (n : nat) (v : A) : nat -> A :=
  fun m => if Nat.eqb m n then v else f m.
Definition source (s : nat) : key := nth s (m_sources V M) noKey.
(** 422-424. *)
Definition useSource (s : nat) : bool := negb (isPerVoice (source s)) || (region =? k_region (source s)).
(** 402-404. *)
Definition useTarget (k : key) : bool := negb (isPerVoice k) || (region =? k_region k).
(** 438-442. *)
Definition depthOf (s : nat) (c : conn V) : V :=
  if isPerVoice (source s) then add (c_depth V c) (mul trigger (c_vel V c)) else c_depth V c.

Definition rec_t : Type := est -> option nat -> option (est * option nat).

(** The calls to getModulation made by a generator. *)
Fixpoint ask (rec : rec_t) (e : est) (q : list (option nat)) : option (est * list (option nat)) :=
  match q with
  | [] => Some (e, [])
  | t :: q' =>
      match rec e t with
      | Some (e1, p) =>
          match ask rec e1 q' with
          | Some (e2, ps) => Some (e2, p :: ps)
          | None => None
          end
      | None => None
      end
  end.
(** generate, writing to the buffer of the source. *)
Definition generate (rec : rec_t) (e : est) (s : nat) : option est :=
  match ask rec e (queries s) with
  | Some (e1, ps) =>
      let out := gen s (map (option_map (e_tbuf e1)) ps) in
      Some (Est (e_sready e1) (upd (e_sbuf e1) s out) (e_tready e1) (e_tbuf e1)
              (e_log e1 ++ [Generate s]))
  | None => None
  end.
Definition set_sready (e : est) (s : nat) : est :=
  Est (upd (e_sready e) s true) (e_sbuf e) (e_tready e) (e_tbuf e) (e_log e).
Definition set_tbuf (e : est) (t : nat) (b : buf) : est :=
  Est (e_sready e) (e_sbuf e) (e_tready e) (upd (e_tbuf e) t b) (e_log e).

(** 446-485: the buffer of the target after a source. *)
Definition accumulate (isFirst mult : bool) (d : V) (md : option buf) (src cur : buf) : buf :=
  fun i =>
    if isFirst then
      match md with
      | None => if is_one d then src i else mul d (src i)
      | Some f => if mult then mul (mul d (f i)) (src i) else mul (add d (f i)) (src i)
      end
    else if mult then
      match md with
      | None => mul (cur i) (mul d (src i))
      | Some f => mul (cur i) (mul (mul d (f i)) (src i))
      end
    else
      match md with
      | None => add (cur i) (mul d (src i))
      | Some f => add (cur i) (mul (add d (f i)) (src i))
      end.
(** The loop 417-489. *)
Fixpoint connections (rec : rec_t) (t : nat) (mult : bool) (e : est) (isFirst : bool)
  (l : list (nat * conn V)) : option (est * bool) :=
  match l with
  | [] => Some (e, isFirst)
  | (s, c) :: l' =>
      if useSource s then
        match (if e_sready e s then Some e else option_map (fun e => set_sready e s) (generate rec e s)) with
        | None => None
        | Some e1 =>
            match rec e1 (c_modId V c) with
            | None => None
            | Some (e2, p) =>
                let b := accumulate isFirst mult (depthOf s c) (option_map (e_tbuf e2) p)
                           (e_sbuf e2 s) (e_tbuf e2 t) in
                connections rec t mult (set_tbuf e2 t b) false l'
            end
        end
      else connections rec t mult e isFirst l'
  end.
(** getModulation, 386-498: the state after it, and the target whose buffer is returned.  [fuel]
    bounds the depth of the recursion. *)
Fixpoint getModulation (fuel : nat) (e : est) (id : option nat) : option (est * option nat) :=
  match fuel with
  | O => None
  | S fuel' =>
      match id with
      | None => Some (e, None)
      | Some t =>
          match nth_error (m_targets V M) t with
          | None => Some (e, None)
          | Some g =>
              if negb (useTarget (t_key V g)) then Some (e, None)
              else if e_tready e t then Some (e, Some t)
              else
                let e0 := Est (e_sready e) (e_sbuf e) (upd (e_tready e) t true) (e_tbuf e)
                            (e_log e ++ [Compute t]) in
                match connections (getModulation fuel') t (isMul (t_key V g)) e0 true (t_conns V g) with
                | None => None
                | Some (e1, isFirst) =>
                    let neutral := if isMul (t_key V g) then one else zero in
                    Some (if isFirst then set_tbuf e1 t (fun _ => neutral) else e1, Some t)
                end
          end
      end
  end.

(** sourceIndicesForRegion_[region], 236-249, and the same for targets, 251-263. *)
Definition sourcesForRegion : list nat :=
  filter (fun s => negb (isPerCycle (source s)) && isPerVoice (source s) &&
                   (k_region (source s) =? region)) (seq 0 (length (m_sources V M))).
Definition targetsForRegion : list nat :=
  filter (fun t => match nth_error (m_targets V M) t with
                   | Some g => negb (isPerCycle (t_key V g)) && isPerVoice (t_key V g) &&
                               (k_region (t_key V g) =? region)
                   | None => false
                   end) (seq 0 (length (m_targets V M))).
Definition resetAll (f : nat -> bool) (l : list nat) : nat -> bool :=
  fold_left (fun f n => upd f n false) l f.
(** beginVoice, 337-358. *)
Definition beginVoice (e : est) : est :=
  Est (resetAll (e_sready e) sourcesForRegion) (e_sbuf e)
      (resetAll (e_tready e) targetsForRegion) (e_tbuf e) (e_log e).
(** The requests made while a voice renders. *)
Fixpoint requests (fuel : nat) (e : est) (l : list nat) : option est :=
  match l with
  | [] => Some e
  | t :: l' =>
      match getModulation fuel e (Some t) with
      | Some (e1, _) => requests fuel e1 l'
      | None => None
      end
  end.
(** endVoice, 360-384: generateDiscarded is generate (ModGenerator.h 79-82); the source is not
    marked as ready. *)
Fixpoint discard (fuel : nat) (e : est) (l : list nat) : option est :=
  match l with
  | [] => Some e
  | s :: l' =>
      if e_sready e s then discard fuel e l'
      else match generate (getModulation fuel) e s with
           | Some e1 => discard fuel e1 l'
           | None => None
           end
  end.
Definition endVoice (fuel : nat) (e : est) : option est := discard fuel e sourcesForRegion.
(** A voice block: the requests between beginVoice and endVoice. *)
Definition voiceBlock (fuel : nat) (e : est) (l : list nat) : option est :=
  match requests fuel (beginVoice e) l with
  | Some e1 => endVoice fuel e1
  | None => None
  end.
End Eval.

(** A cycle: beginCycle (305-319), the voices one after the other, endCycle (321-335). *)
Section Cycle.
Variable V : Type.
Variables (zero one : V) (add mul : V -> V -> V).
Variable is_one : V -> bool.
Variable M : matrix V.
(** sourceIndicesForGlobal_ and targetIndicesForGlobal_, 236-263. *)
Definition sourcesForGlobal : list nat :=
  filter (fun s => isPerCycle (source V M s)) (seq 0 (length (m_sources V M))).
Definition targetsForGlobal : list nat :=
  filter (fun t => match nth_error (m_targets V M) t with
                   | Some g => isPerCycle (t_key V g)
                   | None => false
                   end) (seq 0 (length (m_targets V M))).
Definition beginCycle (e : est V) : est V :=
  Est V (resetAll (e_sready V e) sourcesForGlobal) (e_sbuf V e)
        (resetAll (e_tready V e) targetsForGlobal) (e_tbuf V e) (e_log V e).
(** A voice of the cycle: its region and trigger value, its generators, and what it asks for. *)
Record mvoice := MVoice {
  v_region : Z;
  v_trigger : V;
  v_queries : nat -> list (option nat);
  v_gen : nat -> list (option (buf V)) -> buf V;
  v_requests : list nat }.
Fixpoint voices (fuel : nat) (e : est V) (l : list mvoice) : option (est V) :=
  match l with
  | [] => Some e
  | v :: l' =>
      match voiceBlock V zero one add mul is_one M (v_queries v) (v_gen v) (v_region v) (v_trigger v)
              fuel e (v_requests v) with
      | Some e1 => voices fuel e1 l'
      | None => None
      end
  end.
(** Outside of a voice there is no current region; [g] are the generators of the per-cycle
    sources. *)
Definition endCycle (fuel : nat) (g : mvoice) (e : est V) : option (est V) :=
  discard V zero one add mul is_one M (v_queries g) (v_gen g) noRegion zero fuel e sourcesForGlobal.
Definition cycle (fuel : nat) (g : mvoice) (e : est V) (l : list mvoice) : option (est V) :=
  match voices fuel (beginCycle e) l with
  | Some e1 => endCycle fuel g e1
  | None => None
  end.
End Cycle.
