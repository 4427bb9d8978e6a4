(** Small instruments used in the examples of the voice theorems. *)
From Coq Require Import ZArith QArith List Bool.
From Verif Require Import MidiModel LayerModel VoiceModel.
Import ListNotations.
Local Open Scope Z_scope.

(** Keys [lo] to [hi], a trigger mode, and controllers that start the region. *)
Definition xregion (t : trigger) (lo hi : Z) (cct : list (Z * (Q * Q))) : region :=
  Region lo hi 0%Q 1%Q (-1)%Q 1%Q 0 127 [] None None None None None false false false false
    true true 64 66 (1#127)%Q (1#127)%Q 0%Q 1%Q 0%Q 1%Q 0%Q 500%Q 0%Q 1%Q 1 1 t cct
    (match cct with [] => false | _ => true end) true true false.
(** Group, off_by, polyphony, note polyphony, self mask. *)
Definition xinfo (g : Z) (off : option Z) (poly : Z) (np : option Z) (mask : bool) : vinfo :=
  VInfo g off poly np mask false 60 false 0%Q 1000%Q [O].
Definition xdisabled : vinfo := VInfo 0 None 256 None true true 60 false 0%Q 1000%Q [O].
Definition xinstr (st : stealer) (glimit slimit : Z) (l : list (region * vinfo)) : instr :=
  Instr (fun k => fst (nth k l (xregion TAttack 0 127 [], xinfo 0 None 256 None true)))
        (fun k => snd (nth k l (xregion TAttack 0 127 [], xinfo 0 None 256 None true)))
        (fun _ => glimit) (fun _ => slimit) st 48000%Q true.
Definition xenv : env := Env (fun _ => 0%Q) (fun _ => SInfo 0 true 0).
Definition xrender : nat -> rinfo := fun _ => RInfo None false 0 (1#10)%Q.
Definition xop (o : op) : fop := FOp o (fun _ => (0%Q, 0%Q)) xrender.
Definition xrun (I : instr) (count : nat) (n : Z) (os : list fop) : option fsys :=
  frun I xenv (fun _ => 0%Q) (f_load I midi_init None 2%Q count n) os.

(** What is shown of a voice: number, state, region, note, turned off. *)
Definition show (m : vman) : list (nat * vstate * option nat * Z * bool) :=
  map (fun i => let v := m_voice m i in (i, v_state v, v_region v, te_num (v_ev v), v_offed v))
    (filter (fun i => negb (state_eqb VIdle (v_state (m_voice m i)))) (seq 0 (m_n m))).

Definition xa := xregion TAttack 0 127 [].
Definition xr := xregion TRelease 0 127 [].
Definition xi := xinfo 0 None 256 None true.
