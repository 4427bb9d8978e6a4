(** Messages to the synthesizer: src/sfizz/SynthMessaging.cpp 14-579 (Synth::dispatchMessage) and
    src/sfizz/SynthMessagingHelper.hpp (hashMessagePath 29-45, match 72-100, the access functions 582-688).

    Modelled: which case a path and a signature select, the numbers read from the path, the element of the
    synthesizer that is reached by them, what is added, whether an answer is sent.  Not modelled: the values
    that are answered and set (except the controllers that are entered into maps and the sizes of vectors).
    Paths and signatures are lists of bytes without the ending zero. *)
From Coq Require Import ZArith List Bool String Lia.
From Verif Require Import ParserModel OpcodeModel.
Import ListNotations.
Local Open Scope Z_scope.

Definition amp : Z := 38.
Definition maxIndices : nat := 8.

(** hashMessagePath, 29-45: what is hashed is the path with every run of digits replaced by '&'. *)
Fixpoint hashMessage (fuel : nat) (path sig : text) (h : Z) : Z :=
  match fuel with
  | O => h
  | S fuel =>
      match path with
      | [] => hash sig (hashByte 44 h)
      | c :: r => if isDigit c then hashMessage fuel (snd (span isDigit r)) sig (hashByte amp h) else hashMessage fuel r sig (hashByte c h)
      end
  end.
Definition hashMessagePath (path sig : text) : Z := hashMessage (S (List.length path)) path sig fnvBasis.

(** strchr(pattern, '&'): the text before the first '&' and the one after it *)
Fixpoint beforeAmp (p : text) : option (text * text) :=
  match p with
  | [] => None
  | c :: r => if c =? amp then Some ([], r) else match beforeAmp r with Some (a, b) => Some (c :: a, b) | None => None end
  end.
(** strncmp(pattern, path, length) = 0 for a pattern without zero bytes; what is left of the path *)
Fixpoint stripPrefix (a t : text) : option text :=
  match a with
  | [] => Some t
  | c :: a => match t with d :: t => if c =? d then stripPrefix a t else None | [] => None end
  end.
(** match, 72-100; [indices] are those found so far *)
Fixpoint matchPath (fuel : nat) (pattern path : text) (indices : list Z) : option (list Z) :=
  match fuel with
  | O => None
  | S fuel =>
      match beforeAmp pattern with
      | None => if text_eqb path pattern then Some indices else None
      | Some (a, pattern) =>
          if Nat.eqb (List.length indices) maxIndices then None else
          match stripPrefix a path with
          | None => None
          | Some path =>
              let '(d, path) := span isDigit path in
              match simpleAtoi 0 (2 ^ 32 - 1) d with
              | Some n => matchPath fuel pattern path (indices ++ [n])
              | None => None
              end
          end
      end
  end.
Definition match_ (pattern sig path sig' : text) : option (list Z) :=
  match matchPath (S (List.length pattern)) pattern path [] with
  | Some is => if text_eqb sig' sig then Some is else None
  | None => None
  end.

(** What a case works on: something of the synthesizer as a whole, a label of a key, an entry of an array of controllers, a label of a
    controller, a note, a region or a part of it, a voice; or what it adds. *)
Inductive access := Global | Key | ArrayCC | LabelCC | Note | Region | Mod | ModFilter | Filter | EQ | Sub | Point | Effect | Voice
  | AddFilter | AddEQ | AddEG | AddPoint.
Inductive op := Get | Set_ | Add.
(** [c_map]: the last number is that of a controller in a map of the element (CCMap) *)
Record case := Case { c_path : string; c_sig : string; c_access : access; c_map : bool; c_op : op }.

(** the cases of the switch, SynthMessaging.cpp 21-577 *)
Definition table : list case := [
  Case "/hello" "" Global false Get;
  Case "/num_regions" "" Global false Get;
  Case "/num_groups" "" Global false Get;
  Case "/num_masters" "" Global false Get;
  Case "/num_curves" "" Global false Get;
  Case "/num_samples" "" Global false Get;
  Case "/octave_offset" "" Global false Get;
  Case "/note_offset" "" Global false Get;
  Case "/num_outputs" "" Global false Get;
  Case "/num_active_voices" "" Global false Get;
  Case "/sustain_cancels_release" "" Global false Get;
  Case "/sample_quality" "" Global false Get;
  Case "/sustain_cancels_release" "s" Global false Set_;
  Case "/sustain_cancels_release" "T" Global false Set_;
  Case "/sustain_cancels_release" "F" Global false Set_;
  Case "/sample_quality" "i" Global false Set_;
  Case "/oscillator_quality" "" Global false Get;
  Case "/oscillator_quality" "i" Global false Set_;
  Case "/freewheeling_sample_quality" "" Global false Get;
  Case "/freewheeling_sample_quality" "i" Global false Set_;
  Case "/freewheeling_oscillator_quality" "" Global false Get;
  Case "/freewheeling_oscillator_quality" "i" Global false Set_;
  Case "/key/slots" "" Global false Get;
  Case "/key&/label" "" Key false Get;
  Case "/root_path" "" Global false Get;
  Case "/image" "" Global false Get;
  Case "/image_controls" "" Global false Get;
  Case "/sw/last/slots" "" Global false Get;
  Case "/sw/last/current" "" Global false Get;
  Case "/sw/last/&/label" "" Key false Get;
  Case "/cc/slots" "" Global false Get;
  Case "/cc&/default" "" ArrayCC false Get;
  Case "/cc&/value" "" ArrayCC false Get;
  Case "/cc&/value" "f" ArrayCC false Set_;
  Case "/cc&/label" "" LabelCC false Get;
  Case "/cc/changed" "" Global false Get;
  Case "/cc/changed~" "" Global false Get;
  Case "/sustain_or_sostenuto/slots" "" Global false Get;
  Case "/aftertouch" "" Global false Get;
  Case "/poly_aftertouch/&" "" Note false Get;
  Case "/pitch_bend" "" Global false Get;
  Case "/mem/buffers" "" Global false Get;
  Case "/region&/delay" "" Region false Get;
  Case "/region&/delay" "f" Region false Set_;
  Case "/region&/delay_random" "" Region false Get;
  Case "/region&/delay_random" "f" Region false Set_;
  Case "/region&/sample" "" Region false Get;
  Case "/region&/direction" "" Region false Get;
  Case "/region&/delay_cc&" "" Region true Get;
  Case "/region&/delay_cc&" "f" Region true Set_;
  Case "/region&/offset" "" Region false Get;
  Case "/region&/offset" "h" Region false Set_;
  Case "/region&/offset_random" "" Region false Get;
  Case "/region&/offset_random" "h" Region false Set_;
  Case "/region&/offset_cc&" "" Region true Get;
  Case "/region&/offset_cc&" "h" Region true Set_;
  Case "/region&/end" "" Region false Get;
  Case "/region&/end" "h" Region false Set_;
  Case "/region&/end_cc&" "" Region true Get;
  Case "/region&/end_cc&" "h" Region true Set_;
  Case "/region&/enabled" "" Region false Get;
  Case "/region&/trigger_on_note" "" Region false Get;
  Case "/region&/trigger_on_cc" "" Region false Get;
  Case "/region&/use_timer_range" "" Region false Get;
  Case "/region&/count" "" Region false Get;
  Case "/region&/count" "i" Region false Set_;
  Case "/region&/count" "N" Region false Set_;
  Case "/region&/loop_range" "" Region false Get;
  Case "/region&/loop_range" "hh" Region false Set_;
  Case "/region&/loop_start_cc&" "" Region true Get;
  Case "/region&/loop_start_cc&" "h" Region true Set_;
  Case "/region&/loop_end_cc&" "" Region true Get;
  Case "/region&/loop_end_cc&" "h" Region true Set_;
  Case "/region&/loop_mode" "" Region false Get;
  Case "/region&/loop_mode" "s" Region false Set_;
  Case "/region&/loop_crossfade" "" Region false Get;
  Case "/region&/loop_crossfade" "f" Region false Set_;
  Case "/region&/loop_count" "" Region false Get;
  Case "/region&/loop_count" "i" Region false Set_;
  Case "/region&/loop_count" "N" Region false Set_;
  Case "/region&/output" "" Region false Get;
  Case "/region&/output" "i" Region false Set_;
  Case "/region&/group" "" Region false Get;
  Case "/region&/group" "h" Region false Set_;
  Case "/region&/off_by" "" Region false Get;
  Case "/region&/off_by" "h" Region false Set_;
  Case "/region&/off_by" "N" Region false Set_;
  Case "/region&/off_mode" "" Region false Get;
  Case "/region&/off_mode" "s" Region false Set_;
  Case "/region&/key_range" "" Region false Get;
  Case "/region&/key_range" "ii" Region false Set_;
  Case "/region&/off_time" "" Region false Get;
  Case "/region&/off_time" "f" Region false Set_;
  Case "/region&/pitch_keycenter" "" Region false Get;
  Case "/region&/pitch_keycenter" "i" Region false Set_;
  Case "/region&/vel_range" "" Region false Get;
  Case "/region&/vel_range" "ff" Region false Set_;
  Case "/region&/bend_range" "" Region false Get;
  Case "/region&/bend_range" "ff" Region false Set_;
  Case "/region&/program_range" "" Region false Get;
  Case "/region&/program_range" "ii" Region false Set_;
  Case "/region&/cc_range&" "" Region true Get;
  Case "/region&/cc_range&" "ff" Region true Set_;
  Case "/region&/sw_last" "" Region false Get;
  Case "/region&/sw_last" "i" Region false Set_;
  Case "/region&/sw_last" "ii" Region false Set_;
  Case "/region&/sw_label" "" Region false Get;
  Case "/region&/sw_label" "s" Region false Set_;
  Case "/region&/sw_up" "" Region false Get;
  Case "/region&/sw_up" "i" Region false Set_;
  Case "/region&/sw_up" "s" Region false Set_;
  Case "/region&/sw_down" "" Region false Get;
  Case "/region&/sw_down" "i" Region false Set_;
  Case "/region&/sw_down" "s" Region false Set_;
  Case "/region&/sw_previous" "" Region false Get;
  Case "/region&/sw_previous" "i" Region false Set_;
  Case "/region&/sw_previous" "s" Region false Set_;
  Case "/region&/sw_vel" "" Region false Get;
  Case "/region&/sw_vel" "s" Region false Set_;
  Case "/region&/chanaft_range" "" Region false Get;
  Case "/region&/chanaft_range" "ff" Region false Set_;
  Case "/region&/polyaft_range" "" Region false Get;
  Case "/region&/polyaft_range" "ff" Region false Set_;
  Case "/region&/bpm_range" "" Region false Get;
  Case "/region&/bpm_range" "ff" Region false Set_;
  Case "/region&/rand_range" "" Region false Get;
  Case "/region&/rand_range" "ff" Region false Set_;
  Case "/region&/seq_length" "" Region false Get;
  Case "/region&/seq_length" "i" Region false Set_;
  Case "/region&/seq_position" "" Region false Get;
  Case "/region&/seq_position" "i" Region false Set_;
  Case "/region&/trigger" "" Region false Get;
  Case "/region&/trigger" "s" Region false Set_;
  Case "/region&/start_cc_range&" "" Region true Get;
  Case "/region&/start_cc_range&" "ff" Region true Set_;
  Case "/region&/volume" "" Region false Get;
  Case "/region&/volume" "f" Region false Set_;
  Case "/region&/volume_cc&" "" Mod false Get;
  Case "/region&/volume_stepcc&" "" Mod false Get;
  Case "/region&/volume_smoothcc&" "" Mod false Get;
  Case "/region&/volume_curvecc&" "" Mod false Get;
  Case "/region&/pan" "" Region false Get;
  Case "/region&/pan" "f" Region false Set_;
  Case "/region&/pan_cc&" "" Mod false Get;
  Case "/region&/pan_stepcc&" "" Mod false Get;
  Case "/region&/pan_smoothcc&" "" Mod false Get;
  Case "/region&/pan_curvecc&" "" Mod false Get;
  Case "/region&/width" "" Region false Get;
  Case "/region&/width" "f" Region false Set_;
  Case "/region&/width_cc&" "" Mod false Get;
  Case "/region&/width_stepcc&" "" Mod false Get;
  Case "/region&/width_smoothcc&" "" Mod false Get;
  Case "/region&/width_curvecc&" "" Mod false Get;
  Case "/region&/timer_range" "" Region false Get;
  Case "/region&/position" "" Region false Get;
  Case "/region&/position" "f" Region false Set_;
  Case "/region&/position_cc&" "" Mod false Get;
  Case "/region&/position_stepcc&" "" Mod false Get;
  Case "/region&/position_smoothcc&" "" Mod false Get;
  Case "/region&/position_curvecc&" "" Mod false Get;
  Case "/region&/amplitude" "" Region false Get;
  Case "/region&/amplitude" "f" Region false Set_;
  Case "/region&/amplitude_cc&" "" Mod false Get;
  Case "/region&/amplitude_stepcc&" "" Mod false Get;
  Case "/region&/amplitude_smoothcc&" "" Mod false Get;
  Case "/region&/amplitude_curvecc&" "" Mod false Get;
  Case "/region&/amp_keycenter" "" Region false Get;
  Case "/region&/amp_keycenter" "i" Region false Set_;
  Case "/region&/amp_keytrack" "" Region false Get;
  Case "/region&/amp_keytrack" "f" Region false Set_;
  Case "/region&/amp_veltrack" "" Region false Get;
  Case "/region&/amp_veltrack" "f" Region false Set_;
  Case "/region&/amp_veltrack_cc&" "" Region true Get;
  Case "/region&/amp_veltrack_cc&" "f" Region true Set_;
  Case "/region&/amp_veltrack_curvecc&" "" Region true Get;
  Case "/region&/amp_veltrack_curvecc&" "i" Region true Set_;
  Case "/region&/amp_random" "" Region false Get;
  Case "/region&/amp_random" "f" Region false Set_;
  Case "/region&/xfin_key_range" "" Region false Get;
  Case "/region&/xfin_key_range" "ii" Region false Set_;
  Case "/region&/xfout_key_range" "" Region false Get;
  Case "/region&/xfout_key_range" "ii" Region false Set_;
  Case "/region&/xfin_vel_range" "" Region false Get;
  Case "/region&/xfin_vel_range" "ff" Region false Set_;
  Case "/region&/xfout_vel_range" "" Region false Get;
  Case "/region&/xfout_vel_range" "ff" Region false Set_;
  Case "/region&/xfin_cc_range&" "" Region true Get;
  Case "/region&/xfin_cc_range&" "ff" Region true Set_;
  Case "/region&/xfout_cc_range&" "" Region true Get;
  Case "/region&/xfout_cc_range&" "ff" Region true Set_;
  Case "/region&/xf_keycurve" "" Region false Get;
  Case "/region&/xf_keycurve" "s" Region false Set_;
  Case "/region&/xf_velcurve" "" Region false Get;
  Case "/region&/xf_velcurve" "s" Region false Set_;
  Case "/region&/xf_cccurve" "" Region false Get;
  Case "/region&/xf_cccurve" "s" Region false Set_;
  Case "/region&/global_volume" "" Region false Get;
  Case "/region&/global_volume" "f" Region false Set_;
  Case "/region&/master_volume" "" Region false Get;
  Case "/region&/master_volume" "f" Region false Set_;
  Case "/region&/group_volume" "" Region false Get;
  Case "/region&/group_volume" "f" Region false Set_;
  Case "/region&/global_amplitude" "" Region false Get;
  Case "/region&/global_amplitude" "f" Region false Set_;
  Case "/region&/master_amplitude" "" Region false Get;
  Case "/region&/master_amplitude" "f" Region false Set_;
  Case "/region&/group_amplitude" "" Region false Get;
  Case "/region&/group_amplitude" "f" Region false Set_;
  Case "/region&/pitch_keytrack" "" Region false Get;
  Case "/region&/pitch_keytrack" "f" Region false Set_;
  Case "/region&/pitch_veltrack" "" Region false Get;
  Case "/region&/pitch_veltrack" "f" Region false Set_;
  Case "/region&/pitch_veltrack_cc&" "" Region true Get;
  Case "/region&/pitch_veltrack_cc&" "f" Region true Set_;
  Case "/region&/pitch_veltrack_curvecc&" "" Region true Get;
  Case "/region&/pitch_veltrack_curvecc&" "i" Region true Set_;
  Case "/region&/pitch_random" "" Region false Get;
  Case "/region&/pitch_random" "f" Region false Set_;
  Case "/region&/transpose" "" Region false Get;
  Case "/region&/transpose" "f" Region false Set_;
  Case "/region&/pitch" "" Region false Get;
  Case "/region&/pitch" "f" Region false Set_;
  Case "/region&/pitch_cc&" "" Mod false Get;
  Case "/region&/pitch_stepcc&" "" Mod false Get;
  Case "/region&/pitch_smoothcc&" "" Mod false Get;
  Case "/region&/pitch_curvecc&" "" Mod false Get;
  Case "/region&/bend_up" "" Region false Get;
  Case "/region&/bend_up" "f" Region false Set_;
  Case "/region&/bend_down" "" Region false Get;
  Case "/region&/bend_down" "f" Region false Set_;
  Case "/region&/bend_step" "" Region false Get;
  Case "/region&/bend_step" "f" Region false Set_;
  Case "/region&/bend_smooth" "" Region false Get;
  Case "/region&/bend_smooth" "i" Region false Set_;
  Case "/region&/ampeg_attack" "" Region false Get;
  Case "/region&/ampeg_delay" "" Region false Get;
  Case "/region&/ampeg_decay" "" Region false Get;
  Case "/region&/ampeg_hold" "" Region false Get;
  Case "/region&/ampeg_release" "" Region false Get;
  Case "/region&/ampeg_start" "" Region false Get;
  Case "/region&/ampeg_sustain" "" Region false Get;
  Case "/region&/ampeg_depth" "" Region false Get;
  Case "/region&/ampeg_attack_cc&" "" Region true Get;
  Case "/region&/ampeg_attack_curvecc&" "" Region true Get;
  Case "/region&/ampeg_decay_cc&" "" Region true Get;
  Case "/region&/ampeg_decay_curvecc&" "" Region true Get;
  Case "/region&/ampeg_delay_cc&" "" Region true Get;
  Case "/region&/ampeg_delay_curvecc&" "" Region true Get;
  Case "/region&/ampeg_hold_cc&" "" Region true Get;
  Case "/region&/ampeg_hold_curvecc&" "" Region true Get;
  Case "/region&/ampeg_release_cc&" "" Region true Get;
  Case "/region&/ampeg_release_curvecc&" "" Region true Get;
  Case "/region&/ampeg_sustain_cc&" "" Region true Get;
  Case "/region&/ampeg_sustain_curvecc&" "" Region true Get;
  Case "/region&/ampeg_start_cc&" "" Region true Get;
  Case "/region&/ampeg_start_curvecc&" "" Region true Get;
  Case "/region&/ampeg_vel&attack" "" Region false Get;
  Case "/region&/ampeg_vel&delay" "" Region false Get;
  Case "/region&/ampeg_vel&decay" "" Region false Get;
  Case "/region&/ampeg_vel&hold" "" Region false Get;
  Case "/region&/ampeg_vel&release" "" Region false Get;
  Case "/region&/ampeg_vel&sustain" "" Region false Get;
  Case "/region&/ampeg_vel&depth" "" Region false Get;
  Case "/region&/ampeg_dynamic" "" Region false Get;
  Case "/region&/ampeg_attack" "f" Region false Set_;
  Case "/region&/ampeg_delay" "f" Region false Set_;
  Case "/region&/ampeg_decay" "f" Region false Set_;
  Case "/region&/ampeg_hold" "f" Region false Set_;
  Case "/region&/ampeg_release" "f" Region false Set_;
  Case "/region&/ampeg_start" "f" Region false Set_;
  Case "/region&/ampeg_sustain" "f" Region false Set_;
  Case "/region&/ampeg_depth" "f" Region false Set_;
  Case "/region&/ampeg_attack_cc&" "f" Region true Set_;
  Case "/region&/ampeg_attack_curvecc&" "i" Region true Set_;
  Case "/region&/ampeg_decay_cc&" "f" Region true Set_;
  Case "/region&/ampeg_decay_curvecc&" "i" Region true Set_;
  Case "/region&/ampeg_delay_cc&" "f" Region true Set_;
  Case "/region&/ampeg_delay_curvecc&" "i" Region true Set_;
  Case "/region&/ampeg_hold_cc&" "f" Region true Set_;
  Case "/region&/ampeg_hold_curvecc&" "i" Region true Set_;
  Case "/region&/ampeg_release_cc&" "f" Region true Set_;
  Case "/region&/ampeg_release_curvecc&" "i" Region true Set_;
  Case "/region&/ampeg_sustain_cc&" "f" Region true Set_;
  Case "/region&/ampeg_sustain_curvecc&" "i" Region true Set_;
  Case "/region&/ampeg_start_cc&" "f" Region true Set_;
  Case "/region&/ampeg_start_curvecc&" "i" Region true Set_;
  Case "/region&/ampeg_vel&attack" "f" Region false Set_;
  Case "/region&/ampeg_vel&delay" "f" Region false Set_;
  Case "/region&/ampeg_vel&decay" "f" Region false Set_;
  Case "/region&/ampeg_vel&hold" "f" Region false Set_;
  Case "/region&/ampeg_vel&release" "f" Region false Set_;
  Case "/region&/ampeg_vel&sustain" "f" Region false Set_;
  Case "/region&/ampeg_vel&depth" "f" Region false Set_;
  Case "/region&/ampeg_dynamic" "T" Region false Set_;
  Case "/region&/ampeg_dynamic" "F" Region false Set_;
  Case "/region&/ampeg_dynamic" "s" Region false Set_;
  Case "/region&/fileg_attack" "" Region false Get;
  Case "/region&/fileg_delay" "" Region false Get;
  Case "/region&/fileg_decay" "" Region false Get;
  Case "/region&/fileg_hold" "" Region false Get;
  Case "/region&/fileg_release" "" Region false Get;
  Case "/region&/fileg_start" "" Region false Get;
  Case "/region&/fileg_sustain" "" Region false Get;
  Case "/region&/fileg_depth" "" Region false Get;
  Case "/region&/fileg_attack_cc&" "" Region true Get;
  Case "/region&/fileg_attack_curvecc&" "" Region true Get;
  Case "/region&/fileg_decay_cc&" "" Region true Get;
  Case "/region&/fileg_decay_curvecc&" "" Region true Get;
  Case "/region&/fileg_delay_cc&" "" Region true Get;
  Case "/region&/fileg_delay_curvecc&" "" Region true Get;
  Case "/region&/fileg_hold_cc&" "" Region true Get;
  Case "/region&/fileg_hold_curvecc&" "" Region true Get;
  Case "/region&/fileg_release_cc&" "" Region true Get;
  Case "/region&/fileg_release_curvecc&" "" Region true Get;
  Case "/region&/fileg_sustain_cc&" "" Region true Get;
  Case "/region&/fileg_sustain_curvecc&" "" Region true Get;
  Case "/region&/fileg_start_cc&" "" Region true Get;
  Case "/region&/fileg_start_curvecc&" "" Region true Get;
  Case "/region&/fileg_dynamic" "" Region false Get;
  Case "/region&/fileg_attack" "f" Region false Set_;
  Case "/region&/fileg_delay" "f" Region false Set_;
  Case "/region&/fileg_decay" "f" Region false Set_;
  Case "/region&/fileg_hold" "f" Region false Set_;
  Case "/region&/fileg_release" "f" Region false Set_;
  Case "/region&/fileg_start" "f" Region false Set_;
  Case "/region&/fileg_sustain" "f" Region false Set_;
  Case "/region&/fileg_depth" "f" Region false Set_;
  Case "/region&/fileg_attack_cc&" "f" Region true Set_;
  Case "/region&/fileg_attack_curvecc&" "i" Region true Set_;
  Case "/region&/fileg_decay_cc&" "f" Region true Set_;
  Case "/region&/fileg_decay_curvecc&" "i" Region true Set_;
  Case "/region&/fileg_delay_cc&" "f" Region true Set_;
  Case "/region&/fileg_delay_curvecc&" "i" Region true Set_;
  Case "/region&/fileg_hold_cc&" "f" Region true Set_;
  Case "/region&/fileg_hold_curvecc&" "i" Region true Set_;
  Case "/region&/fileg_release_cc&" "f" Region true Set_;
  Case "/region&/fileg_release_curvecc&" "i" Region true Set_;
  Case "/region&/fileg_sustain_cc&" "f" Region true Set_;
  Case "/region&/fileg_sustain_curvecc&" "i" Region true Set_;
  Case "/region&/fileg_start_cc&" "f" Region true Set_;
  Case "/region&/fileg_start_curvecc&" "i" Region true Set_;
  Case "/region&/fileg_dynamic" "T" Region false Set_;
  Case "/region&/fileg_dynamic" "F" Region false Set_;
  Case "/region&/fileg_dynamic" "s" Region false Set_;
  Case "/region&/pitcheg_attack" "" Region false Get;
  Case "/region&/pitcheg_delay" "" Region false Get;
  Case "/region&/pitcheg_decay" "" Region false Get;
  Case "/region&/pitcheg_hold" "" Region false Get;
  Case "/region&/pitcheg_release" "" Region false Get;
  Case "/region&/pitcheg_start" "" Region false Get;
  Case "/region&/pitcheg_sustain" "" Region false Get;
  Case "/region&/pitcheg_depth" "" Region false Get;
  Case "/region&/pitcheg_attack_cc&" "" Region true Get;
  Case "/region&/pitcheg_attack_curvecc&" "" Region true Get;
  Case "/region&/pitcheg_decay_cc&" "" Region true Get;
  Case "/region&/pitcheg_decay_curvecc&" "" Region true Get;
  Case "/region&/pitcheg_delay_cc&" "" Region true Get;
  Case "/region&/pitcheg_delay_curvecc&" "" Region true Get;
  Case "/region&/pitcheg_hold_cc&" "" Region true Get;
  Case "/region&/pitcheg_hold_curvecc&" "" Region true Get;
  Case "/region&/pitcheg_release_cc&" "" Region true Get;
  Case "/region&/pitcheg_release_curvecc&" "" Region true Get;
  Case "/region&/pitcheg_sustain_cc&" "" Region true Get;
  Case "/region&/pitcheg_sustain_curvecc&" "" Region true Get;
  Case "/region&/pitcheg_start_cc&" "" Region true Get;
  Case "/region&/pitcheg_start_curvecc&" "" Region true Get;
  Case "/region&/pitcheg_dynamic" "" Region false Get;
  Case "/region&/pitcheg_attack" "f" Region false Set_;
  Case "/region&/pitcheg_delay" "f" Region false Set_;
  Case "/region&/pitcheg_decay" "f" Region false Set_;
  Case "/region&/pitcheg_hold" "f" Region false Set_;
  Case "/region&/pitcheg_release" "f" Region false Set_;
  Case "/region&/pitcheg_start" "f" Region false Set_;
  Case "/region&/pitcheg_sustain" "f" Region false Set_;
  Case "/region&/pitcheg_depth" "f" Region false Set_;
  Case "/region&/pitcheg_attack_cc&" "f" Region true Set_;
  Case "/region&/pitcheg_attack_curvecc&" "i" Region true Set_;
  Case "/region&/pitcheg_decay_cc&" "f" Region true Set_;
  Case "/region&/pitcheg_decay_curvecc&" "i" Region true Set_;
  Case "/region&/pitcheg_delay_cc&" "f" Region true Set_;
  Case "/region&/pitcheg_delay_curvecc&" "i" Region true Set_;
  Case "/region&/pitcheg_hold_cc&" "f" Region true Set_;
  Case "/region&/pitcheg_hold_curvecc&" "i" Region true Set_;
  Case "/region&/pitcheg_release_cc&" "f" Region true Set_;
  Case "/region&/pitcheg_release_curvecc&" "i" Region true Set_;
  Case "/region&/pitcheg_sustain_cc&" "f" Region true Set_;
  Case "/region&/pitcheg_sustain_curvecc&" "i" Region true Set_;
  Case "/region&/pitcheg_start_cc&" "f" Region true Set_;
  Case "/region&/pitcheg_start_curvecc&" "i" Region true Set_;
  Case "/region&/pitcheg_dynamic" "T" Region false Set_;
  Case "/region&/pitcheg_dynamic" "F" Region false Set_;
  Case "/region&/pitcheg_dynamic" "s" Region false Set_;
  Case "/region&/note_polyphony" "" Region false Get;
  Case "/region&/note_polyphony" "i" Region false Set_;
  Case "/region&/rt_dead" "" Region false Get;
  Case "/region&/rt_dead" "s" Region false Set_;
  Case "/region&/rt_dead" "T" Region false Set_;
  Case "/region&/rt_dead" "F" Region false Set_;
  Case "/region&/sustain_sw" "" Region false Get;
  Case "/region&/sustain_sw" "s" Region false Set_;
  Case "/region&/sustain_sw" "T" Region false Set_;
  Case "/region&/sustain_sw" "F" Region false Set_;
  Case "/region&/sostenuto_sw" "" Region false Get;
  Case "/region&/sostenuto_sw" "s" Region false Set_;
  Case "/region&/sostenuto_sw" "T" Region false Set_;
  Case "/region&/sostenuto_sw" "F" Region false Set_;
  Case "/region&/sustain_cc" "" Region false Get;
  Case "/region&/sustain_cc" "i" Region false Set_;
  Case "/region&/sostenuto_cc" "" Region false Get;
  Case "/region&/sostenuto_cc" "i" Region false Set_;
  Case "/region&/sustain_lo" "" Region false Get;
  Case "/region&/sustain_lo" "f" Region false Set_;
  Case "/region&/sostenuto_lo" "" Region false Get;
  Case "/region&/sostenuto_lo" "f" Region false Set_;
  Case "/region&/note_selfmask" "" Region false Get;
  Case "/region&/note_selfmask" "s" Region false Set_;
  Case "/region&/oscillator_phase" "" Region false Get;
  Case "/region&/oscillator_phase" "f" Region false Set_;
  Case "/region&/oscillator_quality" "" Region false Get;
  Case "/region&/oscillator_quality" "i" Region false Set_;
  Case "/region&/oscillator_mode" "" Region false Get;
  Case "/region&/oscillator_mode" "i" Region false Set_;
  Case "/region&/oscillator_multi" "" Region false Get;
  Case "/region&/oscillator_multi" "i" Region false Set_;
  Case "/region&/oscillator_detune" "" Region false Get;
  Case "/region&/oscillator_detune" "f" Region false Set_;
  Case "/region&/oscillator_mod_depth" "" Region false Get;
  Case "/region&/oscillator_mod_depth" "f" Region false Set_;
  Case "/region&/effect&" "" Effect false Get;
  Case "/region&/effect&" "f" Effect false Set_;
  Case "/region&/add_filter" "" AddFilter false Add;
  Case "/region&/filter&/cutoff" "" Filter false Get;
  Case "/region&/filter&/cutoff" "f" Filter false Set_;
  Case "/region&/filter&/cutoff_cc&" "" ModFilter false Get;
  Case "/region&/filter&/cutoff_curvecc&" "" ModFilter false Get;
  Case "/region&/filter&/cutoff_stepcc&" "" ModFilter false Get;
  Case "/region&/filter&/cutoff_smoothcc&" "" ModFilter false Get;
  Case "/region&/filter&/resonance" "" Filter false Get;
  Case "/region&/filter&/resonance" "f" Filter false Set_;
  Case "/region&/filter&/gain" "" Filter false Get;
  Case "/region&/filter&/gain" "f" Filter false Set_;
  Case "/region&/filter&/keycenter" "" Filter false Get;
  Case "/region&/filter&/keycenter" "i" Filter false Set_;
  Case "/region&/filter&/keytrack" "" Filter false Get;
  Case "/region&/filter&/keytrack" "f" Filter false Set_;
  Case "/region&/filter&/veltrack" "" Filter false Get;
  Case "/region&/filter&/veltrack" "f" Filter false Set_;
  Case "/region&/filter&/veltrack_cc&" "" Filter true Get;
  Case "/region&/filter&/veltrack_cc&" "f" Filter true Set_;
  Case "/region&/filter&/veltrack_curvecc&" "" Filter true Get;
  Case "/region&/filter&/veltrack_curvecc&" "i" Filter true Set_;
  Case "/region&/filter&/type" "" Filter false Get;
  Case "/region&/filter&/type" "s" Filter false Set_;
  Case "/region&/add_eq" "" AddEQ false Add;
  Case "/region&/eq&/gain" "" EQ false Get;
  Case "/region&/eq&/gain" "f" EQ false Set_;
  Case "/region&/eq&/bandwidth" "" EQ false Get;
  Case "/region&/eq&/bandwidth" "f" EQ false Set_;
  Case "/region&/eq&/frequency" "" EQ false Get;
  Case "/region&/eq&/frequency" "f" EQ false Set_;
  Case "/region&/eq&/vel&freq" "" EQ false Get;
  Case "/region&/eq&/vel&freq" "f" EQ false Set_;
  Case "/region&/eq&/vel&gain" "" EQ false Get;
  Case "/region&/eq&/vel&gain" "f" EQ false Set_;
  Case "/region&/eq&/type" "" EQ false Get;
  Case "/region&/eq&/type" "s" EQ false Set_;
  Case "/region&/lfo&/wave" "" Sub false Get;
  Case "/region&/lfo&/wave" "i" Sub false Set_;
  Case "/region&/lfo&/wave&" "" Sub false Get;
  Case "/region&/lfo&/wave&" "i" Sub false Set_;
  Case "/region&/add_eg" "" AddEG false Add;
  Case "/region&/eg&/add_point" "" AddPoint false Add;
  Case "/region&/eg&/point&/time" "" Point false Get;
  Case "/region&/eg&/point&/time" "f" Point false Set_;
  Case "/region&/eg&/point&/time_cc&" "" Point true Get;
  Case "/region&/eg&/point&/time_cc&" "f" Point true Set_;
  Case "/region&/eg&/point&/level" "" Point false Get;
  Case "/region&/eg&/point&/level" "f" Point false Set_;
  Case "/region&/eg&/point&/level_cc&" "" Point true Get;
  Case "/region&/eg&/point&/level_cc&" "f" Point true Set_;
  Case "/voice&/trigger_value" "" Voice false Get;
  Case "/voice&/trigger_number" "" Voice false Get;
  Case "/voice&/trigger_type" "" Voice false Get;
  Case "/voice&/remaining_delay" "" Voice false Get;
  Case "/voice&/source_position" "" Voice false Get
].

(** the constant of a case, 20: hash(p "," s) *)
Definition caseHash (c : case) : Z := hash (str (c_path c) ++ [44] ++ str (c_sig c)) fnvBasis.
(** the switch, 19-578: the case whose constant is the hash; its body is skipped if the path does not match *)
Definition dispatch (path sig : text) : option (case * list Z) :=
  let h := hashMessagePath path sig in
  match find (fun c => caseHash c =? h) table with
  | Some c => match match_ (str (c_path c)) (str (c_sig c)) path sig with Some is => Some (c, is) | None => None end
  | None => None
  end.

(** ** What is reached *)

(** A region: the numbers of its filters, equalizers, effect gains, the sub-oscillators of its LFOs, the points of its flexible envelopes,
    and the controllers entered into its maps. *)
Record region := RegionOf { r_filters : nat; r_eqs : nat; r_effects : nat; r_lfos : list nat; r_egs : list nat; r_ccs : list Z }.
(** The synthesizer: its regions, for every voice whether it is free, numVoices_, and how many filters, equalizers and flexible envelopes
    every voice has. *)
Record synth := Synth { s_regions : list region; s_voices : list bool; s_numVoices : Z; s_filters : nat; s_eqs : nat; s_egs : nat }.

Inductive place :=
  | PGlobal | PKey (k : Z) | PCC (cc : Z) | PLabel (cc : Z) | PNote (n : Z) | PRegion (r : nat) | PFilter (r f : nat) | PEQ (r e : nat)
  | PSub (r l s : nat) | PEG (r e : nat) | PPoint (r e p : nat) | PEffect (r i : nat) | PVoice (v : nat).

(** Nothing: no answer, no effect.  Wrong: an element is used that is not there. *)
Inductive reached := Nothing | Reach (p : place) | Wrong.

(** static_cast<int> of an unsigned *)
Definition toInt (n : Z) : Z := if n <? 2 ^ 31 then n else n - 2 ^ 32.

(** indices[i] *)
Definition index (is : list Z) (i : nat) (k : Z -> reached) : reached := match nth_error is i with Some n => k n | None => Wrong end.
(** the element n of a list, if there is one *)
Definition lookup {A} (l : list A) (n : Z) : option A := if n <? Z.of_nat (List.length l) then nth_error l (Z.to_nat n) else None.
(** getRegion, 582-590 *)
Definition getRegion (s : synth) (is : list Z) (k : nat -> region -> reached) : reached :=
  index is 0 (fun n => match lookup (s_regions s) n with Some r => k (Z.to_nat n) r | None => Nothing end).
(** getFilter, getEQ, getLFO, getEG, 592-617 and 634-641: one of the elements that are there *)
Definition below (is : list Z) (i : nat) (size : nat) (k : nat -> reached) : reached :=
  index is i (fun n => if n <? Z.of_nat size then k (Z.to_nat n) else Nothing).
(** getLFOSub, 619-632 *)
Definition getSub (is : list Z) (subs : nat) (k : nat -> reached) : reached :=
  if Nat.eqb (List.length is) 2 then (if Nat.eqb subs 0 then Nothing else k 0%nat) else below is 2 subs k.
(** getEGPoint, 644-651: the sum is an unsigned one *)
Definition getPoint (is : list Z) (points : nat) (k : nat -> reached) : reached :=
  index is 2 (fun n => let i := (n + 1) mod 2 ^ 32 in if i <? Z.of_nat points then k (Z.to_nat i) else Nothing).
(** getVoice, 653-664: the number is compared as an int and used as it is *)
Definition getVoice (s : synth) (is : list Z) (k : nat -> reached) : reached :=
  index is 0 (fun n => if s_numVoices s <=? toInt n then Nothing else
    match lookup (s_voices s) n with Some free => if (free : bool) then Nothing else k (Z.to_nat n) | None => Wrong end).
(** checkCC, 678-682 *)
Definition checkCC (is : list Z) (k : Z -> reached) : reached := index is 0 (fun n => if n <=? 512 then k n else Nothing).
(** checkNote, 684-688, and the test in MidiState::getPolyAftertouch, MidiState.cpp 194-201, which answers 0 *)
Definition checkNote (is : list Z) (k : Z -> reached) : reached :=
  index is 0 (fun n => if toInt n <=? 127 then (if toInt n <? 0 then Reach PGlobal else k n) else Nothing).

(** the element a case works on *)
Definition reach (s : synth) (a : access) (is : list Z) : reached :=
  match a with
  | Global => Reach PGlobal
  | Key => index is 0 (fun n => Reach (PKey (toInt n)))
  | ArrayCC => checkCC is (fun n => if n <? 512 then Reach (PCC n) else Wrong)
  | LabelCC => checkCC is (fun n => Reach (PLabel n))
  | Note => checkNote is (fun n => Reach (PNote n))
  | Region | AddFilter | AddEQ | AddEG => getRegion s is (fun i r => Reach (PRegion i))
  | Mod => getRegion s is (fun i r => match is with [] => Wrong | _ => Reach (PRegion i) end)
  | ModFilter => getRegion s is (fun i r => index is 1 (fun _ => Reach (PRegion i)))
  | Filter => getRegion s is (fun i r => below is 1 (r_filters r) (fun j => Reach (PFilter i j)))
  | EQ => getRegion s is (fun i r => below is 1 (r_eqs r) (fun j => Reach (PEQ i j)))
  | Sub => getRegion s is (fun i r => below is 1 (List.length (r_lfos r)) (fun j => getSub is (nth j (r_lfos r) 0%nat) (fun k => Reach (PSub i j k))))
  | AddPoint => getRegion s is (fun i r => below is 1 (List.length (r_egs r)) (fun j => Reach (PEG i j)))
  | Point => getRegion s is (fun i r => below is 1 (List.length (r_egs r)) (fun j => getPoint is (nth j (r_egs r) 0%nat) (fun k => Reach (PPoint i j k))))
  | Effect => getRegion s is (fun i r => index is 1 (fun n => if (0 <? toInt n) && (toInt n <? Z.of_nat (r_effects r)) then Reach (PEffect i (Z.to_nat n)) else Nothing))
  | Voice => getVoice s is (fun v => Reach (PVoice v))
  end.

Fixpoint update {A} (l : list A) (i : nat) (f : A -> A) : list A :=
  match l, i with
  | [], _ => []
  | x :: l, O => f x :: l
  | x :: l, S i => x :: update l i f
  end.
Definition withRegion (s : synth) (i : nat) (f : region -> region) : synth :=
  Synth (update (s_regions s) i f) (s_voices s) (s_numVoices s) (s_filters s) (s_eqs s) (s_egs s).
Definition addCC (cc : Z) (r : region) : region :=
  RegionOf (r_filters r) (r_eqs r) (r_effects r) (r_lfos r) (r_egs r) (if existsb (Z.eqb cc) (r_ccs r) then r_ccs r else cc :: r_ccs r).
Definition regionOf (p : place) : option nat :=
  match p with
  | PRegion r | PFilter r _ | PEQ r _ | PSub r _ _ | PEG r _ | PPoint r _ _ | PEffect r _ => Some r
  | _ => None
  end.
Definition emptyRegion : region := RegionOf 0 0 0 [] [] [].
Definition regionAt (s : synth) (i : nat) : region := nth i (s_regions s) emptyRegion.

(** The answer: none, the value asked for, or the number of what was added. *)
Inductive answer := NoAnswer | Value (p : place) | Number (n : Z).

(** the bodies of the cases.  CCMap::operator[] (CCMap.h 83-92) enters a controller that is not there yet, as an int.  add_filter 486-494
    and add_eq 518-526 take the number of flexible envelopes of the region, add_eg 545-554 as well; applySettingsPerVoice
    (Synth.cpp 1988-2001) gives it to all voices.  [None]: undefined behaviour *)
Definition handle (s : synth) (path sig : text) : option (synth * answer) :=
  match dispatch path sig with
  | None => Some (s, NoAnswer)
  | Some (c, is) =>
      match reach s (c_access c) is with
      | Wrong => None
      | Nothing => Some (s, NoAnswer)
      | Reach p =>
          match c_op c with
          | Get => Some (s, Value p)
          | Set_ =>
              match c_map c, regionOf p with
              | true, Some i => Some (withRegion s i (addCC (toInt (last is 0))), NoAnswer)
              | _, _ => Some (s, NoAnswer)
              end
          | Add =>
              match c_access c, p with
              | AddFilter, PRegion i =>
                  let s := withRegion s i (fun r => RegionOf (S (r_filters r)) (r_eqs r) (r_effects r) (r_lfos r) (r_egs r) (r_ccs r)) in
                  let n := Nat.max (s_filters s) (List.length (r_egs (regionAt s i))) in
                  Some (Synth (s_regions s) (s_voices s) (s_numVoices s) n (s_eqs s) (s_egs s), Number (Z.of_nat (r_filters (regionAt s i)) - 1))
              | AddEQ, PRegion i =>
                  let s := withRegion s i (fun r => RegionOf (r_filters r) (S (r_eqs r)) (r_effects r) (r_lfos r) (r_egs r) (r_ccs r)) in
                  let n := Nat.max (s_eqs s) (List.length (r_egs (regionAt s i))) in
                  Some (Synth (s_regions s) (s_voices s) (s_numVoices s) (s_filters s) n (s_egs s), Number (Z.of_nat (r_eqs (regionAt s i)) - 1))
              | AddEG, PRegion i =>
                  let s := withRegion s i (fun r => RegionOf (r_filters r) (r_eqs r) (r_effects r) (r_lfos r) (r_egs r ++ [1%nat]) (r_ccs r)) in
                  let n := Nat.max (s_egs s) (List.length (r_egs (regionAt s i))) in
                  Some (Synth (s_regions s) (s_voices s) (s_numVoices s) (s_filters s) (s_eqs s) n, Number (Z.of_nat (List.length (r_egs (regionAt s i))) - 1))
              | AddPoint, PEG i j =>
                  let s := withRegion s i (fun r => RegionOf (r_filters r) (r_eqs r) (r_effects r) (r_lfos r) (update (r_egs r) j S) (r_ccs r)) in
                  Some (s, Number (Z.of_nat (nth j (r_egs (regionAt s i)) 0%nat) - 2))
              | _, _ => Some (s, NoAnswer)
              end
          end
      end
  end.

(** setNumVoices, Synth.cpp 1954-1981 and VoiceManager::requireNumVoices, VoiceManager.cpp 178-193, with overflowVoiceMultiplier 1.5 and
    minOverflowVoices 4 (Config.h); all voices are free. *)
Definition setNumVoices (s : synth) (n : Z) : synth :=
  if n =? s_numVoices s then s else
  Synth (s_regions s) (repeat true (Z.to_nat (Z.min 256 (n + Z.max (n * 3 / 2) 4)))) n (s_filters s) (s_eqs s) (s_egs s).
