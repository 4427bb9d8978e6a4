(** What importing an audio file or a preset loads (C104). *)
From Coq Require Import ZArith List Bool String Lia Permutation.
From Verif Require Import ParserModel ParserReader ParserSteps ParserAdvance ParserExpand ParserProps ParserRound.
From Verif Require Import OpcodeModel OpcodeNumbers OpcodeNames ModModel RegionModel LoadModel LoadKeys ImportModel.
Import ListNotations.
Local Open Scope string_scope.
Local Open Scope list_scope.
Local Open Scope Z_scope.

(** * Formats *)
(** A path is imported exactly if its extension is one of the nine, in any case; no extension belongs to both formats. *)
Theorem C104_format e :
  getMatchingFormat e =
    (if existsb (fun x => text_eqb (map toLower e) (str x)) [".wav"; ".flac"; ".ogg"; ".mp3"; ".aif"; ".aiff"; ".aifc"; ".wv"] then Some AudioFile
     else if text_eqb (map toLower e) (str ".dspreset") then Some DecentSampler else None) /\
  ~ (matchesPath AudioFile e = true /\ matchesPath DecentSampler e = true).
Proof.
  split.
  - unfold getMatchingFormat. cbn [find matchesPath]. unfold equalsIgnoreCase, audioExtensions. cbn [existsb].
    repeat match goal with |- context [map toLower (str ?s)] => change (map toLower (str s)) with (str s) end.
    destruct (text_eqb (map toLower e) (str ".dspreset")); reflexivity.
  - unfold matchesPath, equalsIgnoreCase. intros [A B]. apply text_eqb_eq in B. rewrite B in A. vm_compute in A. discriminate.
Qed.

(** * Numbers *)
Lemma digits_show fuel : forall n acc, 0 <= n < 10 ^ Z.of_nat (S fuel) -> Forall (fun c => 48 <= c <= 57) acc ->
  is_digits (digits_of fuel n acc) /\ decimal (digits_of fuel n acc) = n * 10 ^ Z.of_nat (List.length acc) + decimal acc.
Proof.
  induction fuel as [|fuel IH]; intros n acc H A.
  - cbn [digits_of]. assert (n < 10) by (change (10 ^ Z.of_nat 1) with 10 in H; lia). rewrite Z.mod_small by lia. split.
    + split; [discriminate|]. constructor; [lia|exact A].
    + cbn [decimal]. replace (48 + n - 48) with n by lia. reflexivity.
  - cbn [digits_of]. pose proof (Z.mod_pos_bound n 10 ltac:(lia)) as M.
    assert (A' : Forall (fun c => 48 <= c <= 57) (48 + n mod 10 :: acc)) by (constructor; [lia|exact A]).
    destruct (Z.ltb_spec n 10) as [L0|L0].
    + split; [split; [discriminate|exact A']|]. cbn [decimal]. rewrite Z.mod_small by lia.
      replace (48 + n - 48) with n by lia. reflexivity.
    + assert (Hd : 0 <= n / 10 < 10 ^ Z.of_nat (S fuel)).
      { split; [apply Z.div_pos; lia|]. apply Z.div_lt_upper_bound; [lia|].
        rewrite <- Z.pow_succ_r by lia. rewrite <- Nat2Z.inj_succ. lia. }
      destruct (IH (n / 10) _ Hd A') as [I1 I2]. split; [exact I1|]. rewrite I2. cbn [decimal List.length].
      rewrite Nat2Z.inj_succ, Z.pow_succ_r by lia. pose proof (Z.div_mod n 10 ltac:(lia)) as DM.
      replace (48 + n mod 10 - 48) with (n mod 10) by lia. rewrite DM at 3. ring.
Qed.
Lemma digits_20 n : 0 <= n <= 2 ^ 63 -> is_digits (digits_of 20 n []) /\ decimal (digits_of 20 n []) = n.
Proof.
  intros H. destruct (digits_show 20 n []) as [A B].
  - split; [lia|]. change (10 ^ Z.of_nat 21) with 1000000000000000000000. change (2 ^ 63) with 9223372036854775808 in H. lia.
  - constructor.
  - split; [exact A|]. rewrite B. cbn. lia.
Qed.
Lemma show_signed n : int64_min <= n <= int64_max -> signed (showInt n) n.
Proof.
  unfold int64_min, int64_max, showInt. intros H. destruct (Z.ltb_spec n 0).
  - destruct (digits_20 (- n)) as [A B]; [lia|]. replace n with (- decimal (digits_of 20 (- n) [])) at 2 by lia. now apply (s_minus (digits_of 20 (- n) [])).
  - destruct (digits_20 n) as [A B]; [lia|]. rewrite <- B at 2. now constructor.
Qed.
(** The number that was written is the number that is read again. *)
Lemma show_read n : int64_min <= n <= int64_max -> readLeadingInt (showInt n) = Some n.
Proof.
  intros H. rewrite (readLeadingInt_literal (showInt n) n).
  - destruct H as [A B]. apply Z.leb_le in A, B. now rewrite A, B.
  - exists (showInt n), []. rewrite app_nil_r. split; [reflexivity|]. split; [now apply show_signed|exact Logic.I].
Qed.
Lemma show_chars n : int64_min <= n <= int64_max -> Forall (fun c => c = 45 \/ 48 <= c <= 57) (showInt n).
Proof.
  unfold int64_min, int64_max, showInt. intros H. destruct (Z.ltb_spec n 0).
  - destruct (digits_20 (- n)) as [[_ A] B]; [lia|]. constructor; [now left|]. eapply Forall_impl; [|exact A]. cbn beta. tauto.
  - destruct (digits_20 n) as [[_ A] B]; [lia|]. eapply Forall_impl; [|exact A]. cbn beta. tauto.
Qed.
Lemma numeric_clean v : Forall (fun c => c = 45 \/ 48 <= c <= 57) v -> clean_value v.
Proof.
  intros H. rewrite Forall_forall in H. split; [|split; [|split]].
  - apply Forall_forall. intros c C. apply H in C. lia.
  - intros a b. split; intros ->; specialize (H 47); rewrite in_app_iff in H; cbn [In] in H; lia.
  - intros a c ->. specialize (H c). rewrite in_app_iff in H. cbn [In] in H. lia.
  - intros a s b -> S0. specialize (H s). rewrite in_app_iff in H. cbn [In] in H. lia.
Qed.

(** * Audio files *)
Lemma clean_eof v : clean_value v -> eol v = (v, []).
Proof.
  intros (F & C & _). revert F C. induction v as [|c v IH]; intros F C; cbn [eol].
  - reflexivity.
  - inversion F as [|? ? Hc F']; subst. unfold cr, nl in *.
    destruct (Z.eqb_spec c 13); [lia|]. destruct (Z.eqb_spec c 10); [lia|]. cbn [orb].
    rewrite IH; [|exact F'|].
    + replace ((c =? 47) && _) with false; [reflexivity|].
      symmetry. apply andb_false_iff. destruct (Z.eqb_spec c 47) as [->|]; [right|now left].
      destruct v as [|c2 v]; [reflexivity|].
      destruct (C [] v) as [C1 C2].
      destruct (Z.eqb_spec c2 47) as [->|]; [exfalso; now apply C1|].
      destruct (Z.eqb_spec c2 42) as [->|]; [exfalso; now apply C2|]. reflexivity.
    + intros a b. destruct (C (c :: a) b) as [C1 C2]. cbn [app] in *. split; congruence.
Qed.
Lemma last_step W (RW : (1 <= w_rounds W)%nat) file pre n v p r h :
  p_files p = [r] -> At file pre (n ++ 61 :: v) r ->
  clean_op (n, v) -> p_header p = Some h ->
  exists p' r' pre', step W p = Some p' /\ p_files p' = [r'] /\ At file pre' [] r' /\
    p_header p' = Some h /\ p_ops p' = p_ops p ++ [(n, v)] /\ map telling (p_out p') = map telling (p_out p) ++ [TO n v].
Proof.
  intros F A (ID & NB & CV) HD. cbn [fst snd] in *.
  destruct (ident_forall _ ID) as [NN IF].
  assert (exists k, w_rounds W = S k) as (k & RK) by (destruct (w_rounds W); [lia|eauto]).
  unfold step. rewrite F.
  destruct (skip_blank_exact file p pre [] (n ++ 61 :: v) r A ltac:(constructor)) as (r1 & E & A1).
  { destruct n as [|c n]; [contradiction|]. inversion IF as [|? ? Hc _]; subst.
    apply ident_range in Hc. cbn [app]. split.
    - unfold one_of, cr, nl. cbn [existsb]. destruct (Z.eqb_spec c 32); [lia|].
      destruct (Z.eqb_spec c 9); [lia|]. destruct (Z.eqb_spec c 13); [lia|].
      destruct (Z.eqb_spec c 10); [lia|]. reflexivity.
    - intros (u & [H|H]); injection H as H _; lia. }
  rewrite E. cbn [bind].
  destruct (peek_char _ _ _ _ A1) as (r2 & P & A2). rewrite P. cbn [bind].
  assert (HDN : exists c, hd_error (n ++ 61 :: v) = Some c /\ c =? 35 = false /\ c =? 60 = false).
  { destruct n as [|c n]; [contradiction|]. inversion IF as [|? ? Hc _]; subst.
    apply ident_range in Hc. exists c. cbn [app hd_error]. split; [reflexivity|].
    split; apply Z.eqb_neq; lia. }
  destruct HDN as (c0 & HN & H35 & H60). rewrite HN, H35, H60. unfold processOpcode.
  set (f := fun c => isIdentifierChar c || (c =? 36)).
  destruct (extract_at file f _ _ _ A2) as (r3 & E3 & A3). rewrite E3. cbn [bind].
  assert (SP : span f (n ++ 61 :: v) = (n, 61 :: v)).
  { apply span_exact; [|reflexivity]. eapply Forall_impl; [|exact IF]. intros c Hc. unfold f.
    now rewrite Hc. }
  rewrite SP in *. cbn [fst snd] in *.
  destruct n as [|n0 n'] eqn:EN; [contradiction|]. rewrite <- EN in *. clear n0 n' EN.
  destruct (peek_char _ _ _ _ A3) as (r4 & P4 & A4). rewrite P4. cbn [bind hd_error is_char Z.eqb Pos.eqb negb].
  cbn [set_top set_files p_defs]. rewrite RK, (expand_plain k _ n (ident_no_dollar _ ID)). cbn [bind].
  rewrite ID. cbn [negb warnings Nat.iter].
  destruct (get_some _ _ _ _ _ A4) as (r5 & G5 & A5). rewrite G5. cbn [snd].
  destruct (text_eqb n (str "base64data")) eqn:B64; [apply text_eqb_eq in B64; contradiction|].
  destruct (eol_at file _ _ _ A5) as (r6 & E6 & A6). rewrite E6. cbn [bind].
  rewrite (clean_eof v CV) in *. cbn [fst snd] in *.
  rewrite split_all by (try lia; now apply clean_tail).
  rewrite <- (app_nil_r (((_ ++ _) ++ _) ++ _)) in A6.
  destruct (put_back file _ [] _ r6 A6) as (r7 & Q7 & A7); [intros _ []|]. rewrite Q7. cbn [bind app] in *.
  assert (ND : ~ In 36 v).
  { destruct CV as (CF & _). intros I. rewrite Forall_forall in CF. apply CF in I. tauto. }
  rewrite (expand_plain k _ v ND). cbn [bind Nat.iter].
  rewrite !warnings_O. change (p_header (set_top p r2)) with (p_header p). rewrite HD.
  eexists _, r7, _. split; [reflexivity|].
  cbn [set_top set_files ParserModel.emit set_block p_files p_header p_ops p_defs p_out tl].
  rewrite F. cbn [tl]. split; [reflexivity|]. split; [exact A7|]. split; [exact HD|]. split; [reflexivity|].
  rewrite map_app. reflexivity.
Qed.
Lemma started W dir ext name t : (1 <= w_depth W)%nat ->
  let p0 := start W dir ext name (Some (new_reader true name t)) in
  p_files p0 = [new_reader true name t] /\ p_header p0 = None /\ p_ops p0 = [] /\ p_out p0 = [].
Proof.
  intros DW p0. unfold p0, start, includeNewFile. cbn [p_paths negb andb existsb p_files List.length].
  destruct (Nat.eqb_spec 0 (w_depth W)); [lia|]. repeat split.
Qed.
(** An audio file is imported as one region that plays it; nothing is complained about. *)
Theorem C104_audio W dir ext name file :
  (1 <= w_rounds W)%nat -> (1 <= w_depth W)%nat -> fits (audioText file) -> clean_value file ->
  exists fuel p, parseString fuel W dir ext name (audioText file) = Some p /\
    blocks_told (map telling (p_out p)) = [(str "region", [(str "sample", file)])] /\
    ~ In TBad (map telling (p_out p)).
Proof.
  intros RW DW F C. destruct (started W dir ext name (audioText file) DW) as (F0 & H0 & O0 & E0).
  set (p0 := start W dir ext name (Some (new_reader true name (audioText file)))) in *.
  assert (A0 : At name [] ([] ++ 60 :: str "region" ++ 62 :: str "sample" ++ 61 :: file) (new_reader true name (audioText file))).
  { change ([] ++ 60 :: str "region" ++ 62 :: str "sample" ++ 61 :: file) with (audioText file). apply At_new; [|exact F].
    intros _ I0. unfold audioText in I0. apply in_app_or in I0 as [I0|I0]; [cbn in I0; lia|].
    destruct C as (C & _). rewrite Forall_forall in C. apply C in I0. tauto. }
  destruct (header_step W RW name [] [] (str "region") _ p0 _ F0 A0 ltac:(constructor) eq_refl) as (p1 & r1 & S1 & F1 & A1 & H1 & O1 & _ & T1).
  destruct (last_step W RW name _ (str "sample") file p1 r1 (str "region") F1 A1) as (p2 & r2 & pre2 & S2 & F2 & A2 & H2 & O2 & T2).
  { split; [reflexivity|]. split; [discriminate|exact C]. }
  { exact H1. }
  destruct (end_step W name pre2 [] p2 r2 F2 A2 ltac:(constructor)) as (p3 & S3 & ->).
  exists 3%nat, (flushCurrentHeader (set_files p2 [])).
  assert (R : steps W 3 p0 = Some (set_files p2 [])).
  { cbn [steps]. rewrite S1. cbn [bind]. rewrite S2. cbn [bind]. rewrite S3. reflexivity. }
  split; [|].
  - unfold parseString, parseVirtualFile. fold p0. rewrite (top_level_steps W 3 p0 _ R eq_refl). reflexivity.
  - assert (OUT : map telling (p_out (flushCurrentHeader (set_files p2 []))) =
      [TH (str "region"); TO (str "sample") file; TB (str "region") [(str "sample", file)]]).
    { unfold flushCurrentHeader. cbn [set_files p_header p_ops]. rewrite H2. cbn [set_block ParserModel.emit p_out].
      rewrite map_app. cbn [set_files p_out p_ops]. rewrite T2, O2, O1, T1, E0. unfold closed. rewrite H0. reflexivity. }
    rewrite OUT. split; [reflexivity|]. intros [I0|[I0|[I0|[]]]]; discriminate.
Qed.
Example C104_audio_ex : clean_valueb (str "Grand piano (C#4), soft.wav") = true /\
  option_map (fun p => blocks_told (map telling (p_out p))) (parseString 9 no_files [] [] (str "x") (audioText (str "Grand piano (C#4), soft.wav")))
  = Some [(str "region", [(str "sample", str "Grand piano (C#4), soft.wav")])].
Proof. split; vm_compute; reflexivity. Qed.
(** For other names of files this is wrong: the name is cut, and the rest becomes an opcode of its own. *)
Theorem C104_audio_refuted : exists file, ~ In 47 file /\
  option_map (fun p => blocks_told (map telling (p_out p))) (parseString 9 no_files [] [] (str "x") (audioText file)) =
    Some [(str "region", [(str "sample", str "take 1"); (str "volume", str "-60.wav")])].
Proof. exists (str "take 1 volume=-60.wav"). split; [cbn; lia|]. vm_compute. reflexivity. Qed.

(** * Presets *)
Section Presets.
Variable D : Type.
Variable leadingFloat : text -> option (D * text).
Variable toSeconds times100 : D -> D.
Variable show : D -> text.
Variable sort : list opcode -> list opcode.
Notation convert := (convert D leadingFloat toSeconds times100 show).
Notation element := (element D leadingFloat toSeconds times100 show sort).
Notation convertToSfz := (convertToSfz D leadingFloat toSeconds times100 show sort).

(** ** Which opcodes *)
(** Specification: the attributes with whole numbers, and what they are called in SFZ. *)
Definition wholeNumbers : list (string * string) :=
  [("rootNote", "key"); ("loNote", "lokey"); ("hiNote", "hikey"); ("loVel", "lovel"); ("hiVel", "hivel"); ("start", "offset"); ("end", "end");
   ("loopStart", "loop_start"); ("loopEnd", "loop_end"); ("seqPosition", "seq_position")].
Lemma whole_case a s v : In (a, s) wholeNumbers -> caseOf conversions (mkOpcode (str a) v) = Some (AsInt s).
Proof.
  unfold caseOf. replace (o_hash (mkOpcode (str a) v)) with (o_hash (mkOpcode (str a) [])).
  - intros I0. cbn [wholeNumbers In] in I0. repeat (destruct I0 as [I0|I0]; [injection I0 as <- <-; vm_compute; reflexivity|]). contradiction.
  - unfold mkOpcode. destruct (scan_name _ _ _ _). reflexivity.
Qed.
Lemma value_mk a v : o_value (mkOpcode a v) = trim v.
Proof. unfold mkOpcode. destruct (scan_name _ _ _ _). reflexivity. Qed.
(** Such an attribute becomes the opcode with the number it starts with, and one that does not start with a number is left out. *)
Theorem C104_whole a s v : In (a, s) wholeNumbers ->
  match readLeadingInt (trim v) with
  | Some n => exists t, convert (mkOpcode (str a) v) = [(str s, t)] /\ readLeadingInt t = Some n /\ clean_value t
  | None => convert (mkOpcode (str a) v) = []
  end.
Proof.
  intros I0. unfold ImportModel.convert. rewrite (whole_case _ _ v I0), value_mk.
  destruct (readLeadingInt (trim v)) as [n|] eqn:R; [|reflexivity].
  apply readLeadingInt_inv in R as [_ B]. exists (showInt n). split; [reflexivity|]. split; [now apply show_read|].
  apply numeric_clean, show_chars, B.
Qed.

(** Specification: the attributes with fractions, what they are called in SFZ, and the conversion of the number. *)
Definition fractions : list (string * string * (D -> D)) :=
  [("ampVeltrack", "amp_veltrack", fun d => d); ("tuning", "transpose", fun d => d); ("pan", "pan", fun d => d); ("loopCrossfade", "loop_crossfade", toSeconds);
   ("attack", "ampeg_attack", fun d => d); ("decay", "ampeg_decay", fun d => d); ("sustain", "ampeg_sustain", times100); ("release", "ampeg_release", fun d => d)].
(** Such an attribute becomes the opcode with the converted number, one without a number is left out; a volume is in decibels exactly if its unit says so;
    a loop is on exactly if the attribute says "true". *)
Theorem C104_fractions a s f v : In (a, s, f) fractions ->
  convert (mkOpcode (str a) v) = match leadingFloat (trim v) with Some (d, _) => [(str s, show (f d))] | None => [] end.
Proof.
  intros I0. unfold ImportModel.convert. rewrite value_mk.
  assert (H : o_hash (mkOpcode (str a) v) = o_hash (mkOpcode (str a) [])) by (unfold mkOpcode; destruct (scan_name _ _ _ _); reflexivity).
  unfold caseOf. rewrite H. cbn [fractions In] in I0.
  repeat (destruct I0 as [I0|I0]; [injection I0 as <- <- <-; match goal with |- context [find ?p conversions] => let c := eval vm_compute in (find p conversions) in replace (find p conversions) with c by (vm_compute; reflexivity) end; reflexivity|]). contradiction.
Qed.
Theorem C104_volume v d unit : leadingFloat (trim v) = Some (d, unit) ->
  convert (mkOpcode (str "volume") v) = [(str (if text_eqb unit (str "dB") then "volume" else "amplitude"), show d)].
Proof.
  intros L. unfold ImportModel.convert. rewrite value_mk, L.
  replace (caseOf conversions (mkOpcode (str "volume") v)) with (Some AsVolume); [destruct (text_eqb unit (str "dB")); reflexivity|].
  unfold caseOf. replace (o_hash (mkOpcode (str "volume") v)) with (o_hash (mkOpcode (str "volume") [])) by (unfold mkOpcode; destruct (scan_name _ _ _ _); reflexivity). vm_compute. reflexivity.
Qed.
Theorem C104_loop v : convert (mkOpcode (str "loopEnabled") v) = [(str "loop_mode", str (if text_eqb (trim v) (str "true") then "loop_continuous" else "no_loop"))].
Proof.
  unfold ImportModel.convert. rewrite value_mk.
  replace (caseOf conversions (mkOpcode (str "loopEnabled") v)) with (Some AsLoopMode); [destruct (text_eqb (trim v) (str "true")); reflexivity|].
  unfold caseOf. replace (o_hash (mkOpcode (str "loopEnabled") v)) with (o_hash (mkOpcode (str "loopEnabled") [])) by (unfold mkOpcode; destruct (scan_name _ _ _ _); reflexivity). vm_compute. reflexivity.
Qed.

(** ** The text *)
(** Specification: the blocks of a preset. *)
Definition presetBlocks (p : preset) : list ParserRound.block :=
  (match p_image p with [] => [] | i => [(str "control", [(str "image", i)])] end) ++
  (str "global", element (p_global p)) ::
  flat_map (fun g => (str "group", element (fst g)) :: map (fun s => (str "region", element s)) (snd g)) (p_groups p).
(** All attributes of a preset. *)
Definition attributes (p : preset) : list attribute :=
  p_global p ++ flat_map (fun g => fst g ++ List.concat (snd g)) (p_groups p).
(** What is written as it is, the path and the trigger, can be read on one line. *)
Definition readable (a : attribute) : Prop :=
  o_hash (mkOpcode (fst a) (snd a)) = hash (str "path") fnvBasis \/ o_hash (mkOpcode (fst a) (snd a)) = hash (str "trigger") fnvBasis ->
  clean_value (trim (snd a)).
Hypothesis shown : forall d, clean_value (show d).
Hypothesis permuted : forall l, Permutation l (sort l).

Lemma digits_chars fuel : forall n acc, Forall (fun c => 48 <= c <= 57) acc -> Forall (fun c => 48 <= c <= 57) (digits_of fuel n acc).
Proof.
  induction fuel as [|fuel IH]; intros n acc A; cbn [digits_of]; pose proof (Z.mod_pos_bound n 10 ltac:(lia));
    assert (Forall (fun c => 48 <= c <= 57) (48 + n mod 10 :: acc)) by (constructor; [lia|exact A]); [assumption|].
  destruct (n <? 10); [assumption|]. now apply IH.
Qed.
Lemma controller_name s n : isIdentifier (str s) = true -> str s <> [] -> isIdentifier (str s ++ to_string n) = true.
Proof.
  intros H N. unfold isIdentifier in *. destruct (str s) as [|c t]; [contradiction|]. cbn [app]. rewrite app_comm_cons, forallb_app, H. cbn [andb].
  apply forallb_forall. intros x X. pose proof (digits_chars 10 n [] ltac:(constructor)) as F. rewrite Forall_forall in F. apply F in X.
  unfold isIdentifierChar. destruct (Z.leb_spec 48 x), (Z.leb_spec x 57); cbn [andb]; try lia; now rewrite ?orb_true_r.
Qed.
Lemma controller_base s n : str s = str "on_locc" \/ str s = str "on_hicc" -> str s ++ to_string n <> str "base64data".
Proof. intros [->| ->]; discriminate. Qed.
Lemma case_in {A} (table : list (string * A)) o c : caseOf table o = Some c -> exists n, In (n, c) table /\ o_hash o = hash (str n) fnvBasis.
Proof.
  unfold caseOf. destruct (find _ table) as [[n c']|] eqn:F; [|discriminate]. cbn [option_map snd]. intros [= ->].
  apply find_some in F. destruct F as [I0 H]. apply Z.eqb_eq in H. cbn [fst] in H. exists n. split; [exact I0|]. now symmetry.
Qed.
Definition convName (c : conversion) : list string :=
  match c with
  | AsVolume => ["volume"; "amplitude"]
  | AsReal n | AsSeconds n | AsPercent n | AsWord n | AsInt n => [n]
  | AsController n => []
  | AsLoopMode => ["loop_mode"]
  | Ignored => []
  end.
Lemma conv_names : forallb (fun r => forallb (fun n => isIdentifier (str n) && negb (text_eqb (str n) (str "base64data"))) (convName (snd r))) conversions = true.
Proof. vm_compute. reflexivity. Qed.
Lemma conv_name n c s : In (n, c) conversions -> In s (convName c) -> isIdentifier (str s) = true /\ str s <> str "base64data".
Proof.
  intros I0 J. pose proof conv_names as H. rewrite forallb_forall in H. apply H in I0. cbn [snd] in I0. rewrite forallb_forall in I0. apply I0 in J.
  apply andb_true_iff in J. destruct J as [J1 J2]. split; [exact J1|]. apply negb_true_iff in J2. intros E0. rewrite E0 in J2. vm_compute in J2. discriminate.
Qed.
Lemma convert_clean a : readable a -> Forall clean_op (convert (mkOpcode (fst a) (snd a))).
Proof.
  intros RD. unfold ImportModel.convert. rewrite value_mk. destruct (caseOf conversions _) as [c|] eqn:Cs; [|constructor].
  apply case_in in Cs. destruct Cs as (n & I0 & H).
  assert (NM : forall s, In s (convName c) -> isIdentifier (str s) = true /\ str s <> str "base64data") by (intros s; now apply conv_name with n).
  destruct c as [|s|s|s|s|s| |s|].
  - destruct (leadingFloat _) as [[d u]|]; constructor; [|constructor]. destruct (text_eqb u (str "dB")); (split; [reflexivity|split; [discriminate|apply shown]]).
  - destruct (leadingFloat _) as [[d u]|]; constructor; [|constructor]. destruct (NM s (or_introl eq_refl)). split; [assumption|split; [assumption|apply shown]].
  - constructor; [|constructor]. destruct (NM s (or_introl eq_refl)). split; [assumption|split; [assumption|]]. cbn [snd]. apply RD.
    rewrite H. cbn [conversions In] in I0. repeat (destruct I0 as [I0|I0]; [first [discriminate I0 | injection I0 as <- <-; auto]|]). contradiction.
  - destruct (readLeadingInt _) as [k|] eqn:RK; constructor; [|constructor]. destruct (NM s (or_introl eq_refl)). split; [assumption|split; [assumption|]].
    apply readLeadingInt_inv in RK as [_ B]. apply numeric_clean, show_chars, B.
  - assert (K : str s = str "on_locc" \/ str s = str "on_hicc").
    { cbn [conversions In] in I0. repeat (destruct I0 as [I0|I0]; [first [discriminate I0 | injection I0 as <- <-; auto]|]). contradiction. }
    destruct (readLeadingInt _) as [k|] eqn:RK; constructor; [|constructor]. split; [|split].
    + apply controller_name; destruct K as [->| ->]; first [reflexivity|discriminate].
    + now apply controller_base.
    + apply readLeadingInt_inv in RK as [_ B]. apply numeric_clean, show_chars, B.
  - destruct (leadingFloat _) as [[d u]|]; constructor; [|constructor]. destruct (NM s (or_introl eq_refl)). split; [assumption|split; [assumption|apply shown]].
  - constructor; [|constructor]. split; [reflexivity|]. split; [discriminate|]. cbn [snd]. apply clean_valueb_ok. destruct (text_eqb _ _); vm_compute; reflexivity.
  - destruct (leadingFloat _) as [[d u]|]; constructor; [|constructor]. destruct (NM s (or_introl eq_refl)). split; [assumption|split; [assumption|apply shown]].
  - constructor.
Qed.
Lemma element_clean l : Forall readable l -> Forall clean_op (element l).
Proof.
  intros RD. unfold ImportModel.element. apply Forall_flat_map, Forall_forall. intros o O.
  apply (Permutation_in _ (Permutation_sym (permuted _))) in O. apply in_map_iff in O. destruct O as (a & <- & J).
  apply convert_clean. rewrite Forall_forall in RD. now apply RD.
Qed.
Lemma emit_print l : ImportModel.emit D leadingFloat toSeconds times100 show sort l = List.concat (map print_op (element l)).
Proof.
  unfold ImportModel.emit. induction (element l) as [|x e IH]; [reflexivity|]. cbn [flat_map map List.concat]. rewrite IH. reflexivity.
Qed.
Definition imageText (p : preset) : text := match p_image p with [] => [] | i => str "<control> image=" ++ i ++ [10] end.
Definition bodyBlocks (p : preset) : list ParserRound.block :=
  (str "global", element (p_global p)) ::
  flat_map (fun g => (str "group", element (fst g)) :: map (fun s => (str "region", element s)) (snd g)) (p_groups p).
Lemma print_app a b : print (a ++ b) = print a ++ print b.
Proof. unfold print. now rewrite map_app, concat_app. Qed.
Lemma text_print p : convertToSfz p = imageText p ++ print (bodyBlocks p).
Proof.
  unfold ImportModel.convertToSfz, imageText, bodyBlocks. f_equal. rewrite emit_print. cbn [print map List.concat]. unfold print_block at 1. cbn [fst snd].
  change (str "<global>" ++ [10] ++ ?x) with (60 :: str "global" ++ 62 :: nl :: x).
  assert (K : flat_map (fun g => str "<group>" ++ [10] ++ ImportModel.emit D leadingFloat toSeconds times100 show sort (fst g) ++
      flat_map (fun s => str "<region>" ++ [10] ++ ImportModel.emit D leadingFloat toSeconds times100 show sort s) (snd g)) (p_groups p) =
    print (flat_map (fun g => (str "group", element (fst g)) :: map (fun s => (str "region", element s)) (snd g)) (p_groups p))).
  { induction (p_groups p) as [|g gs IH]; [reflexivity|]. cbn [flat_map]. rewrite print_app, IH. f_equal.
    change (print ((str "group", element (fst g)) :: ?x)) with (print_block (str "group", element (fst g)) ++ print x). rewrite emit_print.
    unfold print_block. cbn [fst snd]. change (str "<group>" ++ [10] ++ ?x) with (60 :: str "group" ++ 62 :: nl :: x).
    rewrite <- app_comm_cons. rewrite <- app_assoc. cbn [app]. do 8 f_equal. f_equal.
    induction (snd g) as [|s ss IHs]; [reflexivity|]. cbn [flat_map map]. change (print ((str "region", element s) :: ?x)) with (print_block (str "region", element s) ++ print x).
    rewrite IHs, emit_print. reflexivity. }
  rewrite K. unfold print. rewrite <- app_comm_cons, <- app_assoc. reflexivity.
Qed.
Lemma body_clean p : Forall readable (attributes p) -> Forall clean_block (bodyBlocks p).
Proof.
  unfold attributes. intros RD. apply Forall_app in RD. destruct RD as [R1 R2]. unfold bodyBlocks. constructor.
  - split; [reflexivity|]. now apply element_clean.
  - apply Forall_flat_map, Forall_forall. intros g G. rewrite Forall_flat_map, Forall_forall in R2. apply R2 in G. apply Forall_app in G. destruct G as [G1 G2].
    constructor; [split; [reflexivity|now apply element_clean]|]. apply Forall_forall. intros b B. apply in_map_iff in B. destruct B as (s & <- & J).
    split; [reflexivity|]. apply element_clean. apply Forall_concat in G2. rewrite Forall_forall in G2. now apply G2.
Qed.
Lemma finish q o bs : opened q = last_block o bs ->
  map telling (p_out (flushCurrentHeader q)) = map telling (p_out q) ++ match last_block o bs with Some b => [TB (fst b) (snd b)] | None => [] end.
Proof.
  intros <-. unfold flushCurrentHeader, opened. destruct (p_header q) as [h|]; cbn [set_block ParserModel.emit p_out]; [rewrite map_app; reflexivity|now rewrite app_nil_r].
Qed.
(** A preset is loaded as its blocks, in the order of the file, and nothing is complained about. *)
Theorem C104_text W dir ext name p :
  (1 <= w_rounds W)%nat -> (1 <= w_depth W)%nat -> fits (convertToSfz p) ->
  clean_value (p_image p) -> Forall readable (attributes p) ->
  exists fuel q, parseString fuel W dir ext name (convertToSfz p) = Some q /\
    blocks_told (map telling (p_out q)) = presetBlocks p /\ ~ In TBad (map telling (p_out q)).
Proof.
  intros RW DW F CI RD. pose proof (body_clean p RD) as CB. rewrite text_print in *. unfold imageText, presetBlocks in *. fold (bodyBlocks p).
  destruct (p_image p) as [|i0 im] eqn:IM.
  - destruct (C07_round_trip W dir ext name (bodyBlocks p) RW DW F CB) as (fuel & q & A & B & C & _). exists fuel, q. auto.
  - remember (i0 :: im) as i eqn:EI. clear EI IM i0 im.
    set (t := (str "<control> image=" ++ i ++ [10]) ++ print (bodyBlocks p)) in *.
    destruct (started W dir ext name t DW) as (F0 & H0 & O0 & E0).
    set (p0 := start W dir ext name (Some (new_reader true name t))) in *.
    assert (A0 : At name [] ([] ++ 60 :: str "control" ++ 62 :: [32] ++ str "image" ++ 61 :: i ++ nl :: print (bodyBlocks p)) (new_reader true name t)).
    { replace ([] ++ 60 :: str "control" ++ 62 :: [32] ++ str "image" ++ 61 :: i ++ nl :: print (bodyBlocks p)) with t.
      - apply At_new; [|exact F]. intros _ I0. unfold t in I0. apply in_app_or in I0 as [I0|I0]; [|now apply print_no_255 in I0].
        apply in_app_or in I0 as [I0|I0]; [cbn in I0; lia|]. apply in_app_or in I0 as [I0|I0]; [|cbn in I0; lia].
        destruct CI as (C & _). rewrite Forall_forall in C. apply C in I0. tauto.
      - unfold t. rewrite <- !app_assoc. reflexivity. }
    destruct (header_step W RW name [] [] (str "control") _ p0 _ F0 A0 ltac:(constructor) eq_refl) as (p1 & r1 & S1 & F1 & A1 & H1 & O1 & _ & T1).
    destruct (opcode_step W RW name _ [32] (str "image") i (print (bodyBlocks p)) p1 r1 (str "control") F1 A1) as (p2 & r2 & S2 & F2 & A2 & H2 & O2 & _ & T2).
    { constructor; [reflexivity|constructor]. }
    { split; [reflexivity|]. split; [discriminate|exact CI]. }
    { exact H1. }
    destruct (blocks_run W name RW (bodyBlocks p) _ [nl] p2 r2 F2 A2) as (m & q & ST & FQ & LQ & EQ); [constructor; [reflexivity|constructor]|exact CB|].
    assert (OP : opened p2 = Some (str "control", [(str "image", i)])) by (unfold opened; rewrite H2, O2, O1; reflexivity).
    assert (T : map telling (p_out p2) = [TH (str "control"); TO (str "image") i]).
    { rewrite T2, T1, E0. unfold closed. rewrite H0. reflexivity. }
    rewrite OP in LQ, EQ. rewrite T in EQ.
    exists (S (S m)), (flushCurrentHeader q). split.
    + unfold parseString, parseVirtualFile. fold p0. rewrite (top_level_steps W (S (S m)) p0 q); [reflexivity| |exact FQ].
      cbn [steps]. rewrite S1. cbn [bind]. rewrite S2. cbn [bind]. exact ST.
    + rewrite (finish q _ _ LQ), EQ. set (bs := bodyBlocks p). set (o := Some (str "control", [(str "image", i)])).
      pose proof (story_blocks bs o) as SB. split.
      * rewrite !blocks_app. transitivity (blocks_told (story o bs) ++ match last_block o bs with Some b => [b] | None => [] end); [|exact SB].
        change (blocks_told [TH (str "control"); TO (str "image") i]) with (@nil ParserRound.block). cbn [app]. f_equal.
        destruct (last_block o bs) as [[h x]|]; reflexivity.
      * intros I0. apply in_app_or in I0 as [I0|I0].
        -- apply in_app_or in I0 as [I0|I0]; [destruct I0 as [I0|[I0|[]]]; discriminate|now apply story_good in I0].
        -- destruct (last_block o bs); [destruct I0 as [I0|[]]; discriminate|contradiction].
Qed.

(** ** Keys *)
(** What std::sort gives: a root note is before everything else. *)
Definition isRoot (o : opcode) : Prop := o_hash o = hash (str "rootNote") fnvBasis.
Hypothesis ordered : forall l a x b y c, sort l = a ++ x :: b ++ y :: c -> isRoot y -> isRoot x.

Definition has (s : string) (o : opcode) : Prop := o_hash o = hash (str s) fnvBasis.
Lemma last_app {A} (f : opcode -> option A) a b : lastOf f (a ++ b) = match lastOf f b with Some x => Some x | None => lastOf f a end.
Proof.
  induction a as [|o a IH]; cbn [app lastOf]; [destruct (lastOf f b); reflexivity|]. rewrite IH. destruct (lastOf f b); reflexivity.
Qed.
Lemma last_none {A} (f : opcode -> option A) l : Forall (fun o => f o = None) l -> lastOf f l = None.
Proof. induction 1 as [|o l H _ IH]; [reflexivity|]. cbn [lastOf]. now rewrite IH. Qed.
Lemma asRead_app a : forall b l, asRead (a ++ b) = Some l -> exists x y, asRead a = Some x /\ asRead b = Some y /\ l = x ++ y.
Proof.
  induction a as [|o a IH]; intros b l H; cbn [app asRead] in *.
  - exists [], l. auto.
  - destruct (cleanUp 1 o ScopeRegion) as [o'|]; [|discriminate]. cbn [bind] in *. destruct (asRead (a ++ b)) as [m|] eqn:M; [|discriminate].
    cbn [bind] in H. injection H as <-. destruct (IH _ _ M) as (x & y & X & Y & ->). rewrite X. cbn [bind]. exists (o' :: x), y. auto.
Qed.
Lemma asRead_forall (P : opcode -> Prop) l : forall m, asRead l = Some m -> (forall o o', In o l -> cleanUp 1 o ScopeRegion = Some o' -> P o') -> Forall P m.
Proof.
  induction l as [|o l IH]; intros m H Q; cbn [asRead] in H.
  - injection H as <-. constructor.
  - destruct (cleanUp 1 o ScopeRegion) as [o'|] eqn:C; [|discriminate]. cbn [bind] in H. destruct (asRead l) as [m'|]; [|discriminate].
    cbn [bind] in H. injection H as <-. constructor; [apply (Q o o'); [now left|exact C]|]. apply IH; [reflexivity|]. intros a b A. apply Q. now right.
Qed.
(** the opcodes of an element, as the loader has them *)
Definition asOpcodes (l : list (text * text)) : list opcode := map (fun x => mkOpcode (fst x) (snd x)) l.
Definition plain (c : conversion) : Prop := match c with AsController _ => False | _ => True end.
(** the hash of a name that is written, as a region reads it *)
Definition regionHash (s : string) : option Z := option_map (fun n => o_hash (mkOpcode n [])) (cleanUpOpcodeName 1 (trim (str s)) ScopeRegion).
Lemma hash_value n v w : o_hash (mkOpcode n v) = o_hash (mkOpcode n w).
Proof. unfold mkOpcode. destruct (scan_name _ _ _ _). reflexivity. Qed.
Lemma name_mk a v : o_name (mkOpcode a v) = trim a.
Proof. unfold mkOpcode. destruct (scan_name _ _ _ _). reflexivity. Qed.
Lemma read_hash s v o' : cleanUp 1 (mkOpcode (str s) v) ScopeRegion = Some o' -> regionHash s = Some (o_hash o') /\ o_value o' = trim (trim v).
Proof.
  unfold cleanUp, regionHash. rewrite name_mk, value_mk. destruct (cleanUpOpcodeName _ _ _) as [n|]; [|discriminate]. cbn [bind option_map].
  intros [= <-]. rewrite value_mk. split; [|reflexivity]. f_equal. apply hash_value.
Qed.
(** which names set the keys *)
Definition touches (s : string) (h : Z) : bool :=
  existsb (fun k => match regionHash s with Some x => x =? hash (str k) fnvBasis | None => true end) ["key"; "pitch_keycenter"] ||
  match regionHash s with Some x => x =? h | None => true end.
Lemma table_keys : forallb (fun r => String.eqb (fst r) "rootNote" || forallb (fun s =>
    (negb (touches s (hash (str "lokey") fnvBasis)) || String.eqb (fst r) "loNote") &&
    (negb (touches s (hash (str "hikey") fnvBasis)) || String.eqb (fst r) "hiNote")) (convName (snd r))) conversions = true.
Proof. vm_compute. reflexivity. Qed.
Opaque hash.
Definition noController (o : opcode) : Prop := ~ has "onLoCC&" o /\ ~ has "onHiCC&" o.
Lemma convert_name o x : In x (convert o) -> noController o ->
  exists n c s, In (n, c) conversions /\ has n o /\ In s (convName c) /\ fst x = str s.
Proof.
  intros X [N1 N2]. unfold ImportModel.convert in X. destruct (caseOf conversions o) as [c|] eqn:Cs; [|contradiction].
  apply case_in in Cs. destruct Cs as (n & I0 & H). exists n, c.
  assert (K : forall s, c <> AsController s).
  { intros s ->. cbn [conversions In] in I0. repeat (destruct I0 as [I0|I0]; [first [discriminate I0 | injection I0 as <- <-; contradiction]|]). contradiction. }
  destruct c as [|s|s|s|s|s| |s|]; try (exfalso; now apply (K s)); cbn [convName];
    try (destruct (leadingFloat _) as [[d u]|]); try (destruct (readLeadingInt _)); try contradiction;
    destruct X as [<-|[]]; cbn [fst]; try (exists s; cbn [In]; tauto).
  - destruct (text_eqb u (str "dB")); [exists "volume"|exists "amplitude"]; cbn [In]; tauto.
  - exists "loop_mode". cbn [In]. tauto.
Qed.
(** what is written for anything else but a root note and one more name *)
Lemma silent o x o' k : In k ["loNote"; "hiNote"; "rootNote"] -> In x (convert o) -> noController o -> ~ isRoot o -> ~ has k o ->
  cleanUp 1 (mkOpcode (fst x) (snd x)) ScopeRegion = Some o' ->
  is o' "key" = false /\ is o' "pitch_keycenter" = false /\ (k = "loNote" -> is o' "lokey" = false) /\ (k = "hiNote" -> is o' "hikey" = false).
Proof.
  intros K X NC NR NK CU. destruct (convert_name o x X NC) as (n & c & s & I0 & H & J & Q). rewrite Q in CU. apply read_hash in CU as [CU _].
  pose proof table_keys as T. rewrite forallb_forall in T. apply T in I0. cbn [fst snd] in I0. apply orb_true_iff in I0 as [I0|I0].
  { apply String.eqb_eq in I0. subst n. contradiction. }
  rewrite forallb_forall in I0. apply I0 in J. apply andb_true_iff in J. destruct J as [J1 J2]. unfold touches in J1, J2. rewrite CU in J1, J2. cbn [existsb] in J1, J2.
  unfold is.
  assert (B : (o_hash o' =? hash (str "key") fnvBasis) = false /\ (o_hash o' =? hash (str "pitch_keycenter") fnvBasis) = false).
  { destruct (o_hash o' =? hash (str "key") fnvBasis), (o_hash o' =? hash (str "pitch_keycenter") fnvBasis); cbn [orb negb] in J1, J2; auto;
      apply String.eqb_eq in J1; apply String.eqb_eq in J2; rewrite J1 in J2; discriminate J2. }
  destruct B as [B1 B2]. rewrite B1, B2 in J1, J2. cbn [orb] in J1, J2. split; [exact B1|]. split; [exact B2|]. split; intros ->.
  - destruct (_ =? hash (str "lokey") _); [|reflexivity]. cbn [negb orb] in J1. apply String.eqb_eq in J1. subst n. contradiction.
  - destruct (_ =? hash (str "hikey") _); [|reflexivity]. cbn [negb orb] in J2. apply String.eqb_eq in J2. subst n. contradiction.
Qed.
Lemma trim_show n : int64_min <= n <= int64_max -> trim (showInt n) = showInt n.
Proof.
  intros H. pose proof (show_chars n H) as F. apply trim_solid. remember (showInt n) as t. clear Heqt. rewrite Forall_forall in F. unfold solid.
  assert (K : forall c, In c t -> isTrimmed c = false).
  { intros c C. apply F in C. unfold isTrimmed. destruct (Z.eqb_spec c 32), (Z.leb_spec 9 c), (Z.leb_spec c 13); cbn [orb andb]; try lia; reflexivity. }
  split; [destruct t as [|c u]; [exact Logic.I|apply K; now left]|]. destruct (rev t) as [|c u] eqn:R; [exact Logic.I|]. apply K. apply in_rev. rewrite R. now left.
Qed.
Definition opcodesOf (l : list attribute) : list opcode := map (fun a => mkOpcode (fst a) (snd a)) l.
Lemma pick (f : opcode -> option Z) k s v n l outer cs :
  In (k, s) wholeNumbers -> In k ["loNote"; "hiNote"; "rootNote"] -> In (str k, v) l ->
  NoDup (map o_hash (opcodesOf l)) -> Forall noController (opcodesOf l) -> readLeadingInt (trim v) = Some n ->
  (forall o', regionHash s = Some (o_hash o') -> o_value o' = showInt n -> f o' = Some n) ->
  (forall o', is o' "key" = false -> is o' "pitch_keycenter" = false -> (k = "loNote" -> is o' "lokey" = false) -> (k = "hiNote" -> is o' "hikey" = false) -> f o' = None) ->
  asRead (outer ++ asOpcodes (element l)) = Some cs -> lastOf f cs = Some n.
Proof.
  intros W K IL ND NC RN FS FN AR.
  assert (B : int64_min <= n <= int64_max) by (apply readLeadingInt_inv in RN; tauto).
  pose proof (permuted (opcodesOf l)) as PM.
  assert (IX : In (mkOpcode (str k) v) (sort (opcodesOf l))).
  { apply (Permutation_in _ PM). apply in_map_iff. exists (str k, v). split; [reflexivity|exact IL]. }
  apply in_split in IX. destruct IX as (A & Bs & Q).
  assert (HK : has k (mkOpcode (str k) v)).
  { unfold has. rewrite (hash_value (str k) v []). cbn [In] in K. destruct K as [<-|[<-|[<-|[]]]]; vm_compute; reflexivity. }
  assert (NDS : NoDup (map o_hash (sort (opcodesOf l)))) by (apply (Permutation_NoDup (Permutation_map o_hash PM)); exact ND).
  rewrite Q, map_app in NDS. cbn [map] in NDS. apply NoDup_remove_2 in NDS.
  assert (NB : forall o, In o Bs -> noController o /\ ~ isRoot o /\ ~ has k o).
  { intros o O. assert (IO : In o (sort (opcodesOf l))) by (rewrite Q; apply in_or_app; right; now right).
    assert (NKo : ~ has k o).
    { intros H. apply NDS. apply in_or_app. right. apply in_map_iff. exists o. split; [|exact O]. unfold has in *. congruence. }
    split; [|split; [|exact NKo]].
    - apply (Permutation_in _ (Permutation_sym PM)) in IO. rewrite Forall_forall in NC. now apply NC.
    - intros RO. apply in_split in O. destruct O as (B1 & B2 & ->). pose proof (ordered _ _ _ _ _ _ Q RO) as RX. apply NKo. unfold has, isRoot in *. congruence. }
  unfold ImportModel.element in AR. fold (opcodesOf l) in AR. rewrite Q, flat_map_app in AR. cbn [flat_map] in AR. unfold asOpcodes in AR.
  assert (CX : convert (mkOpcode (str k) v) = [(str s, showInt n)]).
  { unfold ImportModel.convert. rewrite (whole_case _ _ v W), value_mk, RN. reflexivity. }
  rewrite CX in AR. rewrite map_app, app_assoc in AR. apply asRead_app in AR. destruct AR as (c1 & c2 & R1 & R2 & ->).
  cbn [app map fst snd asRead] in R2. destruct (cleanUp 1 (mkOpcode (str s) (showInt n)) ScopeRegion) as [x|] eqn:CU; [|discriminate]. cbn [bind] in R2.
  destruct (asRead (map _ (flat_map convert Bs))) as [c3|] eqn:R3; [|discriminate]. cbn [bind] in R2. injection R2 as <-.
  apply read_hash in CU as [CU CV]. rewrite !(trim_show n B) in CV.
  rewrite last_app. cbn [lastOf]. rewrite (last_none f c3).
  - now rewrite (FS x CU CV).
  - refine (asRead_forall _ _ _ R3 _). intros o o' IO CO. apply in_map_iff in IO. destruct IO as (y & <- & Y).
    apply in_flat_map in Y. destruct Y as (o0 & O0 & Y). destruct (NB o0 O0) as (N1 & N2 & N3).
    destruct (silent o0 y o' k K Y N1 N2 N3 CO) as (S1 & S2 & S3 & S4). exact (FN o' S1 S2 S3 S4).
Qed.
Lemma key_of n d : 0 <= n <= 127 -> keyOr d (showInt n) = n.
Proof.
  intros H. unfold keyOr, keyNumber. rewrite show_read by (unfold int64_min, int64_max; lia).
  destruct (Z.leb_spec 0 n), (Z.leb_spec n 127); cbn [andb]; try lia; reflexivity.
Qed.
(** An element with a root note and a range of keys, in any order and with any other attributes: the region has that range, and that pitch, whatever
    was said of the keys before. *)
Theorem C104_keys l outer cs vr va vb r a b :
  In (str "rootNote", vr) l -> In (str "loNote", va) l -> In (str "hiNote", vb) l ->
  NoDup (map o_hash (opcodesOf l)) -> Forall noController (opcodesOf l) ->
  readLeadingInt (trim vr) = Some r -> readLeadingInt (trim va) = Some a -> readLeadingInt (trim vb) = Some b ->
  0 <= r <= 127 -> 0 <= a <= 127 -> 0 <= b <= 127 ->
  asRead (outer ++ asOpcodes (element l)) = Some cs ->
  lowKey cs = a /\ highKey cs = b /\ center cs = r.
Proof.
  intros IR IA IB ND NC RR RA RB BR BA BB AR. unfold lowKey, highKey, center.
  assert (KH : forall s o', regionHash s = Some (hash (str s) fnvBasis) -> regionHash s = Some (o_hash o') -> is o' s = true).
  { intros s o' A B. rewrite A in B. injection B as B. unfold is. rewrite <- B. apply Z.eqb_refl. }
  assert (L0 : lastOf setsLow cs = Some a).
  { apply (pick setsLow "loNote" "lokey" va a l outer cs); try assumption; try (cbn [wholeNumbers In]; tauto).
    - intros o' H V. assert (K : is o' "lokey" = true) by (apply KH; [vm_compute; reflexivity|exact H]).
      unfold setsLow, named. rewrite (one_name o' "lokey" "key" K eq_refl), K, V. f_equal. now apply key_of.
    - intros o' K1 K2 K3 _. unfold setsLow, named. now rewrite K1, (K3 eq_refl). }
  assert (H0 : lastOf setsHigh cs = Some b).
  { apply (pick setsHigh "hiNote" "hikey" vb b l outer cs); try assumption; try (cbn [wholeNumbers In]; tauto).
    - intros o' H V. assert (K : is o' "hikey" = true) by (apply KH; [vm_compute; reflexivity|exact H]).
      unfold setsHigh, named. rewrite (one_name o' "hikey" "key" K eq_refl), K, V. f_equal. now apply key_of.
    - intros o' K1 K2 _ K4. unfold setsHigh, named. now rewrite K1, (K4 eq_refl). }
  assert (C0 : lastOf setsCenter cs = Some r).
  { apply (pick setsCenter "rootNote" "key" vr r l outer cs); try assumption; try (cbn [wholeNumbers In]; tauto).
    - intros o' H V. assert (K : is o' "key" = true) by (apply KH; [vm_compute; reflexivity|exact H]).
      unfold setsCenter. rewrite K, V. f_equal. now apply key_of.
    - intros o' K1 K2 _ _. unfold setsCenter. now rewrite K1, K2. }
  rewrite L0, H0, C0. auto.
Qed.
End Presets.
Transparent hash.

(** * Cases *)
(** A preset with whole numbers only: fractions are read and written as whole numbers, and the sorting puts the root notes first. *)
Definition wholeFloat (t : text) : option (Z * text) := option_map (fun n => (n, if text_eqb (rev (firstn 2 (rev t))) (str "dB") then str "dB" else [])) (readLeadingInt t).
Definition rootsFirst (l : list opcode) : list opcode :=
  let root o := o_hash o =? hash (str "rootNote") fnvBasis in filter root l ++ filter (fun o => negb (root o)) l.
Definition wholeElement : list attribute -> list (text * text) := element Z wholeFloat (fun n => n / 44100) (fun n => 100 * n) (fun n => showInt (Z.max int64_min (Z.min int64_max n))) rootsFirst.
Definition wholeSfz : preset -> text := convertToSfz Z wholeFloat (fun n => n / 44100) (fun n => 100 * n) (fun n => showInt (Z.max int64_min (Z.min int64_max n))) rootsFirst.
Lemma partition_permutation {A} (f : A -> bool) l : Permutation l (filter f l ++ filter (fun x => negb (f x)) l).
Proof.
  induction l as [|x l IH]; [constructor|]. cbn [filter]. destruct (f x); cbn [negb].
  - cbn [app]. now constructor.
  - apply Permutation_cons_app. exact IH.
Qed.
Lemma wholeShown n : clean_value (showInt (Z.max int64_min (Z.min int64_max n))).
Proof. apply numeric_clean, show_chars. unfold int64_min, int64_max. lia. Qed.
Lemma split_ordered {A} (f : A -> bool) p q : Forall (fun o => f o = true) p -> Forall (fun o => f o = false) q ->
  forall a x b y c, p ++ q = a ++ x :: b ++ y :: c -> f y = true -> f x = true.
Proof.
  intros F1 F2 a x b y c Q RY. revert a Q. induction p as [|z p IH]; intros a Q.
  - cbn [app] in Q. rewrite Q in F2. apply Forall_app in F2. destruct F2 as [_ F2]. apply Forall_inv_tail in F2. apply Forall_app in F2. destruct F2 as [_ F2].
    apply Forall_inv in F2. congruence.
  - inversion F1; subst. destruct a as [|w a]; cbn [app] in Q; injection Q as <- Q; [assumption|]. now apply (IH ltac:(assumption) a).
Qed.
Lemma rootsOrdered l a x b y c : rootsFirst l = a ++ x :: b ++ y :: c -> isRoot y -> isRoot x.
Proof.
  unfold rootsFirst, isRoot. intros Q Y. apply Z.eqb_eq. apply Z.eqb_eq in Y. revert Q Y.
  apply (split_ordered (fun o => o_hash o =? hash (str "rootNote") fnvBasis)); apply Forall_forall; intros o O0; apply filter_In in O0; destruct O0 as [_ O0].
  - exact O0.
  - now apply negb_true_iff in O0.
Qed.
Definition small : preset := Preset (str "back ground.png") [(str "volume", str "-3dB"); (str "attack", str "1")]
  [([(str "onLoCC64", str "10"); (str "tags", str "x")], [[(str "path", str "samples/C 3.wav"); (str "loNote", str "40"); (str "rootNote", str "48x"); (str "hiNote", str "52"); (str "loopEnabled", str "true")];
                                                            [(str "path", str "b.wav"); (str "loopStart", str "none"); (str "sustain", str "1")]])].
Definition smallBlocks : list ParserRound.block :=
  [(str "control", [(str "image", str "back ground.png")]); (str "global", [(str "volume", str "-3"); (str "ampeg_attack", str "1")]); (str "group", [(str "on_locc64", str "10")]);
   (str "region", [(str "key", str "48"); (str "sample", str "samples/C 3.wav"); (str "lokey", str "40"); (str "hikey", str "52"); (str "loop_mode", str "loop_continuous")]);
   (str "region", [(str "sample", str "b.wav"); (str "ampeg_sustain", str "100")])].
Example C104_text_ex : option_map (fun p => blocks_told (map telling (p_out p))) (parseString 40 no_files [] [] (str "x") (wholeSfz small)) = Some smallBlocks.
Proof. vm_compute. reflexivity. Qed.
Lemma small_readable : Forall readable (attributes small).
Proof. apply Forall_forall. intros a A _. apply clean_valueb_ok. revert a A. apply Forall_forall. repeat constructor. Qed.
(** The keys of a sample with its own range, in a group with another. *)
Definition keysOf (outer own : list attribute) : option (Z * Z * Z) :=
  option_map (fun cs => (lowKey cs, highKey cs, center cs)) (asRead (asOpcodes (wholeElement outer) ++ asOpcodes (wholeElement own))).
Example C104_keys_ex :
  keysOf [(str "rootNote", str "70"); (str "loNote", str "1")] [(str "loNote", str "40"); (str "hiNote", str "52"); (str "pan", str "3"); (str "rootNote", str "48")] = Some (40, 52, 48).
Proof. vm_compute. reflexivity. Qed.
(** When the range is given to the group and the root note to the sample, the range is lost: the sample plays for its root note only. *)
Theorem C104_keys_refuted : exists outer own, In (str "loNote", str "40") outer /\ In (str "hiNote", str "52") outer /\ own = [(str "rootNote", str "48")] /\
  keysOf outer own = Some (48, 48, 48).
Proof. exists [(str "loNote", str "40"); (str "hiNote", str "52")], [(str "rootNote", str "48")]. split; [left; reflexivity|]. split; [right; left; reflexivity|]. split; [reflexivity|]. vm_compute. reflexivity. Qed.
