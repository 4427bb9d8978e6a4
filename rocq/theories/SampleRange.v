(** What the position opcodes of a region come to: the preloaded part covers every offset at which
    a note can start (C68), and the loop is that of the opcodes, completed from the file (C69). *)
From Coq Require Import ZArith QArith List Bool String Ascii Lia.
From Verif Require Import ParserModel OpcodeModel LoadModel PlayModel Play SampleRangeModel.
Import ListNotations.
Local Open Scope Z_scope.

(** ** C68: the preloaded part *)
Lemma scan_params : forall fuel rest h ps h' ps',
  scan_name fuel rest h ps = (h', ps') -> Forall (fun n => 0 <= n) ps -> Forall (fun n => 0 <= n) ps'.
Proof.
  induction fuel as [|fuel IH]; intros rest h ps h' ps'; cbn [scan_name];
    destruct (span _ rest) as [letters r]; destruct r as [|c r];
    try (intros [= <- <-]; auto; fail);
    destruct (span isDigit (c :: r)) as [num rest']; intros R F.
  - destruct (simpleAtoi _ _ _) as [v|]; injection R as <- <-; auto.
    apply Forall_app. split; auto. constructor; auto. apply Z.mod_pos_bound. reflexivity.
  - destruct (simpleAtoi _ _ _) as [v|]; refine (IH _ _ _ _ _ R _); auto.
    apply Forall_app. split; auto. constructor; auto. apply Z.mod_pos_bound. reflexivity.
Qed.
Lemma clean_params raw o : cleanUp 1 raw ScopeRegion = Some o -> Forall (fun n => 0 <= n) (o_params o).
Proof.
  unfold cleanUp. destruct (cleanUpOpcodeName _ _ _) as [n|]; [|discriminate]. intros [= <-].
  unfold mkOpcode. destruct (scan_name _ _ _ _) as [h ps] eqn:Q. cbn [o_params].
  exact (scan_params _ _ _ _ _ _ Q (Forall_nil _)).
Qed.
Lemma last_nonneg l : Forall (fun n => 0 <= n) l -> 0 <= last l 0.
Proof.
  induction 1 as [|x l X F IH]; [apply Z.le_refl|]. cbn [last]. destruct l; auto.
Qed.

Lemma read_offset v n : readIntOr offsetSpec v = Some n ->
  n = match readLeadingInt v with Some k => Z.min (Z.max k int64_min) int64_max | None => 0 end.
Proof.
  unfold readIntOr, readInt. cbn [offsetSpec s_note]. destruct (readLeadingInt v) as [k|]; [|intros [= <-]; reflexivity].
  unfold transformInt. cbn [s_hi s_lo s_enforceHi s_enforceLo s_permHi s_permLo s_min s_max offsetSpec negb].
  destruct (int32_max <? k); [|destruct (k <? 0)]; intros [= <-]; reflexivity.
Qed.
Lemma read_end v n : readIntOr sampleEndSpec v = Some n ->
  n = match readLeadingInt v with Some k => Z.max 0 (Z.min k int32_max) | None => int32_max end.
Proof.
  unfold readIntOr, readInt. cbn [sampleEndSpec s_note]. destruct (readLeadingInt v) as [k|]; [|intros [= <-]; reflexivity].
  unfold transformInt. cbn [s_hi s_lo s_enforceHi s_enforceLo s_permHi s_permLo s_min s_max sampleEndSpec negb].
  unfold int32_max, int64_min, int64_max.
  destruct (Z.ltb_spec (2 ^ 31 - 1) k); [|destruct (Z.ltb_spec k 0)]; intros [= <-]; lia.
Qed.
Lemma read_loopStart v n : readIntOr loopStartSpec v = Some n ->
  n = match readLeadingInt v with
      | Some k => if k <? 0 then 0 else Z.min k int32_max
      | None => 0 end.
Proof.
  unfold readIntOr, readInt. cbn [loopStartSpec s_note]. destruct (readLeadingInt v) as [k|]; [|intros [= <-]; reflexivity].
  unfold transformInt. cbn [s_hi s_lo s_enforceHi s_enforceLo s_permHi s_permLo s_min s_max s_default loopStartSpec negb].
  unfold int32_max, int64_min, int64_max.
  destruct (Z.ltb_spec (2 ^ 31 - 1) k); destruct (Z.ltb_spec k 0); intros [= <-]; lia.
Qed.
Lemma read_loopEnd v n : readIntOr loopEndSpec v = Some n ->
  n = match readLeadingInt v with
      | Some k => if k <? 0 then int32_max else Z.min k int32_max
      | None => int32_max end.
Proof.
  unfold readIntOr, readInt. cbn [loopEndSpec s_note]. destruct (readLeadingInt v) as [k|]; [|intros [= <-]; reflexivity].
  unfold transformInt. cbn [s_hi s_lo s_enforceHi s_enforceLo s_permHi s_permLo s_min s_max s_default loopEndSpec negb].
  unfold int32_max, int64_min, int64_max.
  destruct (Z.ltb_spec (2 ^ 31 - 1) k); destruct (Z.ltb_spec k 0); intros [= <-]; lia.
Qed.

(** The opcodes of the region as they are read. *)
Fixpoint cleaned (l : list opcode) : option (list opcode) :=
  match l with
  | [] => Some []
  | raw :: rest => o <- cleanUp 1 raw ScopeRegion ;; os <- cleaned rest ;; Some (o :: os)
  end.
(** The value of the last opcode of a name. *)
Fixpoint given (s : string) (l : list opcode) : option text :=
  match l with
  | [] => None
  | o :: rest => match given s rest with
                 | Some v => Some v
                 | None => if is o s then Some (o_value o) else None
                 end
  end.

Ltac other_names :=
  repeat match goal with
  | H : is ?o ?a = true, K : is ?o ?b = true |- _ =>
      unfold is in H, K; apply Z.eqb_eq in H; apply Z.eqb_eq in K; rewrite H in K;
      vm_compute in K; discriminate K
  end.
Ltac cases_of H :=
  unfold parseRange in H;
  repeat match type of H with
  | context [if is ?o ?s then _ else _] => destruct (is o s) eqn:?
  end.

Record step (o : opcode) (r r' : srange) : Prop := Step {
  step_offset : sr_offset r' =
    if is o "offset" then match readIntOr offsetSpec (o_value o) with Some n => n | None => 0 end
    else sr_offset r;
  step_random : sr_offsetRandom r' =
    if is o "offset_random" then match readIntOr offsetSpec (o_value o) with Some n => n | None => 0 end
    else sr_offsetRandom r;
  step_cc : sr_offsetCC r' = sr_offsetCC r \/
    is o "offset_oncc&" = true /\ last (o_params o) 0 <= numCCs /\
    exists n, readIntOr offsetSpec (o_value o) = Some n /\
      sr_offsetCC r' = cc_set (sr_offsetCC r) (last (o_params o) 0) n;
  step_end : sr_end r' =
    if is o "end" then match readIntOr sampleEndSpec (o_value o) with Some n => n | None => 0 end
    else sr_end r;
  step_start : sr_start r' =
    if is o "loop_start" then match readIntOr loopStartSpec (o_value o) with Some n => n | None => 0 end
    else sr_start r;
  step_stop : sr_stop r' =
    if is o "loop_end" then match readIntOr loopEndSpec (o_value o) with Some n => n | None => 0 end
    else sr_stop r;
  step_mode : sr_mode r' =
    if is o "count" then Some OneShot
    else if is o "loop_mode" then readLoopMode (o_value o)
    else sr_mode r }.
Lemma parse_step o r r' : parseRange o r = Some r' -> step o r r'.
Proof.
  destruct r as [of rnd occ en md st sp rel]. intros P.
  cases_of P; other_names;
    try (destruct (readIntOr _ _) as [n|] eqn:R; [|discriminate P]);
    try (destruct (numCCs <? last (o_params o) 0) eqn:C);
    try (destruct (readIntOr _ _) as [n|] eqn:R; [|discriminate P]);
    injection P as <-;
    constructor; cbn [sr_offset sr_offsetRandom sr_offsetCC sr_end sr_start sr_stop sr_mode];
    repeat match goal with
    | H : is ?o ?a = ?b |- context [is ?o ?a] => rewrite H
    | H : readIntOr ?s ?v = _ |- context [readIntOr ?s ?v] => rewrite H
    end; auto;
    try (right; apply Z.ltb_ge in C; eauto; fail);
    repeat match goal with
    | |- context [is o ?a] => destruct (is o a) eqn:?; other_names
    end; auto.
Qed.

(** The offsets by controller which parsing can leave: one for each number, from 0 to 512. *)
Lemma parsed_cc l : forall r r', parseRanges l r = Some r' ->
  NoDup (map fst (sr_offsetCC r)) -> Forall (fun p => 0 <= fst p <= numCCs) (sr_offsetCC r) ->
  NoDup (map fst (sr_offsetCC r')) /\ Forall (fun p => 0 <= fst p <= numCCs) (sr_offsetCC r').
Proof.
  induction l as [|raw l IH]; intros r r'; cbn [parseRanges]; [intros [= <-]; auto|].
  destruct (cleanUp _ _ _) as [o|] eqn:C; [|discriminate]. cbn [bind].
  destruct (parseRange o r) as [r1|] eqn:P; [|discriminate]. cbn [bind]. intros Q N F.
  destruct (step_cc _ _ _ (parse_step _ _ _ P)) as [K|(I & L & n & R & K)];
    apply (IH _ _ Q); rewrite K; auto; unfold cc_set.
  - cbn [map fst]. constructor.
    + rewrite in_map_iff. intros (p & A & B). apply filter_In in B. rewrite A, Z.eqb_refl in B.
      destruct B; discriminate.
    + clear -N. induction (sr_offsetCC r) as [|p m IH]; [constructor|].
      cbn [map] in N. apply NoDup_cons_iff in N. destruct N as [A B]. cbn [filter].
      destruct (negb _); auto. cbn [map]. constructor; auto.
      intros X. apply A. apply in_map_iff in X. destruct X as (q & X & Y).
      rewrite <- X. apply in_map. apply filter_In in Y. apply Y.
  - constructor.
    + cbn [fst]. split; auto. exact (last_nonneg _ (clean_params _ _ C)).
    + apply Forall_forall. intros p A. apply filter_In in A.
      rewrite Forall_forall in F. apply F, A.
Qed.

Lemma trunc_bounds n v : 0 <= n -> (0 <= v <= 1)%Q -> 0 <= truncQ (inject_Z n * v) <= n.
Proof.
  destruct v as [a d]. unfold Qle, truncQ, inject_Z, Qmult. cbn [Qnum Qden]. intros N [A B].
  rewrite Z.mul_1_r in B. rewrite Pos.mul_1_l. assert (0 <= a <= Zpos d) by lia.
  split.
  - apply Z.quot_pos; nia.
  - apply Z.quot_le_upper_bound; nia.
Qed.
Lemma addOffsets_bounds table : (forall cc, (0 <= table cc <= 1)%Q) -> forall l a,
  Forall (fun p => 0 <= fst p < numCCs /\ 0 <= snd p) l ->
  exists n, addOffsets table l a = Some n /\
    a <= n <= fold_left (fun a p => a + snd p) l a.
Proof.
  intros T. induction l as [|[cc k] l IH]; intros a F.
  - exists a. split; [reflexivity|]. cbn [fold_left]. lia.
  - apply Forall_cons_iff in F. destruct F as [[[A0 A1] B] F]. cbn [fst snd] in A0, A1, B. cbn [addOffsets fold_left snd].
    unfold ccValue. replace ((0 <=? cc) && (cc <? numCCs)) with true.
    2: { symmetry. apply andb_true_iff. split; [apply Z.leb_le|apply Z.ltb_lt]; auto. }
    cbn [bind].
    destruct (IH (a + truncQ (inject_Z k * table cc)) F) as (n & N & L).
    exists n. split; [exact N|]. pose proof (trunc_bounds k _ B (T cc)) as K.
    assert (M : forall l x y, x <= y -> fold_left (fun a (p : Z * Z) => a + snd p) l x <=
                                       fold_left (fun a p => a + snd p) l y).
    { clear. induction l as [|p l IH]; intros x y X; cbn [fold_left]; auto. apply IH. lia. }
    pose proof (M l (a + truncQ (inject_Z k * table cc)) (a + k)). lia.
Qed.

Lemma fold_sum : forall (l : list (Z * Z)) a c, Forall (fun p => 0 <= snd p <= c) l ->
  a <= fold_left (fun a p => a + snd p) l a <= a + c * Z.of_nat (List.length l).
Proof.
  induction l as [|p l IH]; intros a c F; cbn [fold_left List.length]; [lia|].
  apply Forall_cons_iff in F. destruct F as [A F]. specialize (IH (a + snd p) c F). lia.
Qed.
Lemma toLoad_ge l : forall a, a <= fold_left (fun a r => Z.max a (maxOffset r)) l a /\
  (forall r, In r l -> maxOffset r <= fold_left (fun a r => Z.max a (maxOffset r)) l a).
Proof.
  induction l as [|x l IH]; intros a; cbn [fold_left]; [split; [lia|intros r []]|].
  destruct (IH (Z.max a (maxOffset x))) as [A B]. split; [lia|].
  intros r [<-|I]; [lia|auto].
Qed.
Lemma distinct_length (l : list (Z * Z)) m : 0 <= m -> NoDup (map fst l) ->
  Forall (fun p => 0 <= fst p <= m) l -> Z.of_nat (List.length l) <= m + 1.
Proof.
  intros M N F.
  assert (I : incl (map fst l) (map Z.of_nat (seq 0 (Z.to_nat (m + 1))))).
  { intros x X. apply in_map_iff in X. destruct X as (p & <- & P).
    rewrite Forall_forall in F. specialize (F p P).
    apply in_map_iff. exists (Z.to_nat (fst p)). split; [lia|]. apply in_seq. lia. }
  pose proof (NoDup_incl_length N I) as L. rewrite !map_length, seq_length in L. lia.
Qed.

(** Whatever opcodes a region has, whatever the controllers and the random draw: a note finds its
    start in the preloaded part of the file, computed over all the regions that use the file.
    The offsets by controller must not be negative, and not name the controller 512. *)
Theorem C68_preload l r regions table rnd :
  parseRanges l freshRange = Some r -> In r regions ->
  (forall cc n, In (cc, n) (sr_offsetCC r) -> cc <> 512 /\ 0 <= n <= 2 ^ 50) ->
  Z.abs (sr_offset r) <= 2 ^ 50 -> sr_offsetRandom r <= 2 ^ 50 ->
  (forall cc, (0 <= table cc <= 1)%Q) -> 0 <= rnd <= sr_offsetRandom r ->
  exists n, sampleOffset r table rnd = Some n /\ 0 <= n <= toLoad regions.
Proof.
  intros P I C O R T D.
  destruct (parsed_cc _ _ _ P (NoDup_nil _) (Forall_nil _)) as [N F].
  assert (G : Forall (fun p => 0 <= fst p < numCCs /\ 0 <= snd p) (sr_offsetCC r)).
  { apply Forall_forall. intros [cc n] A. rewrite Forall_forall in F. specialize (F _ A).
    destruct (C _ _ A). cbn [fst snd] in *. unfold numCCs in *. lia. }
  assert (H : Forall (fun p => 0 <= snd p <= 2 ^ 50) (sr_offsetCC r)).
  { apply Forall_forall. intros [cc n] A. destruct (C _ _ A). auto. }
  destruct (addOffsets_bounds table T _ (sr_offset r + rnd) G) as (n & A & B).
  unfold sampleOffset. rewrite A. eexists. split; [reflexivity|].
  pose proof (fold_sum _ (sr_offset r + rnd) _ H) as B1.
  pose proof (fold_sum _ (sr_offset r + sr_offsetRandom r) _ H) as B2.
  pose proof (distinct_length _ numCCs ltac:(unfold numCCs; lia) N F) as B3.
  assert (B4 : fold_left (fun a p => a + snd p) (sr_offsetCC r) (sr_offset r + rnd) <=
               fold_left (fun a p => a + snd p) (sr_offsetCC r) (sr_offset r + sr_offsetRandom r)).
  { clear -D. assert (E : sr_offset r + rnd <= sr_offset r + sr_offsetRandom r) by lia.
    revert E. generalize (sr_offset r + rnd), (sr_offset r + sr_offsetRandom r).
    induction (sr_offsetCC r) as [|p m IH]; intros x y X; cbn [fold_left]; auto. apply IH. lia. }
  destruct (toLoad_ge regions 0) as [_ L]. specialize (L r I). fold (toLoad regions) in L.
  assert (M : Z.max 0 (Z.min n int32_max) <= maxOffset r); [|unfold toLoad in *; unfold int32_max in *; lia].
  unfold maxOffset, to_int64.
  remember (fold_left _ _ (sr_offset r + sr_offsetRandom r)) as sum.
  unfold numCCs in B3.
  rewrite Z.mod_small by lia. unfold int32_max. lia.
Qed.

Definition op (n v : string) : opcode := mkOpcode (str n) (str v).
Example C68_ex :
  let l := [op "offset" "1000"; op "offset_random" "300"; op "offset_cc20" "5000"; op "offset_oncc7" "40"] in
  exists r, parseRanges l freshRange = Some r /\
    sr_offsetCC r = [(7, 40); (20, 5000)] /\ toLoad [r; freshRange] = 6340 /\
    sampleOffset r (fun cc => if cc =? 20 then 1 # 2 else 1)%Q 299 = Some 3839.
Proof. eexists. split; [vm_compute; reflexivity|]. vm_compute. repeat split. Qed.

(** An offset by controller may be negative: the code adds it up as if the controller were at its
    maximum, and preloads nothing for a note that starts at 10000. *)
Theorem C68_negative_refuted : exists l r,
  parseRanges l freshRange = Some r /\ toLoad [r] = 0 /\
  sampleOffset r (fun _ => 0%Q) 0 = Some 10000.
Proof.
  exists [op "offset" "10000"; op "offset_oncc1" "-10000"]. eexists. split; [vm_compute; reflexivity|]. vm_compute. repeat split.
Qed.
(** The controller number 512 is let through, one beyond the table of values. *)
Theorem C68_controller_refuted : exists l r,
  parseRanges l freshRange = Some r /\ sampleOffset r (fun _ => 0%Q) 0 = None.
Proof. exists [op "offset_oncc512" "100"]. eexists. split; [vm_compute; reflexivity|]. vm_compute. repeat split. Qed.

(** ** C69: the loop *)
Definition number (v : option text) : option Z :=
  match v with Some t => readLeadingInt t | None => None end.
Definition endOf (v : option Z) : Z :=
  match v with Some k => Z.max 0 (Z.min k int32_max) | None => int32_max end.
Definition startOf (v : option Z) : option Z :=
  match v with Some k => if k <=? 0 then None else Some (Z.min k int32_max) | None => None end.
Definition stopOf (v : option Z) : option Z :=
  match v with Some k => if (k <? 0) || (int32_max <=? k) then None else Some k | None => None end.
(** The mode asked for by the last [count] or [loop_mode]. *)
Fixpoint modeOf (l : list opcode) (m : option loopMode) : option loopMode :=
  match l with
  | [] => m
  | o :: rest => modeOf rest (if is o "count" then Some OneShot
                              else if is o "loop_mode" then readLoopMode (o_value o) else m)
  end.

Lemma readInt_total s v : s_note s = false -> readIntOr s v <> None.
Proof.
  intros N. unfold readIntOr, readInt. rewrite N. destruct (readLeadingInt v); [|discriminate].
  destruct (transformInt _ _); discriminate.
Qed.
Lemma parsed l : forall r r' cs, parseRanges l r = Some r' -> cleaned l = Some cs ->
  sr_end r' = match given "end" cs with Some v => endOf (readLeadingInt v) | None => sr_end r end /\
  sr_start r' = match given "loop_start" cs with
                | Some v => match startOf (readLeadingInt v) with Some k => k | None => 0 end
                | None => sr_start r end /\
  sr_stop r' = match given "loop_end" cs with
               | Some v => match stopOf (readLeadingInt v) with Some k => k | None => int32_max end
               | None => sr_stop r end /\
  sr_mode r' = modeOf cs (sr_mode r).
Proof.
  induction l as [|raw l IH]; intros r r' cs; cbn [parseRanges cleaned].
  - intros [= <-] [= <-]. auto.
  - destruct (cleanUp _ _ _) as [o|] eqn:C; [|discriminate]. cbn [bind].
    destruct (parseRange o r) as [r1|] eqn:P; [|discriminate]. cbn [bind]. intros Q.
    destruct (cleaned l) as [os|]; [|discriminate]. cbn [bind]. intros [= <-].
    destruct (IH _ _ _ Q eq_refl) as (A & B & D & F). clear IH.
    pose proof (parse_step _ _ _ P) as T. cbn [given modeOf].
    rewrite A, B, D, F, (step_end _ _ _ T), (step_start _ _ _ T), (step_stop _ _ _ T), (step_mode _ _ _ T).
    repeat split.
    + destruct (given "end" os); auto. destruct (is o "end"); auto.
      destruct (readIntOr _ _) eqn:R; [|destruct (readInt_total sampleEndSpec (o_value o) eq_refl R)].
      apply read_end in R. exact R.
    + destruct (given "loop_start" os); auto. destruct (is o "loop_start"); auto.
      destruct (readIntOr _ _) eqn:R; [|destruct (readInt_total loopStartSpec (o_value o) eq_refl R)].
      apply read_loopStart in R. rewrite R. unfold startOf. destruct (readLeadingInt _) as [k|]; auto.
      unfold int32_max. destruct (Z.ltb_spec k 0), (Z.leb_spec k 0); lia.
    + destruct (given "loop_end" os); auto. destruct (is o "loop_end"); auto.
      destruct (readIntOr _ _) eqn:R; [|destruct (readInt_total loopEndSpec (o_value o) eq_refl R)].
      apply read_loopEnd in R. rewrite R. unfold stopOf. destruct (readLeadingInt _) as [k|]; auto.
      destruct (Z.ltb_spec k 0), (Z.leb_spec int32_max k); cbn [orb]; lia.
Qed.

(** The loop a file gives: FilePool.cpp 253-266. *)
Definition file_ok (f : fileInfo) : Prop :=
  0 <= fi_end f < int32_max /\ (fi_hasLoop f = true -> 0 <= fi_start f /\ fi_stop f <= fi_end f).

(** The end of the sample, the start and the end of the loop and the mode of a loaded region: what
    its last opcodes say, else what the file says, else the whole sample; no loop where this is
    empty. *)
Theorem C69_loop l cs r f :
  cleaned l = Some cs -> parseRanges l freshRange = Some r -> file_ok f ->
  let r' := finalizeRange r f in
  let start := match startOf (number (given "loop_start" cs)) with
               | Some k => k
               | None => if fi_hasLoop f then fi_start f else 0
               end in
  let stop := match stopOf (number (given "loop_end" cs)) with
              | Some k => k
              | None => if fi_hasLoop f then fi_stop f else sr_end r'
              end in
  sr_end r' = Z.min (endOf (number (given "end" cs))) (fi_end f) /\
  sr_start r' = start /\ sr_stop r' = stop /\
  (shouldLoop r' = true <->
   start <= stop /\
   match modeOf cs None with
   | Some LoopContinuous | Some LoopSustain => True
   | None => fi_hasLoop f = true
   | _ => False
   end).
Proof.
  intros C P [FE FL]. destruct (parsed _ _ _ _ P C) as (A & B & D & F).
  cbn [freshRange sr_end sr_start sr_stop sr_mode] in A, B, D, F.
  destruct r as [of rnd occ en md st sp rel]. cbn [sr_end sr_start sr_stop sr_mode] in A, B, D, F.
  assert (A' : en = endOf (number (given "end" cs))) by (rewrite A; destruct (given "end" cs); reflexivity).
  assert (B' : st = match startOf (number (given "loop_start" cs)) with Some k => k | None => 0 end)
    by (rewrite B; destruct (given "loop_start" cs); reflexivity).
  assert (D' : sp = match stopOf (number (given "loop_end" cs)) with Some k => k | None => int32_max end)
    by (rewrite D; destruct (given "loop_end" cs); reflexivity).
  rewrite <- F. clear A B D F C P.
  assert (S0 : forall k, startOf (number (given "loop_start" cs)) = Some k -> (k =? 0) = false).
  { intros k. generalize (number (given "loop_start" cs)). intros [x|]; cbn [startOf]; [|intros [=]].
    destruct (Z.leb_spec x 0); [intros [=]|]. intros [= <-]. apply Z.eqb_neq. unfold int32_max. lia. }
  assert (S1 : forall k, stopOf (number (given "loop_end" cs)) = Some k -> (k =? int32_max) = false).
  { intros k. generalize (number (given "loop_end" cs)). intros [x|]; cbn [stopOf]; [|intros [=]].
    destruct (Z.ltb_spec x 0), (Z.leb_spec int32_max x); cbn [orb]; try (intros [=]; fail).
    intros [= <-]. apply Z.eqb_neq. lia. }
  destruct (startOf (number (given "loop_start" cs))) as [k0|];
    destruct (stopOf (number (given "loop_end" cs))) as [k1|];
    first [specialize (S0 _ eq_refl) | clear S0]; first [specialize (S1 _ eq_refl) | clear S1]; subst st sp;
    unfold finalizeRange; destruct (fi_hasLoop f) eqn:H;
    try rewrite S0; try rewrite S1; rewrite ?Z.eqb_refl; try rewrite S1;
    try (destruct (FL eq_refl) as [FS FT];
         replace (fi_stop f =? int32_max) with false by (symmetry; apply Z.eqb_neq; lia));
    cbn [sr_end sr_start sr_stop];
    (refine (conj _ (conj _ (conj _ _))); [rewrite A'; reflexivity|reflexivity|reflexivity|]);
    unfold shouldLoop; cbn [sr_mode];
    match goal with |- context [if ?a <=? ?b then _ else _] => destruct (Z.leb_spec a b) end;
    destruct md as [[]|]; try destruct rel; intuition (try discriminate; try lia).
Qed.

(** What a voice plays of it: the loop lies in the file; if it lies before the end of the sample,
    it is played as it is when no controller moves it. *)
Theorem C69_played l cs r f xf :
  cleaned l = Some cs -> parseRanges l freshRange = Some r -> file_ok f -> 0 <= xf ->
  let r' := finalizeRange r f in
  let lo := loopOf (sr_end r') (sr_start r') (sr_stop r') xf in
  0 <= lo_start lo <= lo_end lo /\ lo_end lo <= fi_end f /\
  (shouldLoop r' = true -> sr_stop r' <= sr_end r' ->
   lo_start lo = sr_start r' /\ lo_end lo = sr_stop r').
Proof.
  intros C P F X r' lo. destruct (C69_loop _ _ _ _ C P F) as (A & B & D & M).
  fold r' in A, B, D, M. destruct F as [FE FL].
  assert (N : 0 <= sr_end r').
  { rewrite A. unfold endOf, int32_max in *. destruct (number _); lia. }
  destruct (loopOf_ok (sr_end r') (sr_start r') (sr_stop r') xf N X) as [O E].
  refine (conj (lo_order _ O) (conj _ _)); [apply (Z.le_trans _ _ _ E); rewrite A; apply Z.le_min_r|].
  intros S Q. apply M in S. destruct S as [S _]. rewrite <- B, <- D in S.
  assert (Z0 : 0 <= sr_start r').
  { rewrite B. unfold startOf. generalize (number (given "loop_start" cs)). intros [k|].
    - destruct (Z.leb_spec k 0); [|unfold int32_max; lia]. destruct (fi_hasLoop f); [apply FL; reflexivity|lia].
    - destruct (fi_hasLoop f); [apply FL; reflexivity|lia]. }
  unfold lo, loopOf, clampEnd, clampZ. cbn [lo_start lo_end]. lia.
Qed.

Example C69_ex :
  let f := FileInfo 48000 true 1000 40000 in
  let l := [op "loop_end" "3000"; op "end" "20000"; op "loopmode" "loop_sustain"; op "loop_end" "15000"] in
  file_ok f /\ cleaned l <> None /\
  exists r, parseRanges l freshRange = Some r /\
    let r' := finalizeRange r f in
    shouldLoop r' = true /\ sr_start r' = 1000 /\ sr_stop r' = 15000 /\ sr_end r' = 20000 /\
    shouldLoop (finalizeRange freshRange f) = true /\
    shouldLoop (finalizeRange freshRange (FileInfo 48000 false 0 0)) = false.
Proof.
  cbn zeta. split; [unfold file_ok, int32_max; cbn [fi_end fi_hasLoop fi_start fi_stop]; lia|].
  split; [vm_compute; discriminate|]. eexists. split; [vm_compute; reflexivity|]. vm_compute. repeat split.
Qed.

(** An opcode that says 0 is taken for one that is missing: the loop of the file wins. *)
Theorem C69_start_refuted : exists l r f,
  parseRanges l freshRange = Some r /\ file_ok f /\
  option_map o_value (nth_error l 0) = Some (str "0") /\
  shouldLoop (finalizeRange r f) = true /\ sr_start (finalizeRange r f) = 1000.
Proof.
  exists [op "loop_start" "0"; op "loop_end" "2000"]. eexists. exists (FileInfo 48000 true 1000 40000).
  split; [vm_compute; reflexivity|]. split.
  { unfold file_ok, int32_max; cbn [fi_end fi_hasLoop fi_start fi_stop]; lia. }
  vm_compute. repeat split.
Qed.
(** An empty loop also forgets that the region is played to its end whatever happens to the
    key. *)
Theorem C69_oneshot_refuted : exists l r f,
  parseRanges l freshRange = Some r /\ file_ok f /\
  sr_mode r = Some OneShot /\ sr_mode (finalizeRange r f) = None.
Proof.
  exists [op "loop_mode" "one_shot"; op "loop_start" "1000"; op "end" "500"]. eexists.
  exists (FileInfo 48000 false 0 0).
  split; [vm_compute; reflexivity|]. split.
  { unfold file_ok, int32_max; cbn [fi_end fi_hasLoop fi_start fi_stop]; lia. }
  vm_compute. repeat split.
Qed.
(** A loop beyond the end of the file is not empty for the check: the voice then repeats the last
    frame. *)
Theorem C69_beyond_refuted : exists l r f,
  parseRanges l freshRange = Some r /\ file_ok f /\
  let r' := finalizeRange r f in
  let lo := loopOf (sr_end r') (sr_start r') (sr_stop r') 0 in
  shouldLoop r' = true /\ lo_start lo = 48000 /\ lo_end lo = 48000 /\ lo_size lo = 1.
Proof.
  exists [op "loop_mode" "loop_continuous"; op "loop_start" "50000"; op "loop_end" "60000"]. eexists.
  exists (FileInfo 48000 false 0 0).
  split; [vm_compute; reflexivity|]. split.
  { unfold file_ok, int32_max; cbn [fi_end fi_hasLoop fi_start fi_stop]; lia. }
  vm_compute. repeat split.
Qed.

(** The four modes by their names; the only other values that can be taken for one share its hash. *)
Theorem C69_modes :
  List.map (fun v => readLoopMode (str v)) ["no_loop"; "one_shot"; "loop_continuous"; "loop_sustain"]%string =
    [Some NoLoop; Some OneShot; Some LoopContinuous; Some LoopSustain] /\
  (forall v m, readLoopMode v = Some m ->
    exists n, In (n, m) [("no_loop", NoLoop); ("one_shot", OneShot); ("loop_continuous", LoopContinuous); ("loop_sustain", LoopSustain)]%string /\
      hash v fnvBasis = hash (str n) fnvBasis).
Proof.
  split; [vm_compute; reflexivity|]. intros v m R. unfold readLoopMode in R.
  destruct (Z.eqb_spec (hash v fnvBasis) (hash (str "no_loop") fnvBasis)) as [E|_].
  { injection R as <-. exists "no_loop"%string. split; [left; reflexivity|exact E]. }
  destruct (Z.eqb_spec (hash v fnvBasis) (hash (str "one_shot") fnvBasis)) as [E|_].
  { injection R as <-. exists "one_shot"%string. split; [right; left; reflexivity|exact E]. }
  destruct (Z.eqb_spec (hash v fnvBasis) (hash (str "loop_continuous") fnvBasis)) as [E|_].
  { injection R as <-. exists "loop_continuous"%string. split; [right; right; left; reflexivity|exact E]. }
  destruct (Z.eqb_spec (hash v fnvBasis) (hash (str "loop_sustain") fnvBasis)) as [E|_]; [|discriminate].
  injection R as <-. exists "loop_sustain"%string. split; [right; right; right; left; reflexivity|exact E].
Qed.
Example C69_modes_ex : readLoopMode (str "loop_always") = None.
Proof. vm_compute. reflexivity. Qed.
