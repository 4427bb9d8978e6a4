(** Positions (C06), include depth (C08), blocks (C54) and termination (C55) of the parser. *)
From Coq Require Import ZArith List Bool Lia String.
From Verif Require Import ParserModel ParserReader ParserSteps ParserAdvance ParserExpand.
Import ListNotations.
Local Open Scope Z_scope.
Local Open Scope list_scope.
Implicit Type src : text -> text -> Prop.

(** ** C06, for the reader alone *)
Inductive rop :=
| OGet | OPeek | OExact (c : Z) | OSkip (cs : text) | OWhile (f : Z -> bool) | OToEol
| OBack (n : nat).      (* put back the last n characters obtained *)
(** Runs operations; [k] counts the characters obtained and not put back. *)
Definition run_rop (t : text) (o : rop) (st : reader * nat) : option (reader * nat) :=
  let '(r, k) := st in
  match o with
  | OGet => let '(b, r1) := getChar r in Some (r1, match b with Some _ => S k | None => k end)
  | OPeek => '(_, r1) <- peekChar r ;; Some (r1, k)
  | OExact c => '(b, r1) <- extractExactChar c r ;; Some (r1, if (b : bool) then S k else k)
  | OSkip cs => '(n, r1) <- skipChars cs r ;; Some (r1, (k + n)%nat)
  | OWhile f => '(x, r1) <- extractWhile f r ;; Some (r1, (k + List.length x)%nat)
  | OToEol => '(x, r1) <- extractToEol r ;; Some (r1, (k + List.length x)%nat)
  | OBack n => if (n <=? k)%nat
               then r1 <- putBackChars (firstn n (skipn (k - n) t)) r ;; Some (r1, (k - n)%nat)
               else Some (r, k)
  end.
Fixpoint run_rops (t : text) (os : list rop) (st : reader * nat) : option (reader * nat) :=
  match os with [] => Some st | o :: os => st1 <- run_rop t o st ;; run_rops t os st1 end.

Lemma firstn_plus {A} (l : list A) n m : firstn (n + m) l = firstn n l ++ firstn m (skipn n l).
Proof.
  revert l. induction n as [|n IH]; intros l; [reflexivity|]. destruct l as [|x l].
  - cbn [Nat.add firstn skipn]. now destruct m.
  - cbn [Nat.add firstn skipn app]. now rewrite IH.
Qed.
Lemma At_split file pre rest r : At file pre rest r ->
  pre = firstn (List.length pre) (pre ++ rest) /\ rest = skipn (List.length pre) (pre ++ rest).
Proof.
  intros _. rewrite firstn_app, skipn_app, firstn_all, skipn_all, Nat.sub_diag.
  cbn [firstn skipn app]. now rewrite app_nil_r.
Qed.

Lemma view_peek r b r' : peekChar r = Some (b, r') -> r_view r' = r_view r.
Proof.
  unfold peekChar. intros Hp. destruct (r_accum r).
  - destruct (getChar r) as [[x|] q] eqn:Gq; cbn [putBackChar bind] in Hp.
    + destruct (putBackChars [x] q) as [q'|] eqn:Pq; [|discriminate]. cbn [bind] in Hp.
      injection Hp as <- <-. rewrite (view_put _ _ _ Pq). eapply view_get, Gq.
    + injection Hp as <- <-. eapply view_get, Gq.
  - now injection Hp as <- <-.
Qed.
Lemma view_while f : forall n r x r', extract_loop n f r = Some (x, r') -> r_view r' = r_view r.
Proof.
  induction n as [|n IH]; intros r x r' H; [discriminate|]. cbn [extract_loop] in H.
  destruct (getChar r) as [[c|] r1] eqn:G; [|injection H as <- <-; eapply view_get, G].
  rewrite <- (view_get _ _ _ G). destruct (f c).
  - destruct (extract_loop n f r1) as [[t r2]|] eqn:L; [|discriminate]. cbn [bind] in H.
    injection H as <- <-. eapply IH, L.
  - cbn [putBackChar] in H. destruct (putBackChars [c] r1) as [r2|] eqn:L; [|discriminate].
    cbn [bind] in H. injection H as <- <-. eapply view_put, L.
Qed.
Lemma view_skip cs : forall n r x r', skip_loop n cs r = Some (x, r') -> r_view r' = r_view r.
Proof.
  induction n as [|n IH]; intros r x r' H; [discriminate|]. cbn [skip_loop] in H.
  destruct (peekChar r) as [[[c|] r1]|] eqn:P; cbn [bind] in H; [|injection H as <- <-; eapply view_peek, P|discriminate].
  rewrite <- (view_peek _ _ _ P). destruct (one_of cs c); [|now injection H as <- <-].
  destruct (getChar r1) as [b r2] eqn:G. cbn [snd] in H.
  destruct (skip_loop n cs r2) as [[m r3]|] eqn:L; [|discriminate]. cbn [bind] in H.
  injection H as <- <-. rewrite (IH _ _ _ L). eapply view_get, G.
Qed.

(** [At] at offset [k] of [t]. *)
Definition AtOff (file t : text) (r : reader) (k : nat) : Prop :=
  (k <= List.length t)%nat /\ At file (firstn k t) (skipn k t) r /\ ok_text (r_view r) t.

Lemma AtOff_step file t r k x rest' r' : AtOff file t r k ->
  skipn k t = x ++ rest' -> r_view r' = r_view r -> At file (firstn k t ++ x) rest' r' ->
  AtOff file t r' (k + List.length x).
Proof.
  intros (K & A & V) S W A'.
  assert (T : t = firstn k t ++ x ++ rest') by (rewrite <- S; now rewrite firstn_skipn).
  assert (LK : List.length (firstn k t) = k) by now apply firstn_length_le.
  assert (F1 : firstn (k + List.length x) t = firstn k t ++ x).
  { rewrite firstn_plus, S. f_equal. rewrite firstn_app, firstn_all, Nat.sub_diag.
    cbn [firstn]. apply app_nil_r. }
  assert (F2 : skipn (k + List.length x) t = rest').
  { rewrite T, app_assoc. rewrite skipn_app, skipn_all2 by (rewrite app_length; lia).
    rewrite app_length, LK, Nat.sub_diag. reflexivity. }
  split; [|split].
  - rewrite T, !app_length. lia.
  - rewrite F1, F2. exact A'.
  - now rewrite W.
Qed.
Lemma AtOff_same file t r k r' : AtOff file t r k -> r_view r' = r_view r ->
  At file (firstn k t) (skipn k t) r' -> AtOff file t r' k.
Proof. intros (K & A & V) W A'. split; [exact K|split; [exact A'|now rewrite W]]. Qed.

Lemma run_rop_at file t o r k : AtOff file t r k ->
  exists r' k', run_rop t o (r, k) = Some (r', k') /\ AtOff file t r' k'.
Proof.
  intros AO. destruct AO as (K & A & V). assert (AO : AtOff file t r k) by (split; auto).
  destruct o as [| |c|cs|f| |n]; cbn [run_rop].
  - destruct (skipn k t) as [|c rest] eqn:SK.
    + destruct (get_none _ _ _ A) as (r' & G & A'). rewrite G. exists r', k. split; [reflexivity|].
      apply (AtOff_same _ _ _ _ _ AO (view_get _ _ _ G)). now rewrite SK.
    + destruct (get_some _ _ _ _ _ A) as (r' & G & A'). rewrite G. exists r', (S k).
      split; [reflexivity|]. replace (S k) with (k + List.length [c])%nat by (cbn; lia).
      exact (AtOff_step _ _ _ _ [c] rest r' AO SK (view_get _ _ _ G) A').
  - destruct (peek_char _ _ _ _ A) as (r' & P & A'). rewrite P. cbn [bind]. exists r', k.
    split; [reflexivity|]. exact (AtOff_same _ _ _ _ _ AO (view_peek _ _ _ P) A').
  - unfold extractExactChar. destruct (peek_char _ _ _ _ A) as (r1 & P & A1). rewrite P. cbn [bind].
    destruct (is_char (hd_error (skipn k t)) c) eqn:C.
    + destruct (skipn k t) as [|x rest] eqn:SK; [discriminate|].
      destruct (get_some _ _ _ _ _ A1) as (r' & G & A'). rewrite G. cbn [snd bind].
      exists r', (S k). split; [reflexivity|].
      replace (S k) with (k + List.length [x])%nat by (cbn; lia).
      refine (AtOff_step _ _ _ _ [x] rest r' AO SK _ A').
      rewrite (view_get _ _ _ G). eapply view_peek, P.
    + cbn [bind]. exists r1, k. split; [reflexivity|].
      exact (AtOff_same _ _ _ _ _ AO (view_peek _ _ _ P) A1).
  - destruct (skip_at file cs _ _ _ A) as (r' & E & A'). rewrite E. cbn [bind].
    eexists r', _. split; [reflexivity|].
    exact (AtOff_step _ _ _ _ _ _ r' AO (eq_sym (span_app (one_of cs) _)) (view_skip _ _ _ _ _ E) A').
  - destruct (extract_at file f _ _ _ A) as (r' & E & A'). rewrite E. cbn [bind].
    eexists r', _. split; [reflexivity|].
    exact (AtOff_step _ _ _ _ _ _ r' AO (eq_sym (span_app f _)) (view_while _ _ _ _ _ E) A').
  - destruct (eol_at file _ _ _ A) as (r' & E & A'). rewrite E. cbn [bind].
    eexists r', _. split; [reflexivity|].
    exact (AtOff_step _ _ _ _ _ _ r' AO (eq_sym (eol_app _)) (view_eol _ _ _ _ E) A').
  - destruct (Nat.leb_spec n k) as [L|L]; [|exists r, k; auto].
    set (cs := firstn n (skipn (k - n) t)).
    assert (F : firstn k t = firstn (k - n) t ++ cs).
    { unfold cs. rewrite <- firstn_plus. f_equal. lia. }
    assert (S2 : skipn (k - n) t = cs ++ skipn k t).
    { unfold cs. rewrite <- (firstn_skipn n (skipn (k - n) t)) at 1. f_equal.
      clear -L. replace k with ((k - n) + n)%nat at 2 by lia.
      generalize (k - n)%nat as m. intros m. revert t. induction m as [|m IH]; intros t; [reflexivity|].
      destruct t as [|x t]; [now destruct n|]. cbn [Nat.add skipn]. apply IH. }
    rewrite F in A. destruct (put_back file _ cs _ r A) as (r' & P & A').
    { intros Vr I. apply (V Vr). rewrite <- (firstn_skipn (k - n) t), S2.
      apply in_or_app. right. apply in_or_app. now left. }
    rewrite P. cbn [bind]. exists r', (k - n)%nat. split; [reflexivity|].
    split; [lia|]. split; [rewrite S2; exact A'|]. now rewrite (view_put _ _ _ P).
Qed.

(** C06: for every sequence of reads, looks ahead, skips and put-backs, nothing is undefined, what
    comes next is the text from the offset reached, and line and column are those of scanning the
    text up to that offset. *)
Theorem C06_reader_position_partial view file t os :
  ok_text view t -> fits t ->
  exists r k, run_rops t os (new_reader view file t, O) = Some (r, k) /\
    (k <= List.length t)%nat /\
    lc_file (r_loc r) = file /\ (lc_line (r_loc r), lc_col (r_loc r)) = position (firstn k t) /\
    r_accum r ++ r_stream r = skipn k t.
Proof.
  intros V F.
  assert (G : forall os r k, AtOff file t r k ->
    exists r' k', run_rops t os (r, k) = Some (r', k') /\ AtOff file t r' k').
  { clear. induction os as [|o os IH]; intros r k A; cbn [run_rops]; [eauto|].
    destruct (run_rop_at file t o r k A) as (r1 & k1 & E & A1). rewrite E. cbn [bind]. now apply IH. }
  destruct (G os (new_reader view file t) O) as (r & k & E & K & A & _).
  { split; [lia|]. split; [|exact V]. cbn [firstn skipn]. now apply At_new. }
  exists r, k. split; [exact E|]. split; [exact K|].
  rewrite (at_loc _ _ _ _ A). cbn [lc_file lc_line lc_col]. split; [reflexivity|].
  split; [now destruct (position (firstn k t))|]. apply (at_rest _ _ _ _ A).
Qed.
(** Reading over a line break, putting it back with the start of the next line, reading again. *)
Example C06_reader_ex :
  let t := str "key=60" ++ [nl] ++ str "lovel=1" in
  option_map (fun st => (lc_line (r_loc (fst st)), lc_col (r_loc (fst st)), snd st))
    (run_rops t [OToEol; OGet; OWhile isIdentifierChar; OBack 8; OPeek; OGet] (new_reader true [] t, O))
  = Some (0, 5, 5%nat) /\
  position (firstn 5 t) = (0, 5) /\ position (firstn 12 t) = (1, 5).
Proof. vm_compute. repeat split. Qed.
(** The position after a put-back is what [position] says only for texts without byte 255 when
    parsing from memory: that byte is taken for the end of the text and is not counted. *)
Theorem C06_byte_255_refuted :
  exists t os r, option_map fst (run_rops t os (new_reader true [] t, O)) = Some r /\
    r_accum r ++ r_stream r = skipn 2 t /\
    (lc_line (r_loc r), lc_col (r_loc r)) <> position (firstn 2 t).
Proof.
  exists [97; 255; 98], [OGet; OGet], (snd (getChar (snd (getChar (new_reader true [] [97; 255; 98]))))).
  split; [vm_compute; reflexivity|]. split; [vm_compute; reflexivity|]. vm_compute. discriminate.
Qed.

(** ** The whole parser *)
Section RUN.
Variable src : text -> text -> Prop.
Variable W : world.
(** Files are sources of a size that fits a size_t. *)
Hypothesis FS : forall f t, w_read W f = Some t -> src f t /\ fits t.

Record Inv (p : parser) : Prop := {
  i_files : Forall (fun r => exists f pre rest, At f pre rest r /\ src f (pre ++ rest)) (p_files p);
  i_out : Forall (good_event src) (p_out p);
  i_depth : (List.length (p_files p) <= w_depth W)%nat }.

Inductive moved (p p' : parser) : Prop :=
| MPop r below : p_files p = r :: below -> p_files p' = below -> moved p p'
| MTop r r' below : p_files p = r :: below -> p_files p' = r' :: below ->
    (rem r' < rem r)%nat -> moved p p'
| MPush r r' rn below : p_files p = r :: below -> p_files p' = rn :: r' :: below ->
    (rem r' < rem r)%nat -> moved p p'.
Definition grown (p p' : parser) : Prop :=
  p_defs p' = p_defs p \/
  exists f t id v, src f t /\ defines t id v /\ p_defs p' = addDefinition id v (p_defs p).

Lemma defines_pre pre rest id v : defines rest id v -> defines (pre ++ rest) id v.
Proof.
  intros (a & s1 & s2 & b & -> & H). exists (pre ++ a), s1, s2, b.
  split; [now rewrite <- app_assoc|exact H].
Qed.

(** [adv] from a parser whose top reader is known. *)
Lemma adv_inv file pre rest p r below o :
  Inv p -> p_files p = r :: below -> At file pre rest r -> src file (pre ++ rest) ->
  adv src W file pre rest p o ->
  match o with
  | None => exists s, expandDollarVars (w_rounds W) (p_defs p) s = None
  | Some p' => Inv p' /\ grown p p' /\
      exists r', p_files p' = r' :: below /\ (rem r' < rem r)%nat
  end.
Proof.
  intros I F A SR H. destruct o as [p'|]; [|exact H]. cbn [adv] in H.
  destruct H as (r' & x & rest' & evs & X & NX & A' & HF & _ & _ & HD & HO & HG).
  rewrite F in HF. cbn [tl] in HF. split; [|split].
  - split.
    + rewrite HF. pose proof (i_files p I) as IF. rewrite F in IF. inversion IF; subst.
      constructor; [|assumption]. exists file, (pre ++ x), rest'. split; [exact A'|].
      now rewrite <- app_assoc.
    + rewrite HO. apply Forall_app. split; [apply I|exact HG].
    + pose proof (i_depth p I) as ID. rewrite F in ID. rewrite HF. exact ID.
  - destruct HD as [HD|(id & v & HD & E)]; [now left|]. right. exists file, (pre ++ rest), id, v.
    split; [exact SR|]. split; [now apply defines_pre|exact E].
  - exists r'. split; [exact HF|]. rewrite (At_rem _ _ _ _ A), (At_rem _ _ _ _ A'). subst rest.
    rewrite app_length. destruct x; [contradiction|]. cbn. lia.
Qed.

Lemma include_inv p path rg : Inv p -> good_range src rg ->
  let p' := includeNewFile W path None (Some rg) p in
  Inv p' /\ p_defs p' = p_defs p /\
  (p_files p' = p_files p \/ exists rn, p_files p' = rn :: p_files p).
Proof.
  intros I G. cbn zeta. unfold includeNewFile.
  destruct (negb _ && _ && _); [auto|].
  set (p1 := Parser (p_files p) (p_paths p) _ (p_defs p) (p_header p) (p_ops p) (p_out p)).
  assert (IE : forall e, Inv (emit (PError rg e) p1)).
  { intros e. split; [apply (i_files p I)| |apply (i_depth p I)].
    cbn [p_out emit p1]. apply Forall_app. split; [apply (i_out p I)|].
    constructor; [exact G|constructor]. }
  destruct (Nat.eqb_spec (List.length (p_files p)) (w_depth W)) as [D|D].
  - split; [apply IE|]. split; [reflexivity|now left].
  - destruct (w_read W (w_full W (p_dir p) path)) as [t|] eqn:R; cbn [option_map].
    + split; [|split; [reflexivity|right; eexists; reflexivity]].
      destruct (FS _ _ R) as [S F]. split; cbn [p_files p_out].
      * constructor; [|apply (i_files p I)].
        exists (w_full W (p_dir p) path), [], t. split; [|exact S].
        apply At_new; [intros V; discriminate|exact F].
      * apply (i_out p I).
      * pose proof (i_depth p I). cbn [List.length]. lia.
    + split; [apply IE|]. split; [reflexivity|now left].
Qed.

Lemma step_inv p : Inv p -> p_files p <> [] ->
  match step W p with
  | None => exists s, expandDollarVars (w_rounds W) (p_defs p) s = None
  | Some p' => Inv p' /\ grown p p' /\ moved p p'
  end.
Proof.
  intros I NE. unfold step. destruct (p_files p) as [|r below] eqn:F; [contradiction|]. clear NE.
  pose proof (i_files p I) as IF. rewrite F in IF. inversion IF as [|? ? HR HB]; subst.
  destruct HR as (file & pre & rest & A & SR).
  destruct (skip_blank_at src file (S (S (rem r))) p pre rest r A SR) as
    (x & rest1 & p1 & r1 & E & X & A1 & SB & RP & NB).
  { rewrite (At_rem _ _ _ _ A). lia. }
  rewrite E. cbn [bind].
  destruct (peek_char _ _ _ _ A1) as (r2 & P & A2). rewrite P. cbn [bind].
  assert (SR1 : src file ((pre ++ x) ++ rest1)) by (rewrite <- app_assoc, <- X; exact SR).
  destruct SB as (SB1 & SB2 & SB3 & SB4 & SB5 & SB6). destruct RP as (evs & RP & RG & _).
  assert (I1 : Inv (set_top p1 r2)).
  { split; cbn [set_top set_files p_files p_out].
    - rewrite SB1, F. cbn [tl]. constructor; [|exact HB]. exists file, (pre ++ x), rest1. auto.
    - rewrite RP. apply Forall_app. split; [apply I|exact RG].
    - pose proof (i_depth p I) as ID. rewrite F in ID. rewrite SB1, F. exact ID. }
  assert (F2 : p_files (set_top p1 r2) = r2 :: below) by (cbn; now rewrite SB1, F).
  assert (D2 : p_defs (set_top p1 r2) = p_defs p) by exact SB4.
  assert (R2 : (rem r2 <= rem r)%nat).
  { rewrite (At_rem _ _ _ _ A), (At_rem _ _ _ _ A2), X, app_length. lia. }
  assert (FIN : forall o, adv src W file (pre ++ x) rest1 (set_top p1 r2) o ->
    match o with
    | None => exists s, expandDollarVars (w_rounds W) (p_defs p) s = None
    | Some p' => Inv p' /\ grown p p' /\ exists r', p_files p' = r' :: below /\ (rem r' < rem r)%nat
    end).
  { intros o H. pose proof (adv_inv _ _ _ _ _ _ _ I1 F2 A2 SR1 H) as K. destruct o as [p'|].
    - destruct K as (K1 & K2 & r' & K3 & K4). split; [exact K1|]. split.
      + unfold grown in *. now rewrite D2 in K2.
      + exists r'. split; [exact K3|lia].
    - now rewrite D2 in K. }
  assert (TOP : forall o, adv src W file (pre ++ x) rest1 (set_top p1 r2) o ->
    match o with
    | None => exists s, expandDollarVars (w_rounds W) (p_defs p) s = None
    | Some p' => Inv p' /\ grown p p' /\ moved p p'
    end).
  { intros o H. specialize (FIN o H). destruct o as [p'|]; [|exact FIN].
    destruct FIN as (K1 & K2 & r' & K3 & K4). split; [exact K1|]. split; [exact K2|].
    eapply MTop; eassumption. }
  destruct rest1 as [|c t]; cbn [hd_error].
  - split; [|split].
    + split; cbn [set_files p_files p_out].
      * exact HB.
      * rewrite RP. apply Forall_app. split; [apply I|exact RG].
      * pose proof (i_depth p I) as ID. rewrite F in ID. cbn in ID. lia.
    + left. exact SB4.
    + eapply MPop; [exact F|reflexivity].
  - cbn [no_blank] in NB. destruct NB as [NB1 NB2].
    destruct (Z.eqb_spec c 35) as [->|N35].
    + destruct (directive_adv src W file _ t (set_top p1 r2) r2 A2 SR1) as [H|(p3 & path & rg & H & G & EQ)].
      * exact (TOP _ H).
      * rewrite EQ. specialize (FIN _ H). cbn in FIN. destruct FIN as (K1 & K2 & r' & K3 & K4).
        destruct (include_inv p3 path rg K1 G) as (J1 & J2 & J3). split; [exact J1|]. split.
        -- unfold grown in *. now rewrite J2.
        -- destruct J3 as [J3|(rn & J3)]; rewrite K3 in J3.
           ++ eapply MTop; eassumption.
           ++ eapply MPush; eassumption.
    + destruct (Z.eqb_spec c 60) as [->|N60].
      * apply TOP. apply header_adv; assumption.
      * apply TOP. apply opcode_adv; try assumption. exists c, t. split; [reflexivity|].
        intros ->. discriminate.
Qed.

(** ** Runs *)
Fixpoint steps (n : nat) (p : parser) : option parser :=
  match n with O => Some p | S n => p1 <- step W p ;; steps n p1 end.
Lemma steps_app n : forall m p q, steps n p = Some q -> steps (n + m) p = steps m q.
Proof.
  induction n as [|n IH]; intros m p q H; cbn [steps Nat.add] in *; [now injection H as <-|].
  destruct (step W p) as [p1|]; [|discriminate]. cbn [bind] in *. now apply IH.
Qed.
Lemma step_end p : p_files p = [] -> step W p = Some p.
Proof. intros F. unfold step. now rewrite F. Qed.
Lemma steps_inv n : forall p q, Inv p -> steps n p = Some q -> Inv q.
Proof.
  induction n as [|n IH]; intros p q I H; cbn [steps] in H; [now injection H as <-|].
  destruct (p_files p) as [|r b] eqn:F.
  - rewrite (step_end p F) in H. cbn [bind] in H. now apply (IH p).
  - pose proof (step_inv p I) as K. rewrite F in K. specialize (K ltac:(discriminate)).
    destruct (step W p) as [p1|]; [|discriminate]. cbn [bind] in H. apply (IH p1); [apply K|exact H].
Qed.
Lemma top_level_steps n : forall p q, steps n p = Some q -> p_files q = [] ->
  processTopLevel n W p = Some q.
Proof.
  induction n as [|n IH]; intros p q H F; cbn [steps] in H.
  - injection H as <-. unfold processTopLevel. now rewrite F.
  - cbn [processTopLevel]. destruct (p_files p) as [|r b] eqn:FP.
    + rewrite (step_end p FP) in H. cbn [bind] in H. pose proof (IH p q H F) as K.
      destruct n; cbn [processTopLevel] in K; now rewrite FP in K.
    + destruct (step W p) as [p1|]; [|discriminate]. cbn [bind] in *. now apply IH.
Qed.
Lemma top_level_steps_inv n : forall p q, processTopLevel n W p = Some q ->
  steps n p = Some q /\ p_files q = [].
Proof.
  induction n as [|n IH]; intros p q H; cbn [processTopLevel steps] in *.
  - destruct (p_files p) eqn:F; [|discriminate]. injection H as <-. auto.
  - destruct (p_files p) as [|r b] eqn:F.
    + injection H as <-. rewrite (step_end p F). cbn [bind]. split; [|exact F]. clear IH.
      induction n as [|n IH]; [reflexivity|]. cbn [steps]. rewrite (step_end p F). exact IH.
    + destruct (step W p) as [p1|]; [|discriminate]. cbn [bind] in *. now apply IH.
Qed.

(** ** Termination *)
Variable E : text -> text -> Prop.
Hypothesis ES : forall f t id v, src f t -> defines t id v -> E id v.
Variables (rk : text -> nat) (N : nat).
Hypothesis R : ranked E rk N.
Hypothesis RW : (N + 2 <= w_rounds W)%nat.
Definition defsE (p : parser) : Prop := forall id v, In (id, v) (p_defs p) -> E id v.

Lemma step_some p : Inv p -> defsE p -> p_files p <> [] ->
  exists p', step W p = Some p' /\ Inv p' /\ defsE p' /\ moved p p'.
Proof.
  intros I D NE. pose proof (step_inv p I NE) as K. destruct (step W p) as [p'|].
  - exists p'. destruct K as (K1 & K2 & K3). split; [reflexivity|]. split; [exact K1|]. split; [|exact K3].
    destruct K2 as [K2|(f & t & id & v & S & DF & K2)]; unfold defsE; rewrite K2; [exact D|].
    intros id' v' [H|H]; [|now apply D]. injection H as <- <-. eapply ES; eassumption.
  - destruct K as (s & K). exfalso.
    destruct (C05_expansion_terminates_partial E rk N (p_defs p) R D s (w_rounds W) RW) as (t & w & X & _).
    congruence.
Qed.
Lemma descend : forall k n p r below, p_files p = r :: below ->
  (w_depth W - List.length (p_files p) <= k)%nat -> (rem r <= n)%nat -> Inv p -> defsE p ->
  exists m q, steps m p = Some q /\ p_files q = below /\ Inv q /\ defsE q.
Proof.
  induction k as [k IHk] using lt_wf_ind. induction n as [n IHn] using lt_wf_ind.
  intros p r below F K RN I D.
  destruct (step_some p I D) as (p1 & S & I1 & D1 & M); [rewrite F; discriminate|].
  assert (ST : steps 1 p = Some p1) by (cbn [steps]; rewrite S; reflexivity).
  destruct M as [r0 b0 F0 F1|r0 r1 b0 F0 F1 L|r0 r1 rn b0 F0 F1 L];
    rewrite F in F0; injection F0 as <- <-.
  - exists 1%nat, p1. auto.
  - destruct (IHn (rem r1)) with (p := p1) (r := r1) (below := below) as (m & q & Q & H).
    + lia.
    + exact F1.
    + rewrite F in K. rewrite F1. exact K.
    + lia.
    + exact I1.
    + exact D1.
    + exists (1 + m)%nat, q. rewrite (steps_app 1 m p p1 ST). auto.
  - pose proof (i_depth p1 I1) as DP. rewrite F1 in DP. rewrite F in K. cbn [List.length] in *.
    destruct (IHk (k - 1)%nat) with (n := rem rn) (p := p1) (r := rn) (below := r1 :: below)
      as (m & q & Q & FQ & IQ & DQ).
    + lia.
    + exact F1.
    + rewrite F1. cbn [List.length]. lia.
    + lia.
    + exact I1.
    + exact D1.
    + destruct (IHn (rem r1)) with (p := q) (r := r1) (below := below) as (m2 & q2 & Q2 & H2).
      * lia.
      * exact FQ.
      * rewrite FQ. cbn [List.length]. lia.
      * lia.
      * exact IQ.
      * exact DQ.
      * exists (1 + (m + m2))%nat, q2. rewrite (steps_app 1 _ p p1 ST), (steps_app m m2 p1 q Q). auto.
Qed.
Lemma finish : forall l p, p_files p = l -> Inv p -> defsE p ->
  exists m q, steps m p = Some q /\ p_files q = [] /\ Inv q.
Proof.
  induction l as [|r l IH]; intros p F I D.
  - exists O, p. auto.
  - destruct (descend _ _ p r l F (Nat.le_refl _) (Nat.le_refl _) I D) as (m & q & S & FQ & IQ & DQ).
    destruct (IH q FQ IQ DQ) as (m2 & q2 & S2 & F2 & I2). exists (m + m2)%nat, q2.
    rewrite (steps_app m m2 p q S). auto.
Qed.
End RUN.

(** ** Statements *)
(** The sources of a parse: the files, and the text given by the caller under its own name. *)
Definition source (W : world) (name t : text) (f u : text) : Prop :=
  w_read W f = Some u \/ (f = name /\ u = t).
Definition files_fit (W : world) : Prop := forall f t, w_read W f = Some t -> fits t.

Lemma start_inv W dir ext name t : files_fit W -> fits t -> ~ In 255 t ->
  Inv (source W name t) W (start W dir ext name (Some (new_reader true name t))).
Proof.
  intros FF F N. unfold start, includeNewFile. cbn [p_paths negb andb existsb p_files List.length].
  destruct (Nat.eqb_spec 0 (w_depth W)) as [D|D].
  - split; cbn [emit p_files p_out app List.length]; [constructor| |lia].
    constructor; [|constructor]. right. eexists. reflexivity.
  - split; cbn [emit p_files p_out app List.length]; [|constructor|lia].
    constructor; [|constructor]. exists name, [], t. split; [|right; auto].
    apply At_new; [intros _; exact N|exact F].
Qed.
Lemma start_file_inv W dir ext path : files_fit W ->
  Inv (fun f u => w_read W f = Some u) W (start W dir ext path None).
Proof.
  intros FF. unfold start, includeNewFile. cbn [p_paths negb andb existsb p_files List.length].
  assert (IE : forall e d dfs, Inv (fun f u => w_read W f = Some u) W
    (emit (PError (Loc (w_full W dir path) 0 0, Loc (w_full W dir path) 0 0) e)
       (Parser [] [] d dfs None [] []))).
  { intros e d dfs. split; cbn [emit p_files p_out app List.length]; [constructor| |lia].
    constructor; [|constructor]. right. eexists. reflexivity. }
  destruct (Nat.eqb_spec 0 (w_depth W)) as [D|D]; [apply IE|].
  cbn [p_dir]. destruct (w_read W (w_full W dir path)) as [t|] eqn:RD; cbn [option_map].
  - split; cbn [emit p_files p_out app List.length]; [|constructor|lia].
    constructor; [|constructor]. exists (w_full W dir path), [], t. split; [|exact RD].
    apply At_new; [intros V; discriminate|exact (FF _ _ RD)].
  - apply IE.
Qed.
Lemma flush_inv src W p : Inv src W p -> Inv src W (flushCurrentHeader p).
Proof.
  intros I. unfold flushCurrentHeader. destruct (p_header p).
  - split; cbn [set_block emit p_files p_out]; [apply I| |apply I].
    apply Forall_app. split; [apply I|]. constructor; [exact Logic.I|constructor].
  - split; apply I.
Qed.

(** C06: every header is reported with the range of [<name>], every opcode with the ranges of its
    name and its value as written, and every problem with a piece of a source. *)
Theorem C06_reports_located_partial fuel W dir ext name t p :
  files_fit W -> fits t -> ~ In 255 t ->
  parseString fuel W dir ext name t = Some p ->
  Forall (good_event (source W name t)) (p_out p).
Proof.
  intros FF F N H. unfold parseString, parseVirtualFile in H.
  destruct (processTopLevel fuel W _) as [q|] eqn:T; [|discriminate]. cbn [bind] in H.
  injection H as <-. destruct (top_level_steps_inv W _ _ _ T) as [ST _].
  apply i_out with (W := W). apply flush_inv. eapply steps_inv; [|apply start_inv|exact ST]; auto.
  intros f u R. split; [now left|now apply (FF f)].
Qed.
Theorem C06_file_reports_located fuel W dir ext path p :
  files_fit W -> parseFile fuel W dir ext path = Some p ->
  Forall (good_event (fun f u => w_read W f = Some u)) (p_out p).
Proof.
  intros FF H. unfold parseFile, parseVirtualFile in H.
  destruct (processTopLevel fuel W _) as [q|] eqn:T; [|discriminate]. cbn [bind] in H.
  injection H as <-. destruct (top_level_steps_inv W _ _ _ T) as [ST _].
  apply i_out with (W := W). apply flush_inv. eapply steps_inv; [|apply start_file_inv|exact ST]; auto.
  intros f u R. split; [exact R|now apply (FF f)].
Qed.

(** C08: at every moment of a parse, for all files, texts and definitions, at most the configured
    number of files is open. *)
Theorem C08_include_depth W dir ext name t n p :
  files_fit W -> fits t -> ~ In 255 t ->
  steps W n (start W dir ext name (Some (new_reader true name t))) = Some p ->
  (List.length (p_files p) <= w_depth W)%nat.
Proof.
  intros FF F N H. apply i_depth with (src := source W name t).
  eapply steps_inv; [|apply start_inv|exact H]; auto.
  intros f u R. split; [now left|now apply (FF f)].
Qed.
Theorem C08_file_include_depth W dir ext path n p :
  files_fit W -> steps W n (start W dir ext path None) = Some p ->
  (List.length (p_files p) <= w_depth W)%nat.
Proof.
  intros FF H. apply i_depth with (src := fun f u => w_read W f = Some u).
  eapply steps_inv; [|apply start_file_inv|exact H]; auto.
  intros f u R. split; [exact R|now apply (FF f)].
Qed.

(** C55: the parser returns for every file system, even when files include themselves or each other
    without guard, if the definitions found in the sources do not lead back to themselves. *)
Theorem C55_parser_terminates W dir ext name t rk N :
  files_fit W -> fits t -> ~ In 255 t ->
  ranked (fun id v => In (id, v) ext \/ exists f u, source W name t f u /\ defines u id v) rk N ->
  (N + 2 <= w_rounds W)%nat ->
  exists fuel p, parseString fuel W dir ext name t = Some p /\ p_files p = [].
Proof.
  intros FF F NI RK RW.
  assert (FS : forall f u, w_read W f = Some u -> source W name t f u /\ fits u)
    by (intros f u R; split; [now left|now apply (FF f)]).
  assert (ES : forall f u id v, source W name t f u -> defines u id v ->
    In (id, v) ext \/ exists f u, source W name t f u /\ defines u id v)
    by (intros f u id v S D; right; eauto).
  destruct (finish (source W name t) W FS _ ES rk N RK RW _
    (start W dir ext name (Some (new_reader true name t))) eq_refl) as (m & q & S & FQ & _).
  - now apply start_inv.
  - intros id v I. left. revert I. unfold start, includeNewFile.
    cbn [p_paths negb andb existsb p_files List.length]. destruct (Nat.eqb 0 (w_depth W)); auto.
  - exists m, (flushCurrentHeader q). split.
    + unfold parseString, parseVirtualFile. rewrite (top_level_steps W m _ q S FQ). reflexivity.
    + unfold flushCurrentHeader. destruct (p_header q); exact FQ.
Qed.
