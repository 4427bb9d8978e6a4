(** Headers, opcodes and directives make progress and report pieces of the sources. *)
From Coq Require Import ZArith List Bool Lia String.
From Verif Require Import ParserModel ParserReader ParserSteps.
Import ListNotations.
Local Open Scope Z_scope.
Local Open Scope list_scope.
Implicit Type src : text -> text -> Prop.

Lemma text_eqb_eq a : forall b, text_eqb a b = true <-> a = b.
Proof.
  induction a as [|x a IH]; intros [|y b]; cbn [text_eqb]; split; intros H; try discriminate; auto.
  - apply andb_true_iff in H as [H K]. apply Z.eqb_eq in H. apply IH in K. congruence.
  - injection H as -> ->. rewrite Z.eqb_refl. now apply IH.
Qed.
Lemma cut_blank_app v : fst (cut_blank v) ++ snd (cut_blank v) = v.
Proof.
  induction v as [|c v IH]; [reflexivity|]. cbn [cut_blank]. destruct (isSpaceChar c); [reflexivity|].
  destruct (cut_blank v) as [a b]. cbn [fst snd app] in *. now rewrite IH.
Qed.
Lemma value_split_app : forall fuel v, fst (value_split fuel v) ++ snd (value_split fuel v) = v.
Proof.
  induction fuel as [|fuel IH]; intros v; [reflexivity|]. cbn [value_split].
  destruct v as [|c t]; [reflexivity|].
  assert (K : forall taken rest, taken ++ rest = c :: t ->
    fst (let '(a, b) := value_split fuel rest in (taken ++ a, b)) ++
    snd (let '(a, b) := value_split fuel rest in (taken ++ a, b)) = c :: t).
  { intros taken rest E. specialize (IH rest). destruct (value_split fuel rest) as [a b].
    cbn [fst snd] in *. rewrite <- app_assoc, IH. exact E. }
  destruct (c =? 60); [reflexivity|]. destruct (isSpaceChar c); [|now apply K].
  pose proof (span_app isSpaceChar t) as SP. destruct (span isSpaceChar t) as [sp t2].
  cbn [fst snd] in SP.
  destruct t2 as [|c2 t3]; [reflexivity|].
  assert (K1 : fst (let '(a, b) := value_split fuel (c2 :: t3) in ((c :: sp) ++ a, b)) ++
               snd (let '(a, b) := value_split fuel (c2 :: t3) in ((c :: sp) ++ a, b)) = c :: t)
    by (apply K; cbn [app]; now rewrite SP).
  destruct (c2 =? 60); [reflexivity|]. destruct (c2 =? 35).
  - destruct (_ || _); [reflexivity|exact K1].
  - destruct (isIdentifierChar c2); [|exact K1].
    pose proof (span_app (fun c => isIdentifierChar c || (c =? 36)) t3) as S3.
    destruct (span (fun c => isIdentifierChar c || (c =? 36)) t3) as [w t4]. cbn [fst snd] in S3.
    assert (K2 : fst (let '(a, b) := value_split fuel t4 in ((c :: sp ++ c2 :: w) ++ a, b)) ++
                 snd (let '(a, b) := value_split fuel t4 in ((c :: sp ++ c2 :: w) ++ a, b)) = c :: t).
    { apply K. cbn [app]. f_equal. rewrite <- app_assoc. cbn [app]. rewrite S3. exact SP. }
    destruct t4 as [|c4 t5]; [exact K2|]. destruct (c4 =? 61); [reflexivity|exact K2].
Qed.

Lemma header_adv src W file pre t p r :
  At file pre (60 :: t) r -> src file (pre ++ 60 :: t) ->
  adv src W file pre (60 :: t) p (processHeader p r).
Proof.
  intros A SR. unfold processHeader.
  destruct (get_some _ _ _ _ _ A) as (r0 & G & A0). rewrite G. cbn [is_char Z.eqb Pos.eqb negb].
  set (f := fun c => negb (c =? cr) && negb (c =? nl) && negb (c =? 62)).
  destruct (extract_at file f _ _ _ A0) as (r1 & E & A1). rewrite E. cbn [bind].
  pose proof (span_app f t) as SA. pose proof (span_stop f t) as SS.
  destruct (span f t) as [name b]. cbn [fst snd] in *. rewrite <- app_assoc in A1. cbn [app] in A1.
  subst t.
  destruct (peek_char _ _ _ _ A1) as (r2 & P & A2). rewrite P. cbn [bind].
  assert (SR' : src file (pre ++ (60 :: name) ++ b)) by exact SR.
  rewrite (At_loc _ _ _ _ A).
  destruct (is_char (hd_error b) 62) eqn:C; cbn [negb].
  2:{ rewrite (At_loc _ _ _ _ A2).
      apply (adv_fail src W file pre (60 :: name) b p _ EClose r2 A2); [exact SR'| |left; discriminate].
      eapply src_range, SR'. }
  destruct b as [|c b]; [discriminate|]. cbn [hd_error is_char] in C. apply Z.eqb_eq in C. subst c.
  destruct (get_some _ _ _ _ _ A2) as (r3 & G3 & A3). rewrite G3. cbn [snd].
  rewrite <- app_assoc in A3. cbn [app] in A3.
  assert (SR3 : src file (pre ++ (60 :: name ++ [62]) ++ b))
    by (cbn [app]; rewrite <- app_assoc; exact SR').
  replace (60 :: name ++ 62 :: b) with ((60 :: name ++ [62]) ++ b)
    by (cbn [app]; rewrite <- app_assoc; reflexivity).
  rewrite (At_loc _ _ _ _ A3).
  destruct (isIdentifier name) eqn:ID; cbn [negb].
  2:{ apply (adv_fail src W file pre (60 :: name ++ [62]) b p _ _ r3 A3); [exact SR3| |left; discriminate].
      eapply src_range, SR3. }
  cbn [adv].
  exists r3, (60 :: name ++ [62]), b,
    (match p_header p with Some h => [PBlock h (p_ops p)] | None => [] end
     ++ [PHeader (loc_at file pre, loc_at file (pre ++ 60 :: name ++ [62])) name]).
  split; [reflexivity|]. split; [discriminate|]. split; [exact A3|].
  unfold flushCurrentHeader. destruct (p_header p) as [h|];
    (split; [reflexivity|]; split; [reflexivity|]; split; [reflexivity|]; split; [now left|]).
  - split; [cbn [p_out emit set_block set_top set_files]; now rewrite <- app_assoc|].
    cbn [app]. constructor; [exact Logic.I|]. constructor; [|constructor].
    exists file, pre, b. auto.
  - split; [reflexivity|]. cbn [app]. constructor; [|constructor].
    exists file, pre, b. auto.
Qed.

Lemma view_eol : forall n r t r', eol_loop n r = Some (t, r') -> r_view r' = r_view r.
Proof.
  induction n as [|n IH]; intros r t r' H; [discriminate|]. cbn [eol_loop] in H.
  destruct (getChar r) as [[c|] r1] eqn:G; [|injection H as <- <-; eapply view_get, G].
  pose proof (view_get _ _ _ G) as V.
  assert (PK : forall b2 r2, peekChar r1 = Some (b2, r2) -> r_view r2 = r_view r1).
  { intros b2 r2 Hp. unfold peekChar in Hp. destruct (r_accum r1).
    - destruct (getChar r1) as [[x|] q] eqn:Gq; cbn [putBackChar bind] in Hp.
      + destruct (putBackChars [x] q) as [q'|] eqn:Pq; [|discriminate]. cbn [bind] in Hp.
        injection Hp as <- <-. rewrite (view_put _ _ _ Pq). eapply view_get, Gq.
      + injection Hp as <- <-. eapply view_get, Gq.
    - now injection Hp as <- <-. }
  assert (FIN : forall (m : bool) r2, r_view r2 = r_view r1 ->
    (if m then '(t, r3) <- eol_loop n r2;; Some (c :: t, r3)
     else r3 <- putBackChar (Some c) r2;; Some ([], r3)) = Some (t, r') ->
    r_view r' = r_view r).
  { intros m r2 V2 F. destruct m.
    - destruct (eol_loop n r2) as [[t3 r3]|] eqn:L; [|discriminate]. cbn [bind] in F.
      injection F as <- <-. rewrite (IH _ _ _ L). congruence.
    - cbn [putBackChar] in F. destruct (putBackChars [c] r2) as [r3|] eqn:L; [|discriminate].
      cbn [bind] in F. injection F as <- <-. rewrite (view_put _ _ _ L). congruence. }
  destruct ((c =? cr) || (c =? nl)); [cbn [bind] in H; now apply (FIN false r1)|].
  destruct (c =? 47); [|cbn [bind] in H; now apply (FIN true r1)].
  destruct (peekChar r1) as [[b2 r2]|] eqn:Hp; [|discriminate]. cbn [bind] in H.
  eapply FIN; [eapply PK; reflexivity|exact H].
Qed.

Lemma opcode_adv src W file pre rest p r :
  At file pre rest r -> src file (pre ++ rest) ->
  (exists c t, rest = c :: t /\ c <> nl) ->
  adv src W file pre rest p (processOpcode W p r).
Proof.
  intros A SR NE. unfold processOpcode.
  set (f := fun c => isIdentifierChar c || (c =? 36)).
  destruct (extract_at file f _ _ _ A) as (r1 & E & A1). rewrite E. cbn [bind].
  pose proof (span_app f rest) as SA. destruct (span f rest) as [raw b]. cbn [fst snd] in *.
  subst rest. rewrite (At_loc _ _ _ _ A), (At_loc _ _ _ _ A1).
  assert (GR : good_range src (loc_at file pre, loc_at file (pre ++ raw))) by (eapply src_range, SR).
  destruct raw as [|c0 raw'] eqn:RAW.
  { apply (adv_fail src W file pre [] b p _ EOpcodeName r1 A1); [exact SR|exact GR|]. right. exact NE. }
  rewrite <- RAW in *. assert (NR : raw <> []) by (rewrite RAW; discriminate). clear c0 raw' RAW.
  destruct (peek_char _ _ _ _ A1) as (r2 & P & A2). rewrite P. cbn [bind].
  destruct (is_char (hd_error b) 61) eqn:C; cbn [negb].
  2:{ apply (adv_fail src W file pre raw b p _ EEquals r2 A2); [exact SR|exact GR|left; exact NR]. }
  destruct b as [|c b]; [discriminate|]. cbn [hd_error is_char] in C. apply Z.eqb_eq in C. subst c.
  destruct (expandDollarVars (w_rounds W) (p_defs p) raw) as [[name w]|] eqn:X; cbn [bind].
  2:{ exists raw. exact X. }
  set (p1 := warnings w (loc_at file pre, loc_at file (pre ++ raw)) p).
  destruct (warnings_spec src w _ p GR) as [W1 W2]. fold p1 in W1, W2.
  destruct (isIdentifier name) eqn:ID; cbn [negb].
  2:{ eapply adv_reported; [exact W1|exact W2|].
      apply (adv_fail src W file pre raw (61 :: b) p1 _ _ r2 A2); [exact SR|exact GR|left; exact NR]. }
  destruct (get_some _ _ _ _ _ A2) as (r3 & G3 & A3). rewrite G3. cbn [snd].
  rewrite <- app_assoc in A3. cbn [app] in A3. rewrite (At_loc _ _ _ _ A3).
  assert (EX : expanded raw name) by (exists (w_rounds W), (p_defs p), w; exact X).
  destruct (text_eqb name (str "base64data")) eqn:B64.
  - set (g := fun c => negb ((c =? 60) || (c =? 35))).
    destruct (extract_at file g _ _ _ A3) as (r4 & E4 & A4). rewrite E4. cbn [bind].
    pose proof (span_app g b) as S4. destruct (span g b) as [v d]. cbn [fst snd] in *. subst b.
    rewrite (At_loc _ _ _ _ A4).
    replace ((pre ++ raw ++ [61]) ++ v) with (pre ++ raw ++ [61] ++ v) in *
      by (rewrite <- !app_assoc; reflexivity).
    eapply adv_reported; [exact W1|exact W2|]. cbn [adv].
    exists r4, (raw ++ [61] ++ v), d, [POpcode (loc_at file pre, loc_at file (pre ++ raw))
      (loc_at file (pre ++ raw ++ [61]), loc_at file (pre ++ raw ++ [61] ++ v)) name v].
    split; [rewrite <- !app_assoc; reflexivity|].
    split; [destruct raw; [contradiction|discriminate]|]. split; [exact A4|].
    split; [reflexivity|]. split; [reflexivity|]. split; [reflexivity|]. split; [now left|].
    split; [reflexivity|]. constructor; [|constructor]. cbn [good_event].
    exists file, pre, raw, v, d. split; [exact SR|]. split; [reflexivity|]. split; [reflexivity|].
    split; [exact ID|]. split; [exact EX|]. now rewrite B64.
  - destruct (eol_at file _ _ _ A3) as (r4 & E4 & A4). rewrite E4. cbn [bind].
    pose proof (eol_app b) as S4. destruct (eol b) as [line d]. cbn [fst snd] in *. subst b.
    pose proof (value_split_app (S (List.length line)) line) as VS.
    destruct (value_split (S (List.length line)) line) as [v excess]. cbn [fst snd] in VS. subst line.
    replace ((pre ++ raw ++ [61]) ++ v ++ excess) with ((pre ++ raw ++ [61] ++ v) ++ excess) in A4
      by (rewrite <- !app_assoc; reflexivity).
    assert (OK : ok_text (r_view r4) excess).
    { intros V4 I. pose proof (view_eol _ _ _ _ E4) as VW.
      rewrite VW in V4. apply (at_ok _ _ _ _ A3 V4). apply in_or_app. left. apply in_or_app. now right. }
    destruct (put_back file _ excess d r4 A4 OK) as (r5 & Q & A5). rewrite Q. cbn [bind].
    rewrite (At_loc _ _ _ _ A5).
    destruct (expandDollarVars (w_rounds W) (p_defs p) v) as [[v1 w1]|] eqn:XV; cbn [bind].
    2:{ exists v. exact XV. }
    assert (SV : src file (pre ++ raw ++ [61] ++ v ++ excess ++ d)).
    { rewrite <- app_assoc in SR. exact SR. }
    assert (GV : good_range src (loc_at file (pre ++ raw ++ [61]), loc_at file (pre ++ raw ++ [61] ++ v))).
    { replace (pre ++ raw ++ [61] ++ v) with ((pre ++ raw ++ [61]) ++ v)
        by (rewrite <- !app_assoc; reflexivity).
      apply (src_range src file _ _ (excess ++ d)). rewrite <- !app_assoc. exact SV. }
    assert (GO : good_range src (loc_at file pre, loc_at file (pre ++ raw ++ [61] ++ v))).
    { apply (src_range src file pre (raw ++ [61] ++ v) (excess ++ d)). rewrite <- !app_assoc. exact SV. }
    set (p2 := match p_header p1 with
               | None => emit (PWarning (loc_at file pre, loc_at file (pre ++ raw ++ [61] ++ v))) p1
               | Some _ => p1 end).
    assert (W3 : same_but_out p1 p2 /\ reports src p1 p2).
    { unfold p2. destruct (p_header p1); [split; [apply sbo_refl|apply reports_refl]|].
      split; [apply sbo_emit|apply reports_warning, GO]. }
    destruct W3 as [W3 W4].
    destruct (warnings_spec src w1 _ p2 GV) as [W5 W6].
    set (p3 := warnings w1 _ p2) in *.
    eapply adv_reported; [exact (sbo_trans _ _ _ W1 (sbo_trans _ _ _ W3 W5))|
      exact (reports_trans _ _ _ _ W2 (reports_trans _ _ _ _ W4 W6))|]. cbn [adv].
    exists r5, (raw ++ [61] ++ v), (excess ++ d), [POpcode (loc_at file pre, loc_at file (pre ++ raw))
      (loc_at file (pre ++ raw ++ [61]), loc_at file (pre ++ raw ++ [61] ++ v)) name v1].
    split; [rewrite <- !app_assoc; reflexivity|].
    split; [destruct raw; [contradiction|discriminate]|]. split; [exact A5|].
    split; [reflexivity|]. split; [reflexivity|]. split; [reflexivity|]. split; [now left|].
    split; [reflexivity|]. constructor; [|constructor]. cbn [good_event].
    exists file, pre, raw, v, (excess ++ d). split; [exact SV|]. split; [reflexivity|]. split; [reflexivity|].
    split; [exact ID|]. split; [exact EX|]. rewrite B64. exists (w_rounds W), (p_defs p), w1. exact XV.
Qed.

Lemma span_blank t : blank (fst (span (one_of [32; 9]) t)).
Proof.
  eapply Forall_impl; [|apply span_true]. intros c H. cbn in H.
  rewrite orb_false_r in H. apply orb_true_iff in H as [H|H]; apply Z.eqb_eq in H; auto.
Qed.
Lemma eol_no_break t : Forall (fun c => c <> 13 /\ c <> 10) (fst (eol t)).
Proof.
  induction t as [|c t IH]; [constructor|]. cbn [eol].
  destruct ((c =? cr) || (c =? nl)) eqn:E; [constructor|].
  destruct ((c =? 47) && _); [constructor|]. destruct (eol t) as [a b]. cbn [fst] in *.
  constructor; [|exact IH]. apply orb_false_iff in E as [E1 E2].
  apply Z.eqb_neq in E1, E2. split; assumption.
Qed.
Lemma cut_blank_word v : Forall (fun c => c <> 13 /\ c <> 10) v -> word (fst (cut_blank v)).
Proof.
  induction v as [|c v IH]; intros H; [constructor|]. cbn [cut_blank].
  destruct (isSpaceChar c) eqn:E; [constructor|]. inversion H as [|? ? H1 H2]; subst.
  destruct (cut_blank v) as [a b]. cbn [fst] in *. constructor; [|now apply IH].
  unfold isSpaceChar in E. apply orb_false_iff in E as [E1 E2]. apply Z.eqb_neq in E1, E2. tauto.
Qed.

(** A directive either stays in the file or includes another one. *)
Lemma directive_adv src W file pre t p r :
  At file pre (35 :: t) r -> src file (pre ++ 35 :: t) ->
  adv src W file pre (35 :: t) p (processDirective W p r) \/
  exists p1 path rg, adv src W file pre (35 :: t) p (Some p1) /\ good_range src rg /\
    processDirective W p r = Some (includeNewFile W path None (Some rg) p1).
Proof.
  intros A SR. unfold processDirective.
  destruct (get_some _ _ _ _ _ A) as (r0 & G & A0). rewrite G. cbn [is_char Z.eqb Pos.eqb negb].
  destruct (extract_at file isIdentifierChar _ _ _ A0) as (r1 & E & A1). rewrite E. cbn [bind].
  pose proof (span_app isIdentifierChar t) as SA.
  destruct (span isIdentifierChar t) as [dir b]. cbn [fst snd] in *.
  rewrite <- app_assoc in A1. cbn [app] in A1. subst t. rewrite (At_loc _ _ _ _ A).
  destruct (text_eqb dir (str "define")) eqn:DIR.
  { left. apply text_eqb_eq in DIR. destruct (skip_at file [32; 9] _ _ _ A1) as (r2 & E2 & A2). rewrite E2. cbn [bind].
    pose proof (span_app (one_of [32; 9]) b) as S2. pose proof (span_blank b) as BL1.
    destruct (span (one_of [32; 9]) b) as [s1 b1]. cbn [fst snd] in *. subst b.
    destruct (exact_char _ _ _ _ 36 A2) as [(b2 & r3 & -> & E3 & A3)|(r3 & N3 & E3 & A3)];
      rewrite E3; cbn [bind].
    2:{ rewrite (At_loc _ _ _ _ A3).
        replace ((pre ++ 35 :: dir) ++ s1) with (pre ++ 35 :: dir ++ s1) in *
          by (rewrite <- app_assoc; reflexivity).
        replace (35 :: dir ++ s1 ++ b1) with ((35 :: dir ++ s1) ++ b1) in *
          by (cbn [app]; rewrite <- app_assoc; reflexivity).
        apply (adv_fail src W file pre _ b1 p _ EDefine r3 A3); [exact SR| |left; discriminate].
        eapply src_range, SR. }
    destruct (extract_at file isIdentifierChar _ _ _ A3) as (r4 & E4 & A4). rewrite E4. cbn [bind].
    pose proof (span_app isIdentifierChar b2) as S4. pose proof (span_true isIdentifierChar b2) as T4.
    destruct (span isIdentifierChar b2) as [id b3]. cbn [fst snd] in *. subst b2.
    assert (Q4 : pre ++ (35 :: dir ++ s1 ++ 36 :: id) = (((pre ++ 35 :: dir) ++ s1) ++ [36]) ++ id)
      by (rewrite <- !app_assoc; cbn [app]; rewrite <- ?app_assoc; reflexivity).
    assert (R4 : 35 :: dir ++ s1 ++ 36 :: id ++ b3 = (35 :: dir ++ s1 ++ 36 :: id) ++ b3)
      by (cbn [app]; rewrite <- !app_assoc; reflexivity).
    rewrite <- Q4 in A4. rewrite R4 in *. clear Q4 R4.
    destruct id as [|i0 id'] eqn:ID.
    { rewrite (At_loc _ _ _ _ A4).
      apply (adv_fail src W file pre _ b3 p _ EDefine r4 A4); [exact SR| |left; discriminate].
      eapply src_range, SR. }
    rewrite <- ID in *. assert (IDT : isIdentifier id = true).
    { unfold isIdentifier. rewrite ID at 1. apply forallb_forall. now apply Forall_forall. }
    clear i0 id' ID. set (x4 := 35 :: dir ++ s1 ++ 36 :: id) in *.
    assert (X4 : x4 <> []) by discriminate.
    assert (D4 : x4 = str "#define" ++ s1 ++ 36 :: id) by (unfold x4; rewrite DIR; reflexivity).
    clearbody x4.
    destruct (skip_at file [32; 9] _ _ _ A4) as (r5 & E5 & A5). rewrite E5. cbn [bind].
    pose proof (span_app (one_of [32; 9]) b3) as S5. pose proof (span_blank b3) as BL2.
    destruct (span (one_of [32; 9]) b3) as [s2 b4]. cbn [fst snd] in *. subst b3.
    destruct (eol_at file _ _ _ A5) as (r6 & E6 & A6). rewrite E6. cbn [bind].
    pose proof (eol_app b4) as S6. pose proof (eol_no_break b4) as NB6. destruct (eol b4) as [v d]. cbn [fst snd] in *. subst b4.
    pose proof (cut_blank_app v) as CB. pose proof (cut_blank_word v NB6) as WV.
    destruct (cut_blank v) as [v1 excess]. cbn [fst snd] in CB. subst v.
    replace (((pre ++ x4) ++ s2) ++ v1 ++ excess) with ((pre ++ x4 ++ s2 ++ v1) ++ excess) in A6
      by (rewrite <- !app_assoc; reflexivity).
    assert (OK : ok_text (r_view r6) excess).
    { intros V6 I. pose proof (view_eol _ _ _ _ E6) as VW. rewrite VW in V6.
      apply (at_ok _ _ _ _ A5 V6). apply in_or_app. left. apply in_or_app. now right. }
    destruct (put_back file _ excess d r6 A6 OK) as (r7 & Q & A7). rewrite Q. cbn [bind adv].
    exists r7, (x4 ++ s2 ++ v1), (excess ++ d), [].
    split; [rewrite <- !app_assoc; reflexivity|].
    split; [destruct x4; [contradiction|discriminate]|]. split; [exact A7|].
    split; [reflexivity|]. split; [reflexivity|]. split; [reflexivity|].
    split; [right; exists id, v1; split; [|reflexivity]|].
    { exists [], s1, s2, (excess ++ d). split; [|auto]. rewrite D4.
      rewrite <- !app_assoc. cbn [app]. reflexivity. }
    split; [cbn; now rewrite app_nil_r|constructor]. }
  destruct (text_eqb dir (str "include")).
  2:{ left. rewrite (At_loc _ _ _ _ A1).
      apply (adv_fail src W file pre (35 :: dir) b p _ _ r1 A1); [exact SR| |left; discriminate].
      eapply (src_range src file pre (35 :: dir)), SR. }
  destruct (skip_at file [32; 9] _ _ _ A1) as (r2 & E2 & A2). rewrite E2. cbn [bind].
  pose proof (span_app (one_of [32; 9]) b) as S2. destruct (span (one_of [32; 9]) b) as [s1 b1].
  cbn [fst snd] in *. subst b.
  assert (Q2 : (pre ++ 35 :: dir) ++ s1 = pre ++ (35 :: dir ++ s1))
    by (rewrite <- !app_assoc; reflexivity).
  assert (R2 : 35 :: dir ++ s1 ++ b1 = (35 :: dir ++ s1) ++ b1)
    by (cbn [app]; rewrite <- !app_assoc; reflexivity).
  rewrite Q2 in A2. rewrite R2 in *. clear Q2 R2.
  set (x2 := 35 :: dir ++ s1) in *. assert (X2 : x2 <> []) by discriminate. clearbody x2.
  destruct (exact_char _ _ _ _ 34 A2) as [(b2 & r3 & -> & E3 & A3)|(r3 & N3 & E3 & A3)];
    rewrite E3; cbn [bind negb].
  2:{ left. rewrite (At_loc _ _ _ _ A3).
      apply (adv_fail src W file pre x2 b1 p _ EInclude r3 A3); [exact SR| |left; exact X2].
      eapply src_range, SR. }
  set (f := fun c => negb (c =? 34) && negb (c =? cr) && negb (c =? nl)).
  destruct (extract_at file f _ _ _ A3) as (r4 & E4 & A4). rewrite E4. cbn [bind].
  pose proof (span_app f b2) as S4. destruct (span f b2) as [path b3]. cbn [fst snd] in *. subst b2.
  rewrite (At_loc _ _ _ _ A3), (At_loc _ _ _ _ A4).
  assert (Q4 : pre ++ (x2 ++ 34 :: path) = ((pre ++ x2) ++ [34]) ++ path)
    by (rewrite <- !app_assoc; reflexivity).
  destruct (exact_char _ _ _ _ 34 A4) as [(b4 & r5 & -> & E5 & A5)|(r5 & N5 & E5 & A5)];
    rewrite E5; cbn [bind negb]; rewrite (At_loc _ _ _ _ A5); rewrite <- Q4 in *.
  2:{ left. replace (x2 ++ 34 :: path ++ b3) with ((x2 ++ 34 :: path) ++ b3) in *
        by (rewrite <- !app_assoc; reflexivity).
      apply (adv_fail src W file pre _ b3 p _ EInclude r5 A5); [exact SR| |left; destruct x2; [contradiction|discriminate]].
      eapply src_range, SR. }
  destruct (expandDollarVars (w_rounds W) (p_defs p) path) as [[path1 w]|] eqn:X; cbn [bind].
  2:{ left. exists path. exact X. }
  right.
  replace ((pre ++ x2 ++ 34 :: path) ++ [34]) with (pre ++ (x2 ++ 34 :: path ++ [34])) in *
    by (rewrite <- !app_assoc; cbn [app]; rewrite <- ?app_assoc; reflexivity).
  replace (x2 ++ 34 :: path ++ 34 :: b4) with ((x2 ++ 34 :: path ++ [34]) ++ b4) in *
    by (rewrite <- !app_assoc; cbn [app]; rewrite <- ?app_assoc; reflexivity).
  set (rgv := (loc_at file ((pre ++ x2) ++ [34]), loc_at file (pre ++ x2 ++ 34 :: path))).
  assert (GV : good_range src rgv).
  { unfold rgv. rewrite Q4. apply (src_range src file _ path (34 :: b4)).
    rewrite <- !app_assoc. rewrite <- !app_assoc in SR. cbn [app] in SR.
    rewrite <- !app_assoc in SR. exact SR. }
  destruct (warnings_spec src w rgv p GV) as [W1 W2].
  eexists _, _, _. split; [|split; [|reflexivity]].
  - eapply adv_reported; [exact W1|exact W2|]. cbn [adv].
    exists r5, (x2 ++ 34 :: path ++ [34]), b4, [].
    split; [reflexivity|]. split; [destruct x2; [contradiction|discriminate]|]. split; [exact A5|].
    split; [reflexivity|]. split; [reflexivity|]. split; [reflexivity|]. split; [now left|].
    split; [cbn; now rewrite app_nil_r|constructor].
  - eapply src_range, SR.
Qed.
