(** The reader follows the text: what it delivers and where it says it is (C06). *)
From Coq Require Import ZArith List Bool Lia String.
From Verif Require Import ParserModel.
Import ListNotations.
Local Open Scope Z_scope.
Local Open Scope list_scope.

(** ** Specification: line and column of the end of a text, by scanning it. *)
Definition advance (b : Z) (p : Z * Z) : Z * Z :=
  if b =? 10 then (fst p + 1, 0) else (fst p, snd p + 1).
Definition position (t : text) : Z * Z := fold_left (fun p b => advance b p) t (0, 0).
(** Number of line breaks, and characters after the last one. *)
Fixpoint breaks (t : text) : Z :=
  match t with [] => 0 | b :: r => (if b =? 10 then 1 else 0) + breaks r end.

Lemma position_snoc t b : position (t ++ [b]) = advance b (position t).
Proof. unfold position. now rewrite fold_left_app. Qed.

(** Columns at which the line breaks of the text are, the last first. *)
Fixpoint columns (p : Z * Z) (acc : list Z) (t : text) : list Z :=
  match t with
  | [] => acc
  | b :: r => columns (advance b p) (if b =? 10 then snd p :: acc else acc) r
  end.
Lemma columns_app t u : forall p acc,
  columns p acc (t ++ u) = columns (fold_left (fun p b => advance b p) t p) (columns p acc t) u.
Proof. induction t as [|b r IH]; intros p acc; cbn [app columns fold_left]; [reflexivity|apply IH]. Qed.
Definition cols_of (t : text) : list Z := columns (0, 0) [] t.
Lemma cols_snoc t b :
  cols_of (t ++ [b]) = if b =? 10 then snd (position t) :: cols_of t else cols_of t.
Proof. unfold cols_of, position. rewrite columns_app. reflexivity. Qed.

Lemma cols_length t : Z.of_nat (List.length (cols_of t)) = fst (position t).
Proof.
  induction t as [|b t IH] using rev_ind; [reflexivity|].
  rewrite cols_snoc, position_snoc. unfold advance.
  destruct (b =? 10); cbn [fst List.length]; lia.
Qed.
Lemma position_bounds t :
  0 <= fst (position t) /\ 0 <= snd (position t) /\
  fst (position t) + snd (position t) <= Z.of_nat (List.length t).
Proof.
  induction t as [|b t IH] using rev_ind; [cbn; lia|].
  rewrite position_snoc, app_length. unfold advance. cbn [List.length].
  destruct (b =? 10); cbn [fst snd]; lia.
Qed.

(** ** The reader is at [pre] in [pre ++ rest]. *)
Definition ok_text (view : bool) (t : text) : Prop := view = true -> ~ In 255 t.
(** Sizes fit a size_t. *)
Definition fits (t : text) : Prop := Z.of_nat (List.length t) < 2 ^ 64.

Record At (file pre rest : text) (r : reader) : Prop := {
  at_rest : r_accum r ++ r_stream r = rest;
  at_ok : ok_text (r_view r) rest;
  at_loc : r_loc r = Loc file (fst (position pre)) (snd (position pre));
  at_cols : r_cols r = cols_of pre;
  at_fits : fits (pre ++ rest) }.

Lemma At_new view file t : ok_text view t -> fits t -> At file [] t (new_reader view file t).
Proof. intros H K. split; try reflexivity; assumption. Qed.

Lemma At_rem file pre rest r : At file pre rest r -> rem r = List.length rest.
Proof. intros [H _ _ _ _]. subst rest. unfold rem. now rewrite app_length. Qed.

Lemma ok_text_tl v c t : ok_text v (c :: t) -> ok_text v t.
Proof. intros H V I. apply (H V). now right. Qed.
Lemma ok_text_app_r v a b : ok_text v (a ++ b) -> ok_text v b.
Proof. intros H V I. apply (H V). apply in_or_app. now right. Qed.

Lemma loc_add_at file pre c :
  loc_add c (Loc file (fst (position pre)) (snd (position pre))) (cols_of pre)
  = (Loc file (fst (position (pre ++ [c]))) (snd (position (pre ++ [c]))), cols_of (pre ++ [c])).
Proof.
  rewrite position_snoc, cols_snoc. unfold loc_add, advance, nl.
  destruct (c =? 10); reflexivity.
Qed.

Lemma get_some file pre c rest r : At file pre (c :: rest) r ->
  exists r', getChar r = (Some c, r') /\ At file (pre ++ [c]) rest r'.
Proof.
  intros [H O L C F]. unfold getChar, getNextStreamByte. rewrite L, C.
  assert (F' : fits ((pre ++ [c]) ++ rest)) by (rewrite <- app_assoc; exact F).
  destruct (r_accum r) as [|b a] eqn:A; cbn [app] in H.
  - rewrite H.
    replace (r_view r && (c =? 255)) with false.
    2:{ destruct (r_view r) eqn:V; [|reflexivity]. destruct (Z.eqb_spec c 255); [|reflexivity].
        exfalso. apply (O eq_refl). now left. }
    rewrite loc_add_at. eexists. split; [reflexivity|].
    split; cbn [r_accum r_stream r_view r_loc r_cols]; try reflexivity; [|exact F'].
    eapply ok_text_tl, O.
  - injection H as -> <-. rewrite loc_add_at. eexists. split; [reflexivity|].
    split; cbn [r_accum r_stream r_view r_loc r_cols]; try reflexivity; [|exact F'].
    eapply ok_text_tl, O.
Qed.
Lemma get_none file pre r : At file pre [] r ->
  exists r', getChar r = (None, r') /\ At file pre [] r'.
Proof.
  intros [H O L C F]. unfold getChar, getNextStreamByte.
  apply app_eq_nil in H as [A S]. rewrite A, S. eexists. split; [reflexivity|].
  split; cbn [r_accum r_stream r_view r_loc r_cols]; try assumption; reflexivity.
Qed.

Lemma remove_snoc file pre c : fits (pre ++ [c]) ->
  loc_remove c (Loc file (fst (position (pre ++ [c]))) (snd (position (pre ++ [c]))))
    (cols_of (pre ++ [c]))
  = Some (Loc file (fst (position pre)) (snd (position pre)), cols_of pre).
Proof.
  intros F. pose proof (position_bounds pre) as B. pose proof (cols_length pre) as N.
  unfold fits in F. rewrite app_length in F. cbn [List.length] in F.
  rewrite position_snoc, cols_snoc. unfold loc_remove, advance, nl, u64.
  destruct (c =? 10); cbn [fst snd lc_line lc_col lc_file].
  - rewrite Z.mod_small by lia. cbn [List.length].
    replace (fst (position pre) + 1 - 1) with (fst (position pre)) by lia.
    destruct (Z.ltb_spec (fst (position pre)) (Z.of_nat (S (List.length (cols_of pre))))); [|lia].
    replace (Z.to_nat (Z.of_nat (S (List.length (cols_of pre))) - 1 - fst (position pre)))
      with 0%nat by lia.
    reflexivity.
  - rewrite Z.mod_small by lia.
    replace (snd (position pre) + 1 - 1) with (snd (position pre)) by lia. reflexivity.
Qed.
Lemma fits_app_l a b : fits (a ++ b) -> fits a.
Proof. unfold fits. rewrite app_length. lia. Qed.
Lemma remove_app file cs : forall pre, fits (pre ++ cs) ->
  locs_remove cs (Loc file (fst (position (pre ++ cs))) (snd (position (pre ++ cs))))
    (cols_of (pre ++ cs))
  = Some (Loc file (fst (position pre)) (snd (position pre)), cols_of pre).
Proof.
  induction cs as [|c cs IH]; intros pre F; cbn [locs_remove].
  - now rewrite app_nil_r.
  - replace (pre ++ c :: cs) with ((pre ++ [c]) ++ cs) in * by (rewrite <- app_assoc; reflexivity).
    rewrite (IH (pre ++ [c]) F). cbn [bind]. apply remove_snoc. eapply fits_app_l, F.
Qed.
Lemma put_back file pre cs rest r : At file (pre ++ cs) rest r -> ok_text (r_view r) cs ->
  exists r', putBackChars cs r = Some r' /\ At file pre (cs ++ rest) r'.
Proof.
  intros [H O L C F] K. unfold putBackChars. rewrite L, C.
  assert (F' : fits (pre ++ cs)) by (eapply fits_app_l, F).
  rewrite (remove_app file cs pre F'). cbn [bind]. eexists. split; [reflexivity|].
  split; cbn [r_accum r_stream r_view r_loc r_cols]; try reflexivity.
  - rewrite <- app_assoc. now rewrite H.
  - intros V I. apply in_app_or in I as [I|I]; [exact (K V I)|exact (O V I)].
  - rewrite app_assoc. exact F.
Qed.
Lemma view_get r b r' : getChar r = (b, r') -> r_view r' = r_view r.
Proof.
  unfold getChar, getNextStreamByte. intros E.
  destruct (r_accum r) as [|x a].
  - destruct (r_stream r) as [|x t]; [now injection E as <- <-|].
    destruct (r_view r && (x =? 255)); [now injection E as <- <-|].
    destruct (loc_add x (r_loc r) (r_cols r)). now injection E as <- <-.
  - destruct (loc_add x (r_loc r) (r_cols r)). now injection E as <- <-.
Qed.
Lemma view_put cs r r' : putBackChars cs r = Some r' -> r_view r' = r_view r.
Proof.
  unfold putBackChars. destruct (locs_remove cs (r_loc r) (r_cols r)) as [[l c]|]; [|discriminate].
  cbn [bind]. now intros [= <-].
Qed.
Lemma peek_char file pre rest r : At file pre rest r ->
  exists r', peekChar r = Some (hd_error rest, r') /\ At file pre rest r'.
Proof.
  intros A. unfold peekChar. destruct (r_accum r) as [|b a] eqn:E.
  - destruct rest as [|c rest].
    + destruct (get_none _ _ _ A) as (r1 & G & A1). rewrite G. cbn [putBackChar bind].
      eexists. split; [reflexivity|exact A1].
    + destruct (get_some _ _ _ _ _ A) as (r1 & G & A1). rewrite G. cbn [putBackChar].
      destruct (put_back file pre [c] rest r1 A1) as (r2 & P & A2).
      { rewrite (view_get _ _ _ G). intros V [I|[]]. apply (at_ok _ _ _ _ A V). left. exact I. }
      rewrite P. cbn [bind hd_error]. eexists. split; [reflexivity|exact A2].
  - pose proof (at_rest _ _ _ _ A) as H. rewrite E in H. cbn [app] in H. subst rest.
    cbn [hd_error]. eexists. split; [reflexivity|exact A].
Qed.
Lemma put_one file pre c rest r : At file (pre ++ [c]) rest r -> ok_text (r_view r) [c] ->
  exists r', putBackChar (Some c) r = Some r' /\ At file pre (c :: rest) r'.
Proof. apply (put_back file pre [c] rest r). Qed.

Lemma exact_char file pre rest r c : At file pre rest r ->
  (exists rest' r', rest = c :: rest' /\ extractExactChar c r = Some (true, r') /\
     At file (pre ++ [c]) rest' r') \/
  (exists r', hd_error rest <> Some c /\ extractExactChar c r = Some (false, r') /\
     At file pre rest r').
Proof.
  intros A. unfold extractExactChar. destruct (peek_char _ _ _ _ A) as (r1 & P & A1).
  rewrite P. cbn [bind]. destruct rest as [|x rest]; cbn [hd_error is_char].
  - right. exists r1. split; [discriminate|split; [reflexivity|exact A1]].
  - destruct (Z.eqb_spec x c) as [->|N].
    + left. destruct (get_some _ _ _ _ _ A1) as (r2 & G & A2). rewrite G. cbn [snd].
      exists rest, r2. repeat split; try reflexivity; apply A2.
    + right. exists r1. split; [congruence|split; [reflexivity|exact A1]].
Qed.

Lemma span_app f l : fst (span f l) ++ snd (span f l) = l.
Proof.
  induction l as [|c l IH]; [reflexivity|]. cbn [span]. destruct (f c); [|reflexivity].
  destruct (span f l) as [a b]. cbn [fst snd] in *. cbn [app]. now rewrite IH.
Qed.
Lemma span_true f l : Forall (fun c => f c = true) (fst (span f l)).
Proof.
  induction l as [|c l IH]; [constructor|]. cbn [span]. destruct (f c) eqn:E; [|constructor].
  destruct (span f l) as [a b]. cbn [fst] in *. constructor; assumption.
Qed.
Lemma span_stop f l : match snd (span f l) with [] => True | c :: _ => f c = false end.
Proof.
  induction l as [|c l IH]; [exact Logic.I|]. cbn [span]. destruct (f c) eqn:E; [|exact E].
  destruct (span f l) as [a b]. exact IH.
Qed.

Lemma extract_loop_at file pred : forall fuel pre rest r,
  At file pre rest r -> (List.length rest < fuel)%nat ->
  exists r', extract_loop fuel pred r = Some (fst (span pred rest), r') /\
    At file (pre ++ fst (span pred rest)) (snd (span pred rest)) r'.
Proof.
  induction fuel as [|fuel IH]; intros pre rest r A L; [lia|]. cbn [extract_loop].
  destruct rest as [|c rest].
  - destruct (get_none _ _ _ A) as (r1 & G & A1). rewrite G. cbn [span fst snd].
    rewrite app_nil_r. eexists. split; [reflexivity|exact A1].
  - destruct (get_some _ _ _ _ _ A) as (r1 & G & A1). rewrite G. cbn [span].
    destruct (pred c).
    + destruct (IH (pre ++ [c]) rest r1 A1) as (r2 & E & A2); [cbn in L; lia|].
      rewrite E. cbn [bind]. destruct (span pred rest) as [a b]. cbn [fst snd] in *.
      rewrite <- app_assoc in A2. eexists. split; [reflexivity|exact A2].
    + destruct (put_one file pre c rest r1 A1) as (r2 & P & A2).
      { rewrite (view_get _ _ _ G). intros V [I|[]]. apply (at_ok _ _ _ _ A V). left. exact I. }
      rewrite P. cbn [bind fst snd]. rewrite app_nil_r. eexists. split; [reflexivity|exact A2].
Qed.
Lemma extract_at file pred pre rest r : At file pre rest r ->
  exists r', extractWhile pred r = Some (fst (span pred rest), r') /\
    At file (pre ++ fst (span pred rest)) (snd (span pred rest)) r'.
Proof.
  intros A. apply extract_loop_at; [exact A|]. rewrite (At_rem _ _ _ _ A). lia.
Qed.
Lemma skip_loop_at file cs : forall fuel pre rest r,
  At file pre rest r -> (List.length rest < fuel)%nat ->
  exists r', skip_loop fuel cs r = Some (List.length (fst (span (one_of cs) rest)), r') /\
    At file (pre ++ fst (span (one_of cs) rest)) (snd (span (one_of cs) rest)) r'.
Proof.
  induction fuel as [|fuel IH]; intros pre rest r A L; [lia|]. cbn [skip_loop].
  destruct (peek_char _ _ _ _ A) as (r1 & P & A1). rewrite P. cbn [bind].
  destruct rest as [|c rest]; cbn [hd_error span].
  - cbn [fst snd List.length]. rewrite app_nil_r. eexists. split; [reflexivity|exact A1].
  - destruct (one_of cs c).
    + destruct (get_some _ _ _ _ _ A1) as (r2 & G & A2). rewrite G. cbn [snd].
      destruct (IH (pre ++ [c]) rest r2 A2) as (r3 & E & A3); [cbn in L; lia|].
      rewrite E. cbn [bind]. destruct (span (one_of cs) rest) as [a b]. cbn [fst snd] in *.
      rewrite <- app_assoc in A3. eexists. split; [reflexivity|exact A3].
    + cbn [fst snd List.length]. rewrite app_nil_r. eexists. split; [reflexivity|exact A1].
Qed.
Lemma skip_at file cs pre rest r : At file pre rest r ->
  exists r', skipChars cs r = Some (List.length (fst (span (one_of cs) rest)), r') /\
    At file (pre ++ fst (span (one_of cs) rest)) (snd (span (one_of cs) rest)) r'.
Proof. intros A. apply skip_loop_at; [exact A|]. rewrite (At_rem _ _ _ _ A). lia. Qed.

(** The rest of the line, up to a comment. *)
Fixpoint eol (l : text) : text * text :=
  match l with
  | [] => ([], [])
  | c :: r =>
    if (c =? cr) || (c =? nl) then ([], l)
    else if (c =? 47) && (match r with c2 :: _ => (c2 =? 47) || (c2 =? 42) | [] => false end)
    then ([], l)
    else let '(a, b) := eol r in (c :: a, b)
  end.
Lemma eol_app l : fst (eol l) ++ snd (eol l) = l.
Proof.
  induction l as [|c l IH]; [reflexivity|]. cbn [eol].
  destruct ((c =? cr) || (c =? nl)); [reflexivity|].
  destruct ((c =? 47) && _); [reflexivity|].
  destruct (eol l) as [a b]. cbn [fst snd] in *. cbn [app]. now rewrite IH.
Qed.
Lemma eol_loop_at file : forall fuel pre rest r,
  At file pre rest r -> (List.length rest < fuel)%nat ->
  exists r', eol_loop fuel r = Some (fst (eol rest), r') /\
    At file (pre ++ fst (eol rest)) (snd (eol rest)) r'.
Proof.
  induction fuel as [|fuel IH]; intros pre rest r A L; [lia|]. cbn [eol_loop].
  destruct rest as [|c rest].
  - destruct (get_none _ _ _ A) as (r1 & G & A1). rewrite G. cbn [eol fst snd].
    rewrite app_nil_r. eexists. split; [reflexivity|exact A1].
  - destruct (get_some _ _ _ _ _ A) as (r1 & G & A1). rewrite G. cbn [eol].
    assert (V : ok_text (r_view r1) [c]).
    { rewrite (view_get _ _ _ G). intros V [I|[]]. apply (at_ok _ _ _ _ A V). left. exact I. }
    destruct ((c =? cr) || (c =? nl)).
    + cbn [bind]. destruct (put_one file pre c rest r1 A1 V) as (r2 & P & A2).
      rewrite P. cbn [bind fst snd]. rewrite app_nil_r. eexists. split; [reflexivity|exact A2].
    + destruct (c =? 47) eqn:E47.
      * destruct (peek_char _ _ _ _ A1) as (r2 & P & A2). rewrite P. cbn [bind].
        assert (V2 : ok_text (r_view r2) [c]).
        { apply Z.eqb_eq in E47. intros _ [I|[]]. subst c. discriminate. }
        assert (D : (is_char (hd_error rest) 47 || is_char (hd_error rest) 42)
                    = match rest with c2 :: _ => (c2 =? 47) || (c2 =? 42) | [] => false end)
          by (destruct rest; reflexivity).
        rewrite D. cbn [andb]. destruct (match rest with [] => false | c2 :: _ => _ end); cbn [negb].
        -- destruct (put_one file pre c rest r2 A2 V2) as (r3 & Q & A3).
           rewrite Q. cbn [bind fst snd]. rewrite app_nil_r. eexists. split; [reflexivity|exact A3].
        -- destruct (IH (pre ++ [c]) rest r2 A2) as (r3 & F & A3); [cbn in L; lia|].
           rewrite F. cbn [bind]. destruct (eol rest) as [a b]. cbn [fst snd] in *.
           rewrite <- app_assoc in A3. eexists. split; [reflexivity|exact A3].
      * cbn [andb bind]. destruct (IH (pre ++ [c]) rest r1 A1) as (r3 & F & A3); [cbn in L; lia|].
        rewrite F. cbn [bind]. destruct (eol rest) as [a b]. cbn [fst snd] in *.
        rewrite <- app_assoc in A3. eexists. split; [reflexivity|exact A3].
Qed.
Lemma eol_at file pre rest r : At file pre rest r ->
  exists r', extractToEol r = Some (fst (eol rest), r') /\
    At file (pre ++ fst (eol rest)) (snd (eol rest)) r'.
Proof. intros A. apply eol_loop_at; [exact A|]. rewrite (At_rem _ _ _ _ A). lia. Qed.
