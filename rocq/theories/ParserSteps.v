(** Each part of the parser, seen on the text that the reader has yet to deliver. *)
From Coq Require Import ZArith List Bool Lia String.
From Verif Require Import ParserModel ParserReader.
Import ListNotations.
Local Open Scope Z_scope.
Local Open Scope list_scope.

Definition loc_at (file pre : text) : loc := Loc file (fst (position pre)) (snd (position pre)).
Lemma At_loc file pre rest r : At file pre rest r -> r_loc r = loc_at file pre.
Proof. intros A. apply (at_loc _ _ _ _ A). Qed.
Lemma loc_at_nil f : loc_at f [] = Loc f 0 0.
Proof. reflexivity. Qed.

(** ** Specification of the reports.  [src f t]: the text of the source called [f] is [t]. *)
Implicit Type src : text -> text -> Prop.
Section GOOD.
Variable src : text -> text -> Prop.
(** The range is a piece of a source, or nowhere (the start of a file that was not entered). *)
Definition good_range (rg : range) : Prop :=
  (exists f a b c, src f (a ++ b ++ c) /\ rg = (loc_at f a, loc_at f (a ++ b))) \/
  (exists f, rg = (Loc f 0 0, Loc f 0 0)).
Definition expanded (s t : text) : Prop := exists k d w, expandDollarVars k d s = Some (t, w).
Definition good_event (e : pevent) : Prop :=
  match e with
  | PHeader rg name =>
      exists f a c, src f (a ++ (60 :: name ++ [62]) ++ c) /\ isIdentifier name = true /\
        rg = (loc_at f a, loc_at f (a ++ 60 :: name ++ [62]))
  | POpcode rn rv name value =>
      exists f a n v c, src f (a ++ n ++ [61] ++ v ++ c) /\
        rn = (loc_at f a, loc_at f (a ++ n)) /\
        rv = (loc_at f (a ++ n ++ [61]), loc_at f (a ++ n ++ [61] ++ v)) /\
        isIdentifier name = true /\ expanded n name /\
        (if text_eqb name (str "base64data") then value = v else expanded v value)
  | PError rg _ | PWarning rg => good_range rg
  | PBlock _ _ => True
  end.
End GOOD.

Lemma src_range (src : text -> text -> Prop) f a b c : src f (a ++ b ++ c) ->
  good_range src (loc_at f a, loc_at f (a ++ b)).
Proof. intros S. left. exists f, a, b, c. split; [exact S|reflexivity]. Qed.

(** ** Blank space and comments *)
Fixpoint line_end (l : text) : text * text :=
  match l with
  | [] => ([], [])
  | c :: r => if (c =? cr) || (c =? nl) then ([c], r) else let '(a, b) := line_end r in (c :: a, b)
  end.
Lemma line_end_app l : fst (line_end l) ++ snd (line_end l) = l.
Proof.
  induction l as [|c l IH]; [reflexivity|]. cbn [line_end].
  destruct ((c =? cr) || (c =? nl)); [reflexivity|].
  destruct (line_end l) as [a b]. cbn [fst snd app] in *. now rewrite IH.
Qed.
Lemma line_comment_at file : forall fuel pre rest r,
  At file pre rest r -> (List.length rest < fuel)%nat ->
  exists r', line_comment fuel r = Some r' /\
    At file (pre ++ fst (line_end rest)) (snd (line_end rest)) r'.
Proof.
  induction fuel as [|fuel IH]; intros pre rest r A L; [lia|]. cbn [line_comment].
  destruct rest as [|c rest].
  - destruct (get_none _ _ _ A) as (r1 & G & A1). rewrite G. cbn [line_end fst snd].
    rewrite app_nil_r. eexists. split; [reflexivity|exact A1].
  - destruct (get_some _ _ _ _ _ A) as (r1 & G & A1). rewrite G. cbn [line_end].
    destruct ((c =? cr) || (c =? nl)).
    + eexists. split; [reflexivity|exact A1].
    + destruct (IH (pre ++ [c]) rest r1 A1) as (r2 & E & A2); [cbn in L; lia|].
      rewrite E. destruct (line_end rest) as [a b]. cbn [fst snd] in *.
      rewrite <- app_assoc in A2. eexists. split; [reflexivity|exact A2].
Qed.

Lemma block_comment_at file : forall fuel pre c2 rest r,
  At file pre rest r -> (List.length rest + 1 < fuel)%nat \/ (c2 = None /\ (0 < fuel)%nat) ->
  exists x rest' b r', block_comment fuel c2 r = Some (b, r') /\ rest = x ++ rest' /\
    At file (pre ++ x) rest' r' /\ (b = false -> c2 = None \/ rest' = []).
Proof.
  induction fuel as [|fuel IH]; intros pre c2 rest r A L; [lia|]. cbn [block_comment].
  destruct c2 as [c1|].
  2:{ exists [], rest, false, r. rewrite app_nil_r. repeat split; try apply A. auto. }
  destruct L as [L|[L _]]; [|discriminate].
  destruct rest as [|c rest].
  - destruct (get_none _ _ _ A) as (r1 & G & A1). rewrite G. cbn [is_char]. rewrite andb_false_r.
    destruct (IH pre None [] r1 A1) as (x & rest' & b & r' & E & X & A' & B); [right; split; [reflexivity|cbn in L; lia]|].
    symmetry in X. apply app_eq_nil in X as [-> ->].
    exists [], [], b, r'. repeat split; try assumption; try apply A'. auto.
  - destruct (get_some _ _ _ _ _ A) as (r1 & G & A1). rewrite G. cbn [is_char].
    destruct ((c1 =? 42) && (c =? 47)).
    + exists [c], rest, true, r1. repeat split; try apply A1. discriminate.
    + destruct (IH (pre ++ [c]) (Some c) rest r1 A1) as (x & rest' & b & r' & E & X & A' & B);
        [left; cbn in L; lia|].
      exists (c :: x), rest', b, r'. rewrite <- app_assoc in A'. repeat split; try apply A'.
      * exact E.
      * cbn [app]. now rewrite X.
      * intros B0. destruct (B B0) as [D|D]; [discriminate|auto].
Qed.

Lemma comment_type_at file pre rest r : At file pre rest r ->
  exists ty r', getCommentType r = Some (ty, r') /\ At file pre rest r' /\
    ((ty = 0 /\ ~ (exists t, rest = 47 :: 47 :: t \/ rest = 47 :: 42 :: t)) \/
     (ty = 1 /\ exists t, rest = 47 :: 47 :: t) \/ (ty = 2 /\ exists t, rest = 47 :: 42 :: t)).
Proof.
  intros A. unfold getCommentType. destruct (peek_char _ _ _ _ A) as (r1 & P & A1).
  rewrite P. cbn [bind]. destruct rest as [|c rest]; cbn [hd_error is_char].
  - cbn [negb]. exists 0, r1. split; [reflexivity|split; [exact A1|left]].
    split; [reflexivity|]. intros (t & [H|H]); discriminate.
  - destruct (Z.eqb_spec c 47) as [->|N]; cbn [negb].
    2:{ exists 0, r1. split; [reflexivity|split; [exact A1|left]].
        split; [reflexivity|]. intros (t & [H|H]); congruence. }
    destruct (get_some _ _ _ _ _ A1) as (r2 & G & A2). rewrite G. cbn [snd].
    destruct (peek_char _ _ _ _ A2) as (r3 & P2 & A3). rewrite P2. cbn [bind].
    destruct (put_one file pre 47 rest r3 A3) as (r4 & Q & A4).
    { intros _ [I|[]]. discriminate. }
    rewrite Q. cbn [bind]. eexists _, r4. split; [reflexivity|split; [exact A4|]].
    destruct rest as [|c2 rest]; cbn [hd_error is_char].
    + left. split; [reflexivity|]. intros (t & [H|H]); discriminate.
    + destruct (Z.eqb_spec c2 47) as [->|N2]; [right; left; eauto|].
      destruct (Z.eqb_spec c2 42) as [->|N3]; [right; right; eauto|].
      left. split; [reflexivity|]. intros (t & [H|H]); congruence.
Qed.

Definition same_but_out (p p' : parser) : Prop :=
  p_files p' = p_files p /\ p_paths p' = p_paths p /\ p_dir p' = p_dir p /\ p_defs p' = p_defs p /\
  p_header p' = p_header p /\ p_ops p' = p_ops p.
Lemma sbo_refl p : same_but_out p p.
Proof. repeat split. Qed.
Lemma sbo_trans p q s : same_but_out p q -> same_but_out q s -> same_but_out p s.
Proof. intros (A & B & C & D & E & F) (A' & B' & C' & D' & E' & F'). repeat split; congruence. Qed.
Lemma sbo_emit e p : same_but_out p (emit e p).
Proof. repeat split. Qed.
(** Only problems were reported. *)
Definition problem (e : pevent) : Prop := match e with PError _ _ | PWarning _ => True | _ => False end.
Definition reports (src : text -> text -> Prop) (p p' : parser) : Prop :=
  exists evs, p_out p' = p_out p ++ evs /\ Forall (good_event src) evs /\ Forall problem evs.
Lemma reports_refl src p : reports src p p.
Proof. exists []. rewrite app_nil_r. repeat split; constructor. Qed.
Lemma reports_trans src p q s : reports src p q -> reports src q s -> reports src p s.
Proof.
  intros (e & E & G & P) (e' & E' & G' & P'). exists (e ++ e').
  rewrite E', E, app_assoc. split; [reflexivity|split; apply Forall_app; auto].
Qed.
Lemma reports_error src p rg e : good_range src rg -> reports src p (emit (PError rg e) p).
Proof.
  intros H. exists [PError rg e]. split; [reflexivity|].
  split; (constructor; [|constructor]); [exact H|exact Logic.I].
Qed.
Lemma reports_warning src p rg : good_range src rg -> reports src p (emit (PWarning rg) p).
Proof.
  intros H. exists [PWarning rg]. split; [reflexivity|].
  split; (constructor; [|constructor]); [exact H|exact Logic.I].
Qed.
Lemma warnings_spec src n rg p : good_range src rg ->
  same_but_out p (warnings n rg p) /\ reports src p (warnings n rg p).
Proof.
  intros H. unfold warnings. induction n as [|n [IH1 IH2]]; cbn [Nat.iter].
  - split; [apply sbo_refl|apply reports_refl].
  - split.
    + eapply sbo_trans; [exact IH1|apply sbo_emit].
    + eapply reports_trans; [exact IH2|]. apply reports_warning, H.
Qed.

Lemma skip_comment_at src file p pre rest r : At file pre rest r -> src file (pre ++ rest) ->
  exists b x rest' p' r', skipComment p r = Some (b, p', r') /\ rest = x ++ rest' /\
    At file (pre ++ x) rest' r' /\ same_but_out p p' /\ reports src p p' /\
    (b = true -> x <> []) /\
    (b = false -> x = [] /\ p' = p /\ ~ (exists t, rest = 47 :: 47 :: t \/ rest = 47 :: 42 :: t)).
Proof.
  intros A SR. unfold skipComment.
  destruct (comment_type_at _ _ _ _ A) as (ty & r0 & E & A0 & H). rewrite E. cbn [bind].
  destruct H as [(-> & N)|H].
  { cbn [Z.eqb]. exists false, [], rest, p, r0. rewrite app_nil_r.
    split; [reflexivity|split; [reflexivity|split; [exact A0|]]].
    split; [apply sbo_refl|split; [apply reports_refl|split; [discriminate|auto]]]. }
  assert (K : exists c t, rest = 47 :: c :: t) by (destruct H as [(_ & t & ->)|(_ & t & ->)]; eauto).
  destruct K as (c & t & ->).
  destruct (get_some _ _ _ _ _ A0) as (r1 & G1 & A1). rewrite G1. cbn [snd].
  destruct (get_some _ _ _ _ _ A1) as (r2 & G2 & A2). rewrite G2. cbn [snd].
  rewrite <- app_assoc in A2. cbn [app] in A2.
  destruct H as [(-> & _)|(-> & _)].
  - cbn [Z.eqb Pos.eqb].
    destruct (line_comment_at file (S (rem r2)) _ _ _ A2) as (r3 & L & A3).
    { rewrite (At_rem _ _ _ _ A2). lia. }
    rewrite L. cbn [bind]. exists true, (47 :: c :: fst (line_end t)), (snd (line_end t)), p, r3.
    split; [reflexivity|]. split; [cbn [app]; now rewrite line_end_app|].
    split; [rewrite <- app_assoc in A3; exact A3|].
    split; [apply sbo_refl|split; [apply reports_refl|split; [discriminate|discriminate]]].
  - cbn [Z.eqb Pos.eqb].
    assert (K : exists b3 y t' r3, getChar r2 = (b3, r3) /\ t = y ++ t' /\
              At file (pre ++ 47 :: c :: y) t' r3 /\ (b3 = None -> t = [])).
    { destruct t as [|c3 t].
      - destruct (get_none _ _ _ A2) as (r3 & G & A3). exists None, [], [], r3. auto.
      - destruct (get_some _ _ _ _ _ A2) as (r3 & G & A3). exists (Some c3), [c3], t, r3.
        rewrite <- app_assoc in A3. repeat split; try assumption; try apply A3. discriminate. }
    destruct K as (b3 & y & t' & r3 & G3 & T & A3 & _). rewrite G3. subst t.
    destruct (block_comment_at file (S (S (rem r3))) _ b3 _ _ A3) as (x & rest' & b & r4 & B & X & A4 & _).
    { rewrite (At_rem _ _ _ _ A3). destruct b3; [left; lia|right; split; [reflexivity|lia]]. }
    rewrite B. cbn [bind]. subst t'.
    assert (RW : pre ++ 47 :: c :: y ++ x ++ rest' = pre ++ (47 :: c :: y ++ x) ++ rest')
      by (cbn [app]; now rewrite <- app_assoc).
    replace ((pre ++ 47 :: c :: y) ++ x) with (pre ++ 47 :: c :: y ++ x) in A4
      by (rewrite <- app_assoc; reflexivity).
    destruct b.
    + exists true, (47 :: c :: y ++ x), rest', p, r4. split; [reflexivity|].
      split; [cbn [app]; now rewrite <- app_assoc|]. split; [exact A4|].
      split; [apply sbo_refl|split; [apply reports_refl|split; [discriminate|discriminate]]].
    + eexists true, (47 :: c :: y ++ x), rest', _, r4. split; [reflexivity|].
      split; [cbn [app]; now rewrite <- app_assoc|]. split; [exact A4|].
      split; [apply sbo_emit|]. split; [|split; [discriminate|discriminate]].
      apply reports_error. rewrite (At_loc _ _ _ _ A0), (At_loc _ _ _ _ A4).
      rewrite RW in SR. eapply src_range, SR.
Qed.

(** Nothing to skip at the start of the text. *)
Definition no_blank (t : text) : Prop :=
  match t with
  | [] => True
  | c :: t' => one_of [32; 9; cr; nl] c = false /\
      ~ (exists u, t = 47 :: 47 :: u \/ t = 47 :: 42 :: u)
  end.
Lemma skip_blank_at src file : forall fuel p pre rest r,
  At file pre rest r -> src file (pre ++ rest) -> (List.length rest < fuel)%nat ->
  exists x rest' p' r', skip_blank fuel p r = Some (p', r') /\ rest = x ++ rest' /\
    At file (pre ++ x) rest' r' /\ same_but_out p p' /\ reports src p p' /\ no_blank rest'.
Proof.
  induction fuel as [|fuel IH]; intros p pre rest r A SR L; [lia|]. cbn [skip_blank].
  destruct (skip_at file [32; 9; cr; nl] _ _ _ A) as (r1 & E & A1). rewrite E. cbn [bind].
  pose proof (span_app (one_of [32; 9; cr; nl]) rest) as SA.
  pose proof (span_stop (one_of [32; 9; cr; nl]) rest) as SS.
  destruct (span (one_of [32; 9; cr; nl]) rest) as [a b]. cbn [fst snd] in *.
  assert (S1 : src file ((pre ++ a) ++ b)) by (rewrite <- app_assoc, SA; exact SR).
  destruct a as [|c a]; cbn [List.length].
  - cbn [app] in SA. subst b. rewrite app_nil_r in A1.
    destruct (skip_comment_at src file p _ _ _ A1 SR) as
      (m & x & rest' & p' & r' & F & X & A2 & SB & RP & T1 & T2).
    rewrite F. cbn [bind]. destruct m.
    + assert (S2 : src file ((pre ++ x) ++ rest')) by (rewrite <- app_assoc, <- X; exact SR).
      destruct (IH p' (pre ++ x) rest' r' A2 S2) as (x2 & rest2 & p2 & r2 & F2 & X2 & A3 & SB2 & RP2 & NB).
      { subst rest. rewrite app_length in L. destruct x; [now contradiction T1|]. cbn in L. lia. }
      exists (x ++ x2), rest2, p2, r2. rewrite <- app_assoc in A3.
      split; [exact F2|]. split; [rewrite <- app_assoc, <- X2; exact X|].
      split; [exact A3|]. split; [eapply sbo_trans; eassumption|].
      split; [eapply reports_trans; eassumption|exact NB].
    + destruct (T2 eq_refl) as (-> & -> & N). cbn [app] in X. subst rest'.
      exists [], rest, p, r'. split; [reflexivity|]. split; [reflexivity|].
      split; [exact A2|]. split; [exact SB|]. split; [exact RP|].
      destruct rest as [|c rest]; [exact Logic.I|]. split; [exact SS|exact N].
  - destruct (IH p (pre ++ c :: a) b r1 A1 S1) as (x2 & rest2 & p2 & r2 & F2 & X2 & A3 & SB2 & RP2 & NB).
    { subst rest. rewrite app_length in L. cbn in L. lia. }
    exists ((c :: a) ++ x2), rest2, p2, r2. rewrite <- app_assoc in A3.
    split; [exact F2|]. split; [rewrite <- app_assoc, <- X2; now symmetry|].
    split; [exact A3|]. split; [exact SB2|]. split; [exact RP2|exact NB].
Qed.

(** ** A definition found in a text *)
Definition blank (t : text) : Prop := Forall (fun c => c = 32 \/ c = 9) t.
Definition word (t : text) : Prop := Forall (fun c => c <> 32 /\ c <> 9 /\ c <> 13 /\ c <> 10) t.
Definition defines (t id v : text) : Prop :=
  exists a s1 s2 b, t = a ++ str "#define" ++ s1 ++ 36 :: id ++ s2 ++ v ++ b /\
    blank s1 /\ blank s2 /\ isIdentifier id = true /\ word v.

(** ** Progress of the parser on the top reader *)
Definition adv (src : text -> text -> Prop) (W : world) (file pre rest : text) (p : parser)
  (o : option parser) : Prop :=
  match o with
  | None => exists s, expandDollarVars (w_rounds W) (p_defs p) s = None
  | Some p' => exists r' x rest' evs,
      rest = x ++ rest' /\ x <> [] /\ At file (pre ++ x) rest' r' /\
      p_files p' = r' :: tl (p_files p) /\ p_paths p' = p_paths p /\ p_dir p' = p_dir p /\
      (p_defs p' = p_defs p \/
       exists id v, defines rest id v /\ p_defs p' = addDefinition id v (p_defs p)) /\
      p_out p' = p_out p ++ evs /\ Forall (good_event src) evs
  end.

Lemma adv_fail src W file pre x rest' p rg e r :
  At file (pre ++ x) rest' r -> src file (pre ++ x ++ rest') -> good_range src rg ->
  x <> [] \/ (exists c t, rest' = c :: t /\ c <> nl) ->
  adv src W file pre (x ++ rest') p (fail p r rg e).
Proof.
  intros A SR G N. unfold fail, recover.
  destruct (extract_at file (fun c => negb (c =? nl)) _ _ _ A) as (r1 & E & A1).
  rewrite E. cbn [bind adv].
  pose proof (span_app (fun c => negb (c =? nl)) rest') as SA.
  assert (N2 : x ++ fst (span (fun c => negb (c =? nl)) rest') <> []).
  { destruct N as [N|(c & t & -> & N)].
    - intros H. apply app_eq_nil in H as [H _]. contradiction.
    - cbn [span]. destruct (Z.eqb_spec c nl); [contradiction|]. cbn [negb].
      destruct (span _ t). cbn [fst]. intros H. now apply app_eq_nil in H as [_ H]. }
  destruct (span (fun c => negb (c =? nl)) rest') as [a b]. cbn [fst snd] in *.
  exists r1, (x ++ a), b, [PError rg e]. rewrite <- app_assoc in A1.
  split; [rewrite <- app_assoc; now rewrite SA|]. split; [exact N2|]. split; [exact A1|].
  split; [reflexivity|]. split; [reflexivity|]. split; [reflexivity|]. split; [now left|].
  split; [reflexivity|]. constructor; [exact G|constructor].
Qed.

(** The same, for a parser that differs in what it has reported. *)
Lemma adv_reported src W file pre rest p p1 o :
  same_but_out p p1 -> reports src p p1 -> adv src W file pre rest p1 o -> adv src W file pre rest p o.
Proof.
  intros (A & B & C & D & _ & _) (evs & E & G & _) H. destruct o as [p'|]; cbn [adv] in *.
  - destruct H as (r' & x & rest' & evs' & H1 & H2 & H3 & H4 & H5 & H6 & H7 & H8 & H9).
    exists r', x, rest', (evs ++ evs').
    rewrite A in H4. rewrite B in H5. rewrite C in H6. rewrite D in H7.
    split; [exact H1|]. split; [exact H2|]. split; [exact H3|]. split; [exact H4|].
    split; [exact H5|]. split; [exact H6|]. split; [exact H7|].
    split; [rewrite H8, E; now rewrite app_assoc|]. apply Forall_app. auto.
  - now rewrite D in H.
Qed.
