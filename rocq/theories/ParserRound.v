(** Exact runs: printing and parsing again (C07), the include limit (C08), blocks (C54). *)
From Coq Require Import ZArith List Bool Lia String.
From Verif Require Import ParserModel ParserReader ParserSteps ParserAdvance ParserExpand ParserProps.
Import ListNotations.
Local Open Scope Z_scope.
Local Open Scope list_scope.

Lemma warnings_O rg p : warnings 0 rg p = p.
Proof. reflexivity. Qed.
Lemma span_exact f x t : Forall (fun c => f c = true) x ->
  match t with [] => True | c :: _ => f c = false end -> span f (x ++ t) = (x, t).
Proof.
  intros F S. induction F as [|c x E F IH]; cbn [app].
  - destruct t as [|c t]; [reflexivity|]. cbn [span]. now rewrite S.
  - cbn [span]. rewrite E, IH. reflexivity.
Qed.

Lemma skip_comment_none file p pre rest r : At file pre rest r ->
  ~ (exists t, rest = 47 :: 47 :: t \/ rest = 47 :: 42 :: t) ->
  exists r', skipComment p r = Some (false, p, r') /\ At file pre rest r'.
Proof.
  intros A N. unfold skipComment.
  destruct (comment_type_at _ _ _ _ A) as (ty & r0 & E & A0 & H). rewrite E. cbn [bind].
  destruct H as [(-> & _)|[(-> & t & ->)|(-> & t & ->)]]; [|exfalso; apply N; eauto..].
  cbn [Z.eqb]. eauto.
Qed.
Lemma skip_blank_exact file p pre x rest r : At file pre (x ++ rest) r ->
  Forall (fun c => one_of [32; 9; cr; nl] c = true) x -> no_blank rest ->
  exists r', skip_blank (S (S (rem r))) p r = Some (p, r') /\ At file (pre ++ x) rest r'.
Proof.
  intros A X NB.
  assert (SP : span (one_of [32; 9; cr; nl]) (x ++ rest) = (x, rest)).
  { apply span_exact; [exact X|]. destruct rest; [exact Logic.I|]. apply NB. }
  assert (SP0 : span (one_of [32; 9; cr; nl]) rest = ([], rest)).
  { apply (span_exact _ [] rest); [constructor|]. destruct rest; [exact Logic.I|]. apply NB. }
  assert (NC : ~ (exists t, rest = 47 :: 47 :: t \/ rest = 47 :: 42 :: t)).
  { destruct rest; [intros (t & [H|H]); discriminate|apply NB]. }
  cbn [skip_blank].
  destruct (skip_at file [32; 9; cr; nl] _ _ _ A) as (r1 & E & A1). rewrite E. cbn [bind].
  rewrite SP in *. cbn [fst snd] in *. destruct x as [|c x]; cbn [List.length].
  - rewrite app_nil_r in *. destruct (skip_comment_none file p _ _ _ A1 NC) as (r2 & E2 & A2).
    rewrite E2. cbn [bind]. eauto.
  - destruct (skip_at file [32; 9; cr; nl] _ _ _ A1) as (r2 & E2 & A2). rewrite E2. cbn [bind].
    rewrite SP0 in *. cbn [fst snd List.length] in *. rewrite app_nil_r in A2.
    destruct (skip_comment_none file p _ _ _ A2 NC) as (r3 & E3 & A3).
    rewrite E3. cbn [bind]. eauto.
Qed.

(** ** Printing *)
Definition block : Type := text * list (text * text).
Definition print_op (o : text * text) : text := fst o ++ 61 :: snd o ++ [nl].
Definition print_block (b : block) : text :=
  60 :: fst b ++ 62 :: nl :: List.concat (map print_op (snd b)).
Definition print (bs : list block) : text := List.concat (map print_block bs).

(** Names and values that can be written on one line as they are. *)
Definition clean_value (v : text) : Prop :=
  Forall (fun c => c <> 13 /\ c <> 10 /\ c <> 60 /\ c <> 36 /\ c <> 255) v /\
  (forall a b, v <> a ++ 47 :: 47 :: b /\ v <> a ++ 47 :: 42 :: b) /\
  (forall a c, v = a ++ [c] -> c <> 32 /\ c <> 9) /\
  (forall a s b, v = a ++ s :: b -> s = 32 \/ s = 9 -> ~ In 61 b /\ hd_error b <> Some 35).
Definition clean_op (o : text * text) : Prop :=
  isIdentifier (fst o) = true /\ fst o <> str "base64data" /\ clean_value (snd o).
Definition clean_block (b : block) : Prop :=
  isIdentifier (fst b) = true /\ Forall clean_op (snd b).

Lemma ident_forall n : isIdentifier n = true -> n <> [] /\ Forall (fun c => isIdentifierChar c = true) n.
Proof.
  unfold isIdentifier. destruct n as [|c n]; [discriminate|]. intros H. split; [discriminate|].
  apply Forall_forall. now apply forallb_forall.
Qed.
Lemma ident_range c : isIdentifierChar c = true -> 48 <= c <= 122 /\ c <> 60 /\ c <> 61 /\ c <> 62.
Proof.
  unfold isIdentifierChar. intros H.
  repeat (apply orb_true_iff in H as [H|H]).
  - apply Z.eqb_eq in H. lia.
  - apply andb_true_iff in H as [H K]. apply Z.leb_le in H, K. lia.
  - apply andb_true_iff in H as [H K]. apply Z.leb_le in H, K. lia.
  - apply andb_true_iff in H as [H K]. apply Z.leb_le in H, K. lia.
Qed.
Lemma ident_no_dollar n : isIdentifier n = true -> ~ In 36 n.
Proof.
  intros H I. apply ident_forall in H as [_ F]. rewrite Forall_forall in F.
  apply F, ident_range in I. lia.
Qed.

Lemma clean_eol v t : clean_value v -> eol (v ++ nl :: t) = (v, nl :: t).
Proof.
  intros (F & C & _). revert F C. induction v as [|c v IH]; intros F C; cbn [app eol].
  - reflexivity.
  - inversion F as [|? ? Hc F']; subst. unfold cr, nl in *.
    destruct (Z.eqb_spec c 13); [lia|]. destruct (Z.eqb_spec c 10); [lia|]. cbn [orb].
    rewrite IH; [|exact F'|].
    + replace ((c =? 47) && _) with false; [reflexivity|].
      symmetry. apply andb_false_iff. destruct (Z.eqb_spec c 47) as [->|]; [right|now left].
      destruct v as [|c2 v]; cbn [app]; [reflexivity|].
      destruct (C [] v) as [C1 C2].
      destruct (Z.eqb_spec c2 47) as [->|]; [exfalso; now apply C1|].
      destruct (Z.eqb_spec c2 42) as [->|]; [exfalso; now apply C2|]. reflexivity.
    + intros a b. destruct (C (c :: a) b) as [C1 C2]. cbn [app] in *. split; congruence.
Qed.
Definition tail_ok (u : text) : Prop :=
  Forall (fun c => c <> 60) u /\
  (forall a c, u = a ++ [c] -> c <> 32 /\ c <> 9) /\
  (forall a s b, u = a ++ s :: b -> s = 32 \/ s = 9 -> ~ In 61 b /\ hd_error b <> Some 35).
Lemma tail_ok_suffix a u : tail_ok (a ++ u) -> tail_ok u.
Proof.
  intros (H1 & H2 & H3). apply Forall_app in H1 as [_ H1]. split; [exact H1|]. split.
  - intros b c E. apply (H2 (a ++ b) c). rewrite E. now rewrite app_assoc.
  - intros b s d E. apply (H3 (a ++ b) s d). rewrite E. now rewrite app_assoc.
Qed.
Lemma space_cases c : isSpaceChar c = true -> c = 32 \/ c = 9.
Proof. unfold isSpaceChar. intros H. apply orb_true_iff in H as [H|H]; apply Z.eqb_eq in H; auto. Qed.
Lemma split_all : forall fuel v, (List.length v < fuel)%nat -> tail_ok v ->
  value_split fuel v = (v, []).
Proof.
  induction fuel as [|fuel IH]; intros v L T; [lia|]. cbn [value_split].
  destruct v as [|c t]; [reflexivity|].
  assert (K : forall taken rest, taken ++ rest = c :: t -> taken <> [] ->
    (let '(a, b) := value_split fuel rest in (taken ++ a, b)) = (c :: t, [])).
  { intros taken rest E N. rewrite IH; [now rewrite E| |].
    - assert (Q : List.length (taken ++ rest) = List.length (c :: t)) by now rewrite E.
      rewrite app_length in Q. destruct taken; [contradiction|]. cbn in Q, L. lia.
    - rewrite <- E in T. now apply tail_ok_suffix in T. }
  pose proof T as (H1 & H2 & H3). inversion H1 as [|? ? N60 _]; subst.
  destruct (Z.eqb_spec c 60); [contradiction|].
  destruct (isSpaceChar c) eqn:SC; [|apply K; [reflexivity|discriminate]].
  apply space_cases in SC.
  pose proof (span_app isSpaceChar t) as SA. pose proof (span_true isSpaceChar t) as ST.
  destruct (span isSpaceChar t) as [sp t2]. cbn [fst snd] in *. subst t.
  (* the last of the blanks *)
  assert (LAST : exists a s, c :: sp = a ++ [s] /\ (s = 32 \/ s = 9)).
  { destruct sp as [|s sp] using rev_ind.
    - exists [], c. auto.
    - exists (c :: sp), s. split; [reflexivity|]. apply Forall_app in ST as [_ ST].
      inversion ST; subst. now apply space_cases. }
  destruct LAST as (a & s & LS & SS).
  destruct t2 as [|c2 t3].
  { exfalso. destruct (H2 a s) as [X Y]; [rewrite app_nil_r; exact LS|]. destruct SS; contradiction. }
  destruct (H3 a s (c2 :: t3)) as [NE NH]; [|exact SS|].
  { change (c :: sp ++ c2 :: t3) with ((c :: sp) ++ c2 :: t3). rewrite LS, <- app_assoc. reflexivity. }
  assert (K1 : (let '(a0, b) := value_split fuel (c2 :: t3) in ((c :: sp) ++ a0, b))
               = (c :: sp ++ c2 :: t3, [])) by (apply K; [reflexivity|discriminate]).
  destruct (Z.eqb_spec c2 60) as [->|].
  { exfalso. rewrite Forall_forall in H1. apply (H1 60); [|reflexivity].
    right. apply in_or_app. right. now left. }
  destruct (Z.eqb_spec c2 35) as [->|]; [exfalso; now apply NH|].
  destruct (isIdentifierChar c2); [|exact K1].
  pose proof (span_app (fun c => isIdentifierChar c || (c =? 36)) t3) as S3.
  destruct (span (fun c => isIdentifierChar c || (c =? 36)) t3) as [w t4]. cbn [fst snd] in S3.
  assert (K2 : (let '(a0, b) := value_split fuel t4 in ((c :: sp ++ c2 :: w) ++ a0, b))
               = (c :: sp ++ c2 :: t3, [])).
  { apply K; [|discriminate]. rewrite <- S3. cbn [app]. rewrite <- app_assoc. reflexivity. }
  destruct t4 as [|c4 t5]; [exact K2|].
  destruct (Z.eqb_spec c4 61) as [->|]; [|exact K2].
  exfalso. apply NE. right. rewrite <- S3. apply in_or_app. right. now left.
Qed.
Lemma clean_tail v : clean_value v -> tail_ok v.
Proof.
  intros (F & _ & H2 & H3). split; [|auto]. eapply Forall_impl; [|exact F]. cbn. tauto.
Qed.

(** ** Steps over printed text *)
Section EXACT.
Variable W : world.
Hypothesis RW : (1 <= w_rounds W)%nat.
Definition ws (x : text) : Prop := Forall (fun c => one_of [32; 9; cr; nl] c = true) x.
Definition closed (p : parser) : list pevent :=
  match p_header p with Some h => [PBlock h (p_ops p)] | None => [] end.

Lemma header_step file pre x h t p r :
  p_files p = [r] -> At file pre (x ++ 60 :: h ++ 62 :: t) r -> ws x -> isIdentifier h = true ->
  exists p' r', step W p = Some p' /\ p_files p' = [r'] /\
    At file (pre ++ x ++ 60 :: h ++ [62]) t r' /\
    p_header p' = Some h /\ p_ops p' = [] /\ p_defs p' = p_defs p /\
    p_out p' = p_out p ++ closed p ++
      [PHeader (loc_at file (pre ++ x), loc_at file (pre ++ x ++ 60 :: h ++ [62])) h].
Proof.
  intros F A X ID. unfold step. rewrite F.
  destruct (skip_blank_exact file p pre x (60 :: h ++ 62 :: t) r A X) as (r1 & E & A1).
  { split; [reflexivity|]. intros (u & [H|H]); discriminate. }
  rewrite E. cbn [bind].
  destruct (peek_char _ _ _ _ A1) as (r2 & P & A2). rewrite P. cbn [bind hd_error Z.eqb Pos.eqb].
  unfold processHeader.
  destruct (get_some _ _ _ _ _ A2) as (r3 & G & A3). rewrite G. cbn [is_char Z.eqb Pos.eqb negb].
  set (f := fun c => negb (c =? cr) && negb (c =? nl) && negb (c =? 62)).
  destruct (extract_at file f _ _ _ A3) as (r4 & E4 & A4). rewrite E4. cbn [bind].
  assert (SP : span f (h ++ 62 :: t) = (h, 62 :: t)).
  { apply span_exact; [|reflexivity]. destruct (ident_forall _ ID) as [_ IF].
    eapply Forall_impl; [|exact IF]. intros c Hc. apply ident_range in Hc. unfold f, cr, nl.
    destruct (Z.eqb_spec c 13); [lia|]. destruct (Z.eqb_spec c 10); [lia|].
    destruct (Z.eqb_spec c 62); [lia|]. reflexivity. }
  rewrite SP in *. cbn [fst snd] in *.
  destruct (peek_char _ _ _ _ A4) as (r5 & P5 & A5). rewrite P5. cbn [bind hd_error is_char Z.eqb Pos.eqb negb].
  destruct (get_some _ _ _ _ _ A5) as (r6 & G6 & A6). rewrite G6. cbn [snd].
  rewrite ID. cbn [negb]. rewrite (At_loc _ _ _ _ A2), (At_loc _ _ _ _ A6).
  assert (Q : (((pre ++ x) ++ [60]) ++ h) ++ [62] = pre ++ x ++ 60 :: h ++ [62])
    by (rewrite <- !app_assoc; reflexivity).
  rewrite Q in *.
  eexists _, r6. split; [reflexivity|].
  unfold flushCurrentHeader, closed. cbn [p_header set_top set_files p_ops].
  destruct (p_header p) as [h0|];
    cbn [set_top set_files emit set_block p_files p_header p_ops p_defs p_out tl];
    rewrite ?F; cbn [tl]; repeat (split; [first [reflexivity|assumption]|]);
    try (rewrite <- !app_assoc; reflexivity); reflexivity.
Qed.

Lemma opcode_step file pre x n v t p r h :
  p_files p = [r] -> At file pre (x ++ n ++ 61 :: v ++ nl :: t) r -> ws x ->
  clean_op (n, v) -> p_header p = Some h ->
  exists p' r', step W p = Some p' /\ p_files p' = [r'] /\
    At file (pre ++ x ++ n ++ 61 :: v) (nl :: t) r' /\
    p_header p' = Some h /\ p_ops p' = p_ops p ++ [(n, v)] /\ p_defs p' = p_defs p /\
    p_out p' = p_out p ++
      [POpcode (loc_at file (pre ++ x), loc_at file (pre ++ x ++ n))
         (loc_at file (pre ++ x ++ n ++ [61]), loc_at file (pre ++ x ++ n ++ 61 :: v)) n v].
Proof.
  intros F A X (ID & NB & CV) HD. cbn [fst snd] in *.
  destruct (ident_forall _ ID) as [NN IF].
  assert (exists k, w_rounds W = S k) as (k & RK) by (destruct (w_rounds W); [lia|eauto]).
  unfold step. rewrite F.
  destruct (skip_blank_exact file p pre x (n ++ 61 :: v ++ nl :: t) r A X) as (r1 & E & A1).
  { destruct n as [|c n]; [contradiction|]. inversion IF as [|? ? Hc _]; subst.
    apply ident_range in Hc. cbn [app]. split.
    - unfold one_of, cr, nl. cbn [existsb]. destruct (Z.eqb_spec c 32); [lia|].
      destruct (Z.eqb_spec c 9); [lia|]. destruct (Z.eqb_spec c 13); [lia|].
      destruct (Z.eqb_spec c 10); [lia|]. reflexivity.
    - intros (u & [H|H]); injection H as H _; lia. }
  rewrite E. cbn [bind].
  destruct (peek_char _ _ _ _ A1) as (r2 & P & A2). rewrite P. cbn [bind].
  assert (HDN : exists c, hd_error (n ++ 61 :: v ++ nl :: t) = Some c /\ c =? 35 = false /\ c =? 60 = false).
  { destruct n as [|c n]; [contradiction|]. inversion IF as [|? ? Hc _]; subst.
    apply ident_range in Hc. exists c. cbn [app hd_error]. split; [reflexivity|].
    split; apply Z.eqb_neq; lia. }
  destruct HDN as (c0 & HN & H35 & H60). rewrite HN, H35, H60. unfold processOpcode.
  set (f := fun c => isIdentifierChar c || (c =? 36)).
  destruct (extract_at file f _ _ _ A2) as (r3 & E3 & A3). rewrite E3. cbn [bind].
  assert (SP : span f (n ++ 61 :: v ++ nl :: t) = (n, 61 :: v ++ nl :: t)).
  { apply span_exact; [|reflexivity]. eapply Forall_impl; [|exact IF]. intros c Hc. unfold f.
    now rewrite Hc. }
  rewrite SP in *. cbn [fst snd] in *.
  destruct n as [|n0 n'] eqn:EN; [contradiction|]. rewrite <- EN in *. clear n0 n' EN.
  destruct (peek_char _ _ _ _ A3) as (r4 & P4 & A4). rewrite P4. cbn [bind hd_error is_char Z.eqb Pos.eqb negb].
  cbn [set_top set_files p_defs]. rewrite RK, (expand_plain k _ n (ident_no_dollar _ ID)). cbn [bind].
  rewrite ID. cbn [negb warnings Nat.iter].
  destruct (get_some _ _ _ _ _ A4) as (r5 & G5 & A5). rewrite G5. cbn [snd].
  destruct (text_eqb n (str "base64data")) eqn:B64; [apply text_eqb_eq in B64; contradiction|].
  destruct (eol_at file _ _ _ A5) as (r6 & E6 & A6). rewrite E6. cbn [bind].
  rewrite (clean_eol v t CV) in *. cbn [fst snd] in *.
  rewrite split_all by (try lia; now apply clean_tail).
  rewrite <- (app_nil_r (((_ ++ _) ++ _) ++ _)) in A6.
  destruct (put_back file _ [] _ r6 A6) as (r7 & Q7 & A7); [intros _ []|]. rewrite Q7. cbn [bind app] in *.
  assert (ND : ~ In 36 v).
  { destruct CV as (CF & _). intros I. rewrite Forall_forall in CF. apply CF in I. tauto. }
  rewrite (expand_plain k _ v ND). cbn [bind Nat.iter].
  rewrite (At_loc _ _ _ _ A2), (At_loc _ _ _ _ A3), (At_loc _ _ _ _ A5), (At_loc _ _ _ _ A7).
  rewrite !warnings_O. change (p_header (set_top p r2)) with (p_header p). rewrite HD.
  assert (Q0 : (((pre ++ x) ++ n) ++ [61]) ++ v = pre ++ x ++ n ++ 61 :: v)
    by (rewrite <- !app_assoc; reflexivity).
  assert (Q1 : ((pre ++ x) ++ n) ++ [61] = pre ++ x ++ n ++ [61])
    by (rewrite <- !app_assoc; reflexivity).
  assert (Q2 : (pre ++ x) ++ n = pre ++ x ++ n) by (rewrite <- !app_assoc; reflexivity).
  rewrite Q0 in *. rewrite Q1 in *. rewrite Q2 in *.
  eexists _, r7. split; [reflexivity|].
  cbn [set_top set_files emit set_block p_files p_header p_ops p_defs p_out tl].
  rewrite F. cbn [tl]. repeat (split; [first [reflexivity|assumption]|]). reflexivity.
Qed.

Lemma end_step file pre x p r :
  p_files p = [r] -> At file pre x r -> ws x ->
  exists p', step W p = Some p' /\ p' = set_files p [].
Proof.
  intros F A X. unfold step. rewrite F. rewrite <- (app_nil_r x) in A.
  destruct (skip_blank_exact file p pre x [] r A X Logic.I) as (r1 & E & A1).
  rewrite E. cbn [bind].
  destruct (peek_char _ _ _ _ A1) as (r2 & P & A2). rewrite P. cbn [bind hd_error]. eauto.
Qed.
End EXACT.

(** What is told of a text, problems left out: headers and opcodes without ranges. *)
Inductive told := TH (h : text) | TO (n v : text) | TB (h : text) (ops : list (text * text)) | TBad.
Definition telling (e : pevent) : told :=
  match e with
  | PHeader _ h => TH h | POpcode _ _ n v => TO n v | PBlock h o => TB h o
  | PError _ _ | PWarning _ => TBad
  end.
Definition expected (b : block) : list told :=
  TH (fst b) :: map (fun o => TO (fst o) (snd o)) (snd b).
Definition ending (p : parser) : list told := map telling (closed p).

Lemma ops_run W file : (1 <= w_rounds W)%nat -> forall ops pre x t p r h,
  p_files p = [r] -> At file pre (x ++ List.concat (map print_op ops) ++ t) r -> ws x ->
  Forall clean_op ops -> p_header p = Some h ->
  exists m p' r' pre' x', steps W m p = Some p' /\ p_files p' = [r'] /\
    At file pre' (x' ++ t) r' /\ ws x' /\ p_header p' = Some h /\ p_ops p' = p_ops p ++ ops /\
    p_defs p' = p_defs p /\
    map telling (p_out p') = map telling (p_out p) ++ map (fun o => TO (fst o) (snd o)) ops.
Proof.
  intros RW. induction ops as [|[n v] ops IH]; intros pre x t p r h F A X C H.
  - exists O, p, r, pre, x. rewrite !app_nil_r. repeat (split; [first [reflexivity|assumption]|]). reflexivity.
  - inversion C as [|? ? C1 C2]; subst. cbn [map List.concat] in A. unfold print_op at 1 in A.
    cbn [fst snd] in A. rewrite <- !app_assoc in A. cbn [app] in A. rewrite <- app_assoc in A. cbn [app] in A.
    destruct (opcode_step W RW file pre x n v _ p r h F A X C1 H) as
      (p1 & r1 & S1 & F1 & A1 & H1 & O1 & D1 & E1).
    destruct (IH _ [nl] t p1 r1 h F1 A1) as (m & p2 & r2 & pre2 & x2 & S2 & F2 & A2 & X2 & H2 & O2 & D2 & E2);
      try assumption.
    { constructor; [reflexivity|constructor]. }
    exists (S m), p2, r2, pre2, x2. cbn [steps]. rewrite S1. cbn [bind].
    split; [exact S2|]. split; [exact F2|]. split; [exact A2|]. split; [exact X2|]. split; [exact H2|].
    split; [rewrite O2, O1, <- app_assoc; reflexivity|]. split; [congruence|].
    rewrite E2, E1, map_app, <- app_assoc. reflexivity.
Qed.
Fixpoint story (open : option block) (bs : list block) : list told :=
  match bs with
  | [] => []
  | b :: bs => match open with Some o => [TB (fst o) (snd o)] | None => [] end
               ++ expected b ++ story (Some b) bs
  end.
Definition opened (p : parser) : option block :=
  match p_header p with Some h => Some (h, p_ops p) | None => None end.
Definition last_block (o : option block) (bs : list block) : option block :=
  fold_left (fun _ b => Some b) bs o.
Lemma blocks_run W file : (1 <= w_rounds W)%nat -> forall bs pre x p r,
  p_files p = [r] -> At file pre (x ++ print bs) r -> ws x -> Forall clean_block bs ->
  exists m p', steps W m p = Some p' /\ p_files p' = [] /\ opened p' = last_block (opened p) bs /\
    map telling (p_out p') = map telling (p_out p) ++ story (opened p) bs.
Proof.
  intros RW. induction bs as [|[h ops] bs IH]; intros pre x p r F A X C.
  - cbn [print map List.concat] in A. rewrite app_nil_r in A.
    destruct (end_step W file pre x p r F A X) as (p1 & S1 & ->).
    exists 1%nat, (set_files p []). cbn [steps]. rewrite S1. cbn [bind].
    repeat (split; [reflexivity|]). cbn [story set_files p_out]. now rewrite app_nil_r.
  - inversion C as [|? ? [C1 C1'] C2]; subst. cbn [fst snd] in *.
    unfold print in A. cbn [map List.concat] in A. unfold print_block at 1 in A. cbn [fst snd] in A.
    fold (print bs) in A. rewrite <- app_comm_cons in A. rewrite <- app_assoc in A. cbn [app] in A.
    destruct (header_step W RW file pre x h _ p r F A X C1) as (p1 & r1 & S1 & F1 & A1 & H1 & O1 & D1 & E1).
    destruct (ops_run W file RW ops _ [nl] (print bs) p1 r1 h F1 A1) as
      (m2 & p2 & r2 & pre2 & x2 & S2 & F2 & A2 & X2 & H2 & O2 & D2 & E2); try assumption.
    { constructor; [reflexivity|constructor]. }
    destruct (IH pre2 x2 p2 r2 F2 A2 X2 C2) as (m3 & p3 & S3 & F3 & L3 & E3).
    assert (OP : opened p2 = Some (h, ops)).
    { unfold opened. rewrite H2, O2, O1. reflexivity. }
    exists (S (m2 + m3))%nat, p3. cbn [steps]. rewrite S1. cbn [bind].
    rewrite (steps_app W m2 m3 p1 p2 S2). split; [exact S3|]. split; [exact F3|].
    split; [rewrite L3, OP; reflexivity|].
    rewrite E3, E2, E1, OP. cbn [story]. unfold opened, closed, expected. cbn [fst snd].
    rewrite !map_app, <- !app_assoc. f_equal. destruct (p_header p); reflexivity.
Qed.

(** The blocks told, each with its header and its opcodes in order. *)
Definition blocks_told (l : list told) : list block :=
  flat_map (fun e => match e with TB h o => [(h, o)] | _ => [] end) l.
Lemma told_ops ops : blocks_told (map (fun o => TO (fst o) (snd o)) ops) = [].
Proof. induction ops as [|o ops IH]; [reflexivity|exact IH]. Qed.
Lemma story_blocks : forall bs o,
  blocks_told (story o bs) ++ match last_block o bs with Some b => [b] | None => [] end
  = match o with Some b => [b] | None => [] end ++ bs.
Proof.
  induction bs as [|b bs IH]; intros o.
  - cbn. now rewrite app_nil_r.
  - cbn [story]. unfold blocks_told at 1. rewrite !flat_map_app. fold (blocks_told (story (Some b) bs)).
    unfold expected. cbn [flat_map app]. fold (blocks_told (map (fun o0 => TO (fst o0) (snd o0)) (snd b))).
    rewrite told_ops. cbn [app]. cbn [last_block fold_left]. fold (last_block (Some b) bs).
    rewrite <- app_assoc, IH. destruct o as [[ho oo]|]; reflexivity.
Qed.
Lemma story_good : forall bs o, ~ In TBad (story o bs).
Proof.
  induction bs as [|b bs IH]; intros o I; [contradiction|]. cbn [story] in I.
  apply in_app_or in I as [I|I].
  - destruct o; [destruct I as [I|[]]; discriminate|contradiction].
  - unfold expected in I. apply in_app_or in I as [[I|I]|I].
    + discriminate.
    + apply in_map_iff in I as (o' & E & _). discriminate.
    + now apply IH in I.
Qed.

Lemma print_no_255 bs : Forall clean_block bs -> ~ In 255 (print bs).
Proof.
  intros C I. unfold print in I. apply in_concat in I as (l & I1 & I2).
  apply in_map_iff in I1 as ([h ops] & <- & I1). rewrite Forall_forall in C.
  destruct (C _ I1) as [C1 C2]. cbn [fst snd] in *. unfold print_block in I2. cbn [fst snd] in I2.
  destruct I2 as [I2|I2]; [discriminate|]. apply in_app_or in I2 as [I2|I2].
  - destruct (ident_forall _ C1) as [_ IF]. rewrite Forall_forall in IF. apply IF, ident_range in I2. lia.
  - destruct I2 as [I2|[I2|I2]]; try discriminate.
    apply in_concat in I2 as (l & I3 & I4). apply in_map_iff in I3 as ([n v] & <- & I3).
    rewrite Forall_forall in C2. destruct (C2 _ I3) as (C3 & _ & C4). cbn [fst snd] in *.
    unfold print_op in I4. cbn [fst snd] in I4. apply in_app_or in I4 as [I4|[I4|I4]].
    + destruct (ident_forall _ C3) as [_ IF]. rewrite Forall_forall in IF. apply IF, ident_range in I4. lia.
    + discriminate.
    + apply in_app_or in I4 as [I4|[I4|[]]]; [|discriminate].
      destruct C4 as (C5 & _). rewrite Forall_forall in C5. apply C5 in I4. tauto.
Qed.

(** C07: parsing what was printed for a list of blocks reports the blocks, in order, each with its
    header and opcodes unchanged, and no problem; whatever the definitions. *)
Theorem C07_round_trip W dir ext name bs :
  (1 <= w_rounds W)%nat -> (1 <= w_depth W)%nat -> fits (print bs) -> Forall clean_block bs ->
  exists fuel p, parseString fuel W dir ext name (print bs) = Some p /\
    blocks_told (map telling (p_out p)) = bs /\
    ~ In TBad (map telling (p_out p)) /\
    filter (fun e => match e with TB _ _ => false | _ => true end) (map telling (p_out p))
    = flat_map expected bs.
Proof.
  intros RW DW F C.
  set (p0 := start W dir ext name (Some (new_reader true name (print bs)))).
  assert (F0 : p_files p0 = [new_reader true name (print bs)] /\ p_header p0 = None /\ p_out p0 = []).
  { unfold p0, start, includeNewFile. cbn [p_paths negb andb existsb p_files List.length].
    destruct (Nat.eqb_spec 0 (w_depth W)); [lia|]. repeat split. }
  destruct F0 as (F0 & H0 & O0).
  destruct (blocks_run W name RW bs [] [] p0 _ F0) as (m & q & S & FQ & LQ & EQ).
  - cbn [app]. apply At_new; [intros _; now apply print_no_255|exact F].
  - constructor.
  - exact C.
  - rewrite O0 in EQ. cbn [map app] in EQ.
    assert (OP0 : opened p0 = None) by (unfold opened; now rewrite H0).
    rewrite OP0 in *.
    exists m, (flushCurrentHeader q). split.
    + unfold parseString, parseVirtualFile. fold p0. rewrite (top_level_steps W m p0 q S FQ). reflexivity.
    + assert (OUT : map telling (p_out (flushCurrentHeader q))
                    = story None bs ++ match last_block None bs with Some b => [TB (fst b) (snd b)] | None => [] end).
      { rewrite <- LQ. unfold flushCurrentHeader, opened. destruct (p_header q) as [h|];
          cbn [set_block emit p_out]; [rewrite map_app|]; rewrite EQ; [reflexivity|].
        now rewrite app_nil_r. }
      rewrite OUT. split; [|split].
      * unfold blocks_told. rewrite flat_map_app. fold (blocks_told (story None bs)).
        pose proof (story_blocks bs None) as SB. cbn [app] in SB. etransitivity; [|exact SB]. f_equal.
        destruct (last_block None bs) as [[h o]|]; reflexivity.
      * intros I. apply in_app_or in I as [I|I]; [now apply story_good in I|].
        destruct (last_block None bs); [destruct I as [I|[]]; discriminate|contradiction].
      * rewrite filter_app.
        replace (filter _ (match last_block None bs with Some b => _ | None => [] end)) with (@nil told)
          by (destruct (last_block None bs); reflexivity).
        rewrite app_nil_r. clear. generalize (@None block). induction bs as [|b bs IH]; intros o; [reflexivity|].
        cbn [story flat_map]. rewrite !filter_app, IH.
        replace (filter _ (match o with Some o0 => _ | None => [] end)) with (@nil told) by (destruct o; reflexivity).
        cbn [app]. f_equal. unfold expected. cbn [filter]. f_equal.
        induction (snd b) as [|x l IHl]; [reflexivity|]. cbn [map filter]. now rewrite IHl.
Qed.
(** A test for these conditions. *)
Fixpoint no_commentb (v : text) : bool :=
  match v with
  | c :: t => negb ((c =? 47) && match t with c2 :: _ => (c2 =? 47) || (c2 =? 42) | [] => false end)
              && no_commentb t
  | [] => true
  end.
Fixpoint spaces_okb (v : text) : bool :=
  match v with
  | [] => true
  | c :: t => (negb (isSpaceChar c) ||
               (negb (existsb (Z.eqb 61) t) && match t with [] => false | d :: _ => negb (d =? 35) end))
              && spaces_okb t
  end.
Definition clean_valueb (v : text) : bool :=
  forallb (fun c => negb (one_of [13; 10; 60; 36; 255] c)) v && no_commentb v && spaces_okb v.
Definition clean_blockb (b : block) : bool :=
  isIdentifier (fst b) &&
  forallb (fun o => isIdentifier (fst o) && negb (text_eqb (fst o) (str "base64data")) &&
                    clean_valueb (snd o)) (snd b).
Lemma clean_valueb_ok v : clean_valueb v = true -> clean_value v.
Proof.
  unfold clean_valueb. intros H. apply andb_true_iff in H as [H H3]. apply andb_true_iff in H as [H1 H2].
  assert (SP : forall a s b, v = a ++ s :: b -> s = 32 \/ s = 9 ->
            ~ In 61 b /\ hd_error b <> Some 35 /\ b <> []).
  { clear H1 H2. intros a. revert v H3. induction a as [|c a IH]; intros v H s b E S; subst v; cbn [app spaces_okb] in H;
      apply andb_true_iff in H as [H K].
    - assert (SC : isSpaceChar s = true) by (destruct S; subst; reflexivity). rewrite SC in H.
      cbn [negb orb] in H. apply andb_true_iff in H as [X Y]. split; [|split].
      + intros I. apply negb_true_iff in X. rewrite <- not_true_iff_false in X. apply X.
        apply existsb_exists. exists 61. split; [exact I|reflexivity].
      + destruct b as [|d b]; [discriminate|]. cbn [hd_error]. intros [= ->]. discriminate.
      + intros ->. discriminate.
    - apply (IH _ K s b eq_refl S). }
  split; [|split; [|split]].
  - apply Forall_forall. intros c I. rewrite forallb_forall in H1. apply H1 in I.
    unfold one_of in I. cbn [existsb] in I. apply negb_true_iff in I.
    repeat (apply orb_false_iff in I as [? I]). rewrite Z.eqb_neq in *. auto.
  - intros a. clear H1 H3 SP. revert v H2. induction a as [|c a IH]; intros v H b; (destruct v as [|d v]; [split; discriminate|]);
      cbn [no_commentb] in H; apply andb_true_iff in H as [H K].
    + split; cbn [app]; intros [= -> ->]; discriminate.
    + destruct (IH v K b) as [X Y]. split; cbn [app]; intros [= -> E]; contradiction.
  - intros a c E. split; intros ->.
    + destruct (SP a 32 [] E) as (_ & _ & X); auto.
    + destruct (SP a 9 [] E) as (_ & _ & X); auto.
  - intros a s b E S. destruct (SP a s b E S) as (X & Y & _). auto.
Qed.
Lemma clean_blockb_ok b : clean_blockb b = true -> clean_block b.
Proof.
  unfold clean_blockb. intros H. apply andb_true_iff in H as [H K]. split; [exact H|].
  apply Forall_forall. intros o I. rewrite forallb_forall in K. apply K in I.
  apply andb_true_iff in I as [I V]. apply andb_true_iff in I as [I B]. split; [exact I|].
  split; [|now apply clean_valueb_ok]. intros E. apply text_eqb_eq in E. rewrite E in B. discriminate.
Qed.
Definition C07_blocks : list block :=
  [(str "global", []);
   (str "region", [(str "sample", str "C# 4/piano loud.wav"); (str "key", str "60"); (str "label", str "a=b")]);
   (str "region", [(str "ampeg_attack", str "")])].
Definition no_files : world := World (fun _ => None) (fun d p => d ++ p) (fun p => p) 32 false 4.
Example C07_ex :
  option_map (fun p => blocks_told (map telling (p_out p)))
    (parseString 20 no_files [] [] (str "t.sfz") (print C07_blocks)) = Some C07_blocks /\
  Forall clean_block C07_blocks.
Proof.
  split; [vm_compute; reflexivity|].
  apply Forall_forall. intros b I. apply clean_blockb_ok.
  assert (K : forallb clean_blockb C07_blocks = true) by (vm_compute; reflexivity).
  rewrite forallb_forall in K. now apply K.
Qed.
(** Outside these conditions the round trip fails: a value with a word that looks like another
    opcode is split (a sample called "a b=c.wav"), and one with [<] starts a header. *)
Theorem C07_equals_in_value_refuted :
  exists bs, Forall (fun b => isIdentifier (fst b) = true) bs /\
    option_map (fun p => blocks_told (map telling (p_out p)))
      (parseString 20 no_files [] [] (str "t.sfz") (print bs)) <> Some bs.
Proof.
  exists [(str "region", [(str "sample", str "a b=c.wav")])]. split.
  - repeat constructor.
  - vm_compute. discriminate.
Qed.

(** ** Includes *)
(** In the path of an include, a backslash means a slash; nothing else changes. *)
Definition slashes (t : text) : text :=
  flat_map (fun c => match c with 92 => [47] | _ => [c] end) t.
Lemma slashes_eq t : map to_slash t = slashes t.
Proof.
  induction t as [|c t IH]; [reflexivity|]. cbn [map slashes flat_map]. fold (slashes t). rewrite IH.
  unfold to_slash. destruct (Z.eqb_spec c 92) as [->|N]; [reflexivity|].
  destruct c as [|p|p]; try reflexivity. do 7 (try destruct p as [p|p|]; try reflexivity). now elim N.
Qed.
Lemma include_step W file pre x sp path t p r below :
  (1 <= w_rounds W)%nat -> p_files p = r :: below ->
  At file pre (x ++ str "#include" ++ sp ++ 34 :: path ++ 34 :: t) r -> ws x -> blank sp ->
  Forall (fun c => c <> 34 /\ c <> 13 /\ c <> 10 /\ c <> 36) path ->
  exists r', At file (pre ++ x ++ str "#include" ++ sp ++ 34 :: path ++ [34]) t r' /\
    step W p = Some (includeNewFile W (slashes path) None
      (Some (loc_at file (pre ++ x),
             loc_at file (pre ++ x ++ str "#include" ++ sp ++ 34 :: path ++ [34])))
      (set_top p r')).
Proof.
  intros RW F A X SP PF.
  assert (exists k, w_rounds W = S k) as (k & RK) by (destruct (w_rounds W); [lia|eauto]).
  unfold step. rewrite F.
  destruct (skip_blank_exact file p pre x (str "#include" ++ sp ++ 34 :: path ++ 34 :: t) r A X) as (r1 & E & A1).
  { split; [reflexivity|]. intros (u & [H|H]); discriminate. }
  rewrite E. cbn [bind].
  destruct (peek_char _ _ _ _ A1) as (r2 & P & A2). rewrite P. cbn [bind].
  change (hd_error (str "#include" ++ sp ++ 34 :: path ++ 34 :: t)) with (Some 35).
  cbn [Z.eqb Pos.eqb]. unfold processDirective.
  change (str "#include" ++ sp ++ 34 :: path ++ 34 :: t)
    with (35 :: str "include" ++ sp ++ 34 :: path ++ 34 :: t) in *.
  destruct (get_some _ _ _ _ _ A2) as (r3 & G & A3). rewrite G. cbn [is_char Z.eqb Pos.eqb negb].
  destruct (extract_at file isIdentifierChar _ _ _ A3) as (r4 & E4 & A4). rewrite E4. cbn [bind].
  assert (S4 : span isIdentifierChar (str "include" ++ sp ++ 34 :: path ++ 34 :: t)
               = (str "include", sp ++ 34 :: path ++ 34 :: t)).
  { apply span_exact.
    - repeat constructor.
    - destruct sp as [|s sp]; cbn [app]; [reflexivity|]. inversion SP as [|? ? [->| ->] _]; reflexivity. }
  rewrite S4 in *. cbn [fst snd] in *. clear S4.
  change (text_eqb (str "include") (str "define")) with false.
  change (text_eqb (str "include") (str "include")) with true. cbv beta iota.
  destruct (skip_at file [32; 9] _ _ _ A4) as (r5 & E5 & A5). rewrite E5. cbn [bind].
  assert (S5 : span (one_of [32; 9]) (sp ++ 34 :: path ++ 34 :: t) = (sp, 34 :: path ++ 34 :: t)).
  { apply span_exact; [|reflexivity]. eapply Forall_impl; [|exact SP].
    intros c [->| ->]; reflexivity. }
  rewrite S5 in *. cbn [fst snd] in *. clear S5.
  destruct (exact_char _ _ _ _ 34 A5) as [(b & r6 & EB & E6 & A6)|(r6 & N & _)]; [|now contradiction N].
  injection EB as <-. rewrite E6. cbn [bind].
  set (f := fun c => negb (c =? 34) && negb (c =? cr) && negb (c =? nl)).
  destruct (extract_at file f _ _ _ A6) as (r7 & E7 & A7). rewrite E7. cbn [bind].
  assert (S7 : span f (path ++ 34 :: t) = (path, 34 :: t)).
  { apply span_exact; [|reflexivity]. eapply Forall_impl; [|exact PF].
    intros c (H1 & H2 & H3 & _). unfold f, cr, nl.
    destruct (Z.eqb_spec c 34); [contradiction|]. destruct (Z.eqb_spec c 13); [contradiction|].
    destruct (Z.eqb_spec c 10); [contradiction|]. reflexivity. }
  rewrite S7 in *. cbn [fst snd] in *. clear S7.
  destruct (exact_char _ _ _ _ 34 A7) as [(b & r8 & EB & E8 & A8)|(r8 & N & _)]; [|now contradiction N].
  injection EB as <-. rewrite E8. cbn [bind negb].
  assert (ND : ~ In 36 path).
  { intros I. rewrite Forall_forall in PF. apply PF in I. tauto. }
  rewrite RK, (expand_plain k _ path ND). cbn [bind]. rewrite warnings_O.
  rewrite (At_loc _ _ _ _ A2), (At_loc _ _ _ _ A8).
  assert (Q : ((((((pre ++ x) ++ [35]) ++ str "include") ++ sp) ++ [34]) ++ path) ++ [34]
              = pre ++ x ++ str "#include" ++ sp ++ 34 :: path ++ [34])
    by (rewrite <- !app_assoc; reflexivity).
  rewrite Q in *. exists r8. split; [exact A8|now rewrite slashes_eq].
Qed.

(** C08: with the configured number of files open, an include of a file that the guard does not
    skip is answered with the depth error at the place of the directive, and no file is opened. *)
Theorem C08_limit_reported W file pre x sp path t p r below :
  (1 <= w_rounds W)%nat -> p_files p = r :: below ->
  At file pre (x ++ str "#include" ++ sp ++ 34 :: path ++ 34 :: t) r -> ws x -> blank sp ->
  Forall (fun c => c <> 34 /\ c <> 13 /\ c <> 10 /\ c <> 36) path ->
  (w_guard W = false \/ ~ In (w_full W (p_dir p) (slashes path)) (p_paths p)) ->
  List.length (p_files p) = w_depth W ->
  exists p' r', step W p = Some p' /\ p_files p' = r' :: below /\
    p_out p' = p_out p ++ [PError (loc_at file (pre ++ x),
      loc_at file (pre ++ x ++ str "#include" ++ sp ++ 34 :: path ++ [34])) EDepth].
Proof.
  intros RW F A X SP PF GD LN.
  destruct (include_step W file pre x sp path t p r below RW F A X SP PF) as (r' & A' & E).
  rewrite E. unfold includeNewFile.
  cbn [set_top set_files p_dir p_paths p_files p_defs p_header p_ops p_out].
  assert (G : negb match p_paths p with [] => true | _ => false end
              && existsb (text_eqb (w_full W (p_dir p) (slashes path))) (p_paths p) && w_guard W = false).
  { destruct GD as [GD|GD]; [rewrite GD; apply andb_false_r|].
    replace (existsb _ _) with false; [now rewrite andb_false_r|]. symmetry.
    apply not_true_iff_false. intros H. apply existsb_exists in H as (q & I & Q).
    apply text_eqb_eq in Q. subst q. contradiction. }
  rewrite G. rewrite F in *. cbn [tl List.length] in *.
  destruct (Nat.eqb_spec (S (List.length below)) (w_depth W)); [|contradiction].
  eexists _, r'. split; [reflexivity|]. split; reflexivity.
Qed.
(** C08: with fewer files open, the file is entered. *)
Theorem C08_below_limit_entered W file pre x sp path t u p r below :
  (1 <= w_rounds W)%nat -> p_files p = r :: below ->
  At file pre (x ++ str "#include" ++ sp ++ 34 :: path ++ 34 :: t) r -> ws x -> blank sp ->
  Forall (fun c => c <> 34 /\ c <> 13 /\ c <> 10 /\ c <> 36) path ->
  let full := w_full W (p_dir p) (slashes path) in
  (w_guard W = false \/ ~ In full (p_paths p)) ->
  (List.length (p_files p) < w_depth W)%nat -> w_read W full = Some u -> fits u ->
  exists p' rn r', step W p = Some p' /\ p_files p' = rn :: r' :: below /\ At full [] u rn /\
    p_out p' = p_out p.
Proof.
  intros RW F A X SP PF full GD LN RD FU.
  destruct (include_step W file pre x sp path t p r below RW F A X SP PF) as (r' & A' & E).
  rewrite E. unfold includeNewFile.
  cbn [set_top set_files p_dir p_paths p_files p_defs p_header p_ops p_out]. fold full.
  assert (G : negb match p_paths p with [] => true | _ => false end
              && existsb (text_eqb full) (p_paths p) && w_guard W = false).
  { destruct GD as [GD|GD]; [rewrite GD; apply andb_false_r|].
    replace (existsb _ _) with false; [now rewrite andb_false_r|]. symmetry.
    apply not_true_iff_false. intros H. apply existsb_exists in H as (q & I & Q).
    apply text_eqb_eq in Q. subst q. contradiction. }
  rewrite G. rewrite F in *. cbn [tl List.length] in *.
  destruct (Nat.eqb_spec (S (List.length below)) (w_depth W)); [lia|].
  rewrite RD. cbn [option_map].
  eexists _, _, r'. split; [reflexivity|]. split; [reflexivity|]. split; [|reflexivity].
  apply At_new; [intros V; discriminate|exact FU].
Qed.
(** A file that includes itself, twice: with three files allowed and no guard, the parse ends, and
    the error comes each time the limit is met. *)
Definition self_world (guard : bool) : world :=
  World (fun f => if text_eqb f (str "a") then Some (str "<r>#include ""a"" #include ""a""") else None)
    (fun _ p => p) (fun _ => []) 3 guard 4.
Example C08_ex :
  let errors g := option_map (fun p => List.length (filter (fun e => match e with PError _ EDepth => true | _ => false end) (p_out p)))
    (parseFile 100 (self_world g) [] [] (str "a")) in
  errors false = Some 8%nat /\ errors true = Some 0%nat.
Proof. vm_compute. split; reflexivity. Qed.

(** ** Blocks *)
(** Specification: cutting the reported headers and opcodes into blocks. *)
Fixpoint cut (open : option block) (l : list told) : list block :=
  match l with
  | [] => match open with Some b => [b] | None => [] end
  | TH h :: l => match open with Some b => [b] | None => [] end ++ cut (Some (h, [])) l
  | TO n v :: l => cut (match open with Some (h, o) => Some (h, o ++ [(n, v)]) | None => None end) l
  | _ :: l => cut open l
  end.
Fixpoint open_after (open : option block) (l : list told) : option block :=
  match l with
  | [] => open
  | TH h :: l => open_after (Some (h, [])) l
  | TO n v :: l => open_after (match open with Some (h, o) => Some (h, o ++ [(n, v)]) | None => None end) l
  | _ :: l => open_after open l
  end.
Lemma open_after_app l m : forall o, open_after o (l ++ m) = open_after (open_after o l) m.
Proof. induction l as [|e l IH]; intros o; [reflexivity|]. destruct e; cbn [app open_after]; apply IH. Qed.
Fixpoint closed_by (open : option block) (l : list told) : list block :=
  match l with
  | [] => []
  | TH h :: l => match open with Some b => [b] | None => [] end ++ closed_by (Some (h, [])) l
  | TO n v :: l => closed_by (match open with Some (h, o) => Some (h, o ++ [(n, v)]) | None => None end) l
  | _ :: l => closed_by open l
  end.
Lemma closed_app l m : forall o, closed_by o (l ++ m) = closed_by o l ++ closed_by (open_after o l) m.
Proof.
  induction l as [|e l IH]; intros o; [reflexivity|].
  destruct e; cbn [app closed_by open_after]; rewrite IH; try reflexivity. now rewrite app_assoc.
Qed.
Lemma cut_closed l : forall o, cut o l = closed_by o l ++ match open_after o l with Some b => [b] | None => [] end.
Proof.
  induction l as [|e l IH]; intros o; [reflexivity|].
  destruct e; cbn [cut closed_by open_after]; rewrite IH; try reflexivity. now rewrite app_assoc.
Qed.
Definition told_of (p : parser) : list told := map telling (p_out p).
(** The blocks reported so far are those closed; the open one is in the parser. *)
Definition tidy (p : parser) : Prop :=
  blocks_told (told_of p) = closed_by None (told_of p) /\ open_after None (told_of p) = opened p.

Lemma blocks_app l m : blocks_told (l ++ m) = blocks_told l ++ blocks_told m.
Proof. apply flat_map_app. Qed.
Lemma tidy_same p q : p_out q = p_out p -> p_header q = p_header p -> p_ops q = p_ops p ->
  tidy p -> tidy q.
Proof. unfold tidy, told_of, opened. intros -> -> ->. auto. Qed.
Lemma tidy_bad p e : telling e = TBad -> tidy p -> tidy (emit e p).
Proof.
  intros B [T O]. unfold tidy, told_of. cbn [emit p_out]. rewrite map_app. cbn [map]. rewrite B.
  rewrite blocks_app, closed_app, open_after_app. cbn. rewrite !app_nil_r. split; [exact T|exact O].
Qed.
Lemma tidy_fail p r rg e q : fail p r rg e = Some q -> tidy p -> tidy q.
Proof.
  unfold fail. destruct (recover r) as [r1|]; [|discriminate]. cbn [bind]. intros [= <-] T.
  eapply tidy_same; [| | |apply (tidy_bad p (PError rg e) eq_refl T)]; reflexivity.
Qed.
Lemma tidy_warnings n rg p : tidy p -> tidy (warnings n rg p).
Proof.
  intros T. unfold warnings. induction n as [|n IH]; [exact T|].
  change (Nat.iter (S n) (emit (PWarning rg)) p) with (emit (PWarning rg) (Nat.iter n (emit (PWarning rg)) p)).
  now apply tidy_bad.
Qed.
Lemma tidy_opcode p rn rv n v q : tidy p ->
  p_out q = p_out p ++ [POpcode rn rv n v] -> p_header q = p_header p -> p_ops q = p_ops p ++ [(n, v)] ->
  tidy q.
Proof.
  intros [T O] E H P. unfold tidy, told_of. rewrite E, map_app, blocks_app, closed_app, open_after_app.
  unfold told_of in O. rewrite O. cbn [map telling]. split.
  - cbn. rewrite !app_nil_r. exact T.
  - cbn [open_after]. unfold opened. rewrite H, P. destruct (p_header p); reflexivity.
Qed.
Lemma tidy_header p rg h q : tidy p -> p_out q = p_out p ++ closed p ++ [PHeader rg h] ->
  p_header q = Some h -> p_ops q = [] -> tidy q.
Proof.
  intros [T O] E H P. unfold tidy, told_of. rewrite E, !map_app, !blocks_app, !closed_app, !open_after_app.
  unfold told_of in *. rewrite O, T. unfold opened, closed. rewrite H, P.
  destruct (p_header p) as [h0|]; cbn; split; reflexivity.
Qed.
Lemma tidy_flush p : tidy p ->
  blocks_told (told_of (flushCurrentHeader p)) = cut None (told_of (flushCurrentHeader p)).
Proof.
  intros [T O]. unfold flushCurrentHeader. rewrite cut_closed. unfold told_of in *.
  destruct (p_header p) as [h|] eqn:H; cbn [set_block emit p_out].
  - rewrite map_app, blocks_app, closed_app, open_after_app, T, O. unfold opened. rewrite H. cbn.
    now rewrite app_nil_r.
  - rewrite T, O. unfold opened. rewrite H. now rewrite app_nil_r.
Qed.
Lemma tidy_include W path rg p : tidy p -> tidy (includeNewFile W path None (Some rg) p).
Proof.
  intros T. unfold includeNewFile. destruct (negb _ && _ && _); [exact T|].
  set (p1 := Parser (p_files p) (p_paths p) _ (p_defs p) (p_header p) (p_ops p) (p_out p)).
  assert (T1 : tidy p1) by (eapply tidy_same; [| | |exact T]; reflexivity).
  destruct (Nat.eqb _ _); [now apply tidy_bad|].
  destruct (option_map _ _); [|now apply tidy_bad].
  eapply tidy_same; [| | |exact T]; reflexivity.
Qed.

Lemma bind_inv {A B} (o : option A) (f : A -> option B) b : bind o f = Some b ->
  exists a, o = Some a /\ f a = Some b.
Proof. destruct o as [a|]; [|discriminate]. eauto. Qed.
Ltac bd H := apply bind_inv in H; destruct H as (?x & ?E & H).

Lemma tidy_comment p r b q r' : skipComment p r = Some (b, q, r') -> tidy p -> tidy q.
Proof.
  unfold skipComment. intros H T. bd H. destruct x as [ty r0]. destruct (ty =? 0).
  - now injection H as <- <- <-.
  - destruct (ty =? 1).
    + bd H. now injection H as <- <- <-.
    + destruct (getChar _) as [b3 r3]. bd H. destruct x as [te r4]. destruct te.
      * now injection H as <- <- <-.
      * injection H as <- <- <-. now apply tidy_bad.
Qed.
Lemma tidy_blank : forall n p r q r', skip_blank n p r = Some (q, r') -> tidy p -> tidy q.
Proof.
  induction n as [|n IH]; intros p r q r' H T; [discriminate|]. cbn [skip_blank] in H.
  bd H. destruct x as [[|m] r1]; [|eapply IH; eassumption].
  bd H. destruct x as [[mo p2] r2]. pose proof (tidy_comment _ _ _ _ _ E0 T) as T2.
  destruct mo; [eapply IH; eassumption|]. now injection H as <- <-.
Qed.
Lemma tidy_top p r : tidy p -> tidy (set_top p r).
Proof. intros T. eapply tidy_same; [| | |exact T]; reflexivity. Qed.

Lemma tidy_processHeader p r q : processHeader p r = Some q -> tidy p -> tidy q.
Proof.
  unfold processHeader. intros H T. destruct (getChar r) as [b r0].
  destruct (negb (is_char b 60)); [eapply tidy_fail; eassumption|].
  bd H. destruct x as [name r1]. bd H. destruct x as [b1 r2].
  destruct (negb (is_char b1 62)); [eapply tidy_fail; eassumption|].
  destruct (negb (isIdentifier name)); [eapply tidy_fail; eassumption|].
  injection H as <-. eapply (tidy_header p); [exact T| |reflexivity|reflexivity].
  unfold flushCurrentHeader, closed. destruct (p_header p); cbn; [now rewrite <- app_assoc|reflexivity].
Qed.
Lemma tidy_processOpcode W p r q : processOpcode W p r = Some q -> tidy p -> tidy q.
Proof.
  unfold processOpcode. intros H T. bd H. destruct x as [raw r1].
  destruct raw as [|c raw']; [eapply tidy_fail; eassumption|].
  bd H. destruct x as [b r2]. destruct (negb (is_char b 61)); [eapply tidy_fail; eassumption|].
  bd H. destruct x as [name w].
  set (p1 := warnings w _ p) in *.
  assert (T1 : tidy p1) by now apply tidy_warnings.
  destruct (negb (isIdentifier name)); [eapply tidy_fail; eassumption|].
  destruct (text_eqb name (str "base64data")).
  - bd H. destruct x as [v r4]. injection H as <-.
    eapply (tidy_opcode p1); [exact T1|reflexivity..].
  - bd H. destruct x as [line r4]. destruct (value_split _ line) as [v excess]. bd H. bd H.
    destruct x0 as [v1 w1]. injection H as <-.
    match goal with |- context [emit _ (set_block ?p3 _ _)] => assert (T3 : tidy p3) end.
    { apply tidy_warnings. destruct (p_header p1); [exact T1|]. now apply tidy_bad. }
    eapply (tidy_opcode _ _ _ _ _ _ T3); reflexivity.
Qed.
Lemma tidy_processDirective W p r q : processDirective W p r = Some q -> tidy p -> tidy q.
Proof.
  unfold processDirective. intros H T. destruct (getChar r) as [b r0].
  destruct (negb (is_char b 35)); [eapply tidy_fail; eassumption|].
  bd H. destruct x as [dir r1]. destruct (text_eqb dir (str "define")).
  - bd H. destruct x as [? r2]. bd H. destruct x as [dollar r3]. bd H. destruct x as [id r4].
    destruct id; [eapply tidy_fail; eassumption|].
    bd H. destruct x as [? r5]. bd H. destruct x as [v r6]. destruct (cut_blank v) as [v1 ex]. bd H.
    injection H as <-. eapply tidy_same; [| | |exact T]; reflexivity.
  - destruct (text_eqb dir (str "include")); [|eapply tidy_fail; eassumption].
    bd H. destruct x as [? r2]. bd H. destruct x as [quote r3]. bd H. destruct x as [path r4].
    bd H. destruct x as [valid r5]. destruct (negb valid); [eapply tidy_fail; eassumption|].
    bd H. destruct x as [path1 w]. injection H as <-.
    apply tidy_include, tidy_top, tidy_warnings, T.
Qed.
Lemma tidy_step W p q : step W p = Some q -> tidy p -> tidy q.
Proof.
  unfold step. intros H T. destruct (p_files p) as [|r below]; [now injection H as <-|].
  bd H. destruct x as [p1 r1]. pose proof (tidy_blank _ _ _ _ _ E T) as T1.
  bd H. destruct x as [b r2]. destruct b as [c|].
  - destruct (c =? 35); [eapply tidy_processDirective; [exact H|now apply tidy_top]|].
    destruct (c =? 60); [eapply tidy_processHeader; [exact H|now apply tidy_top]|].
    eapply tidy_processOpcode; [exact H|now apply tidy_top].
  - injection H as <-. eapply tidy_same; [| | |exact T1]; reflexivity.
Qed.
Lemma tidy_run W : forall n p q, processTopLevel n W p = Some q -> tidy p -> tidy q.
Proof.
  induction n as [|n IH]; intros p q H T; cbn [processTopLevel] in H;
    (destruct (p_files p); [now injection H as <-|]); [discriminate|].
  bd H. eapply IH; [exact H|]. eapply tidy_step; eassumption.
Qed.

(** C54: for every text, settings and files, the full blocks reported are the headers with the
    opcodes reported after each and before the next, in order; none is lost, repeated or moved. *)
Theorem C54_blocks_complete fuel W dir ext path given p :
  parseVirtualFile fuel W dir ext path given = Some p ->
  blocks_told (told_of p) = cut None (told_of p).
Proof.
  unfold parseVirtualFile. intros H. bd H. injection H as <-. apply tidy_flush.
  eapply tidy_run; [exact E|]. unfold start, includeNewFile.
  cbn [p_paths negb andb existsb p_files List.length p_dir p_defs p_header p_ops p_out].
  destruct (Nat.eqb 0 (w_depth W)); [split; reflexivity|].
  destruct (match given with Some r => Some r | None => _ end); split; reflexivity.
Qed.
(** Opcodes before any header belong to no block; an include does not close the block. *)
Example C54_ex :
  let W := World (fun f => if text_eqb f (str "i") then Some (str "pan=1") else None)
             (fun _ p => p) (fun _ => []) 3 false 4 in
  option_map (fun p => blocks_told (told_of p))
    (parseString 30 W [] [] (str "t") (str "key=1 <region>lovel=2 #include ""i"" tune=3 <group>key=4 // end"))
  = Some [(str "region", [(str "lovel", str "2"); (str "pan", str "1"); (str "tune", str "3")]);
          (str "group", [(str "key", str "4")])].
Proof. vm_compute. reflexivity. Qed.

(** The reports of a text with a variable, a comment over two lines and an error, with places. *)
Example C06_ex :
  option_map p_out (parseString 30 no_files [] [(str "X", str "60")] (str "t")
    (str "<a>/*" ++ [nl] ++ str "*/ key=$X" ++ [nl] ++ str "?"))
  = Some
    [PHeader (Loc (str "t") 0 0, Loc (str "t") 0 3) (str "a");
     POpcode (Loc (str "t") 1 3, Loc (str "t") 1 6) (Loc (str "t") 1 7, Loc (str "t") 1 9) (str "key") (str "60");
     PError (Loc (str "t") 2 0, Loc (str "t") 2 0) EOpcodeName;
     PBlock (str "a") [(str "key", str "60")]].
Proof. vm_compute. reflexivity. Qed.

(** The hypotheses of C55 hold for the file that includes itself. *)
Example C55_ex :
  let W := self_world false in let t := str "<g>#include ""a"" key=1" in
  files_fit W /\ fits t /\ ~ In 255 t /\
  ranked (fun id v => In (id, v) [] \/ exists f u, source W (str "t") t f u /\ defines u id v) (fun _ => O) 0 /\
  (0 + 2 <= w_rounds W)%nat /\
  option_map p_files (parseString 30 W [] [] (str "t") t) = Some [].
Proof.
  intros W t.
  assert (ND : forall f u, source W (str "t") t f u -> ~ In 36 u).
  { intros f u [S|[_ ->]].
    - cbn [W self_world w_read] in S. destruct (text_eqb f (str "a")); [|discriminate].
      injection S as <-. cbn. intuition discriminate.
    - cbn. intuition discriminate. }
  split; [|split; [reflexivity|split; [|split; [|split; [cbn; lia|vm_compute; reflexivity]]]]].
  - intros f u S. cbn [W self_world w_read] in S. destruct (text_eqb f (str "a")); [|discriminate].
    injection S as <-. reflexivity.
  - cbn. intuition discriminate.
  - intros id v [[]|(f & u & S & a & s1 & s2 & b & -> & _)]. exfalso. apply (ND _ _ S).
    apply in_or_app. right. apply in_or_app. right. apply in_or_app. right. now left.
Qed.
