(** C84: where included files are looked for, and how often they are entered.
    Code: src/sfizz/parser/Parser.cpp 43-134 (parseFile, parseVirtualFile, includeNewFile, processTopLevel), as in ParserModel.v. *)
From Coq Require Import ZArith List Bool Lia String.
From Verif Require Import ParserModel ParserReader ParserSteps ParserAdvance ParserExpand ParserProps ParserRound.
Import ListNotations.
Local Open Scope Z_scope.

Section Include.
Variable W : world.
(** the full path of the first file *)
Variable F : text.

(** Where the parser stands: nothing entered, or the directory of the first file is the one that counts and the files entered are the
    first one and files in this directory. *)
Definition placed (p : parser) : Prop :=
  (p_paths p = [] /\ p_files p = []) \/
  p_dir p = w_parent W F /\ (exists l, p_paths p = l ++ [F]) /\ Forall (fun x => x = F \/ exists y, x = w_full W (w_parent W F) y) (p_paths p) /\
  (w_guard W = true -> NoDup (p_paths p)) /\ p_paths p <> [].

Lemma placed_kept p q : placed p -> p_paths p <> [] -> p_paths q = p_paths p -> p_dir q = p_dir p -> placed q /\ p_paths q <> [].
Proof.
  intros [[H _]|H] N E1 E2; [contradiction|]. split; [|rewrite E1; exact N]. right. rewrite E1, E2. exact H.
Qed.
Definition fine (p : parser) : Prop := placed p /\ p_paths p <> [].

Lemma fine_same p q : p_paths q = p_paths p -> p_dir q = p_dir p -> fine p -> fine q.
Proof. intros E1 E2 [H N]. exact (placed_kept p q H N E1 E2). Qed.
Lemma fine_fail p r rg e q : fail p r rg e = Some q -> fine p -> fine q.
Proof.
  unfold fail. destruct (recover r) as [r1|]; [|discriminate]. cbn [bind]. intros [= <-] T. apply (fine_same p); auto.
Qed.
Lemma fine_warnings n rg p : fine p -> fine (warnings n rg p).
Proof.
  intros T. unfold warnings. induction n as [|n IH]; [exact T|].
  change (Nat.iter (S n) (emit (PWarning rg)) p) with (emit (PWarning rg) (Nat.iter n (emit (PWarning rg)) p)).
  eapply fine_same; [| |exact IH]; reflexivity.
Qed.
Lemma text_eqb_refl' t : text_eqb t t = true.
Proof. apply text_eqb_eq. reflexivity. Qed.
Lemma fine_include path rg p : fine p -> fine (includeNewFile W path None (Some rg) p).
Proof.
  intros [[[H _]|(HD & (l & HL) & HA & HG & _)] N]; [contradiction|]. unfold includeNewFile.
  destruct (p_paths p) as [|x0 xs] eqn:EP; [contradiction|]. cbn [negb andb].
  destruct (existsb (text_eqb (w_full W (p_dir p) path)) (x0 :: xs) && w_guard W) eqn:EG.
  - split; [|rewrite EP; discriminate]. right. rewrite EP. split; [exact HD|]. split; [eauto|]. split; [exact HA|]. split; [exact HG|discriminate].
  - assert (SAME : forall e, fine (emit (PError rg e) (Parser (p_files p) (x0 :: xs) (p_dir p) (p_defs p) (p_header p) (p_ops p) (p_out p)))).
    { intros e. split; [|discriminate]. right. cbn [emit p_paths p_dir]. split; [exact HD|]. split; [eauto|]. split; [exact HA|]. split; [exact HG|discriminate]. }
    destruct (Nat.eqb _ _); [apply SAME|]. destruct (option_map _ _); [|apply SAME].
    split; [|discriminate]. right. cbn [p_paths p_dir]. split; [exact HD|]. split; [exists (w_full W (p_dir p) path :: l); cbn [app]; rewrite <- HL; reflexivity|].
    split; [constructor; [right; exists path; rewrite HD; reflexivity|exact HA]|]. split; [|discriminate].
    intros G. rewrite G, andb_true_r in EG. constructor; [|auto]. intros IN.
    assert (X : existsb (text_eqb (w_full W (p_dir p) path)) (x0 :: xs) = true).
    { apply existsb_exists. exists (w_full W (p_dir p) path). split; [exact IN|apply text_eqb_refl']. }
    rewrite X in EG. discriminate EG.
Qed.

Ltac bd H := apply bind_inv in H; destruct H as (?x & ?E & H).
Ltac sameas T := eapply fine_same; [| |exact T]; reflexivity.

Lemma fine_comment p r b q r' : skipComment p r = Some (b, q, r') -> fine p -> fine q.
Proof.
  unfold skipComment. intros H T. bd H. destruct x as [ty r0]. destruct (ty =? 0).
  - now injection H as <- <- <-.
  - destruct (ty =? 1).
    + bd H. now injection H as <- <- <-.
    + destruct (getChar _) as [b3 r3]. bd H. destruct x as [te r4]. destruct te.
      * now injection H as <- <- <-.
      * injection H as <- <- <-. sameas T.
Qed.
Lemma fine_blank : forall n p r q r', skip_blank n p r = Some (q, r') -> fine p -> fine q.
Proof.
  induction n as [|n IH]; intros p r q r' H T; [discriminate|]. cbn [skip_blank] in H.
  bd H. destruct x as [[|m] r1]; [|eapply IH; eassumption].
  bd H. destruct x as [[mo p2] r2]. pose proof (fine_comment _ _ _ _ _ E0 T) as T2.
  destruct mo; [eapply IH; eassumption|]. now injection H as <- <-.
Qed.
Lemma fine_top p r : fine p -> fine (set_top p r).
Proof. intros T. sameas T. Qed.
Lemma fine_flush p : fine p -> fine (flushCurrentHeader p).
Proof. intros T. unfold flushCurrentHeader. destruct (p_header p); sameas T. Qed.
Lemma fine_processHeader p r q : processHeader p r = Some q -> fine p -> fine q.
Proof.
  unfold processHeader. intros H T. destruct (getChar r) as [b r0].
  destruct (negb (is_char b 60)); [eapply fine_fail; eassumption|].
  bd H. destruct x as [name r1]. bd H. destruct x as [b1 r2].
  destruct (negb (is_char b1 62)); [eapply fine_fail; eassumption|].
  destruct (negb (isIdentifier name)); [eapply fine_fail; eassumption|].
  injection H as <-. sameas (fine_flush p T).
Qed.
Lemma fine_processOpcode p r q : processOpcode W p r = Some q -> fine p -> fine q.
Proof.
  unfold processOpcode. intros H T. bd H. destruct x as [raw r1].
  destruct raw as [|c raw']; [eapply fine_fail; eassumption|].
  bd H. destruct x as [b r2]. destruct (negb (is_char b 61)); [eapply fine_fail; eassumption|].
  bd H. destruct x as [name w].
  set (p1 := warnings w _ p) in *.
  assert (T1 : fine p1) by now apply fine_warnings.
  destruct (negb (isIdentifier name)); [eapply fine_fail; eassumption|].
  destruct (text_eqb name (str "base64data")).
  - bd H. destruct x as [v r4]. injection H as <-. sameas T1.
  - bd H. destruct x as [line r4]. destruct (value_split _ line) as [v excess]. bd H. bd H.
    destruct x0 as [v1 w1]. injection H as <-.
    match goal with |- context [emit _ (set_block ?p3 _ _)] => assert (T3 : fine p3) end.
    { apply fine_warnings. destruct (p_header p1); [exact T1|]. sameas T1. }
    sameas T3.
Qed.
Lemma fine_processDirective p r q : processDirective W p r = Some q -> fine p -> fine q.
Proof.
  unfold processDirective. intros H T. destruct (getChar r) as [b r0].
  destruct (negb (is_char b 35)); [eapply fine_fail; eassumption|].
  bd H. destruct x as [dir r1]. destruct (text_eqb dir (str "define")).
  - bd H. destruct x as [? r2]. bd H. destruct x as [dollar r3]. bd H. destruct x as [id r4].
    destruct id; [eapply fine_fail; eassumption|].
    bd H. destruct x as [? r5]. bd H. destruct x as [v r6]. destruct (cut_blank v) as [v1 ex]. bd H.
    injection H as <-. sameas T.
  - destruct (text_eqb dir (str "include")); [|eapply fine_fail; eassumption].
    bd H. destruct x as [? r2]. bd H. destruct x as [quote r3]. bd H. destruct x as [path r4].
    bd H. destruct x as [valid r5]. destruct (negb valid); [eapply fine_fail; eassumption|].
    bd H. destruct x as [path1 w]. injection H as <-.
    apply fine_include, fine_top, fine_warnings, T.
Qed.
Lemma fine_step p q : step W p = Some q -> fine p -> fine q.
Proof.
  unfold step. intros H T. destruct (p_files p) as [|r below]; [now injection H as <-|].
  bd H. destruct x as [p1 r1]. pose proof (fine_blank _ _ _ _ _ E T) as T1.
  bd H. destruct x as [b r2]. destruct b as [c|].
  - destruct (c =? 35); [eapply fine_processDirective; [exact H|now apply fine_top]|].
    destruct (c =? 60); [eapply fine_processHeader; [exact H|now apply fine_top]|].
    eapply fine_processOpcode; [exact H|now apply fine_top].
  - injection H as <-. sameas T1.
Qed.
Lemma placed_run : forall n p q, processTopLevel n W p = Some q -> placed p -> placed q.
Proof.
  induction n as [|n IH]; intros p q H T; cbn [processTopLevel] in H;
    (destruct (p_files p) eqn:EF; [now injection H as <-|]); [discriminate|].
  bd H. eapply IH; [exact H|]. destruct T as [[_ X]|T]; [congruence|]. eapply fine_step; [exact E|]. split; [right; exact T|apply T].
Qed.
End Include.

(** C84: when parsing is over, the directory of reference is that of the first file, whatever was included; the files entered are the first
    one and files given relative to this directory, never to the directory of the file that includes them; and with the include guard
    no file has been entered twice.  (Nothing entered means that the first file could not be opened.) *)
Theorem C84_included_files : forall fuel W dir ext path given p, parseVirtualFile fuel W dir ext path given = Some p ->
  let F := w_full W dir path in
  p_paths p = [] \/
  p_dir p = w_parent W F /\ (exists l, p_paths p = l ++ [F]) /\ (forall x, In x (p_paths p) -> x = F \/ exists y, x = w_full W (w_parent W F) y) /\
  (w_guard W = true -> NoDup (p_paths p)).
Proof.
  intros fuel W dir ext path given p H F. unfold parseVirtualFile in H. apply bind_inv in H. destruct H as (q & E & H). injection H as <-.
  assert (PL : placed W F q).
  { eapply placed_run; [exact E|]. unfold start, includeNewFile. cbn [p_paths negb andb existsb p_files List.length p_dir p_defs p_header p_ops p_out].
    fold F. destruct (Nat.eqb 0 (w_depth W)); [left; split; reflexivity|].
    destruct (match given with Some r => Some r | None => _ end); [|left; split; reflexivity].
    right. cbn [p_paths p_dir]. split; [reflexivity|]. split; [exists []; reflexivity|]. split; [constructor; [now left|constructor]|].
    split; [|discriminate]. intros _. constructor; [intros []|constructor]. }
  assert (EQ : p_paths (flushCurrentHeader q) = p_paths q /\ p_dir (flushCurrentHeader q) = p_dir q).
  { unfold flushCurrentHeader. destruct (p_header q); split; reflexivity. }
  destruct EQ as [-> ->]. destruct PL as [[X _]|(H1 & H2 & H3 & H4 & _)]; [now left|]. right. split; [exact H1|]. split; [exact H2|]. split; [|exact H4].
  apply Forall_forall. exact H3.
Qed.

(** A file in a directory includes a file in a deeper one, which includes a third; both are looked for in the directory of the first. *)
Definition slashed (d p : text) : text := match d with [] => p | _ => d ++ 47 :: p end.
Definition parent (f : text) : text :=
  fst (fold_left (fun '(best, seen) c => (if c =? 47 then seen else best, seen ++ [c])) f ([], [])).
Definition two_worlds (guard : bool) : world :=
  World (fun f => if text_eqb f (str "a/b.sfz") then Some (str "#include ""sub/c.sfz""")
                  else if text_eqb f (str "a/sub/c.sfz") then Some (str "#include ""sub/d.sfz""")
                  else if text_eqb f (str "a/sub/d.sfz") then Some (str "<region>#include ""b.sfz""") else None)
        slashed parent 5 guard 4.
Example C84_ex :
  option_map p_paths (parseFile 60 (two_worlds true) [] [] (str "a/b.sfz")) = Some [str "a/sub/d.sfz"; str "a/sub/c.sfz"; str "a/b.sfz"] /\
  option_map p_dir (parseFile 60 (two_worlds true) [] [] (str "a/b.sfz")) = Some (str "a").
Proof. split; vm_compute; reflexivity. Qed.

(** C84 is not so for the first file itself: its path, if relative, is taken relative to the directory of the file parsed before, because
    this directory survives.  The same relative path parsed twice with the same parser is another file the second time. *)
Theorem C84_same_path_twice_refuted :
  exists W path p1 p2, parseFile 60 W [] [] path = Some p1 /\ In (str "region") (map fst (blocks_told (told_of p1))) /\
    parseFile 60 W (p_dir p1) [] path = Some p2 /\ blocks_told (told_of p2) = [] /\ p_paths p2 = [].
Proof.
  exists (two_worlds true), (str "a/b.sfz").
  destruct (parseFile 60 (two_worlds true) [] [] (str "a/b.sfz")) as [p1|] eqn:E1; [|vm_compute in E1; discriminate E1].
  assert (D : p_dir p1 = str "a") by (revert E1; vm_compute; intros [= <-]; reflexivity).
  destruct (parseFile 60 (two_worlds true) (p_dir p1) [] (str "a/b.sfz")) as [p2|] eqn:E2; [|rewrite D in E2; vm_compute in E2; discriminate E2].
  exists p1, p2. split; [reflexivity|]. split; [revert E1; vm_compute; intros [= <-]; left; reflexivity|]. split; [exact E2|].
  rewrite D in E2. revert E2. vm_compute. intros [= <-]. split; reflexivity.
Qed.
