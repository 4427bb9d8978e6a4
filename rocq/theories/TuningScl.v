(** Reading Scala files (C90). *)
From Coq Require Import String ZArith List Bool Lia.
From Verif Require Import ParserModel OpcodeModel TuningModel.
Import ListNotations.
Local Open Scope string_scope.
Local Open Scope list_scope.
Local Open Scope Z_scope.

(** *** Lines *)
Definition written (lines : list text) : text := concat (map (fun l => l ++ [10]) lines).
Lemma getlines_line cur l rest : ~ In 10 l -> getlines cur (l ++ 10 :: rest) = (rev cur ++ l) :: getlines [] rest.
Proof.
  revert cur. induction l as [|c l IH]; intros cur N; cbn [app getlines].
  - rewrite app_nil_r. reflexivity.
  - destruct (Z.eqb_spec c 10) as [->|D]; [exfalso; apply N; left; reflexivity|]. rewrite IH by (intros H; apply N; right; exact H).
    cbn [rev]. rewrite <- app_assoc. reflexivity.
Qed.
Lemma getlines_written lines : Forall (fun l => ~ In 10 l) lines -> getlines [] (written lines) = lines.
Proof.
  unfold written. induction lines as [|l lines IH]; intros F; [reflexivity|]. inversion F as [|? ? F1 F2]; subst. cbn [map concat]. rewrite <- app_assoc. cbn [app].
  rewrite getlines_line by assumption. cbn [rev app]. now rewrite IH.
Qed.

Lemma getlines_last cur l : ~ In 10 l -> rev cur ++ l <> [] -> getlines cur l = getlines cur (l ++ [10]).
Proof.
  revert cur. induction l as [|c l IH]; intros cur N E; cbn [app getlines].
  - rewrite app_nil_r in E. cbn. destruct cur; [elim E; reflexivity|reflexivity].
  - destruct (Z.eqb_spec c 10) as [->|D]; [exfalso; apply N; left; reflexivity|]. apply IH; [intros X; apply N; right; exact X|].
    cbn [rev]. rewrite <- app_assoc. exact E.
Qed.
Lemma getlines_app lines l : Forall (fun l => ~ In 10 l) lines -> getlines [] (written lines ++ l) = lines ++ getlines [] l.
Proof.
  unfold written. induction lines as [|x lines IH]; intros F; [reflexivity|]. inversion F as [|? ? F1 F2]; subst. cbn [map concat]. rewrite <- !app_assoc. cbn [app].
  rewrite getlines_line by assumption. cbn [rev app]. now rewrite IH.
Qed.

(** *** Lines of a scale *)
Definition comment (l : text) : Prop := startsBang l = true.
Lemma sclLines_app s a b : sclLines s (a ++ b) = match sclLines s a with Some s' => sclLines s' b | None => None end.
Proof. revert s. induction a as [|l a IH]; intros s; cbn [app sclLines]; [reflexivity|]. destruct (sclLine s l); [apply IH|reflexivity]. Qed.
Lemma comments_skip s l : Forall comment l -> sclLines s l = Some s.
Proof.
  induction 1 as [|x l C _ IH]; [reflexivity|]. cbn [sclLines]. unfold sclLine. unfold comment in C. rewrite C, orb_true_r. exact IH.
Qed.
Lemma trailing_skip c t l : sclLines (Scl Trailing c t) l = Some (Scl Trailing c t).
Proof. induction l as [|x l IH]; [reflexivity|]. cbn [sclLines]. unfold sclLine. cbn [sc_phase orb]. destruct (startsBang x); exact IH. Qed.
(** The lines that are notes: neither empty nor comments. *)
Definition noteLines (body : list text) : list text := filter (fun l => negb (isNil l) && negb (startsBang l)) body.
Lemma body_spec n body : forall acc tones, (length acc < Z.to_nat n)%nat -> (length acc + length tones = Z.to_nat n)%nat ->
  map toneFromString (noteLines body) = map Some tones -> sclLines (Scl ReadNote n acc) body = Some (Scl Trailing n (acc ++ tones)).
Proof.
  induction body as [|l body IH]; intros acc tones L E M.
  - destruct tones; [|discriminate]. cbn [length] in E. lia.
  - cbn [sclLines]. unfold sclLine. cbn [sc_phase sc_tones sc_count]. cbn [noteLines filter] in M.
    destruct (isNil l || startsBang l) eqn:D.
    + apply IH; [assumption..|]. rewrite <- negb_orb, D in M. exact M.
    + rewrite <- negb_orb, D in M. cbn [negb map] in M. destruct tones as [|t tones]; [discriminate|]. cbn [map] in M. injection M as -> M.
      cbn [length] in E. rewrite app_length. cbn [length].
      destruct (Z.eqb_spec (Z.of_nat (length acc + 1)) n) as [A|A].
      * assert (tones = []) as -> by (destruct tones; [reflexivity|cbn [length] in E; lia]). apply trailing_skip.
      * rewrite (IH (acc ++ [t]) tones); [now rewrite <- app_assoc|rewrite app_length; cbn [length]; lia..|exact M].
Qed.
(** C90: a scale that is written as the format says is read as written: comments anywhere, a line of description, the number of notes, then as many notes
    with empty lines anywhere between them, and anything after the last note. *)
Theorem C90_read_scale c0 header c1 countLine n body after tones :
  Forall (fun l => ~ In 10 l) (c0 ++ [header] ++ c1 ++ [countLine] ++ body ++ after) ->
  Forall comment c0 -> ~ comment header -> Forall comment c1 -> ~ comment countLine -> atoi countLine = n -> 1 <= n <= 64 ->
  Z.of_nat (length tones) = n -> map toneFromString (noteLines body) = map Some tones ->
  readSCL (written (c0 ++ [header] ++ c1 ++ [countLine] ++ body ++ after)) = Some tones.
Proof.
  intros NL C0 H C1 C A N L M. unfold readSCL. rewrite getlines_written by assumption.
  rewrite sclLines_app, comments_skip by assumption. rewrite sclLines_app. cbn [sclLines]. unfold sclLine at 1. cbn [sc_phase orb sc_count sc_tones].
  unfold comment in H, C. destruct (startsBang header); [congruence|].
  rewrite sclLines_app, comments_skip by assumption. rewrite sclLines_app. cbn [sclLines]. unfold sclLine at 1. cbn [sc_phase orb sc_count sc_tones].
  destruct (startsBang countLine); [congruence|]. rewrite A. unfold capacity.
  destruct (Z.ltb_spec n 0); [lia|]. destruct (Z.ltb_spec 64 n); [lia|]. destruct (Z.ltb_spec 0 n); [|lia]. cbn [orb].
  rewrite sclLines_app, (body_spec n body [] tones); [|cbn [length]; lia..|exact M]. rewrite trailing_skip. cbn [sc_phase sc_tones sc_count app].
  rewrite L, Z.eqb_refl. reflexivity.
Qed.
(** C90: the last line need not end in a line feed. *)
Theorem C90_last_line lines l : Forall (fun l => ~ In 10 l) lines -> ~ In 10 l -> l <> [] -> readSCL (written lines ++ l) = readSCL (written (lines ++ [l])).
Proof.
  intros F N E. unfold readSCL. replace (written (lines ++ [l])) with (written lines ++ (l ++ [10])) by (unfold written; rewrite map_app, concat_app; cbn [map concat]; now rewrite app_nil_r).
  rewrite !getlines_app by assumption. rewrite <- getlines_last by assumption. reflexivity.
Qed.
Example C90_last_line_ex : readSCL (str "x" ++ [10] ++ str "1" ++ [10] ++ str "2/1") = Some [ToneRatio 2 1].
Proof. reflexivity. Qed.
(** C90: whatever the text, a scale that is read has at most as many tones as there is room for, and no ratio with a zero. *)
Definition okTone (t : tone) : Prop := match t with ToneCents _ => True | ToneRatio n d => n <> 0 /\ d <> 0 end.
Theorem C90_read_bounds t tones : readSCL t = Some tones -> (length tones <= 64)%nat /\ Forall okTone tones.
Proof.
  unfold readSCL. generalize (getlines [] t). intros lines.
  assert (forall s s', sclLines s lines = Some s' -> (Z.of_nat (length (sc_tones s)) <= sc_count s <= 64 /\ Forall okTone (sc_tones s) /\
     (sc_phase s = ReadNote -> Z.of_nat (length (sc_tones s)) < sc_count s) /\ (sc_phase s = ReadHeader \/ sc_phase s = ReadCount -> sc_tones s = [])) ->
     Z.of_nat (length (sc_tones s')) <= sc_count s' <= 64 /\ Forall okTone (sc_tones s')) as G.
  { induction lines as [|l lines IH]; intros s s' E (A & B & C & D); cbn [sclLines] in E; [injection E as <-; auto|].
    destruct (sclLine s l) as [s1|] eqn:S1; [|discriminate]. apply (IH s1 s' E). clear IH E s'. unfold sclLine in S1.
    destruct (_ || startsBang l); [injection S1 as <-; auto|].
    destruct (sc_phase s) eqn:P.
    - injection S1 as <-. cbn. repeat split; auto; try lia. discriminate.
    - destruct (Z.ltb_spec (atoi l) 0); [discriminate|]. unfold capacity in S1. destruct (Z.ltb_spec 64 (atoi l)); [discriminate|]. injection S1 as <-. cbn.
      rewrite D by auto. cbn [length]. split; [lia|]. split; [constructor|]. split; [|auto]. destruct (Z.ltb_spec 0 (atoi l)); [lia|discriminate].
    - destruct (toneFromString l) as [x|] eqn:T; [|discriminate]. injection S1 as <-. cbn. rewrite app_length. cbn [length]. specialize (C eq_refl).
      split; [lia|]. split.
      + apply Forall_app. split; [exact B|]. constructor; [|constructor]. unfold toneFromString in T. destruct (find 46 l); [injection T as <-; exact I|].
        destruct (match find 47 l with Some _ => _ | None => _ end) as [n d]. destruct (Z.eqb_spec n 0); [discriminate|]. destruct (Z.eqb_spec d 0); [discriminate|].
        injection T as <-. now split.
      + split; [|intros [H|H]; destruct (_ =? _); discriminate]. destruct (Z.eqb_spec (Z.of_nat (length (sc_tones s) + 1)) (sc_count s)); [discriminate|]. lia.
    - injection S1 as <-. rewrite P. split; [exact A|]. split; [exact B|]. split; [discriminate|]. intros [H|H]; discriminate. }
  intros E. destruct (sclLines _ lines) as [s|] eqn:S; [|discriminate].
  destruct (G _ s S) as (A & B). { cbn. split; [lia|]. split; [constructor|]. split; [discriminate|auto]. }
  assert (sc_tones s = tones) as <- by (destruct (sc_phase s); try discriminate E; destruct (_ =? _); (discriminate E || now injection E)).
  split; [lia|exact B].
Qed.

(** *** Lines of notes *)
Lemma digitsValue_stop acc ds rest : Forall (fun c => isDigit c = true) ds -> (match rest with c :: _ => isDigit c = false | [] => True end) ->
  digitsValue acc (ds ++ rest) = digitsValue acc ds.
Proof.
  intros F R. revert acc. induction F as [|c ds C _ IH]; intros acc; cbn [app digitsValue].
  - destruct rest; [reflexivity|]. cbn [digitsValue]. now rewrite R.
  - rewrite C. apply IH.
Qed.
Lemma atoi_digits sp c ds rest : Forall (fun x => isSpace x = true) sp -> Forall (fun x => isDigit x = true) (c :: ds) ->
  (match rest with x :: _ => isDigit x = false | [] => True end) -> atoi (sp ++ (c :: ds) ++ rest) = digitsValue 0 (c :: ds).
Proof.
  intros S D R. induction S as [|x sp X _ IH]; cbn [app atoi].
  - assert (isDigit c = true) as C by (inversion D; assumption). unfold isDigit in C. apply andb_true_iff in C. destruct C as [C1 C2]. apply Z.leb_le in C1, C2.
    assert (isSpace c = false) as ->.
    { unfold isSpace. destruct (Z.eqb_spec c 32); [lia|]. destruct (Z.leb_spec c 13); [lia|]. rewrite andb_false_r. reflexivity. }
    destruct (Z.eqb_spec c 45); [lia|]. destruct (Z.eqb_spec c 43); [lia|]. apply (digitsValue_stop 0 (c :: ds) rest D R).
  - rewrite X. exact IH.
Qed.
Lemma find_none c t : ~ In c t -> find c t = None.
Proof. induction t as [|x t IH]; intros N; [reflexivity|]. cbn [find]. destruct (Z.eqb_spec x c) as [->|]; [exfalso; apply N; now left|]. rewrite IH; [reflexivity|]. intros H. apply N. now right. Qed.
Lemma find_at c a b : ~ In c a -> find c (a ++ c :: b) = Some (length a).
Proof.
  induction a as [|x a IH]; intros N; cbn [app find length]; [now rewrite Z.eqb_refl|].
  destruct (Z.eqb_spec x c) as [->|]; [exfalso; apply N; now left|]. rewrite IH; [reflexivity|]. intros H. apply N. now right.
Qed.
(** C90: a ratio is read from the beginning of its line, with anything behind it that has no full stop; a number alone is that number over 1. *)
Theorem C90_ratio_partial sp a n b d rest : Forall (fun x => isSpace x = true) sp ->
  Forall (fun x => isDigit x = true) (a :: n) -> Forall (fun x => isDigit x = true) (b :: d) ->
  (match rest with x :: _ => isDigit x = false | [] => True end) -> ~ In 46 rest -> digitsValue 0 (a :: n) <> 0 ->
  (digitsValue 0 (b :: d) <> 0 ->
     toneFromString (sp ++ (a :: n) ++ 47 :: (b :: d) ++ rest) = Some (ToneRatio (digitsValue 0 (a :: n)) (digitsValue 0 (b :: d)))) /\
  (~ In 47 rest -> toneFromString (sp ++ (a :: n) ++ rest) = Some (ToneRatio (digitsValue 0 (a :: n)) 1)).
Proof.
  intros Sp N D R P Z0.
  assert (forall k, (k = 46 \/ k = 47) -> ~ In k sp) as S1.
  { intros k K H. rewrite Forall_forall in Sp. apply Sp in H. unfold isSpace in H. destruct K as [-> | ->]; discriminate H. }
  assert (forall k l, (k = 46 \/ k = 47) -> Forall (fun x => isDigit x = true) l -> ~ In k l) as S2.
  { intros k l K F H. rewrite Forall_forall in F. apply F in H. unfold isDigit in H. destruct K as [-> | ->]; discriminate H. }
  split.
  - intros Z1. unfold toneFromString. rewrite find_none.
    2:{ intros H. rewrite !in_app_iff in H. destruct H as [H|[H|[H|H]]]; [exact (S1 _ (or_introl eq_refl) H)|exact (S2 _ _ (or_introl eq_refl) N H)|discriminate H|].
        change (In 46 ((b :: d) ++ rest)) in H. rewrite in_app_iff in H. destruct H as [H|H]; [exact (S2 _ _ (or_introl eq_refl) D H)|contradiction]. }
    rewrite app_assoc, find_at.
    2:{ rewrite in_app_iff. intros [H|H]; [exact (S1 _ (or_intror eq_refl) H)|exact (S2 _ _ (or_intror eq_refl) N H)]. }
    rewrite firstn_app, firstn_all, Nat.sub_diag. cbn [firstn]. rewrite app_nil_r.
    replace (skipn (S (length (sp ++ a :: n))) ((sp ++ a :: n) ++ 47 :: (b :: d) ++ rest)) with ((b :: d) ++ rest).
    2:{ rewrite skipn_app, skipn_all2 by lia. replace (S (length (sp ++ a :: n)) - length (sp ++ a :: n))%nat with 1%nat by lia. reflexivity. }
    pose proof (atoi_digits sp a n [] Sp N I) as E1. rewrite app_nil_r in E1. rewrite E1.
    pose proof (atoi_digits [] b d rest (Forall_nil _) D R) as E2. cbn [app] in E2. cbn [app]. rewrite E2.
    destruct (Z.eqb_spec (digitsValue 0 (a :: n)) 0); [contradiction|]. destruct (Z.eqb_spec (digitsValue 0 (b :: d)) 0); [contradiction|]. reflexivity.
  - intros Q. unfold toneFromString. assert (forall k, k = 46 \/ k = 47 -> ~ In k (sp ++ (a :: n) ++ rest)) as F.
    { intros k K. rewrite !in_app_iff. intros [H|[H|H]]; [exact (S1 _ K H)|exact (S2 _ _ K N H)|destruct K as [-> | ->]; contradiction]. }
    rewrite !find_none by (apply F; auto). rewrite (atoi_digits sp a n rest Sp N R).
    destruct (Z.eqb_spec (digitsValue 0 (a :: n)) 0); [contradiction|]. reflexivity.
Qed.
(** C90: with a full stop behind it (the format allows any text there) a ratio is taken for a number of cents, here 3 cents instead of a fifth; and a
    negative ratio, which has no logarithm, is not refused. *)
Theorem C90_ratio_refuted : toneFromString (str "3/2 perf. fifth") = Some (ToneCents (str "3/2 perf. fifth")) /\
  toneFromString (str "3/2 perfect fifth") = Some (ToneRatio 3 2) /\ toneFromString (str "-3/2") = Some (ToneRatio (-3) 2).
Proof. repeat split. Qed.
(** C90: with line ends of two characters an empty line between the notes is not empty, and the file is refused. *)
Theorem C90_crlf_refuted : let file e := str "x" ++ e ++ str "2" ++ e ++ str "3/2" ++ e ++ e ++ str "2/1" ++ e in
  readSCL (file [10]) = Some [ToneRatio 3 2; ToneRatio 2 1] /\ readSCL (file [13; 10]) = None.
Proof. split; reflexivity. Qed.
Example C90_read_ex :
  let lines := [str "! just.scl"; str "A scale"; str "!"; str " 3"; str "! notes"; str " 81/64"; []; str "702.0 cents"; str "2"; str "junk"] in
  readSCL (written lines) = Some [ToneRatio 81 64; ToneCents (str "702.0 cents"); ToneRatio 2 1] /\
  map toneFromString (noteLines [str "! notes"; str " 81/64"; []; str "702.0 cents"; str "2"]) = map Some [ToneRatio 81 64; ToneCents (str "702.0 cents"); ToneRatio 2 1].
Proof. split; reflexivity. Qed.
