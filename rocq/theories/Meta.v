(** Reading the chunks of sample files (C43) and the loops in them (C63). *)
From Coq Require Import ZArith List Lia Bool.
Import ListNotations.
From Verif Require Import MetaModel.
Local Open Scope Z_scope.
Definition byte (x : Z) : Prop := 0 <= x < 256.
Lemma listEqb_eq a : forall b, listEqb a b = true <-> a = b.
Proof.
  induction a as [|x a IH]; intros [|y b]; cbn; split; intros H; try discriminate; try reflexivity.
  - apply andb_true_iff in H. destruct H as [H1 H2]. apply Z.eqb_eq in H1. apply IH in H2. congruence.
  - injection H as -> ->. rewrite Z.eqb_refl. now apply IH.
Qed.
Section Reader.
Variable file : list Z.
Hypothesis bytes : Forall byte file.
Variable k : kind.
Notation len := (len file).
Notation sub := (sub file).
Lemma len_nonneg : 0 <= len. Proof. unfold MetaModel.len. lia. Qed.
Lemma sub_length off n : 0 <= off -> 0 <= n -> off + n <= len -> Z.of_nat (length (sub off n)) = n.
Proof. intros O N L. unfold MetaModel.sub, MetaModel.len in *. rewrite firstn_length, skipn_length. lia. Qed.
Lemma sub_bytes off n : Forall byte (sub off n).
Proof.
  unfold MetaModel.sub. rewrite Forall_forall in *. intros x Hx. apply bytes. rewrite <- (firstn_skipn (Z.to_nat off) file). apply in_or_app. right.
  rewrite <- (firstn_skipn (Z.to_nat n)). apply in_or_app. now left.
Qed.
Lemma nth_byte l i : Forall byte l -> byte (nth i l 0).
Proof. intros F. destruct (Nat.lt_ge_cases i (length l)) as [L|L]; [|rewrite nth_overflow by assumption; unfold byte; lia]. rewrite Forall_forall in F. apply F. now apply nth_In. Qed.
Lemma le32_range l : Forall byte l -> 0 <= le32 l < 2 ^ 32.
Proof. intros F. pose proof (nth_byte l 0 F). pose proof (nth_byte l 1 F). pose proof (nth_byte l 2 F). pose proof (nth_byte l 3 F). unfold le32, byte in *. lia. Qed.
Lemma be32_range l : Forall byte l -> 0 <= be32 l < 2 ^ 32.
Proof. intros F. pose proof (nth_byte l 0 F). pose proof (nth_byte l 1 F). pose proof (nth_byte l 2 F). pose proof (nth_byte l 3 F). unfold be32, byte in *. lia. Qed.

(** ** Items *)
(** Positions that occur: the memory reader never leaves the file. *)
Definition posOk (p : Z) : Prop := 0 <= p /\ (k = Memory -> p <= len).
Lemma readItem_yes n pos : 0 < n -> 0 <= pos -> pos + n <= len -> readItem file k n pos = (Some (sub pos n), pos + n).
Proof.
  intros N P L. unfold readItem, doRead. destruct k.
  - destruct (Z.eqb_spec n 0); [lia|]. rewrite Z.mul_1_l, Z.min_l by lia. replace (pos + n - pos) with n by lia. rewrite Z.div_same by lia. rewrite Z.mul_1_l. reflexivity.
  - destruct (Z.eqb_spec n 0); [lia|]. cbn [orb Z.eqb]. rewrite Z.mul_1_l, Z.min_l by lia. rewrite Z.div_same by lia. reflexivity.
Qed.
Lemma readItem_no n pos : 0 < n -> posOk pos -> len < pos + n -> exists p, readItem file k n pos = (None, p).
Proof.
  intros N [P M] L. unfold readItem, doRead. pose proof len_nonneg. destruct k.
  - destruct (Z.eqb_spec n 0); [lia|]. specialize (M eq_refl). rewrite Z.mul_1_l, Z.min_r by lia. rewrite Z.div_small by lia. eexists. reflexivity.
  - destruct (Z.eqb_spec n 0); [lia|]. cbn [orb Z.eqb]. rewrite Z.mul_1_l. rewrite Z.min_r by lia. rewrite Z.div_small by lia. eexists. reflexivity.
Qed.

(** ** The chunks of a RIFF or AIFF file *)
Section Walk.
Variable word : list Z -> Z.
Hypothesis word_range : forall l, Forall byte l -> 0 <= word l < 2 ^ 32.
(** The chunks as the formats define them: at [p], four bytes of identifier, four of length, the data padded to an even
    length, and the next chunk.  The walk ends at the end of the file, at a chunk that sticks out of it when the reader
    cannot be placed there, or at a length that does not fit 32 bits once padded, about which nothing is said. *)
Inductive ending := AtEnd | Cut | Huge.
Inductive walk : Z -> list chunk -> ending -> Prop :=
| W_end p : len < p + 8 -> walk p [] AtEnd
| W_chunk p size next l e : p + 8 <= len -> size = word (sub (p + 4) 4) -> size <> 2 ^ 32 - 1 -> next = p + 8 + size + size mod 2 ->
    (k = Memory -> next <= len) -> walk next l e -> walk p (Chunk (p + 8) (sub p 4) size :: l) e
| W_cut p size : p + 8 <= len -> size = word (sub (p + 4) 4) -> size <> 2 ^ 32 - 1 -> k = Memory -> len < p + 8 + size + size mod 2 ->
    walk p [] Cut
| W_huge p : p + 8 <= len -> word (sub (p + 4) 4) = 2 ^ 32 - 1 -> walk p [] Huge.
Definition agrees (acc l : list chunk) (e : ending) (r : outcome) : Prop :=
  match e with AtEnd => r = Opened (acc ++ l) | Cut => r = Failed | Huge => True end.
Lemma land_1 x : Z.land x 1 = x mod 2.
Proof. change 1 with (Z.ones 1). rewrite Z.land_ones by lia. reflexivity. Qed.
Lemma u32_pad x : 0 <= x < 2 ^ 32 -> 0 <= u32 (x + Z.land x 1) < 2 ^ 32 /\ (x <> 2 ^ 32 - 1 -> u32 (x + Z.land x 1) = x + x mod 2).
Proof.
  intros R. unfold u32. split; [apply Z.mod_pos_bound; lia|]. intros N. rewrite land_1. pose proof (Z.mod_pos_bound x 2 ltac:(lia)). apply Z.mod_small. lia.
Qed.
Lemma seekCur_true off pos : 0 <= off -> posOk pos ->
  seekCur file k off pos = if match k with Memory => len <? pos + off | Stream => false end then None else Some (pos + off).
Proof.
  intros O [P M]. unfold seekCur. destruct k.
  - destruct (Z.ltb_spec (pos + off) 0); [lia|]. destruct (Z.leb_spec 0 off); [|lia]. reflexivity.
  - destruct (Z.ltb_spec (pos + off) 0); [lia|]. reflexivity.
Qed.
Lemma chunkLoop_step fuel pos acc : posOk pos -> pos + 8 <= len -> chunkLoop file k true word (S fuel) pos acc =
  match seekCur file k (u32 (word (sub (pos + 4) 4) + Z.land (word (sub (pos + 4) 4)) 1)) (pos + 8) with
  | Some p3 => chunkLoop file k true word fuel p3 (acc ++ [Chunk (pos + 8) (sub pos 4) (word (sub (pos + 4) 4))])
  | None => Failed
  end.
Proof.
  intros [P M] L. cbn [chunkLoop]. rewrite readItem_yes by lia. rewrite readItem_yes by lia. replace (pos + 4 + 4) with (pos + 8) by lia. reflexivity.
Qed.
Lemma chunkLoop_end fuel pos acc : posOk pos -> len < pos + 8 -> chunkLoop file k true word (S fuel) pos acc = Opened acc.
Proof.
  intros P L. cbn [chunkLoop]. destruct (Z_le_gt_dec (pos + 4) len) as [G|G].
  - rewrite readItem_yes by (try apply P; lia). destruct (readItem_no 4 (pos + 4)) as (p & ->); [lia| |lia|reflexivity]. destruct P. split; [lia|]. intros _. lia.
  - destruct (readItem_no 4 pos ltac:(lia) P ltac:(lia)) as (p & ->). reflexivity.
Qed.
Lemma chunkLoop_terminates : forall fuel pos acc, posOk pos -> len < pos + 8 * Z.of_nat (S fuel) -> chunkLoop file k true word (S fuel) pos acc <> Running.
Proof.
  induction fuel as [|fuel IH]; intros pos acc P F; (destruct (Z_le_gt_dec (pos + 8) len) as [L|L]; [|rewrite chunkLoop_end by (assumption || lia); discriminate]); [lia|].
  rewrite chunkLoop_step by assumption. pose proof (word_range _ (sub_bytes (pos + 4) 4)) as W. set (size := word (sub (pos + 4) 4)) in *.
  destruct (u32_pad size W) as [U _]. rewrite seekCur_true; [|lia|split; [destruct P; lia|intros; lia]].
  destruct (match k with Memory => _ | Stream => false end) eqn:B; [discriminate|]. apply IH; [|lia]. destruct P as [P M]. split; [lia|]. intros K. rewrite K in B. apply Z.ltb_ge in B. lia.
Qed.
Lemma chunkLoop_walk : forall fuel pos acc, posOk pos -> len < pos + 8 * Z.of_nat (S fuel) ->
  exists l e, walk pos l e /\ agrees acc l e (chunkLoop file k true word (S fuel) pos acc).
Proof.
  induction fuel as [|fuel IH]; intros pos acc P F;
    (destruct (Z_le_gt_dec (pos + 8) len) as [L|L]; [|exists [], AtEnd; split; [constructor; lia|]; rewrite chunkLoop_end by (assumption || lia); cbn [agrees]; now rewrite app_nil_r]); [lia|].
  destruct (Z.eq_dec (word (sub (pos + 4) 4)) (2 ^ 32 - 1)) as [Hm|Nm]; [exists [], Huge; split; [now apply W_huge|exact Logic.I]|].
  rewrite chunkLoop_step by assumption. pose proof (word_range _ (sub_bytes (pos + 4) 4)) as W. remember (word (sub (pos + 4) 4)) as size eqn:Es.
  destruct (u32_pad size W) as [U Eu]. specialize (Eu Nm). pose proof (Z.mod_pos_bound size 2 ltac:(lia)) as Mb. rewrite Eu. rewrite seekCur_true; [|lia|split; [destruct P; lia|intros; lia]].
  destruct (match k with Memory => _ | Stream => false end) eqn:B.
  - exists [], Cut. split; [|reflexivity]. destruct k eqn:K; [|discriminate]. apply Z.ltb_lt in B. apply (W_cut pos size); [assumption..|lia].
  - assert (k = Memory -> pos + 8 + (size + size mod 2) <= len) as Km. { intros K. rewrite K in B. now apply Z.ltb_ge in B. }
    destruct (IH (pos + 8 + (size + size mod 2)) (acc ++ [Chunk (pos + 8) (sub pos 4) size])) as (l & e & Wl & El); [split; [destruct P; lia|exact Km]|lia|].
    exists (Chunk (pos + 8) (sub pos 4) size :: l), e. split.
    + eapply W_chunk; [exact L|exact Es|exact Nm|reflexivity|intros K; specialize (Km K); lia|]. replace (pos + 8 + size + size mod 2) with (pos + 8 + (size + size mod 2)) by lia. exact Wl.
    + destruct e; cbn [agrees] in *; [|exact El|exact El]. rewrite El, <- app_assoc. reflexivity.
Qed.
Lemma walk_unique : forall p l e, walk p l e -> forall l' e', walk p l' e' -> l = l' /\ e = e'.
Proof.
  induction 1 as [p|p size next l e L Es Nm En Km W IH|p size L Es Nm Km C|p L Hm]; intros l' e' W'; inversion W'; subst; try lia; try congruence; auto.
  - match goal with H : walk _ _ e' |- _ => destruct (IH _ _ H) as [-> ->] end. split; reflexivity.
  - match goal with K : k = Memory, Km : k = Memory -> _ |- _ => specialize (Km K) end. lia.
  - match goal with H : k = Memory -> _ |- _ => specialize (H Km) end. lia.
Qed.
Lemma chunkLoop_in : forall fuel pos acc l, posOk pos -> chunkLoop file k true word fuel pos acc = Opened l ->
  forall c, In c l -> In c acc \/ (pos + 8 <= c_offset c <= len /\ c_id c = sub (c_offset c - 8) 4 /\ c_length c = word (sub (c_offset c - 4) 4)).
Proof.
  induction fuel as [|fuel IH]; intros pos acc l P E c Hc; [discriminate|]. destruct (Z_le_gt_dec (pos + 8) len) as [L|L].
  - rewrite chunkLoop_step in E by assumption. pose proof (word_range _ (sub_bytes (pos + 4) 4)) as W. set (size := word (sub (pos + 4) 4)) in *.
    destruct (u32_pad size W) as [U _]. rewrite seekCur_true in E; [|lia|split; [destruct P; lia|intros; lia]].
    destruct (match k with Memory => _ | Stream => false end) eqn:B; [discriminate|].
    assert (posOk (pos + 8 + u32 (size + Z.land size 1))) as P3 by (destruct P as [P M]; split; [lia|]; intros K; rewrite K in B; apply Z.ltb_ge in B; lia).
    destruct (IH _ _ _ P3 E c Hc) as [Ha|(H1 & H2 & H3)].
    + apply in_app_or in Ha. destruct Ha as [Ha|[<-|[]]]; [now left|]. right. cbn [c_offset c_id c_length]. replace (pos + 8 - 8) with pos by lia. replace (pos + 8 - 4) with (pos + 4) by lia. split; [lia|]. split; reflexivity.
    + right. split; [lia|]. now split.
  - rewrite chunkLoop_end in E by (assumption || lia). injection E as <-. now left.
Qed.
Lemma chunkLoop_more : forall fuel pos acc, chunkLoop file k true word fuel pos acc <> Running -> forall more, chunkLoop file k true word (fuel + more) pos acc = chunkLoop file k true word fuel pos acc.
Proof.
  induction fuel as [|fuel IH]; intros pos acc N more; [now elim N|]. cbn [chunkLoop Nat.add] in *.
  destruct (readItem file k 4 pos) as [[id|] p1]; [|reflexivity]. destruct (readItem file k 4 p1) as [[w|] p2]; [|reflexivity].
  destruct (seekCur file k _ p2) as [p3|]; [|reflexivity]. now apply IH.
Qed.
End Walk.

(** ** FLAC *)
Lemma seekSet_pos off p : seekSet file k off = Some p -> p = off /\ posOk p.
Proof.
  unfold seekSet, posOk. destruct k; destruct (Z.ltb_spec off 0); cbn [orb]; try discriminate.
  - destruct (Z.ltb_spec len off); [discriminate|]. intros E. injection E as <-. repeat split; lia.
  - intros E. injection E as <-. repeat split; [lia|discriminate].
Qed.
Lemma readItem_cases n pos : 0 < n -> posOk pos -> (pos + n <= len /\ readItem file k n pos = (Some (sub pos n), pos + n)) \/ (len < pos + n /\ exists p, readItem file k n pos = (None, p)).
Proof. intros N P. destruct (Z_le_gt_dec (pos + n) len) as [L|L]; [left; split; [exact L|apply readItem_yes; [lia|apply P|exact L]]|right; split; [lia|apply readItem_no; auto; lia]]. Qed.
Lemma posOk_in p : 0 <= p <= len -> posOk p. Proof. intros H. split; [lia|intros; lia]. Qed.
Lemma flac_size h : 0 <= Z.land h 16777215 < 16777216.
Proof. change 16777215 with (Z.ones 24). rewrite Z.land_ones by lia. apply Z.mod_pos_bound. lia. Qed.
Lemma flacLoop_terminates : forall fuel pos acc, posOk pos -> len < pos + 4 * Z.of_nat (S fuel) -> flacLoop file k (S fuel) pos acc <> Running.
Proof.
  induction fuel as [|fuel IH]; intros pos acc P F; cbn [flacLoop]; (destruct (readItem_cases 4 pos ltac:(lia) P) as [[L ->]|[L (p & ->)]]; [|discriminate]); [lia|].
  pose proof (flac_size (be32 (sub pos 4))) as Z. set (size := Z.land (be32 (sub pos 4)) 16777215) in *.
  destruct (seekSet file k (pos + 4 + size)) as [next|] eqn:Es; [|discriminate]. apply seekSet_pos in Es. destruct Es as [-> Pn].
  destruct (Z.land (Z.shiftr (be32 (sub pos 4)) 31) 1 =? 1); [discriminate|]. apply IH; [exact Pn|lia].
Qed.
Lemma flacChunk_in start size c : posOk start -> In c (flacChunk file k start size) ->
  c_offset c = start + 12 /\ c_offset c <= len /\ c_id c = sub (start + 4) 4 /\ c_length c = le32 (sub (start + 8) 4) /\ sub start 4 = riff /\ c_length c <= u32 (size - 12).
Proof.
  intros P Hc. unfold flacChunk in Hc. destruct (readItem_cases 4 start ltac:(lia) P) as [[L Er]|[L (p & Er)]]; rewrite Er in Hc; [|contradiction].
  destruct (listEqb riff (sub start 4)) eqn:Eq; [|contradiction]. apply listEqb_eq in Eq.
  destruct P as [P _]. destruct (readItem_cases 4 (start + 4) ltac:(lia) (posOk_in (start + 4) ltac:(lia))) as [[L1 Er1]|[L1 (p & Er1)]]; rewrite Er1 in Hc; [|contradiction].
  destruct (readItem_cases 4 (start + 4 + 4) ltac:(lia) (posOk_in (start + 4 + 4) ltac:(lia))) as [[L2 Er2]|[L2 (p & Er2)]]; rewrite Er2 in Hc; [|contradiction].
  destruct (Z.leb_spec (le32 (sub (start + 4 + 4) 4)) (u32 (size - 12))); [|contradiction]. destruct Hc as [<-|[]]. cbn [c_offset c_id c_length].
  replace (start + 4 + 4) with (start + 8) in * by lia. repeat split; auto; lia.
Qed.
Lemma flacLoop_in : forall fuel pos acc l, posOk pos -> flacLoop file k fuel pos acc = Opened l ->
  forall c, In c l -> In c acc \/ (pos + 16 <= c_offset c <= len /\ c_id c = sub (c_offset c - 8) 4 /\ c_length c = le32 (sub (c_offset c - 4) 4) /\ sub (c_offset c - 12) 4 = riff).
Proof.
  induction fuel as [|fuel IH]; intros pos acc l P E c Hc; [discriminate|]. cbn [flacLoop] in E.
  destruct (readItem_cases 4 pos ltac:(lia) P) as [[L Er]|[L (p & Er)]]; rewrite Er in E; [|discriminate].
  pose proof (flac_size (be32 (sub pos 4))) as Zs. set (size := Z.land (be32 (sub pos 4)) 16777215) in *.
  destruct (seekSet file k (pos + 4 + size)) as [next|] eqn:Es; [|discriminate]. apply seekSet_pos in Es. destruct Es as [-> Pn].
  remember (if Z.land (Z.shiftr (be32 (sub pos 4)) 24) 127 =? 2 then flacChunk file k (pos + 4) size else []) as new eqn:En.
  assert (forall c, In c new ->
    pos + 16 <= c_offset c <= len /\ c_id c = sub (c_offset c - 8) 4 /\ c_length c = le32 (sub (c_offset c - 4) 4) /\ sub (c_offset c - 12) 4 = riff) as Hn.
  { intros x Hx. rewrite En in Hx. destruct (_ =? 2); [|contradiction]. destruct P as [P M]. destruct (flacChunk_in _ _ _ (posOk_in (pos + 4) ltac:(lia)) Hx) as (E1 & E2 & E3 & E4 & E5 & _). rewrite E1 in *.
    replace (pos + 4 + 12 - 8) with (pos + 4 + 4) by lia. replace (pos + 4 + 12 - 4) with (pos + 4 + 8) by lia. replace (pos + 4 + 12 - 12) with (pos + 4) by lia. repeat split; auto; lia. }
  destruct (Z.land (Z.shiftr (be32 (sub pos 4)) 31) 1 =? 1).
  - apply (f_equal (fun o => match o with Opened l => l | _ => [] end)) in E. cbv beta iota in E. rewrite <- E in Hc. apply in_app_or in Hc. destruct Hc as [Hc|Hc]; [left; exact Hc|right; exact (Hn c Hc)].
  - destruct (IH _ _ _ Pn E c Hc) as [Ha|(H1 & H2)]; [|right; split; [lia|exact H2]]. apply in_app_or in Ha. destruct Ha as [Ha|Ha]; [left; exact Ha|right; exact (Hn c Ha)].
Qed.

(** ** C43 *)
(** Opening terminates for every content: the number of steps is bounded by the length of the file. *)
Theorem C43_terminates :
  openRiff file k true (S (length file)) <> Running /\ openAiff file k true (S (length file)) <> Running /\ openFlac file k (S (length file)) <> Running.
Proof.
  repeat split.
  - unfold openRiff. destruct (seekSet file k 12) as [p|] eqn:Es; [|discriminate]. apply seekSet_pos in Es. destruct Es as [-> P].
    apply chunkLoop_terminates; [apply le32_range|exact P|unfold MetaModel.len; lia].
  - unfold openAiff. destruct (readItem_cases 4 0 ltac:(lia) ltac:(apply posOk_in; pose proof len_nonneg; lia)) as [[L ->]|[L (p & ->)]]; [|discriminate].
    destruct (negb _); [discriminate|]. destruct (readItem_cases 4 (0 + 4) ltac:(lia) ltac:(apply posOk_in; lia)) as [[L1 ->]|[L1 (p & ->)]]; [|discriminate].
    destruct (readItem_cases 4 (0 + 4 + 4) ltac:(lia) ltac:(apply posOk_in; lia)) as [[L2 ->]|[L2 (p & ->)]]; [|discriminate].
    destruct (_ || _); [|discriminate]. apply chunkLoop_terminates; [apply be32_range|apply posOk_in; lia|unfold MetaModel.len in *; lia].
  - unfold openFlac. destruct (seekSet file k 4) as [p|] eqn:Es; [|discriminate]. apply seekSet_pos in Es. destruct Es as [-> P].
    apply flacLoop_terminates; [exact P|unfold MetaModel.len; lia].
Qed.
(** Every chunk has its header in the file, before its offset. *)
Definition headed (word : list Z -> Z) (c : chunk) : Prop :=
  8 <= c_offset c <= len /\ c_id c = sub (c_offset c - 8) 4 /\ c_length c = word (sub (c_offset c - 4) 4).
Theorem C43_headers fuel l :
  (openRiff file k true fuel = Opened l -> Forall (headed le32) l) /\ (openAiff file k true fuel = Opened l -> Forall (headed be32) l) /\
  (openFlac file k fuel = Opened l -> Forall (headed le32) l).
Proof.
  repeat apply conj; intros E; apply Forall_forall; intros c Hc.
  - unfold openRiff in E. destruct (seekSet file k 12) as [p|] eqn:Es; [|discriminate]. apply seekSet_pos in Es. destruct Es as [-> P].
    destruct (chunkLoop_in le32 le32_range _ _ _ _ P E c Hc) as [[]|(H1 & H2)]. split; [lia|exact H2].
  - unfold openAiff in E. destruct (readItem_cases 4 0 ltac:(lia) ltac:(apply posOk_in; pose proof len_nonneg; lia)) as [[L Er]|[L (p & Er)]]; rewrite Er in E; [|discriminate].
    destruct (negb _); [discriminate|]. destruct (readItem_cases 4 (0 + 4) ltac:(lia) ltac:(apply posOk_in; lia)) as [[L1 Er1]|[L1 (p & Er1)]]; rewrite Er1 in E; [|discriminate].
    destruct (readItem_cases 4 (0 + 4 + 4) ltac:(lia) ltac:(apply posOk_in; lia)) as [[L2 Er2]|[L2 (p & Er2)]]; rewrite Er2 in E; [|discriminate].
    destruct (_ || _); [|discriminate]. destruct (chunkLoop_in be32 be32_range fuel (0 + 4 + 4 + 4) [] l ltac:(apply posOk_in; lia) E c Hc) as [[]|(H1 & H2)]. split; [lia|exact H2].
  - unfold openFlac in E. destruct (seekSet file k 4) as [p|] eqn:Es; [|discriminate]. apply seekSet_pos in Es. destruct Es as [-> P].
    destruct (flacLoop_in _ _ _ _ P E c Hc) as [[]|(H1 & H2 & H3 & _)]. split; [lia|]. now split.
Qed.
(** The chunks found are those of the walk. *)
Theorem C43_riff_walk : 12 <= len ->
  exists l e, walk le32 12 l e /\ agrees [] l e (openRiff file k true (S (length file))).
Proof.
  intros L. unfold openRiff. assert (seekSet file k 12 = Some 12) as ->. { unfold seekSet. destruct k; [|reflexivity]. destruct (Z.ltb_spec len 12); [lia|reflexivity]. }
  apply (chunkLoop_walk le32 le32_range (length file) 12 []); [apply posOk_in; lia|unfold MetaModel.len; lia].
Qed.
Theorem C43_aiff_walk : 12 <= len -> sub 0 4 = FORM -> sub 8 4 = AIFF \/ sub 8 4 = AIFC ->
  exists l e, walk be32 12 l e /\ agrees [] l e (openAiff file k true (S (length file))).
Proof.
  intros L Hf Ha. unfold openAiff. rewrite (readItem_yes 4 0) by lia. rewrite (readItem_yes 4 (0 + 4)) by lia. rewrite (readItem_yes 4 (0 + 4 + 4)) by lia. change (0 + 4 + 4) with 8. change (8 + 4) with 12. rewrite Hf.
  change (negb (str FORM (Some FORM))) with false. cbv iota. assert (str AIFF (Some (sub 8 4)) || str AIFC (Some (sub 8 4)) = true) as ->. { destruct Ha as [-> | ->]; reflexivity. }
  apply (chunkLoop_walk be32 be32_range (length file) 12 []); [apply posOk_in; lia|unfold MetaModel.len; lia].
Qed.
(** The data read from a chunk are the bytes of the file from its offset on, no more than asked for, than the length of
    the chunk, and than there are. *)
Theorem C43_data chunks i c count : nth_error chunks i = Some c -> 0 <= c_offset c <= len -> 0 <= c_length c -> 0 <= count ->
  readRiffData file k chunks i count = sub (c_offset c) (Z.min (Z.min count (c_length c)) (len - c_offset c)).
Proof.
  intros N O L C. unfold readRiffData. rewrite N. assert (seekSet file k (c_offset c) = Some (c_offset c)) as ->.
  { unfold seekSet. destruct (Z.ltb_spec (c_offset c) 0); [lia|]. destruct k; [|reflexivity]. destruct (Z.ltb_spec len (c_offset c)); [lia|reflexivity]. }
  assert ((if count <? c_length c then count else c_length c) = Z.min count (c_length c)) as -> by (destruct (Z.ltb_spec count (c_length c)); lia).
  set (n := Z.min count (c_length c)). assert (0 <= n) as Pn by lia. clearbody n. unfold doRead. destruct k.
  - cbn [Z.eqb]. rewrite Z.mul_1_r, Z.div_1_r, Z.mul_1_r. f_equal. lia.
  - cbn [Z.eqb orb]. destruct (Z.eqb_spec n 0) as [->|Nz]; [rewrite Z.min_l by lia; reflexivity|]. rewrite Z.mul_1_r. f_equal. lia.
Qed.
End Reader.

(** ** Whole files *)
Definition enc32 (v : Z) : list Z := [v mod 256; v / 256 mod 256; v / 65536 mod 256; v / 16777216 mod 256].
Lemma le32_enc v l : 0 <= v < 2 ^ 32 -> le32 (enc32 v ++ l) = v.
Proof.
  intros V. unfold le32, enc32. cbn [app nth]. pose proof (Z.div_mod v 256 ltac:(lia)). pose proof (Z.div_mod (v / 256) 256 ltac:(lia)). pose proof (Z.div_mod (v / 65536) 256 ltac:(lia)).
  rewrite Z.div_div in * by lia. change (256 * 256) with 65536 in *. change (65536 * 256) with 16777216 in *.
  rewrite (Z.mod_small (v / 16777216)); [lia|]. split; [apply Z.div_pos; lia|apply Z.div_lt_upper_bound; lia].
Qed.
(** A RIFF file with the given chunks, each padded to an even length, and the chunks a reader should find in it. *)
Definition wellFormed (c : list Z * list Z) : Prop := length (fst c) = 4%nat /\ Z.of_nat (length (snd c)) < 2 ^ 32 - 1 /\ Forall byte (fst c) /\ Forall byte (snd c).
Definition encChunk (c : list Z * list Z) : list Z :=
  fst c ++ enc32 (Z.of_nat (length (snd c))) ++ snd c ++ (if Nat.odd (length (snd c)) then [0] else []).
Fixpoint placed (pos : Z) (cs : list (list Z * list Z)) : list chunk :=
  match cs with
  | [] => []
  | c :: cs => Chunk (pos + 8) (fst c) (Z.of_nat (length (snd c))) :: placed (pos + Z.of_nat (length (encChunk c))) cs
  end.
Lemma sub_app pre l post n : n = Z.of_nat (length l) -> sub (pre ++ l ++ post) (Z.of_nat (length pre)) n = l.
Proof. intros ->. unfold sub. rewrite !Nat2Z.id. rewrite skipn_app, skipn_all, Nat.sub_diag. cbn [app skipn]. rewrite firstn_app, Nat.sub_diag, firstn_all. cbn [firstn]. apply app_nil_r. Qed.
Lemma enc32_bytes v : Forall byte (enc32 v).
Proof. unfold enc32. repeat constructor; unfold byte; try apply Z.mod_pos_bound; lia. Qed.
Lemma encChunk_bytes c : wellFormed c -> Forall byte (encChunk c).
Proof.
  intros (_ & _ & F1 & F2). unfold encChunk. apply Forall_app. split; [exact F1|]. apply Forall_app. split; [apply enc32_bytes|]. apply Forall_app. split; [exact F2|].
  destruct (Nat.odd _); repeat constructor; unfold byte; lia.
Qed.
Lemma encChunk_length c : length (fst c) = 4%nat -> Z.of_nat (length (encChunk c)) = 8 + Z.of_nat (length (snd c)) + Z.of_nat (length (snd c)) mod 2.
Proof.
  intros L. unfold encChunk. rewrite !app_length, L. change (length (enc32 _)) with 4%nat. rewrite !Nat2Z.inj_add. rewrite Zmod_odd.
  assert (Z.odd (Z.of_nat (length (snd c))) = Nat.odd (length (snd c))) as ->.
  { induction (length (snd c)) as [|m IHm]; [reflexivity|]. rewrite Nat2Z.inj_succ, Z.odd_succ, Nat.odd_succ, <- Z.negb_odd, <- Nat.negb_odd, IHm. reflexivity. }
  destruct (Nat.odd _); cbn [length]; lia.
Qed.
Lemma walk_encoded k : forall cs pre, Forall wellFormed cs ->
  walk (pre ++ flat_map encChunk cs) k le32 (Z.of_nat (length pre)) (placed (Z.of_nat (length pre)) cs) AtEnd.
Proof.
  induction cs as [|c cs IH]; intros pre F.
  - cbn [flat_map placed]. constructor. unfold len. rewrite app_nil_r. lia.
  - inversion F as [|? ? Hc Fcs]; subst. destruct Hc as (L4 & Lm & _). cbn [flat_map placed]. pose proof (encChunk_length c L4) as Le.
    assert (sub (pre ++ encChunk c ++ flat_map encChunk cs) (Z.of_nat (length pre)) 4 = fst c) as E1. { unfold encChunk at 1. rewrite <- app_assoc. apply sub_app. lia. }
    assert (sub (pre ++ encChunk c ++ flat_map encChunk cs) (Z.of_nat (length pre) + 4) 4 = enc32 (Z.of_nat (length (snd c)))) as E2.
    { replace (Z.of_nat (length pre) + 4) with (Z.of_nat (length (pre ++ fst c))) by (rewrite app_length; lia). unfold encChunk at 1. rewrite <- !app_assoc. rewrite app_assoc. apply sub_app. reflexivity. }
    assert (le32 (enc32 (Z.of_nat (length (snd c)))) = Z.of_nat (length (snd c))) as E3. { rewrite <- (app_nil_r (enc32 _)). apply le32_enc. lia. }
    pose proof (Z.mod_pos_bound (Z.of_nat (length (snd c))) 2 ltac:(lia)) as Mb.
    rewrite <- E1. eapply W_chunk.
    + unfold len. rewrite !app_length, !Nat2Z.inj_add, Le. lia.
    + rewrite E2. symmetry. exact E3.
    + lia.
    + reflexivity.
    + intros _. unfold len. rewrite !app_length, !Nat2Z.inj_add, Le. lia.
    + rewrite app_assoc. replace (Z.of_nat (length pre) + 8 + Z.of_nat (length (snd c)) + Z.of_nat (length (snd c)) mod 2) with (Z.of_nat (length (pre ++ encChunk c))) by (rewrite app_length, Nat2Z.inj_add, Le; lia).
      replace (Z.of_nat (length pre) + Z.of_nat (length (encChunk c))) with (Z.of_nat (length (pre ++ encChunk c))) by (rewrite app_length, Nat2Z.inj_add; lia). apply IH. exact Fcs.
Qed.
(** Every well formed RIFF file opens with the chunks it holds. *)
Theorem C43_round_trip k header cs : length header = 12%nat -> Forall byte header -> Forall wellFormed cs ->
  let file := header ++ flat_map encChunk cs in
  openRiff file k true (S (length file)) = Opened (placed 12 cs) /\
  (forall i c, nth_error cs i = Some c -> readRiffData file k (placed 12 cs) i (Z.of_nat (length (snd c))) = snd c).
Proof.
  intros H F Fc file. assert (Forall byte file) as Fb. { apply Forall_app. split; [exact F|]. apply Forall_flat_map. eapply Forall_impl; [|exact Fc]. apply encChunk_bytes. }
  assert (12 <= len file) as L. { unfold len, file. rewrite app_length. lia. }
  split.
  - destruct (C43_riff_walk file Fb k L) as (l & e & W & A). pose proof (walk_encoded k cs header Fc) as W'. rewrite H in W'. change (Z.of_nat 12) with 12 in W'.
    destruct (walk_unique file k le32 _ _ _ W _ _ W') as [-> ->]. exact A.
  - assert (forall cs pre i c, Forall wellFormed cs -> nth_error cs i = Some c -> readRiffData (pre ++ flat_map encChunk cs) k (placed (Z.of_nat (length pre)) cs) i (Z.of_nat (length (snd c))) = snd c) as G.
    { clear. induction cs as [|c cs IH]; intros pre i d F N; [destruct i; discriminate|]. inversion F as [|? ? Hc Fcs]; subst. destruct i as [|i].
      - injection N as <-. destruct Hc as (L4 & Lm & _). pose proof (encChunk_length c L4) as Le. pose proof (Z.mod_pos_bound (Z.of_nat (length (snd c))) 2 ltac:(lia)) as Mb.
        assert (len (pre ++ flat_map encChunk (c :: cs)) = Z.of_nat (length pre) + 8 + Z.of_nat (length (snd c)) + Z.of_nat (length (snd c)) mod 2 + Z.of_nat (length (flat_map encChunk cs))) as Ll.
        { unfold len. cbn [flat_map]. rewrite !app_length, !Nat2Z.inj_add, Le. lia. }
        rewrite (C43_data _ _ _ 0 (Chunk (Z.of_nat (length pre) + 8) (fst c) (Z.of_nat (length (snd c))))); cbn [c_offset c_length]; [|reflexivity|lia..]. rewrite Ll, Z.min_id, Z.min_l by lia.
        replace (Z.of_nat (length pre) + 8) with (Z.of_nat (length (pre ++ fst c ++ enc32 (Z.of_nat (length (snd c)))))) by (rewrite !app_length, L4; cbn [length enc32]; lia).
        cbn [flat_map]. unfold encChunk at 1. rewrite <- !app_assoc. rewrite (app_assoc (fst c)), (app_assoc pre). apply sub_app. reflexivity.
      - cbn [nth_error] in N. specialize (IH (pre ++ encChunk c) i d Fcs N). cbn [flat_map placed]. rewrite <- app_assoc in IH. rewrite <- IH at 2. unfold readRiffData. cbn [nth_error].
        rewrite app_length, Nat2Z.inj_add. reflexivity. }
    intros i c N. specialize (G cs header i c Fc N). rewrite H in G. exact G.
Qed.

(** * Loops *)
(** The words of a sampler chunk: nine of header, and six for each loop; a word that is not there counts as zero. *)
Definition encWords (ws : list Z) : list Z := flat_map enc32 ws.
Lemma encWords_length ws : length (encWords ws) = (4 * length ws)%nat.
Proof. induction ws as [|w ws IH]; [reflexivity|]. cbn [encWords flat_map]. rewrite app_length. fold (encWords ws). rewrite IH. cbn [length enc32]. lia. Qed.
Lemma encWords_skip : forall i ws, skipn (4 * i) (encWords ws) = encWords (skipn i ws).
Proof.
  induction i as [|i IH]; intros ws; [reflexivity|]. replace (4 * S i)%nat with (4 + 4 * i)%nat by lia. destruct ws as [|w ws]; [reflexivity|].
  cbn [encWords flat_map enc32 app skipn Nat.add]. apply IH.
Qed.
Lemma skipn_firstn_app {A} (l t : list A) n m : (m <= length l)%nat -> skipn m (firstn n (l ++ t)) = firstn (n - m) (skipn m l ++ t).
Proof. intros L. rewrite skipn_firstn_comm, skipn_app. replace (m - length l)%nat with 0%nat by lia. reflexivity. Qed.
Lemma extractU32_word ws tail n i : Forall (fun w => 0 <= w < 2 ^ 32) ws -> (length tail < 4)%nat -> (4 * S i <= n)%nat ->
  extractU32 (firstn n (encWords ws ++ tail)) (4 * Z.of_nat i) = nth i ws 0.
Proof.
  intros F T N. unfold extractU32. rewrite firstn_length, app_length, encWords_length.
  destruct (Z.ltb_spec (Z.of_nat (Nat.min n (4 * length ws + length tail))) (4 * Z.of_nat i + 4)) as [L|L].
  - rewrite nth_overflow; [reflexivity|]. lia.
  - assert (i < length ws)%nat as Li by lia. replace (Z.to_nat (4 * Z.of_nat i)) with (4 * i)%nat by lia.
    rewrite skipn_firstn_app by (rewrite encWords_length; lia). rewrite encWords_skip. rewrite firstn_firstn, Nat.min_l by lia.
    assert (skipn i ws = nth i ws 0 :: skipn (S i) ws) as ->.
    { clear - Li. revert ws Li. induction i as [|i IH]; intros [|w ws] Li; cbn [length] in Li; try lia; [reflexivity|]. cbn [skipn nth]. apply IH. lia. }
    cbn [encWords flat_map]. rewrite <- app_assoc. change (enc32 (nth i ws 0) ++ ?x) with (enc32 (nth i ws 0) ++ x). change 4%nat with (length (enc32 (nth i ws 0))).
    rewrite firstn_app, firstn_all, Nat.sub_diag. cbn [firstn]. apply le32_enc. rewrite Forall_forall in F. apply F. now apply nth_In.
Qed.
Lemma findChunk_first id c after : c_id c = id -> forall before i, Forall (fun d => c_id d <> id) before -> findChunk id i (before ++ c :: after) = Some (i + length before)%nat.
Proof.
  intros Ec. induction before as [|d b IH]; intros i F.
  - cbn [app findChunk]. replace (listEqb (c_id c) id) with true by (symmetry; now apply listEqb_eq). f_equal. cbn. lia.
  - inversion F; subst. cbn [app findChunk]. replace (listEqb (c_id d) (c_id c)) with false; [rewrite IH by assumption; f_equal; cbn; lia|].
    symmetry. apply not_true_is_false. intros C. apply listEqb_eq in C. contradiction.
Qed.
Definition modeOf (type : Z) : Z := match type with 0 => 1 | 1 => 3 | 2 => 2 | _ => 0 end.
Lemma modeOf_eq m : (if m =? 0 then 1 else if m =? 1 then 3 else if m =? 2 then 2 else 0) = modeOf m.
Proof.
  destruct (Z.eqb_spec m 0) as [->|N0]; [reflexivity|]. destruct (Z.eqb_spec m 1) as [->|N1]; [reflexivity|]. destruct (Z.eqb_spec m 2) as [->|N2]; [reflexivity|].
  destruct m as [|[p|[p|p|]|]|p]; try reflexivity; lia.
Qed.
(** The loops read are those of the first sampler chunk, at most sixteen. *)
Theorem C63_riff file k before c after ws tail :
  c_id c = smpl -> Forall (fun d => c_id d <> smpl) before -> 0 <= c_offset c <= len file -> 0 <= c_length c ->
  Forall (fun w => 0 <= w < 2 ^ 32) ws -> (length tail < 4)%nat -> sub file (c_offset c) (c_length c) = encWords ws ++ tail ->
  extractRiff file k (before ++ c :: after) = Some (nth 3 ws 0, map (fun i =>
    let word j := nth (9 + 6 * i + j) ws 0 in Loop (modeOf (word 1%nat)) (word 2%nat) ((word 3%nat + 1) mod 2 ^ 32) (word 5%nat))
    (seq 0 (Z.to_nat (Z.min 16 (nth 7 ws 0))))).
Proof.
  intros Ec Fb O L F T D. unfold extractRiff. rewrite (findChunk_first smpl c after Ec before 0 Fb). cbn [Nat.add].
  assert (readRiffData file k (before ++ c :: after) (length before) (9 * 4 + 16 * 6 * 4) = firstn 420 (encWords ws ++ tail)) as ->.
  { rewrite (C43_data file k _ _ c); [|rewrite nth_error_app2 by lia; rewrite Nat.sub_diag; reflexivity|exact O|exact L|lia]. rewrite <- D. unfold sub.
    rewrite firstn_firstn. change (9 * 4 + 16 * 6 * 4) with 420. change 420%nat with (Z.to_nat 420).
    rewrite <- (firstn_all (skipn (Z.to_nat (c_offset c)) file)) at 2. rewrite firstn_firstn. rewrite skipn_length. f_equal. unfold len in *. lia. }
  change 28 with (4 * Z.of_nat 7). rewrite extractU32_word by (assumption || lia). change 12 with (4 * Z.of_nat 3). rewrite extractU32_word by (assumption || lia).
  f_equal. f_equal. apply map_ext_in. intros i Hi. apply in_seq in Hi. assert (i < 16)%nat as Li by lia. unfold riffLoop.
  replace (36 + Z.of_nat i * 24 + 4) with (4 * Z.of_nat (9 + 6 * i + 1)) by lia. replace (36 + Z.of_nat i * 24 + 8) with (4 * Z.of_nat (9 + 6 * i + 2)) by lia.
  replace (36 + Z.of_nat i * 24 + 12) with (4 * Z.of_nat (9 + 6 * i + 3)) by lia. replace (36 + Z.of_nat i * 24 + 20) with (4 * Z.of_nat (9 + 6 * i + 5)) by lia.
  rewrite !extractU32_word by (assumption || lia). cbv zeta. unfold u32. f_equal. apply modeOf_eq.
Qed.
(** From the bytes of a whole file: open it and read its loops. *)
Theorem C63_riff_file k header before ws after : length header = 12%nat -> Forall byte header ->
  Forall wellFormed before -> Forall wellFormed after -> Forall (fun c => fst c <> smpl) before ->
  Forall (fun w => 0 <= w < 2 ^ 32) ws -> 4 * Z.of_nat (length ws) < 2 ^ 32 - 1 ->
  let file := header ++ flat_map encChunk (before ++ (smpl, encWords ws) :: after) in
  exists l, openRiff file k true (S (length file)) = Opened l /\
  extractRiff file k l = Some (nth 3 ws 0, map (fun i =>
    let word j := nth (9 + 6 * i + j) ws 0 in Loop (modeOf (word 1%nat)) (word 2%nat) ((word 3%nat + 1) mod 2 ^ 32) (word 5%nat))
    (seq 0 (Z.to_nat (Z.min 16 (nth 7 ws 0))))).
Proof.
  intros H Fh Fb Fa Nb Fw Lw file. assert (wellFormed (smpl, encWords ws)) as Wf.
  { unfold wellFormed. cbn [fst snd]. rewrite encWords_length. repeat split; [lia|repeat constructor; unfold byte; lia|]. apply Forall_flat_map. apply Forall_forall. intros w _. apply enc32_bytes. }
  assert (Forall wellFormed (before ++ (smpl, encWords ws) :: after)) as Fc. { apply Forall_app. split; [exact Fb|]. now constructor. }
  destruct (C43_round_trip k header _ H Fh Fc) as [Ho Hr]. fold file in Ho, Hr. eexists. split; [exact Ho|].
  assert (forall cs1 cs2 p, placed p (cs1 ++ cs2) = placed p cs1 ++ placed (p + Z.of_nat (length (flat_map encChunk cs1))) cs2) as Pa.
  { induction cs1 as [|c cs1 IH]; intros cs2 p; [cbn; now rewrite Z.add_0_r|]. cbn [app placed flat_map]. rewrite IH, app_length, Nat2Z.inj_add, Z.add_assoc. reflexivity. }
  rewrite Pa. cbn [placed fst snd]. remember (12 + Z.of_nat (length (flat_map encChunk before)) + 8) as off eqn:Eo.
  assert (off = Z.of_nat (length (header ++ flat_map encChunk before ++ smpl ++ enc32 (Z.of_nat (length (encWords ws)))))) as Eo'.
  { rewrite !app_length, H. cbn [length smpl enc32]. lia. }
  assert (sub file off (Z.of_nat (length (encWords ws))) = encWords ws) as Es.
  { rewrite Eo'. unfold file. rewrite flat_map_app. cbn [flat_map]. unfold encChunk at 2. cbn [fst snd]. rewrite <- !app_assoc. rewrite (app_assoc smpl), (app_assoc (flat_map encChunk before)), (app_assoc header). apply sub_app. reflexivity. }
  apply (C63_riff file k _ (Chunk off smpl (Z.of_nat (length (encWords ws)))) _ ws []); cbn [c_id c_offset c_length]; auto; try lia.
  - clear - Nb. generalize 12. induction Nb as [|c cs Hc F IH]; intros p; [constructor|]. cbn [placed]. constructor; [exact Hc|apply IH].
  - split; [lia|]. unfold len, file. rewrite Eo'. rewrite flat_map_app. cbn [flat_map]. unfold encChunk at 3. cbn [fst snd]. rewrite !app_length. lia.
  - rewrite app_nil_r. exact Es.
Qed.
(** The loop the synth keeps ends inside the sample, and is that of the file when that is inside. *)
Theorem C63_kept frames l rest : 1 <= frames < 2 ^ 32 ->
  exists e, keptLoop frames (l :: rest) = Some (l_start l, e) /\ 0 <= e <= frames - 1 /\ (1 <= l_end l <= frames -> e = l_end l - 1).
Proof.
  intros F. eexists. split; [reflexivity|]. unfold u32. rewrite (Z.mod_small (frames - 1)) by lia. pose proof (Z.mod_pos_bound (l_end l - 1) (2 ^ 32) ltac:(lia)). split; [lia|].
  intros R. rewrite Z.mod_small by lia. lia.
Qed.

(** ** Markers *)
(** A marker of an AIFF file: number, position, and a name of up to 255 characters, padded to an even length with its
    count. *)
Record mark := Mark { m_id : Z; m_position : Z; m_name : list Z }.
Definition mark_ok (m : mark) : Prop := 0 <= m_id m < 65536 /\ 0 <= m_position m < 2 ^ 32 /\ (1 <= length (m_name m) <= 255)%nat.
Definition encBe16 (v : Z) : list Z := [v / 256 mod 256; v mod 256].
Definition encBe32 (v : Z) : list Z := rev (enc32 v).
Definition encMark (m : mark) : list Z :=
  encBe16 (m_id m) ++ encBe32 (m_position m) ++ [Z.of_nat (length (m_name m))] ++ m_name m ++ (if Nat.even (length (m_name m)) then [0] else []).
Lemma be16_enc v l : 0 <= v < 65536 -> be16 (encBe16 v ++ l) = v.
Proof.
  intros V. unfold be16, encBe16. cbn [app nth]. pose proof (Z.div_mod v 256 ltac:(lia)). rewrite (Z.mod_small (v / 256)); [lia|]. split; [apply Z.div_pos; lia|apply Z.div_lt_upper_bound; lia].
Qed.
Lemma be32_enc v : 0 <= v < 2 ^ 32 -> be32 (encBe32 v) = v.
Proof. intros V. rewrite <- (le32_enc v [] V) at 2. unfold be32, le32, encBe32, enc32. cbn [rev app nth]. lia. Qed.
Lemma readItem_app k pre l post : (0 < length l)%nat -> readItem (pre ++ l ++ post) k (Z.of_nat (length l)) (Z.of_nat (length pre)) = (Some l, Z.of_nat (length (pre ++ l))).
Proof.
  intros L. rewrite readItem_yes; [|lia|lia|unfold len; rewrite !app_length; lia]. rewrite sub_app by reflexivity. f_equal. rewrite app_length. lia.
Qed.
Lemma markers_enc k : forall ms pre post acc, Forall mark_ok ms ->
  markers (pre ++ flat_map encMark ms ++ post) k (length ms) (Z.of_nat (length pre)) acc = Some (Some (rev (map (fun m => (m_id m, m_position m)) ms) ++ acc)).
Proof.
  induction ms as [|m ms IH]; intros pre post acc F; [reflexivity|]. inversion F as [|? ? (Hi & Hp & Hn) Fs]; subst. cbn [length markers flat_map].
  remember (pre ++ (encMark m ++ flat_map encMark ms) ++ post) as file eqn:Ef.
  assert (file = pre ++ encBe16 (m_id m) ++ (encBe32 (m_position m) ++ [Z.of_nat (length (m_name m))] ++ m_name m ++ (if Nat.even (length (m_name m)) then [0] else []) ++ flat_map encMark ms ++ post)) as E1 by (rewrite Ef; unfold encMark; now rewrite <- !app_assoc).
  assert (file = (pre ++ encBe16 (m_id m)) ++ encBe32 (m_position m) ++ ([Z.of_nat (length (m_name m))] ++ m_name m ++ (if Nat.even (length (m_name m)) then [0] else []) ++ flat_map encMark ms ++ post)) as E2 by (rewrite E1; now rewrite <- !app_assoc).
  assert (file = ((pre ++ encBe16 (m_id m)) ++ encBe32 (m_position m)) ++ [Z.of_nat (length (m_name m))] ++ (m_name m ++ (if Nat.even (length (m_name m)) then [0] else []) ++ flat_map encMark ms ++ post)) as E3 by (rewrite E1; now rewrite <- !app_assoc).
  remember (((pre ++ encBe16 (m_id m)) ++ encBe32 (m_position m)) ++ [Z.of_nat (length (m_name m))]) as p3 eqn:Ep3.
  assert (file = p3 ++ m_name m ++ ((if Nat.even (length (m_name m)) then [0] else []) ++ flat_map encMark ms ++ post)) as E4 by (rewrite E1, Ep3; now rewrite <- !app_assoc).
  pose proof (readItem_app k pre (encBe16 (m_id m)) (encBe32 (m_position m) ++ [Z.of_nat (length (m_name m))] ++ m_name m ++ (if Nat.even (length (m_name m)) then [0] else []) ++ flat_map encMark ms ++ post) ltac:(cbn; lia)) as R1. rewrite <- E1 in R1. change (Z.of_nat (length (encBe16 (m_id m)))) with 2 in R1. rewrite R1.
  pose proof (readItem_app k _ (encBe32 (m_position m)) ([Z.of_nat (length (m_name m))] ++ m_name m ++ (if Nat.even (length (m_name m)) then [0] else []) ++ flat_map encMark ms ++ post) ltac:(cbn; lia) : readItem ((pre ++ encBe16 (m_id m)) ++ _) _ _ _ = _) as R2. rewrite <- E2 in R2. change (Z.of_nat (length (encBe32 (m_position m)))) with 4 in R2. rewrite R2.
  pose proof (readItem_app k _ [Z.of_nat (length (m_name m))] (m_name m ++ (if Nat.even (length (m_name m)) then [0] else []) ++ flat_map encMark ms ++ post) ltac:(cbn; lia) : readItem (((pre ++ encBe16 (m_id m)) ++ encBe32 (m_position m)) ++ _) _ _ _ = _) as R3. rewrite <- E3, <- Ep3 in R3. change (Z.of_nat (length [Z.of_nat (length (m_name m))])) with 1 in R3. rewrite R3.
  cbn [nth]. pose proof (readItem_app k p3 (m_name m) ((if Nat.even (length (m_name m)) then [0] else []) ++ flat_map encMark ms ++ post) ltac:(lia)) as R4. rewrite <- E4 in R4. unfold readItem in R4.
  destruct (doRead file k (Z.of_nat (length (m_name m))) 1 (Z.of_nat (length p3))) as [[[b cnt] p4]|]; [|discriminate]. destruct (cnt =? 1) eqn:Ec; [|discriminate]. injection R4 as _ ->. cbn [negb].
  rewrite <- (app_nil_r (encBe16 (m_id m))), be16_enc, be32_enc by assumption.
  assert (Z.even (Z.of_nat (length (m_name m))) = Nat.even (length (m_name m))) as ->.
  { clear. induction (length (m_name m)) as [|n IH]; [reflexivity|]. rewrite Nat2Z.inj_succ, Z.even_succ, Nat.even_succ, <- Z.negb_even, <- Nat.negb_even, IH. reflexivity. }
  assert (forall q, file = q ++ flat_map encMark ms ++ post -> markers file k (length ms) (Z.of_nat (length q)) ((m_id m, m_position m) :: acc) = Some (Some (rev (map (fun m => (m_id m, m_position m)) (m :: ms)) ++ acc))) as Next.
  { intros q ->. rewrite IH by assumption. cbn [map rev]. rewrite <- app_assoc. reflexivity. }
  destruct (Nat.even (length (m_name m))) eqn:Ev.
  - destruct ms as [|m' ms']; [cbn [length Nat.eqb negb andb markers]; reflexivity|]. cbn [length Nat.eqb negb andb].
    assert (seekCur file k 1 (Z.of_nat (length (p3 ++ m_name m))) = Some (Z.of_nat (length ((p3 ++ m_name m) ++ [0])))) as ->.
    { assert (Z.of_nat (length (p3 ++ m_name m)) + 1 <= len file) as Lf. { rewrite E4. unfold len. rewrite !app_length. cbn [length]. lia. }
      unfold seekCur. rewrite (app_length (p3 ++ m_name m)). cbn [length]. destruct (Z.ltb_spec (Z.of_nat (length (p3 ++ m_name m)) + 1) 0); [lia|]. destruct k; cbn [orb].
      - change (0 <=? 1) with true. cbn [andb]. destruct (Z.ltb_spec (len file) (Z.of_nat (length (p3 ++ m_name m)) + 1)); [lia|]. f_equal. lia.
      - f_equal. lia. }
    apply Next. rewrite E4. now rewrite <- !app_assoc.
  - rewrite andb_false_r. apply Next. rewrite E4. now rewrite <- !app_assoc.
Qed.
(** The position of the last marker with a number, zero without one. *)
Definition positionOf (ms : list mark) (id p : Z) : Prop :=
  (exists before m after, ms = before ++ m :: after /\ m_id m = id /\ m_position m = p /\ Forall (fun m => m_id m <> id) after) \/
  (Forall (fun m => m_id m <> id) ms /\ p = 0).
Lemma marker_position ms id : positionOf ms id (marker id (rev (map (fun m => (m_id m, m_position m)) ms))).
Proof.
  induction ms as [|m ms IH] using rev_ind; [right; split; [constructor|reflexivity]|]. rewrite map_app, rev_app_distr. cbn [map rev app marker]. destruct (Z.eqb_spec (m_id m) id) as [Ei|Ni].
  - left. exists ms, m, []. repeat split; auto.
  - destruct IH as [(b & d & a & -> & E1 & E2 & F)|(F & E)].
    + left. exists b, d, (a ++ [m]). repeat split; [now rewrite <- app_assoc|exact E1|exact E2|]. apply Forall_app. split; auto.
    + right. split; [|exact E]. apply Forall_app. split; auto.
Qed.
(** The instrument of an AIFF file: twenty bytes with the base note first, and two loops whose ends are markers.  The
    second loop counts only after a first. *)
Definition aiffLoop (ins : list Z) (ms : list mark) (off : nat) (l : loop) : Prop :=
  l_mode l = be16 (skipn off ins) /\ (l_mode l = 1 \/ l_mode l = 2) /\ l_count l = 0 /\
  positionOf ms (be16 (skipn (off + 2) ins)) (l_start l) /\ positionOf ms (be16 (skipn (off + 4) ins)) (l_end l).
Definition noLoop (ins : list Z) (off : nat) : Prop := be16 (skipn off ins) <> 1 /\ be16 (skipn off ins) <> 2.
Theorem C63_aiff pre post ms k chunks i inst ins mk :
  findChunk INST 0 chunks = Some i -> nth_error chunks i = Some inst -> 20 <= c_length inst -> 0 <= c_offset inst ->
  findChunk MARK 0 chunks = Some mk -> c_offset (nth mk chunks (Chunk 0 [] 0)) = Z.of_nat (length pre) -> Forall mark_ok ms -> Z.of_nat (length ms) < 65536 ->
  let file := pre ++ encBe16 (Z.of_nat (length ms)) ++ flat_map encMark ms ++ post in
  c_offset inst + 20 <= len file -> ins = sub file (c_offset inst) 20 ->
  exists loops, extractAiff file k chunks = Some (Some (nth 0 ins 0, loops)) /\
    ((loops = [] /\ noLoop ins 8) \/ (exists a, loops = [a] /\ aiffLoop ins ms 8 a /\ noLoop ins 14) \/
     (exists a b, loops = [a; b] /\ aiffLoop ins ms 8 a /\ aiffLoop ins ms 14 b)).
Proof.
  intros Fi Ni Li Oi Fm Om Fs Lm file L20 Ei. unfold extractAiff. rewrite Fi.
  rewrite (C43_data file k chunks i inst 20 Ni) by lia. rewrite (Z.min_l 20) by lia. rewrite Z.min_l by lia. rewrite <- Ei.
  assert (Z.of_nat (length ins) = 20) as Ls. { rewrite Ei. apply (sub_length file); lia. } rewrite Ls. change (negb (20 =? 20)) with false. cbv iota. rewrite Fm, Om.
  assert (seekSet file k (Z.of_nat (length pre)) = Some (Z.of_nat (length pre))) as ->.
  { unfold seekSet. destruct (Z.ltb_spec (Z.of_nat (length pre)) 0); [lia|]. destruct k; [|reflexivity]. cbn [orb]. destruct (Z.ltb_spec (len file) (Z.of_nat (length pre))) as [C|C]; [|reflexivity]. unfold len, file in C. rewrite app_length in C. lia. }
  pose proof (readItem_app k pre (encBe16 (Z.of_nat (length ms))) (flat_map encMark ms ++ post) ltac:(cbn; lia)) as R1. fold file in R1. change (Z.of_nat (length (encBe16 _))) with 2 in R1. rewrite R1. clear R1.
  assert (be16 (encBe16 (Z.of_nat (length ms))) = Z.of_nat (length ms)) as -> by (rewrite <- (app_nil_r (encBe16 (Z.of_nat (length ms)))); apply be16_enc; lia). rewrite Nat2Z.id. assert (file = (pre ++ encBe16 (Z.of_nat (length ms))) ++ flat_map encMark ms ++ post) as Ef by (unfold file; now rewrite <- app_assoc).
  clearbody file. subst file. rewrite markers_enc by assumption. rewrite app_nil_r. eexists. split; [reflexivity|]. unfold aiffLoops. cbv zeta. cbn [l_mode].
  assert (forall off (P : Prop), (forall m, (if be16 (skipn off ins) =? 1 then 1 else if be16 (skipn off ins) =? 2 then 2 else 0) = m -> (m = 0 /\ noLoop ins off) \/ (m = be16 (skipn off ins) /\ (m = 1 \/ m = 2)) -> P) -> P) as Cases.
  { intros off P K. eapply K; [reflexivity|]. unfold noLoop. destruct (Z.eqb_spec (be16 (skipn off ins)) 1) as [->|N1]; [right; auto|]. destruct (Z.eqb_spec (be16 (skipn off ins)) 2) as [->|N2]; [right; auto|]. left. auto. }
  apply (Cases 8%nat). intros a Ea Ha. rewrite Ea. apply (Cases 14%nat). intros b Eb Hb. rewrite Eb.
  destruct Ha as [[-> Na]|[Ea1 Ha]]; [left; split; [reflexivity|exact Na]|]. right. destruct (Z.eqb_spec a 0); [lia|].
  destruct Hb as [[-> Nb]|[Eb1 Hb]].
  - left. eexists. split; [reflexivity|]. split; [|exact Nb]. repeat split; auto; apply marker_position.
  - destruct (Z.eqb_spec b 0); [lia|]. right. do 2 eexists. split; [reflexivity|]. split; (repeat split; auto; apply marker_position).
Qed.

(** * Findings *)
Definition FF : list Z := [255; 255; 255; 255].
Definition zeros (n : nat) : list Z := repeat 0 n.
(** With a `long` of 32 bits a chunk of length 2^32 - 8 sends the reader back to its own header: opening the file of
    twenty bytes never ends, and the list of chunks grows for ever. *)
Theorem C43_narrow_refuted : forall k fuel, openRiff (zeros 12 ++ [65; 65; 65; 65] ++ [248; 255; 255; 255]) k false fuel = Running.
Proof.
  intros k fuel. unfold openRiff. assert (seekSet (zeros 12 ++ [65; 65; 65; 65] ++ [248; 255; 255; 255]) k 12 = Some 12) as -> by (destruct k; reflexivity).
  generalize (@nil chunk). induction fuel as [|fuel IH]; intros acc; [reflexivity|]. cbn [chunkLoop].
  replace (readItem _ k 4 12) with (Some [65; 65; 65; 65], 16) by (destruct k; reflexivity). replace (readItem _ k 4 16) with (Some [248; 255; 255; 255], 20) by (destruct k; reflexivity). cbv zeta.
  replace (seekCur _ k _ 20) with (Some 12) by (destruct k; reflexivity). apply IH.
Qed.
(** A length of 2^32 - 1 is padded to zero: the chunk is accepted, and its data are taken for the next header. *)
Theorem C43_padding_refuted : exists file l, openRiff file Memory true (S (length file)) = Opened l /\
  exists c d, l = [c; d] /\ c_length c = 2 ^ 32 - 1 /\ c_offset d < c_offset c + c_length c /\ len file < c_offset c + c_length c.
Proof. exists (zeros 12 ++ [65; 65; 65; 65] ++ FF ++ [66; 66; 66; 66; 0; 0; 0; 0]). eexists. split; [vm_compute; reflexivity|]. do 2 eexists. split; [reflexivity|]. cbn. repeat split; lia. Qed.
(** A FLAC block shorter than the header of the chunk in it: the limit is computed below zero, so that a chunk longer
    than its block is accepted. *)
Theorem C43_flac_refuted : exists file c, openFlac file Memory (S (length file)) = Opened [c] /\
  Z.land (be32 (sub file 4 4)) 16777215 = 4 /\ c_length c = 1000 /\ len file < c_offset c + c_length c.
Proof. exists (zeros 4 ++ [130; 0; 0; 4] ++ riff ++ smpl ++ [232; 3; 0; 0]). eexists. split; [vm_compute; reflexivity|]. vm_compute. repeat split; reflexivity. Qed.
(** A marker without name, which the format allows: the memory reader divides by zero, and the other fails so that no
    loop is read. *)
Definition namelessFile : list Z :=
  FORM ++ zeros 4 ++ AIFF ++ INST ++ encBe32 20 ++ [60] ++ zeros 8 ++ [1; 0; 1; 0; 2] ++ zeros 6 ++ MARK ++ encBe32 18 ++ encBe16 2 ++
  encBe16 1 ++ encBe32 100 ++ [0; 0] ++ encBe16 2 ++ encBe32 200 ++ [0; 0].
Theorem C63_nameless_refuted : exists l, openAiff namelessFile Memory true (S (length namelessFile)) = Opened l /\
  openAiff namelessFile Stream true (S (length namelessFile)) = Opened l /\
  extractAiff namelessFile Memory l = None /\ extractAiff namelessFile Stream l = Some None.
Proof. eexists. split; [vm_compute; reflexivity|]. vm_compute. repeat split; reflexivity. Qed.
(** The end of a loop in the last frame of 32 bits, and of a file without frames. *)
Theorem C63_empty_refuted : forall l rest, l_end l = 0 -> keptLoop 0 (l :: rest) = Some (l_start l, 2 ^ 32 - 1).
Proof. intros l rest E. unfold keptLoop. rewrite E. reflexivity. Qed.

(** * Examples *)
Example C43_ex : openRiff (zeros 12 ++ flat_map encChunk [([1; 2; 3; 4], [5; 6; 7]); (smpl, [8; 9])]) Stream true 100 =
  Opened [Chunk 20 [1; 2; 3; 4] 3; Chunk 32 smpl 2].
Proof. vm_compute. reflexivity. Qed.
Example C43_data_ex : readRiffData (zeros 12 ++ flat_map encChunk [([1; 2; 3; 4], [5; 6; 7]); (smpl, [8; 9])]) Memory [Chunk 20 [1; 2; 3; 4] 3] 0 10 = [5; 6; 7].
Proof. vm_compute. reflexivity. Qed.
Example C43_flac_ex : openFlac (zeros 4 ++ [130; 0; 0; 14] ++ riff ++ smpl ++ [2; 0; 0; 0] ++ [7; 8]) Stream 9 = Opened [Chunk 20 smpl 2].
Proof. vm_compute. reflexivity. Qed.
Example C63_riff_ex : let f := zeros 12 ++ flat_map encChunk [(smpl, encWords [0; 0; 0; 60; 0; 0; 0; 1; 0; 0; 1; 100; 199; 0; 0])] in
  exists l, openRiff f Memory true 100 = Opened l /\ extractRiff f Memory l = Some (60, [Loop 3 100 200 0]) /\ keptLoop 1000 [Loop 3 100 200 0] = Some (100, 199).
Proof. eexists. split; [vm_compute; reflexivity|]. vm_compute. split; reflexivity. Qed.
Example C63_aiff_ex :
  let f := FORM ++ zeros 4 ++ AIFF ++ INST ++ encBe32 20 ++ [60] ++ zeros 8 ++ [1; 0; 1; 0; 2] ++ zeros 6 ++ MARK ++ encBe32 20 ++ encBe16 2 ++ flat_map encMark [Mark 1 100 [65]; Mark 2 200 [66; 67]] in
  exists l, openAiff f Memory true 100 = Opened l /\ extractAiff f Memory l = Some (Some (60, [Loop 1 100 200 0])).
Proof. eexists. split; [vm_compute; reflexivity|]. vm_compute. reflexivity. Qed.
