(** C79: what the readers of audio files deliver, and what reaches memory.  Model: ReaderModel.v. *)
From Coq Require Import List Arith Bool Lia.
From Verif Require Import ReaderModel.
Import ListNotations.

Section Spec.
Variable A : Type.
Variable zero : A.
Variable junk : nat -> A.

(** ** Specification *)
(** The sample of a file at a frame and a channel: samples are stored frame by frame. *)
Definition sample (h : handle A) (frame chan : nat) : A := nth (frame * h_channels h + chan) (h_data h) zero.

(** The frames of a file, in order; each has one sample per channel. *)
Definition frames (h : handle A) (count : nat) : list (list A) :=
  map (fun q => map (sample h q) (seq 0 (h_channels h))) (seq 0 count).

(** A file with whole frames, of which there are [n]. *)
Definition has_frames (h : handle A) (n : nat) : Prop := 1 <= h_channels h /\ length (h_data h) = n * h_channels h.

(** A file that is not cut short: it has the frames that its header declares, and any frame in it can be sought. *)
Definition intact (h : handle A) : Prop :=
  has_frames h (h_declared h) /\ forall p, p <= h_declared h -> h_seek h p = true.

(** What a program gets that reads block after block, with block sizes of its choice, into buffers that are large enough. *)
Inductive reads (h : handle A) : reader A -> list nat -> list A -> Prop :=
| reads_nil r : reads h r [] []
| reads_cons r n sizes buf r' buf' got out :
    n * h_channels h <= length buf ->
    readNextBlock junk h r buf n = Some (r', buf', got) ->
    reads h r' sizes out ->
    reads h r (n :: sizes) (firstn (got * h_channels h) buf' ++ out).

(** ** Loops *)
Lemma for_inv {S : Type} (P : nat -> S -> Prop) (body : nat -> S -> option S) : forall n i s,
  P i s ->
  (forall k s, i <= k < i + n -> P k s -> exists s', body k s = Some s' /\ P (k + 1) s') ->
  exists s', for_ n i body s = Some s' /\ P (i + n) s'.
Proof.
  induction n as [|n IH]; intros i s H0 HB; cbn [for_].
  - exists s. rewrite Nat.add_0_r. auto.
  - destruct (HB i s ltac:(lia) H0) as [s1 [E1 P1]]. rewrite E1.
    destruct (IH (i + 1) s1 P1) as [s2 [E2 P2]].
    { intros k s' Hk. apply HB. lia. }
    exists s2. split; [exact E2|]. replace (i + Datatypes.S n) with (i + 1 + n) by lia. exact P2.
Qed.

Lemma wr_spec (l : list A) (i : nat) (v : A) : i < length l ->
  exists l', wr l i v = Some l' /\ length l' = length l /\
    (forall k, nth_error l' k = if k =? i then Some v else nth_error l k).
Proof.
  intros H. unfold wr. destruct (Nat.ltb_spec i (length l)); [|lia].
  eexists; split; [reflexivity|]. split.
  - rewrite app_length, firstn_length. cbn [length]. rewrite skipn_length. lia.
  - intros k. assert (L : length (firstn i l) = i) by (rewrite firstn_length; lia).
    destruct (Nat.eqb_spec k i) as [->|N].
    + rewrite nth_error_app2 by lia. rewrite L, Nat.sub_diag. reflexivity.
    + destruct (Nat.lt_ge_cases k i).
      * rewrite nth_error_app1 by lia. rewrite <- (firstn_skipn i l) at 2. rewrite nth_error_app1 by lia. reflexivity.
      * rewrite nth_error_app2 by lia. rewrite L. destruct (k - i) as [|d] eqn:D; [lia|]. cbn [nth_error].
        rewrite <- (firstn_skipn (Datatypes.S i) l) at 2.
        rewrite nth_error_app2 by (rewrite firstn_length; lia). rewrite firstn_length. f_equal. lia.
Qed.

Lemma swap_spec (l : list A) (i j : nat) : i < length l -> j < length l ->
  exists l', swap l i j = Some l' /\ length l' = length l /\
    (forall k, nth_error l' k = if k =? j then nth_error l i else if k =? i then nth_error l j else nth_error l k).
Proof.
  intros Hi Hj. unfold swap, rd.
  destruct (nth_error l i) as [a|] eqn:Ea; [|apply nth_error_None in Ea; lia].
  destruct (nth_error l j) as [b|] eqn:Eb; [|apply nth_error_None in Eb; lia].
  destruct (wr_spec l i b Hi) as [l1 [E1 [L1 N1]]]. rewrite E1.
  destruct (wr_spec l1 j a ltac:(lia)) as [l2 [E2 [L2 N2]]].
  exists l2. split; [exact E2|]. split; [lia|]. intros k. rewrite N2, N1. reflexivity.
Qed.

Lemma list_ext (l1 l2 : list A) : (forall k, nth_error l1 k = nth_error l2 k) -> l1 = l2.
Proof.
  revert l2. induction l1 as [|a l1 IH]; intros [|b l2] H.
  - reflexivity.
  - specialize (H 0). discriminate H.
  - specialize (H 0). discriminate H.
  - pose proof (H 0) as H0. cbn in H0. injection H0 as ->. f_equal. apply IH. intros k. exact (H (Datatypes.S k)).
Qed.

(** ** Frames of a buffer *)
Lemma skipn_skipn_ {B} (l : list B) : forall a b, skipn a (skipn b l) = skipn (b + a) l.
Proof. induction l as [|x l IH]; intros a [|b]; cbn; [reflexivity|destruct a; reflexivity|reflexivity|]. apply IH. Qed.

Lemma chunks_length C n : forall l : list A, length (chunks C n l) = n.
Proof. induction n; intros; cbn [chunks length]; [reflexivity|]. rewrite IHn. reflexivity. Qed.

Lemma chunks_nth C n : forall (l : list A) q, q < n -> nth_error (chunks C n l) q = Some (firstn C (skipn (q * C) l)).
Proof.
  induction n as [|n IH]; intros l q H; [lia|]. cbn [chunks]. destruct q as [|q]; cbn [nth_error].
  - reflexivity.
  - rewrite IH by lia. rewrite skipn_skipn_. do 3 f_equal.
Qed.

Lemma chunks_all_length C n : forall l : list A, n * C <= length l -> Forall (fun f => length f = C) (chunks C n l).
Proof.
  induction n as [|n IH]; intros l H; cbn [chunks]; constructor.
  - rewrite firstn_length. lia.
  - apply IH. rewrite skipn_length. lia.
Qed.

Lemma chunks_concat C n : forall l : list A, concat (chunks C n l) = firstn (n * C) l.
Proof.
  induction n as [|n IH]; intros l; cbn [chunks concat]; [reflexivity|]. rewrite IH. cbn [Nat.mul].
  rewrite <- (firstn_skipn C (firstn (C + n * C) l)). rewrite firstn_firstn, skipn_firstn_comm.
  replace (Init.Nat.min C (C + n * C)) with C by lia. replace (C + n * C - C) with (n * C) by lia. reflexivity.
Qed.

Lemma concat_nth C (fs : list (list A)) : Forall (fun f => length f = C) fs -> forall q c, c < C ->
  nth_error (concat fs) (q * C + c) = match nth_error fs q with Some f => nth_error f c | None => None end.
Proof.
  induction 1 as [|f fs Hf _ IH]; intros q c Hc; cbn [concat].
  - destruct q; cbn [nth_error]; destruct (_ + c); reflexivity.
  - destruct q as [|q]; cbn [nth_error].
    + rewrite nth_error_app1 by lia. reflexivity.
    + rewrite nth_error_app2 by lia. replace (Datatypes.S q * C + c - length f) with (q * C + c) by lia. apply IH; exact Hc.
Qed.

Lemma concat_length C (fs : list (list A)) : Forall (fun f => length f = C) fs -> length (concat fs) = length fs * C.
Proof. induction 1; cbn [concat length]; [reflexivity|]. rewrite app_length, IHForall, H. lia. Qed.

Lemma nth_error_skipn_ (l : list A) : forall n k, nth_error (skipn n l) k = nth_error l (n + k).
Proof. induction l as [|a l IH]; intros [|n] k; cbn; try reflexivity; [destruct k; reflexivity|]. apply IH. Qed.

Lemma nth_error_firstn_ (l : list A) : forall n k, nth_error (firstn n l) k = if k <? n then nth_error l k else None.
Proof.
  induction l as [|a l IH]; intros [|n] k; cbn [firstn].
  - destruct k; reflexivity.
  - destruct k; cbn [nth_error]; [reflexivity|]. destruct (_ <? _); reflexivity.
  - destruct k; reflexivity.
  - destruct k; cbn [nth_error]; [reflexivity|]. rewrite IH.
    destruct (Nat.ltb_spec k n), (Nat.ltb_spec (Datatypes.S k) (Datatypes.S n)); try lia; reflexivity.
Qed.

Lemma nth_error_rev {B} (l : list B) k : k < length l -> nth_error (rev l) k = nth_error l (length l - 1 - k).
Proof.
  intros H. destruct l as [|b0 l0]; [cbn in H; lia|]. remember (b0 :: l0) as l. 
  rewrite (nth_error_nth' (rev l) b0) by (rewrite rev_length; exact H).
  rewrite rev_nth by exact H. rewrite (nth_error_nth' l b0) by lia. do 2 f_equal. lia.
Qed.

(** The target of the reversal, sample by sample. *)
Definition reversed (C n : nat) (l : list A) : list A := concat (rev (chunks C n l)) ++ skipn (n * C) l.

Lemma reversed_nth C n l x : 1 <= C -> n * C <= length l ->
  nth_error (reversed C n l) x =
    nth_error l (if x <? n * C then (n - 1 - x / C) * C + x mod C else x).
Proof.
  intros HC HL. unfold reversed.
  pose proof (chunks_all_length C n l HL) as FA.
  assert (FR : Forall (fun f => length f = C) (rev (chunks C n l))) by (apply Forall_rev; exact FA).
  pose proof (concat_length C _ FR) as LC. rewrite rev_length, chunks_length in LC.
  destruct (Nat.ltb_spec x (n * C)) as [Hx|Hx].
  - rewrite nth_error_app1 by lia.
    pose proof (Nat.div_mod x C ltac:(lia)) as DM. pose proof (Nat.mod_upper_bound x C ltac:(lia)) as MU.
    assert (Hq : x / C < n) by (apply Nat.div_lt_upper_bound; lia).
    rewrite DM at 1. rewrite (Nat.mul_comm C). rewrite (concat_nth C _ FR) by exact MU.
    rewrite nth_error_rev by (rewrite chunks_length; exact Hq). rewrite chunks_length.
    rewrite chunks_nth by lia. rewrite nth_error_firstn_.
    destruct (Nat.ltb_spec (x mod C) C); [|lia]. rewrite nth_error_skipn_. reflexivity.
  - rewrite nth_error_app2 by lia. rewrite nth_error_skipn_. f_equal. lia.
Qed.

(** The swapping loop. *)
Lemma divmod_unique C q c x : c < C -> x = q * C + c -> x / C = q /\ x mod C = c.
Proof.
  intros Hc ->. split.
  - rewrite Nat.div_add_l by lia. rewrite Nat.div_small by lia. lia.
  - rewrite Nat.add_comm, Nat.mod_add by lia. apply Nat.mod_small. exact Hc.
Qed.

Lemma reverse_loop_spec (C n : nat) (l : list A) : 1 <= C -> n * C <= length l ->
  reverse_loop l n C = Some (reversed C n l).
Proof.
  intros HC HL. unfold reverse_loop.
  (* after i rounds, the frames before i and from n - i on are exchanged *)
  set (src := fun i x => if x <? n * C then
                if (x / C <? i) || (n - 1 - i <? x / C) then (n - 1 - x / C) * C + x mod C else x
              else x).
  destruct (for_inv (fun i b => length b = length l /\ (2 * i <= n) /\ forall x, nth_error b x = nth_error l (src i x))
    (fun i b => for_ C 0 (fun c b => swap b (i * C + c) ((n - 1 - i) * C + c)) b) (n / 2) 0 l) as [b [EB PB]].
  - split; [reflexivity|]. split; [lia|]. intros x. unfold src.
    destruct (Nat.ltb_spec x (n * C)) as [Hx|Hx]; [|reflexivity].
    assert (Hq : x / C < n) by (apply Nat.div_lt_upper_bound; lia).
    destruct (Nat.ltb_spec (x / C) 0); [lia|]. destruct (Nat.ltb_spec (n - 1 - 0) (x / C)); [lia|]. reflexivity.
  - intros i b Hi [LB [H2 NB]].
    assert (Hn : 2 * (n / 2) <= n) by (apply Nat.mul_div_le; lia).
    set (j := n - 1 - i).
    assert (Hj : i < j < n) by (unfold j; lia).
    assert (Bi : (i + 1) * C <= n * C) by (apply Nat.mul_le_mono_r; lia).
    assert (Bj : (j + 1) * C <= n * C) by (apply Nat.mul_le_mono_r; lia).
    assert (Bij : (i + 1) * C <= j * C) by (apply Nat.mul_le_mono_r; lia).
    destruct (for_inv (fun c b' => length b' = length l /\
        forall x, nth_error b' x =
          if (x / C =? i) && (x mod C <? c) then nth_error b (j * C + x mod C)
          else if (x / C =? j) && (x mod C <? c) then nth_error b (i * C + x mod C) else nth_error b x)
      (fun c b => swap b (i * C + c) (j * C + c)) C 0 b) as [b' [EB' [LB' NB']]].
    + split; [exact LB|]. intros x. destruct (Nat.ltb_spec (x mod C) 0); [lia|]. rewrite !andb_false_r. reflexivity.
    + intros c b1 Hc [L1 N1]. 
      destruct (swap_spec b1 (i * C + c) (j * C + c)) as [b2 [E2 [L2 N2]]]; [lia|lia|].
      exists b2. split; [exact E2|]. split; [lia|]. intros x. rewrite N2.
      destruct (divmod_unique C i c (i * C + c) ltac:(lia) eq_refl) as [D1 M1].
      destruct (divmod_unique C j c (j * C + c) ltac:(lia) eq_refl) as [D2 M2].
      pose proof (Nat.div_mod x C ltac:(lia)) as DM.
      destruct (Nat.eqb_spec x (j * C + c)) as [->|Nx].
      * rewrite N1, D1, M1, D2, M2. rewrite Nat.eqb_refl.
        destruct (Nat.ltb_spec c c); [lia|]. destruct (Nat.ltb_spec c (c + 1)); [|lia].
        destruct (Nat.eqb_spec j i); [lia|]. rewrite Nat.eqb_refl. rewrite !andb_false_r. cbn [andb]. reflexivity.
      * destruct (Nat.eqb_spec x (i * C + c)) as [->|Nx'].
        -- rewrite N1, D1, M1, D2, M2. rewrite !Nat.eqb_refl.
           destruct (Nat.ltb_spec c c); [lia|]. destruct (Nat.ltb_spec c (c + 1)); [|lia].
           rewrite !andb_false_r. cbn [andb]. reflexivity.
        -- rewrite N1.
           destruct (Nat.eqb_spec (x / C) i) as [Qi|Qi]; destruct (Nat.eqb_spec (x / C) j) as [Qj|Qj]; cbn [andb]; try reflexivity; try lia.
           ++ assert (Hm : x mod C <> c) by (intros Hm; apply Nx'; rewrite DM, Qi, Hm; lia).
              destruct (Nat.ltb_spec (x mod C) c), (Nat.ltb_spec (x mod C) (c + 1)); try lia; reflexivity.
           ++ assert (Hm : x mod C <> c) by (intros Hm; apply Nx; rewrite DM, Qj, Hm; lia).
              destruct (Nat.ltb_spec (x mod C) c), (Nat.ltb_spec (x mod C) (c + 1)); try lia; reflexivity.
    + exists b'. split; [exact EB'|]. split; [exact LB'|]. split; [lia|]. intros x. rewrite NB'. cbn [Nat.add].
      pose proof (Nat.div_mod x C ltac:(lia)) as DM. pose proof (Nat.mod_upper_bound x C ltac:(lia)) as MU.
      destruct (Nat.ltb_spec (x mod C) C); [|lia]. rewrite !andb_true_r.
      destruct (Nat.eqb_spec (x / C) i) as [Qi|Qi]; [|destruct (Nat.eqb_spec (x / C) j) as [Qj|Qj]]; rewrite NB; f_equal; unfold src.
      * destruct (divmod_unique C j (x mod C) (j * C + x mod C) MU eq_refl) as [D2 M2]. rewrite D2, M2.
        destruct (Nat.ltb_spec (j * C + x mod C) (n * C)); [|lia].
        destruct (Nat.ltb_spec x (n * C)); [|lia]. rewrite Qi.
        destruct (Nat.ltb_spec j i); [lia|]. destruct (Nat.ltb_spec (n - 1 - i) j); [unfold j in *; lia|].
        destruct (Nat.ltb_spec i (i + 1)); [|lia]. cbn [orb]. reflexivity.
      * destruct (divmod_unique C i (x mod C) (i * C + x mod C) MU eq_refl) as [D2 M2]. rewrite D2, M2.
        destruct (Nat.ltb_spec (i * C + x mod C) (n * C)); [|lia].
        destruct (Nat.ltb_spec x (n * C)); [|lia]. rewrite Qj.
        destruct (Nat.ltb_spec i i); [lia|]. destruct (Nat.ltb_spec (n - 1 - i) i); [unfold j in *; lia|].
        destruct (Nat.ltb_spec j (i + 1)); [lia|]. destruct (Nat.ltb_spec (n - 1 - (i + 1)) j); [|unfold j in *; lia].
        cbn [orb]. replace (n - 1 - j) with i by (unfold j; lia). reflexivity.
      * destruct (Nat.ltb_spec x (n * C)); [|reflexivity].
        assert (E : (x / C <? i) || (n - 1 - i <? x / C) = (x / C <? i + 1) || (n - 1 - (i + 1) <? x / C)).
        { destruct (Nat.ltb_spec (x / C) i), (Nat.ltb_spec (n - 1 - i) (x / C)), (Nat.ltb_spec (x / C) (i + 1)),
            (Nat.ltb_spec (n - 1 - (i + 1)) (x / C)); cbn [orb]; try reflexivity; unfold j in *; lia. }
        rewrite E. reflexivity.
  - cbv beta zeta. rewrite EB. f_equal. apply list_ext. intros x. destruct PB as [_ [_ NB]]. rewrite NB.
    rewrite reversed_nth by assumption. unfold src. cbn [Nat.add]. f_equal.
    destruct (Nat.ltb_spec x (n * C)) as [Hx|Hx]; [|reflexivity].
    assert (Hq : x / C < n) by (apply Nat.div_lt_upper_bound; lia).
    pose proof (Nat.div_mod x C ltac:(lia)) as DM.
    pose proof (Nat.div_mod n 2 ltac:(lia)) as D2. pose proof (Nat.mod_upper_bound n 2 ltac:(lia)) as U2.
    destruct (Nat.ltb_spec (x / C) (n / 2)); [reflexivity|].
    destruct (Nat.ltb_spec (n - 1 - n / 2) (x / C)); [reflexivity|]. cbn [orb].
    replace (n - 1 - x / C) with (x / C) by lia. lia.
Qed.

(** Reversal for every number of channels: the specialised versions and the loop do the same. *)
Lemma reverse_frames_spec (C n : nat) (l : list A) : 1 <= C -> n * C <= length l ->
  reverse_frames l n C = Some (reversed C n l).
Proof.
  intros HC HL. unfold reverse_frames.
  destruct C as [|[|[|C]]]; [lia| | |apply reverse_loop_spec; assumption];
    unfold std_reverse; destruct (Nat.leb_spec (n * 1) (length l)), (Nat.leb_spec (n * 2) (length l)); try lia; reflexivity.
Qed.

(** ** What a reader still has to deliver *)
Lemma firstn_chunks C : forall k n (l : list A), firstn k (chunks C n l) = chunks C (min k n) l.
Proof.
  induction k as [|k IH]; intros n l; [reflexivity|]. destruct n as [|n]; cbn [firstn chunks Nat.min]; [reflexivity|].
  rewrite IH. reflexivity.
Qed.

Lemma skipn_chunks C : forall p n (l : list A), skipn p (chunks C n l) = chunks C (n - p) (skipn (p * C) l).
Proof.
  induction p as [|p IH]; intros n l; [cbn [skipn Nat.mul]; rewrite Nat.sub_0_r; reflexivity|].
  destruct n as [|n]; cbn [skipn chunks Nat.sub]; [reflexivity|].
  rewrite IH, skipn_skipn_. f_equal.
Qed.

Lemma chunks_app C : forall n (l t : list A), n * C <= length l -> chunks C n (l ++ t) = chunks C n l.
Proof.
  induction n as [|n IH]; intros l t H; cbn [chunks]; [reflexivity|].
  rewrite firstn_app, skipn_app. replace (C - length l) with 0 by lia. cbn [firstn skipn]. rewrite app_nil_r. f_equal.
  apply IH. rewrite skipn_length. lia.
Qed.

Lemma chunks_firstn C : forall n (l : list A), chunks C n (firstn (n * C) l) = chunks C n l.
Proof.
  induction n as [|n IH]; intros l; cbn [chunks]; [reflexivity|].
  rewrite firstn_firstn, skipn_firstn_comm. cbn [Nat.mul]. replace (C + n * C - C) with (n * C) by lia.
  replace (min C (C + n * C)) with C by lia. rewrite IH. reflexivity.
Qed.

Lemma skipn_exact {B} (l t : list B) n : n = length l -> skipn n (l ++ t) = t.
Proof. intros ->. rewrite skipn_app, skipn_all, Nat.sub_diag. reflexivity. Qed.

Lemma firstn_exact {B} (l t : list B) n : n = length l -> firstn n (l ++ t) = l.
Proof. intros ->. rewrite firstn_app, firstn_all, Nat.sub_diag. cbn [firstn]. apply app_nil_r. Qed.

Definition fr (h : handle A) : list (list A) := chunks (h_channels h) (h_frames h) (h_data h).

Definition serves (h : handle A) (r : reader A) (D : list (list A)) : Prop :=
  match r with
  | Forward pos => pos <= h_frames h /\ D = skipn pos (fr h)
  | Reverse p => p <= h_frames h /\ (forall q, q <= p -> h_seek h q = true) /\ D = rev (firstn p (fr h))
  | NoSeek None _ => D = rev (firstn (h_declared h) (fr h))
  | NoSeek (Some f) rest => rest * h_channels h <= length f /\ D = rev (chunks (h_channels h) rest f)
  | Dummy => D = []
  end.

Lemma has_frames_count h n : has_frames h n -> h_frames h = n.
Proof. intros [HC HL]. unfold h_frames. rewrite HL. apply Nat.div_mul. lia. Qed.

Lemma read_f32_spec h m pos buf n : has_frames h m -> pos <= m -> n * h_channels h <= length buf ->
  read_f32 h pos buf n =
    Some (concat (firstn n (skipn pos (fr h))) ++ skipn (min n (m - pos) * h_channels h) buf,
          pos + min n (m - pos), min n (m - pos)).
Proof.
  intros HF Hp HB. pose proof (has_frames_count h m HF) as E. destruct HF as [HC HL].
  unfold read_f32, fr. rewrite E. rewrite skipn_chunks, firstn_chunks, chunks_concat.
  unfold blit. rewrite firstn_length, skipn_length.
  assert (HK : min n (m - pos) * h_channels h <= length (h_data h) - pos * h_channels h).
  { rewrite HL, <- Nat.mul_sub_distr_r. apply Nat.mul_le_mono_r. lia. }
  assert (HN : min n (m - pos) * h_channels h <= n * h_channels h) by (apply Nat.mul_le_mono_r; lia).
  replace (min (min n (m - pos) * h_channels h) (length (h_data h) - pos * h_channels h)) with (min n (m - pos) * h_channels h) by lia.
  destruct (Nat.leb_spec (min n (m - pos) * h_channels h) (length buf)); [reflexivity|lia].
Qed.

Lemma reversed_block C k (X T : list A) : length X = k * C -> reversed C k (X ++ T) = concat (rev (chunks C k X)) ++ T.
Proof.
  intros H. unfold reversed. rewrite chunks_app by lia. rewrite skipn_exact by lia. reflexivity.
Qed.

Lemma serve_some h m f rest D buf n : has_frames h m -> rest * h_channels h <= length f ->
  D = rev (chunks (h_channels h) rest f) -> n * h_channels h <= length buf ->
  exists r', readNextBlock junk h (NoSeek (Some f) rest) buf n =
      Some (r', concat (firstn n D) ++ skipn (min n (length D) * h_channels h) buf, min n (length D)) /\ serves h r' (skipn n D).
Proof.
  intros HF HR ED HB. destruct HF as [HC HL].
  assert (LD : length D = rest) by (rewrite ED, rev_length, chunks_length; reflexivity).
  cbn [readNextBlock]. rewrite LD. set (C := h_channels h) in *.
  assert (HKC : min n rest * C <= n * C) by (apply Nat.mul_le_mono_r; lia).
  assert (F1 : firstn n D = rev (chunks C (min n rest) (skipn ((rest - min n rest) * C) f))).
  { rewrite ED, firstn_rev, chunks_length, skipn_chunks. replace (rest - (rest - n)) with (min n rest) by lia.
    replace (rest - n) with (rest - min n rest) by lia. reflexivity. }
  assert (S1 : skipn n D = rev (chunks C (rest - min n rest) f)).
  { rewrite ED, skipn_rev, chunks_length, firstn_chunks. replace (min (rest - n) rest) with (rest - min n rest) by lia. reflexivity. }
  destruct (Nat.eqb_spec (min n rest) 0) as [Z|Z].
  - exists (NoSeek (Some f) rest). rewrite F1, S1, Z. cbn [rev chunks concat app]. rewrite Nat.sub_0_r. cbn [Nat.mul skipn].
    split; [reflexivity|]. cbn [serves]. split; [exact HR|reflexivity].
  - unfold copy_range. destruct (Nat.leb_spec (C * rest) (length f)); [|lia].
    assert (LB : length (firstn (C * rest - C * (rest - min n rest)) (skipn (C * (rest - min n rest)) f)) = min n rest * C).
    { rewrite firstn_length, skipn_length. rewrite (Nat.mul_sub_distr_l rest). nia. }
    assert (LE : C * rest - C * (rest - min n rest) = min n rest * C) by nia.
    unfold blit. rewrite LB. destruct (Nat.leb_spec (min n rest * C) (length buf)); [|lia].
    rewrite LE in LB |- *. 
    rewrite reverse_frames_spec by (try exact HC; rewrite app_length, LB; lia).
    rewrite reversed_block by exact LB.
    exists (NoSeek (Some f) (rest - min n rest)). split.
    + do 3 f_equal. rewrite F1, chunks_firstn. rewrite (Nat.mul_comm C). reflexivity.
    + cbn [serves]. rewrite S1. split; [|reflexivity]. fold C. assert ((rest - min n rest) * C <= rest * C) by (apply Nat.mul_le_mono_r; lia). lia.
Qed.

Lemma serve h m r D buf n : has_frames h m -> serves h r D -> n * h_channels h <= length buf ->
  exists r', readNextBlock junk h r buf n =
      Some (r', concat (firstn n D) ++ skipn (min n (length D) * h_channels h) buf, min n (length D)) /\ serves h r' (skipn n D).
Proof.
  intros HF HS HB. pose proof (has_frames_count h m HF) as EF. pose proof HF as [HC HL].
  assert (LFR : length (fr h) = m) by (unfold fr; rewrite chunks_length; exact EF).
  destruct r as [pos|p|file rest|].
  - destruct HS as [Hp ED]. cbn [readNextBlock]. rewrite (read_f32_spec h m) by (try assumption; lia).
    assert (LD : length D = m - pos) by (rewrite ED, skipn_length, LFR; reflexivity).
    rewrite LD, ED. eexists. split.
    + destruct (Nat.eqb_spec n 0) as [->|N]; reflexivity.
    + cbn [serves]. rewrite EF. split; [lia|]. rewrite skipn_skipn_. 
      destruct (Nat.le_gt_cases n (m - pos)); [f_equal; lia|].
      rewrite !skipn_all2 by lia. reflexivity.
  - destruct HS as [Hp [HK ED]]. cbn [readNextBlock].
    assert (LP : length (firstn p (fr h)) = p) by (rewrite firstn_length; lia).
    assert (LD : length D = p) by (rewrite ED, rev_length; exact LP).
    rewrite LD.
    assert (S1 : skipn n D = rev (firstn (p - min n p) (fr h))).
    { rewrite ED, skipn_rev, LP, firstn_firstn. do 2 f_equal. lia. }
    assert (F1 : firstn n D = rev (firstn (min n p) (skipn (p - min n p) (fr h)))).
    { rewrite ED, firstn_rev, LP, skipn_firstn_comm. do 2 f_equal; [lia|]. f_equal. lia. }
    destruct (Nat.eqb_spec (min n p) 0) as [Z|Z].
    + exists (Reverse p). rewrite F1, S1, Z. cbn [firstn rev concat app Nat.mul skipn]. rewrite Nat.sub_0_r.
      split; [reflexivity|]. cbn [serves]. auto.
    + rewrite HK by lia. cbn [negb].
      assert (HKC : min n p * h_channels h <= n * h_channels h) by (apply Nat.mul_le_mono_r; lia).
      rewrite (read_f32_spec h m) by (try assumption; lia).
      replace (min (min n p) (m - (p - min n p))) with (min n p) by lia. rewrite Nat.eqb_refl. cbn [negb].
      assert (LX : length (concat (firstn (min n p) (skipn (p - min n p) (fr h)))) = min n p * h_channels h).
      { unfold fr. rewrite skipn_chunks, firstn_chunks, chunks_concat, firstn_length, skipn_length. rewrite EF, HL.
        replace (min (min n p) (m - (p - min n p))) with (min n p) by lia. nia. }
      rewrite reverse_frames_spec by (try exact HC; rewrite app_length, LX; lia).
      rewrite reversed_block by exact LX. exists (Reverse (p - min n p)). split.
      * do 3 f_equal. rewrite F1. do 2 f_equal. unfold fr. rewrite skipn_chunks, firstn_chunks, chunks_concat.
        rewrite EF. replace (min (min n p) (m - (p - min n p))) with (min n p) by lia. rewrite chunks_firstn. reflexivity.
      * cbn [serves]. split; [lia|]. split; [|exact S1]. intros q Hq. apply HK. lia.
  - destruct file as [f|].
    + destruct HS as [HR ED]. apply (serve_some h m); assumption.
    + cbn [serves] in HS.
      assert (RW : exists f, readWholeFile h junk = Some (f, min (h_declared h) m) /\
                     min (h_declared h) m * h_channels h <= length f /\
                     D = rev (chunks (h_channels h) (min (h_declared h) m) f)).
      { unfold readWholeFile. rewrite (read_f32_spec h m) by (try assumption; rewrite ?map_length, ?seq_length; lia).
        rewrite Nat.sub_0_r. cbn [skipn]. eexists. split; [reflexivity|]. split.
        - rewrite app_length. unfold fr. rewrite firstn_chunks, chunks_concat, firstn_length, EF, HL.
          assert (min (h_declared h) m * h_channels h <= m * h_channels h) by (apply Nat.mul_le_mono_r; lia). lia.
        - rewrite HS. f_equal. unfold fr. rewrite firstn_chunks, chunks_concat, EF.
          rewrite chunks_app; [rewrite chunks_firstn; reflexivity|]. rewrite firstn_length, HL.
          assert (min (h_declared h) m * h_channels h <= m * h_channels h) by (apply Nat.mul_le_mono_r; lia). lia. }
      destruct RW as [f [ERW [HR ED]]].
      destruct (serve_some h m f _ D buf n HF HR ED HB) as [r' [E1 S1]]. exists r'. split; [|exact S1].
      rewrite <- E1. cbn [readNextBlock]. rewrite ERW. reflexivity.
  - cbn [serves] in HS. subst D. exists Dummy. cbn [readNextBlock length]. rewrite Nat.min_0_r, firstn_nil. cbn.
    split; [reflexivity|]. rewrite skipn_nil. reflexivity.
Qed.

(** The frames of the specification are those of the decoder. *)
Lemma list_ext_ {B} (l1 l2 : list B) : (forall k, nth_error l1 k = nth_error l2 k) -> l1 = l2.
Proof.
  revert l2. induction l1 as [|a l1 IH]; intros [|b l2] H.
  - reflexivity.
  - specialize (H 0). discriminate H.
  - specialize (H 0). discriminate H.
  - pose proof (H 0) as H0. cbn in H0. injection H0 as ->. f_equal. apply IH. intros k. exact (H (Datatypes.S k)).
Qed.

Lemma nth_error_map_seq {B} (g : nat -> B) n k : nth_error (map g (seq 0 n)) k = if k <? n then Some (g k) else None.
Proof.
  destruct (Nat.ltb_spec k n) as [H|H].
  - rewrite nth_error_map. rewrite (nth_error_nth' (seq 0 n) 0) by (rewrite seq_length; exact H).
    rewrite seq_nth by exact H. reflexivity.
  - apply nth_error_None. rewrite map_length, seq_length. exact H.
Qed.

Lemma fr_frames h m : has_frames h m -> fr h = frames h m.
Proof.
  intros HF. pose proof (has_frames_count h m HF) as EF. destruct HF as [HC HL].
  apply list_ext_. intros q. unfold fr, frames. rewrite nth_error_map_seq, EF.
  destruct (Nat.ltb_spec q m) as [Hq|Hq]; [|apply nth_error_None; rewrite chunks_length; exact Hq].
  rewrite chunks_nth by exact Hq. f_equal. apply list_ext_. intros c. rewrite nth_error_map_seq, nth_error_firstn_, nth_error_skipn_.
  destruct (Nat.ltb_spec c (h_channels h)) as [Hc|Hc]; [|reflexivity].
  unfold sample. apply nth_error_nth'. rewrite HL.
  assert ((q + 1) * h_channels h <= m * h_channels h) by (apply Nat.mul_le_mono_r; lia). lia.
Qed.

Lemma frames_length h m : length (frames h m) = m.
Proof. unfold frames. rewrite map_length, seq_length. reflexivity. Qed.

Lemma frames_all h m : Forall (fun f => length f = h_channels h) (frames h m).
Proof. apply Forall_forall. intros f Hf. apply in_map_iff in Hf. destruct Hf as [q [<- _]]. rewrite map_length, seq_length. reflexivity. Qed.

Lemma frames_firstn h m k : k <= m -> firstn k (frames h m) = frames h k.
Proof.
  intros H. unfold frames. rewrite firstn_map. f_equal. replace m with (k + (m - k)) by lia. rewrite seq_app.
  apply firstn_exact. rewrite seq_length. reflexivity.
Qed.

(** ** Reading block after block *)
Lemma reads_serve h m : has_frames h m -> forall sizes r D out, serves h r D -> Forall (fun f => length f = h_channels h) D ->
  reads h r sizes out -> out = concat (firstn (list_sum sizes) D).
Proof.
  intros HF. induction sizes as [|n sizes IH]; intros r D out HS HD HR;
    inversion HR as [|? ? ? buf r2 buf2 got2 out2 HBUF HREAD HREST]; subst.
  - reflexivity.
  - destruct (serve h m r D buf n HF HS HBUF) as [r1 [E1 S1]].
    rewrite E1 in HREAD. injection HREAD as <- <- <-.
    rewrite firstn_exact.
    2:{ rewrite (concat_length (h_channels h)), firstn_length; [reflexivity|].
        rewrite <- (firstn_skipn n) in HD. apply Forall_app in HD. apply HD. }
    assert (HD' : Forall (fun f => length f = h_channels h) (skipn n D)).
    { rewrite <- (firstn_skipn n) in HD. apply Forall_app in HD. apply HD. }
    rewrite (IH r1 (skipn n D) out2 S1 HD' HREST). rewrite <- concat_app. f_equal.
    change (list_sum (n :: sizes)) with (n + list_sum sizes).
    rewrite <- (firstn_skipn n D) at 3. rewrite firstn_app. rewrite firstn_firstn.
    replace (min (n + list_sum sizes) n) with n by lia. f_equal.
    rewrite firstn_length. destruct (Nat.le_gt_cases n (length D)).
    + f_equal. lia.
    + rewrite !(skipn_all2 D) by lia. rewrite !firstn_nil. reflexivity.
Qed.

Lemma create_serves h reverse fast : intact h ->
  serves h (create (Some h) reverse fast) (if reverse then rev (frames h (h_declared h)) else frames h (h_declared h)).
Proof.
  intros [HF HK]. pose proof (has_frames_count h _ HF) as EF. pose proof (fr_frames h _ HF) as FR.
  destruct reverse; cbn [create negb]; [destruct fast|]; cbn [serves]; rewrite ?EF, FR.
  - split; [lia|]. split; [exact HK|]. rewrite firstn_all2 by (rewrite frames_length; lia). reflexivity.
  - rewrite firstn_all2 by (rewrite frames_length; lia). reflexivity.
  - split; [lia|]. reflexivity.
Qed.

Lemma order_all (h : handle A) (reverse : bool) n :
  Forall (fun f => length f = h_channels h) (if reverse then rev (frames h n) else frames h n).
Proof. destruct reverse; [apply Forall_rev|]; apply frames_all. Qed.

(** C79: whatever the sizes of the blocks, a program that reads block after block gets the frames of the file in order, or from the last
    to the first with the channels of each frame in their order, without a gap or a repetition, up to the end of the file. *)
Theorem C79_reads : forall h reverse fast sizes out, intact h ->
  reads h (create (Some h) reverse fast) sizes out ->
  out = concat (firstn (list_sum sizes) (if reverse then rev (frames h (h_declared h)) else frames h (h_declared h))).
Proof.
  intros h reverse fast sizes out HI HR. pose proof HI as [HF _].
  eapply reads_serve; [exact HF|apply create_serves; exact HI| |exact HR]. apply order_all.
Qed.

(** No read of any such sequence leaves its buffer. *)
Theorem C79_reads_total : forall h reverse fast sizes, intact h -> exists out, reads h (create (Some h) reverse fast) sizes out.
Proof.
  intros h reverse fast sizes HI. pose proof HI as [HF _].
  pose proof (create_serves h reverse fast HI) as HS. revert HS.
  generalize (create (Some h) reverse fast) (if reverse then rev (frames h (h_declared h)) else frames h (h_declared h)).
  induction sizes as [|n sizes IH]; intros r D HS.
  - exists []. constructor.
  - destruct (serve h _ r D (repeat zero (n * h_channels h)) n HF HS) as [r1 [E1 S1]]; [rewrite repeat_length; lia|].
    destruct (IH r1 _ S1) as [out HO]. eexists. eapply reads_cons; [|exact E1|exact HO]. rewrite repeat_length. lia.
Qed.

(** ** Streaming *)
Definition column (D : list (list A)) (total c : nat) : list A := map (fun f => nth c f zero) D ++ repeat zero (total - length D).

Lemma write_channel_spec block C chan (X : list A) n m :
  (forall i, i < n -> i * C + chan < length block) -> n <= m ->
  write_channel block C chan (length X) n (X ++ repeat zero m) =
    Some (X ++ map (fun i => nth (i * C + chan) block zero) (seq 0 n) ++ repeat zero (m - n)).
Proof.
  intros HB HM. unfold write_channel.
  destruct (for_inv (fun i o => o = X ++ map (fun i => nth (i * C + chan) block zero) (seq 0 i) ++ repeat zero (m - i))
    (fun i o => match rd block (i * C + chan) with Some v => wr o (length X + i) v | None => None end) n 0
    (X ++ repeat zero m)) as [o [EO PO]].
  - cbn [seq map app]. rewrite Nat.sub_0_r. reflexivity.
  - intros i o Hi ->. unfold rd. rewrite (nth_error_nth' block zero) by (apply HB; lia).
    set (Y := X ++ map (fun i => nth (i * C + chan) block zero) (seq 0 i)).
    assert (LY : length Y = length X + i) by (unfold Y; rewrite app_length, map_length, seq_length; reflexivity).
    rewrite app_assoc. fold Y. unfold wr. rewrite app_length, repeat_length.
    destruct (Nat.ltb_spec (length X + i) (length Y + (m - i))); [|lia].
    eexists. split; [reflexivity|]. rewrite firstn_exact by lia.
    replace (m - i) with (1 + (m - (i + 1))) by lia. cbn [Nat.add repeat].
    replace (Datatypes.S (length X + i)) with (length Y + 1) by lia. rewrite <- (skipn_skipn_ _ 1 (length Y)).
    rewrite skipn_exact by reflexivity. cbn [skipn].
    rewrite seq_app, map_app, !app_assoc. fold Y. cbn [seq map]. rewrite <- !app_assoc. reflexivity.
  - rewrite EO, PO. reflexivity.
Qed.

Lemma map_nth_block C (D : list (list A)) T chan : Forall (fun f => length f = C) D -> chan < C ->
  map (fun i => nth (i * C + chan) (concat D ++ T) zero) (seq 0 (length D)) = map (fun f => nth chan f zero) D.
Proof.
  intros HD HC. apply list_ext. intros k. rewrite nth_error_map_seq, nth_error_map.
  destruct (Nat.ltb_spec k (length D)) as [Hk|Hk].
  - destruct (nth_error D k) as [f|] eqn:E; [|apply nth_error_None in E; lia]. cbn [option_map]. f_equal.
    pose proof (concat_nth C D HD k chan HC) as CN. rewrite E in CN.
    assert (LF : length f = C) by (eapply Forall_forall in HD; [exact HD|eapply nth_error_In; exact E]).
    rewrite app_nth1.
    2:{ rewrite (concat_length C) by exact HD. assert ((k + 1) * C <= length D * C) by (apply Nat.mul_le_mono_r; lia). lia. }
    rewrite (nth_error_nth' f zero) in CN by lia. apply nth_error_nth. exact CN.
  - apply nth_error_None in Hk. rewrite Hk. reflexivity.
Qed.

Lemma write_channels_spec C (N0 N1 : list (list A)) T total : forall cnt chan, chan + cnt = C ->
  Forall (fun f => length f = C) N1 -> length N0 + length N1 <= total ->
  write_channels (concat N1 ++ T) C chan (length N0) (length N1) (map (column N0 total) (seq chan cnt)) =
    Some (map (column (N0 ++ N1) total) (seq chan cnt)).
Proof.
  induction cnt as [|cnt IH]; intros chan HC H1 HT; [reflexivity|].
  cbn [seq map write_channels]. unfold column at 1.
  pose proof (write_channel_spec (concat N1 ++ T) C chan (map (fun f => nth chan f zero) N0) (length N1) (total - length N0)) as W.
  rewrite map_length in W. rewrite W.
  3: lia.
  2:{ intros i Hi. rewrite app_length, (concat_length C) by exact H1.
      assert ((i + 1) * C <= length N1 * C) by (apply Nat.mul_le_mono_r; lia). lia. }
  rewrite map_nth_block by (try exact H1; lia).
  replace (chan + 1) with (Datatypes.S chan) by lia. rewrite IH by (try exact H1; lia). f_equal. f_equal.
  unfold column. rewrite map_app, app_length, <- app_assoc. do 3 f_equal. lia.
Qed.

Lemma stream_gen h m chunk : has_frames h m -> 1 <= chunk -> forall fuel r N0 D block,
  serves h r D -> Forall (fun f => length f = h_channels h) D -> length N0 + length D <= h_declared h ->
  h_declared h - length N0 < fuel -> length block = chunk * h_channels h ->
  stream_loop junk h chunk fuel r block (length N0) (map (column N0 (h_declared h)) (seq 0 (h_channels h))) (length N0) =
    Some (map (column (N0 ++ D) (h_declared h)) (seq 0 (h_channels h)), length N0 + length D).
Proof.
  intros HF HCH. induction fuel as [|fuel IH]; intros r N0 D block HS HD HL HFU HB; [lia|].
  cbn [stream_loop]. destruct (Nat.ltb_spec (length N0) (h_declared h)) as [Hlt|Hge]; cbn [negb].
  2:{ destruct D; [|cbn [length] in HL; lia]. rewrite app_nil_r, Nat.add_0_r. reflexivity. }
  set (this := min chunk (h_declared h - length N0)).
  assert (HT : 1 <= this) by (unfold this; lia).
  assert (HTB : this * h_channels h <= chunk * h_channels h) by (apply Nat.mul_le_mono_r; unfold this; lia).
  destruct (serve h m r D block this HF HS ltac:(lia)) as [r' [E1 S1]]. rewrite E1.
  pose proof HD as HD2. rewrite <- (firstn_skipn this) in HD2. apply Forall_app in HD2. destruct HD2 as [HDa HDb].
  destruct (Nat.eqb_spec (min this (length D)) 0) as [Z|Z].
  - assert (D = []) by (destruct D; [reflexivity|cbn [length] in Z; lia]). subst D.
    rewrite app_nil_r, Nat.add_0_r. reflexivity.
  - assert (EN : (if min this (length D) <? this then min this (length D) else this) = min this (length D)).
    { destruct (Nat.ltb_spec (min this (length D)) this); lia. }
    rewrite EN.
    assert (LN : length (firstn this D) = min this (length D)) by apply firstn_length.
    pose proof (write_channels_spec (h_channels h) N0 (firstn this D) (skipn (min this (length D) * h_channels h) block) (h_declared h)
      (h_channels h) 0 eq_refl HDa ltac:(lia)) as W. rewrite LN in W. rewrite W.
    destruct (Nat.ltb_spec (min this (length D)) this) as [Hs|Hs].
    + rewrite firstn_all2 by lia. do 2 f_equal. lia.
    + specialize (IH r' (N0 ++ firstn this D) (skipn this D) (concat (firstn this D) ++ skipn (min this (length D) * h_channels h) block) S1 HDb).
      rewrite app_length, LN in IH. rewrite IH.
      * rewrite <- app_assoc, firstn_skipn, skipn_length. do 2 f_equal. lia.
      * rewrite skipn_length. lia.
      * lia.
      * rewrite app_length, skipn_length, (concat_length (h_channels h)) by exact HDa. rewrite LN.
        assert (min this (length D) * h_channels h <= this * h_channels h) by (apply Nat.mul_le_mono_r; lia). lia.
Qed.

Lemma map_const_repeat {B} (v : B) : forall n k, map (fun _ => v) (seq k n) = repeat v n.
Proof. induction n; intros; cbn; [reflexivity|]. f_equal. apply IHn. Qed.

Lemma stream_serves h m chunk r D : has_frames h m -> 1 <= chunk -> serves h r D ->
  Forall (fun f => length f = h_channels h) D -> length D <= h_declared h ->
  streamFromFile zero junk chunk h r = Some (map (column D (h_declared h)) (seq 0 (h_channels h)), length D).
Proof.
  intros HF HC HS HD HL. unfold streamFromFile.
  pose proof (stream_gen h m chunk HF HC (h_declared h + 1) r [] D (repeat zero (chunk * h_channels h)) HS HD) as G.
  cbn [length app Nat.add] in G. rewrite <- G; [|lia|lia|apply repeat_length].
  f_equal. unfold column. cbn [map app length]. rewrite Nat.sub_0_r, map_const_repeat. reflexivity.
Qed.

Lemma column_nth D total c i : i < length D -> nth i (column D total c) zero = nth c (nth i D []) zero.
Proof.
  intros H. unfold column. rewrite app_nth1 by (rewrite map_length; exact H).
  apply nth_error_nth. rewrite nth_error_map, (nth_error_nth' D []) by exact H. reflexivity.
Qed.

Lemma column_tail D total c i : length D <= i -> nth i (column D total c) zero = zero.
Proof.
  intros H. unfold column. rewrite app_nth2 by (rewrite map_length; exact H).
  apply nth_repeat.
Qed.

Lemma column_length D total c : length D <= total -> length (column D total c) = total.
Proof. intros H. unfold column. rewrite app_length, map_length, repeat_length. lia. Qed.

Lemma frames_nth h m q c : q < m -> c < h_channels h -> nth c (nth q (frames h m) []) zero = sample h q c.
Proof.
  intros Hq Hc. unfold frames.
  assert (E : nth_error (map (fun q0 => map (sample h q0) (seq 0 (h_channels h))) (seq 0 m)) q =
              Some (map (sample h q) (seq 0 (h_channels h)))).
  { rewrite nth_error_map_seq. destruct (Nat.ltb_spec q m); [reflexivity|lia]. }
  rewrite (nth_error_nth _ _ _ E).
  apply nth_error_nth. rewrite nth_error_map_seq. destruct (Nat.ltb_spec c (h_channels h)); [reflexivity|lia].
Qed.

Lemma map_column_nth (D : list (list A)) total C c : c < C -> nth c (map (column D total) (seq 0 C)) [] = column D total c.
Proof.
  intros H. apply nth_error_nth. rewrite nth_error_map_seq. destruct (Nat.ltb_spec c C); [reflexivity|lia].
Qed.

Lemma order_nth h m (reverse : bool) i c : i < m -> c < h_channels h ->
  nth c (nth i (if reverse then rev (frames h m) else frames h m) []) zero = sample h (if reverse then m - 1 - i else i) c.
Proof.
  intros Hi Hc. destruct reverse; [|apply frames_nth; assumption].
  rewrite rev_nth by (rewrite frames_length; exact Hi). rewrite frames_length. replace (m - Datatypes.S i) with (m - 1 - i) by lia.
  apply frames_nth; [lia|exact Hc].
Qed.

(** C79: streaming a file puts every sample at its place, whatever the size of the chunks: channel [c] of the result has at frame [i] the
    sample of channel [c] at frame [i] of the file, or at the frame as far from the end when the file is played backwards.  Nothing is
    written outside of the buffers, and all frames are counted as filled. *)
Theorem C79_stream : forall h reverse fast chunk, intact h -> 1 <= chunk ->
  exists outs, streamFromFile zero junk chunk h (create (Some h) reverse fast) = Some (outs, h_declared h) /\
    length outs = h_channels h /\
    forall c, c < h_channels h -> length (nth c outs []) = h_declared h /\
      forall i, i < h_declared h -> nth i (nth c outs []) zero = sample h (if reverse then h_declared h - 1 - i else i) c.
Proof.
  intros h reverse fast chunk HI HC. pose proof HI as [HF _].
  pose proof (create_serves h reverse fast HI) as HS.
  set (D := if reverse then rev (frames h (h_declared h)) else frames h (h_declared h)) in *.
  assert (LD : length D = h_declared h) by (unfold D; destruct reverse; rewrite ?rev_length; apply frames_length).
  pose proof (stream_serves h _ chunk _ D HF HC HS (order_all h reverse _) ltac:(lia)) as ST. rewrite LD in ST.
  eexists. split; [exact ST|]. split; [rewrite map_length, seq_length; reflexivity|].
  intros c Hc. rewrite map_column_nth by exact Hc. split; [apply column_length; lia|].
  intros i Hi. rewrite column_nth by lia. unfold D. apply order_nth; assumption.
Qed.

(** A file that is cut short is streamed forwards up to its end: the frames that are there, then silence, and only those that are there
    count as filled. *)
Theorem C79_stream_truncated : forall h n fast chunk, has_frames h n -> n <= h_declared h -> 1 <= chunk ->
  exists outs, streamFromFile zero junk chunk h (create (Some h) false fast) = Some (outs, n) /\
    length outs = h_channels h /\
    forall c, c < h_channels h -> length (nth c outs []) = h_declared h /\
      (forall i, i < n -> nth i (nth c outs []) zero = sample h i c) /\
      (forall i, n <= i -> nth i (nth c outs []) zero = zero).
Proof.
  intros h n fast chunk HF HN HC.
  assert (HS : serves h (create (Some h) false fast) (frames h n)).
  { cbn [create negb serves]. rewrite (fr_frames h n HF). split; [lia|reflexivity]. }
  pose proof (stream_serves h n chunk _ _ HF HC HS (frames_all h n)) as ST. rewrite frames_length in ST. specialize (ST HN).
  eexists. split; [exact ST|]. split; [rewrite map_length, seq_length; reflexivity|].
  intros c Hc. rewrite map_column_nth by exact Hc. split; [apply column_length; rewrite frames_length; exact HN|].
  split; intros i Hi.
  - rewrite column_nth by (rewrite frames_length; exact Hi). apply frames_nth; assumption.
  - apply column_tail. rewrite frames_length. exact Hi.
Qed.

(** Backwards, with a format whose seeks are slow, such a file is played from the last frame that is there. *)
Theorem C79_noseek_truncated : forall h n chunk, has_frames h n -> n <= h_declared h -> 1 <= chunk ->
  exists outs, streamFromFile zero junk chunk h (create (Some h) true false) = Some (outs, n) /\
    forall c, c < h_channels h ->
      (forall i, i < n -> nth i (nth c outs []) zero = sample h (n - 1 - i) c) /\
      (forall i, n <= i -> nth i (nth c outs []) zero = zero).
Proof.
  intros h n chunk HF HN HC.
  assert (HS : serves h (create (Some h) true false) (rev (frames h n))).
  { cbn [create negb serves]. rewrite (fr_frames h n HF). rewrite firstn_all2 by (rewrite frames_length; exact HN). reflexivity. }
  pose proof (stream_serves h n chunk _ _ HF HC HS (order_all h true n)) as ST. rewrite rev_length, frames_length in ST. specialize (ST HN).
  eexists. split; [exact ST|].
  intros c Hc. rewrite map_column_nth by exact Hc.
  split; intros i Hi.
  - rewrite column_nth by (rewrite rev_length, frames_length; exact Hi). apply (order_nth h n true); assumption.
  - apply column_tail. rewrite rev_length, frames_length. exact Hi.
Qed.

(** With a format whose seeks are fast it is not played at all: the first block comes short and the reader gives up. *)
Theorem C79_reverse_truncated_silent : forall h n chunk, has_frames h n -> n < h_declared h -> 1 <= chunk ->
  streamFromFile zero junk chunk h (create (Some h) true true) =
    Some (repeat (repeat zero (h_declared h)) (h_channels h), 0).
Proof.
  intros h n chunk HF HN HC. unfold streamFromFile. rewrite Nat.add_1_r. cbn [stream_loop create negb].
  destruct (Nat.ltb_spec 0 (h_declared h)); [|lia]. cbn [negb]. rewrite Nat.sub_0_r. cbn [readNextBlock].
  replace (min (min chunk (h_declared h)) (h_declared h)) with (min chunk (h_declared h)) by lia.
  destruct (Nat.eqb_spec (min chunk (h_declared h)) 0); [lia|].
  destruct (h_seek h (h_declared h - min chunk (h_declared h))); cbn [negb]; [|reflexivity].
  pose proof (has_frames_count h n HF) as EF. destruct HF as [HCH HL].
  unfold read_f32. rewrite EF.
  set (p := h_declared h - min chunk (h_declared h)).
  assert (G : min (min chunk (h_declared h)) (n - p) < min chunk (h_declared h)) by (unfold p; lia).
  unfold blit. rewrite firstn_length, repeat_length.
  assert (min (min chunk (h_declared h)) (n - p) * h_channels h <= chunk * h_channels h) by (apply Nat.mul_le_mono_r; lia).
  destruct (Nat.leb_spec (min (min (min chunk (h_declared h)) (n - p) * h_channels h) (length (skipn (p * h_channels h) (h_data h))))
    (chunk * h_channels h)); [|lia].
  destruct (Nat.eqb_spec (min (min chunk (h_declared h)) (n - p)) (min chunk (h_declared h))); [lia|]. cbn [negb Nat.eqb]. reflexivity.
Qed.

(** ** What is read before playing *)
Lemma readInterleaved_spec n (input : list A) : length input = 2 * n ->
  readInterleaved input (repeat zero n) (repeat zero n) =
    Some (map (fun i => nth (2 * i) input zero) (seq 0 n), map (fun i => nth (2 * i + 1) input zero) (seq 0 n)).
Proof.
  intros HL. unfold readInterleaved. rewrite HL. replace (2 * n / 2) with n by (rewrite Nat.mul_comm, Nat.div_mul; lia).
  destruct (for_inv (fun i (p : list A * list A) =>
      p = (map (fun i => nth (2 * i) input zero) (seq 0 i) ++ repeat zero (n - i),
           map (fun i => nth (2 * i + 1) input zero) (seq 0 i) ++ repeat zero (n - i)))
    (fun i '(l, r) =>
      match rd input (2 * i), rd input (2 * i + 1) with
      | Some a, Some b => match wr l i a, wr r i b with Some l', Some r' => Some (l', r') | _, _ => None end
      | _, _ => None
      end) n 0 (repeat zero n, repeat zero n)) as [p [EP PP]].
  - cbn [seq map app]. rewrite Nat.sub_0_r. reflexivity.
  - intros i p Hi ->. cbv beta iota. unfold rd. rewrite !(nth_error_nth' input zero) by lia.
    assert (W : forall (g : nat -> A) v, v = g i ->
       wr (map g (seq 0 i) ++ repeat zero (n - i)) i v = Some (map g (seq 0 (i + 1)) ++ repeat zero (n - (i + 1)))).
    { intros g v ->. assert (LM : length (map g (seq 0 i)) = i) by (rewrite map_length, seq_length; reflexivity).
      unfold wr. rewrite app_length, repeat_length, LM. destruct (Nat.ltb_spec i (i + (n - i))); [|lia].
      rewrite firstn_exact by lia. replace (n - i) with (1 + (n - (i + 1))) by lia. cbn [Nat.add repeat].
      replace (Datatypes.S i) with (i + 1) at 1 by lia. rewrite <- (skipn_skipn_ _ 1 i). rewrite skipn_exact by lia. cbn [skipn].
      rewrite seq_app, map_app, <- app_assoc. reflexivity. }
    rewrite (W (fun i => nth (2 * i) input zero)) by reflexivity.
    rewrite (W (fun i => nth (2 * i + 1) input zero)) by reflexivity.
    eexists. split; reflexivity.
  - rewrite EP, PP. cbn [Nat.add]. rewrite Nat.sub_diag. cbn [repeat]. rewrite !app_nil_r. reflexivity.
Qed.

Lemma preload_serves h m r D n : has_frames h m -> h_channels h = 1 \/ h_channels h = 2 -> serves h r D ->
  Forall (fun f => length f = h_channels h) D ->
  readFromFile zero junk h r n = Some (map (column (firstn n D) n) (seq 0 (h_channels h))).
Proof.
  intros HF HC HS HD. unfold readFromFile.
  assert (HDa : Forall (fun f => length f = h_channels h) (firstn n D)).
  { rewrite <- (firstn_skipn n) in HD. apply Forall_app in HD. apply HD. }
  assert (LC : length (concat (firstn n D)) = min n (length D) * h_channels h).
  { rewrite (concat_length (h_channels h)) by exact HDa. rewrite firstn_length. reflexivity. }
  assert (LB : forall k (b : list A), k = h_channels h -> length b = k * n ->
    length (concat (firstn n D) ++ skipn (min n (length D) * h_channels h) b) = k * n).
  { intros k b -> Hb. rewrite app_length, skipn_length, LC, Hb.
    assert (min n (length D) * h_channels h <= n * h_channels h) by (apply Nat.mul_le_mono_r; lia). lia. }
  assert (COL : forall k c, k = h_channels h -> c < k ->
    map (fun i => nth (i * k + c) (concat (firstn n D) ++ skipn (min n (length D) * h_channels h) (repeat zero (k * n))) zero) (seq 0 n) =
      column (firstn n D) n c).
  { intros k c -> Hc. apply list_ext. intros i. rewrite nth_error_map_seq.
    assert (LCOL : length (column (firstn n D) n c) = n) by (apply column_length; rewrite firstn_length; lia).
    destruct (Nat.ltb_spec i n) as [Hi|Hi]; [|symmetry; apply nth_error_None; lia].
    rewrite (nth_error_nth' (column (firstn n D) n c) zero) by lia. f_equal.
    destruct (Nat.lt_ge_cases i (min n (length D))) as [Hm|Hm].
    - rewrite column_nth by (rewrite firstn_length; exact Hm).
      assert (LI : i < length (firstn n D)) by (rewrite firstn_length; exact Hm).
      pose proof (map_nth_block (h_channels h) (firstn n D) (skipn (min n (length D) * h_channels h) (repeat zero (h_channels h * n))) c HDa Hc) as MB.
      apply (f_equal (fun l => nth_error l i)) in MB. rewrite nth_error_map_seq, nth_error_map in MB.
      destruct (Nat.ltb_spec i (length (firstn n D))); [|lia].
      rewrite (nth_error_nth' (firstn n D) []) in MB by exact LI. cbn [option_map] in MB. injection MB as MB. exact MB.
    - rewrite column_tail by (rewrite firstn_length; exact Hm).
      assert (min n (length D) * h_channels h <= i * h_channels h) by (apply Nat.mul_le_mono_r; exact Hm).
      rewrite app_nth2 by lia.
      destruct (nth_in_or_default (i * h_channels h + c - length (concat (firstn n D)))
        (skipn (min n (length D) * h_channels h) (repeat zero (h_channels h * n))) zero) as [HIN|HIN]; [|exact HIN].
      apply (repeat_spec (h_channels h * n)). rewrite <- (firstn_skipn (min n (length D) * h_channels h)). apply in_or_app. right. exact HIN. }
  destruct HC as [HC|HC].
  - destruct (serve h m r D (repeat zero n) n HF HS) as [r' [E1 _]]; [rewrite repeat_length; lia|].
    rewrite E1. rewrite HC. cbn [seq map]. do 2 f_equal.
    rewrite <- (COL 1 0) by lia. rewrite HC.
    specialize (LB 1 (repeat zero n) ltac:(lia)). rewrite repeat_length, HC in LB. specialize (LB ltac:(lia)).
    rewrite (Nat.mul_1_l n) in *.
    apply list_ext. intros i. rewrite nth_error_map_seq. replace (i * 1 + 0) with i by lia.
    destruct (Nat.ltb_spec i n) as [Hi|Hi]; [apply nth_error_nth'; lia|apply nth_error_None; lia].
  - destruct (serve h m r D (repeat zero (2 * n)) n HF HS) as [r' [E1 _]]; [rewrite repeat_length; lia|].
    rewrite E1. rewrite (readInterleaved_spec n) by (apply (LB 2); [lia|rewrite repeat_length; reflexivity]).
    rewrite HC. cbn [seq map]. do 2 f_equal; [|f_equal].
    + rewrite <- (COL 2 0) by lia. rewrite HC. apply map_ext. intros i. f_equal. lia.
    + rewrite <- (COL 2 1) by lia. rewrite HC. apply map_ext. intros i. f_equal. lia.
Qed.

(** C79: the frames that are read before playing are the first frames of what streaming delivers, for files of one and two channels, in
    both directions: passing from the one to the other while playing changes no sample. *)
Theorem C79_preload : forall h reverse fast chunk n, intact h -> h_channels h = 1 \/ h_channels h = 2 -> 1 <= chunk -> n <= h_declared h ->
  exists pre outs filled,
    readFromFile zero junk h (create (Some h) reverse fast) n = Some pre /\
    streamFromFile zero junk chunk h (create (Some h) reverse fast) = Some (outs, filled) /\
    length pre = h_channels h /\ length outs = h_channels h /\
    forall c, c < h_channels h -> nth c pre [] = firstn n (nth c outs []) /\ length (nth c pre []) = n.
Proof.
  intros h reverse fast chunk n HI HC HK HN. pose proof HI as [HF _].
  pose proof (create_serves h reverse fast HI) as HS.
  set (D := if reverse then rev (frames h (h_declared h)) else frames h (h_declared h)) in *.
  assert (LD : length D = h_declared h) by (unfold D; destruct reverse; rewrite ?rev_length; apply frames_length).
  pose proof (stream_serves h _ chunk _ D HF HK HS (order_all h reverse _) ltac:(lia)) as ST.
  pose proof (preload_serves h _ _ D n HF HC HS (order_all h reverse _)) as PR.
  eexists _, _, _. split; [exact PR|]. split; [exact ST|]. rewrite !map_length, seq_length. split; [reflexivity|]. split; [reflexivity|].
  intros c Hc. rewrite !map_column_nth by exact Hc. unfold column. rewrite firstn_length, LD.
  replace (min n (h_declared h)) with n by lia. rewrite !Nat.sub_diag. cbn [repeat]. rewrite !app_nil_r. rewrite firstn_map.
  split; [reflexivity|]. rewrite map_length, firstn_length. lia.
Qed.

End Spec.

(** ** Cases *)
(** Three frames of two channels, backwards in blocks of two: the channels keep their order. *)
Definition file3 : handle nat := Handle 2 3 [1; 2; 3; 4; 5; 6] (fun _ => true).
Example C79_reads_ex : reads nat (fun _ => 99) file3 (create (Some file3) true true) [2; 2; 2] [5; 6; 3; 4; 1; 2] /\
  reads nat (fun _ => 99) file3 (create (Some file3) true false) [1; 1; 1; 1] [5; 6; 3; 4; 1; 2] /\ intact nat file3.
Proof.
  split; [|split].
  - apply (reads_cons nat _ file3 _ 2 _ [0; 0; 0; 0] (Reverse 1) [5; 6; 3; 4] 2 [1; 2]); [cbn; lia|reflexivity|].
    apply (reads_cons nat _ file3 _ 2 _ [0; 0; 0; 0] (Reverse 0) [1; 2; 0; 0] 1 []); [cbn; lia|reflexivity|].
    apply (reads_cons nat _ file3 _ 2 _ [0; 0; 0; 0] (Reverse 0) [0; 0; 0; 0] 0 []); [cbn; lia|reflexivity|].
    constructor.
  - apply (reads_cons nat _ file3 _ 1 _ [0; 0] (NoSeek (Some [1; 2; 3; 4; 5; 6]) 2) [5; 6] 1 [3; 4; 1; 2]); [cbn; lia|reflexivity|].
    apply (reads_cons nat _ file3 _ 1 _ [0; 0] (NoSeek (Some [1; 2; 3; 4; 5; 6]) 1) [3; 4] 1 [1; 2]); [cbn; lia|reflexivity|].
    apply (reads_cons nat _ file3 _ 1 _ [0; 0] (NoSeek (Some [1; 2; 3; 4; 5; 6]) 0) [1; 2] 1 []); [cbn; lia|reflexivity|].
    apply (reads_cons nat _ file3 _ 1 _ [0; 0] (NoSeek (Some [1; 2; 3; 4; 5; 6]) 0) [0; 0] 0 []); [cbn; lia|reflexivity|].
    constructor.
  - repeat split; cbn; lia.
Qed.

Example C79_stream_ex : streamFromFile 0 (fun _ => 99) 2 file3 (create (Some file3) true true) = Some ([[5; 3; 1]; [6; 4; 2]], 3) /\
  readFromFile 0 (fun _ => 99) file3 (create (Some file3) true true) 2 = Some [[5; 3]; [6; 4]].
Proof. split; reflexivity. Qed.

(** Three channels take the general loop. *)
Example C79_three_ex : reverse_frames [1; 2; 3; 4; 5; 6; 7; 8; 9; 10] 3 3 = Some [7; 8; 9; 4; 5; 6; 1; 2; 3; 10].
Proof. reflexivity. Qed.

(** A file that declares four frames and has three: forwards, backwards with slow seeks, and backwards with fast seeks. *)
Definition short3 : handle nat := Handle 1 4 [1; 2; 3] (fun _ => true).
Example C79_truncated_ex : streamFromFile 0 (fun _ => 99) 2 short3 (create (Some short3) false true) = Some ([[1; 2; 3; 0]], 3) /\
  streamFromFile 0 (fun _ => 99) 2 short3 (create (Some short3) true false) = Some ([[3; 2; 1; 0]], 3) /\
  streamFromFile 0 (fun _ => 99) 2 short3 (create (Some short3) true true) = Some ([[0; 0; 0; 0]], 0).
Proof. repeat split; reflexivity. Qed.

(** A defect: what is read before playing such a file backwards is its end played forwards, because the reader has filled the buffer
    before it gives up and readBaseFile does not look at the count; streaming delivers silence in the same place. So the two do not
    agree. *)
Theorem C79_reverse_truncated_refuted : has_frames nat short3 3 /\
  readFromFile 0 (fun _ => 99) short3 (create (Some short3) true true) 4 = Some [[1; 2; 3; 0]] /\
  streamFromFile 0 (fun _ => 99) 2 short3 (create (Some short3) true true) = Some ([[0; 0; 0; 0]], 0).
Proof. split; [split; cbn; lia|]. split; reflexivity. Qed.

(** A defect: loading from memory a file of three channels uses the information that it does not have. *)
Theorem C79_load_from_ram_refuted : let h := Handle 3 1 [1; 2; 3] (fun _ => true) in
  intact nat h /\ loadFromRam 0 (fun _ => 99) h false true = None.
Proof. split; [|reflexivity]. repeat split; cbn; lia. Qed.
