(** Sample data is not freed under a reader (C25); the preloaded part covers the offsets (C26). *)
From Coq Require Import ZArith List Lia Bool.
Import ListNotations.
From Verif Require Import FilePoolModel.

(** ** Lists *)
Lemma nth_set_same {A} i (x : A) l y : nth_error l i = Some y -> nth_error (setNth i x l) i = Some x.
Proof.
  intros H. assert (i < length l) by (apply nth_error_Some; congruence). unfold setNth.
  rewrite nth_error_app2; rewrite firstn_length_le by lia; [|lia]. now rewrite Nat.sub_diag.
Qed.
Lemma nth_set_other {A} i j (x : A) l : i <> j -> nth_error (setNth i x l) j = nth_error l j \/ nth_error l i = None.
Proof.
  intros D. destruct (nth_error l i) as [y|] eqn:Hn; [left|now right]. assert (i < length l) by (apply nth_error_Some; congruence). unfold setNth.
  destruct (Nat.lt_ge_cases j i).
  - rewrite nth_error_app1 by (rewrite firstn_length_le; lia). rewrite <- (firstn_skipn i l) at 2. rewrite nth_error_app1; [reflexivity|rewrite firstn_length_le; lia].
  - rewrite nth_error_app2 by (rewrite firstn_length_le; lia). rewrite firstn_length_le by lia. destruct (j - i) as [|k] eqn:K; [lia|]. cbn [nth_error].
    rewrite <- (firstn_skipn (S i) l) at 2. rewrite nth_error_app2 by (rewrite firstn_length_le; lia). rewrite firstn_length_le by lia. f_equal. lia.
Qed.
Lemma nth_set {A} i j (x : A) l y : nth_error l i = Some y -> forall z, nth_error (setNth i x l) j = Some z -> (j = i /\ z = x) \/ (j <> i /\ nth_error l j = Some z).
Proof.
  intros Hi z Hz. destruct (Nat.eq_dec j i) as [->|D].
  - rewrite (nth_set_same i x l y Hi) in Hz. left. split; congruence.
  - destruct (nth_set_other i j x l ltac:(congruence)) as [Eo|Eo]; [|congruence]. right. split; congruence.
Qed.
Definition cnt {A} (f : A -> bool) (l : list A) : nat := length (filter f l).
Definition b2n (b : bool) : nat := if b then 1 else 0.
Lemma cnt_set {A} (f : A -> bool) i x l y : nth_error l i = Some y -> cnt f (setNth i x l) + b2n (f y) = cnt f l + b2n (f x).
Proof.
  unfold setNth, cnt. revert i. induction l as [|a l IH]; intros [|i] H; try discriminate.
  - cbn in H. injection H as ->. cbn [firstn skipn app filter]. destruct (f x), (f y); cbn; lia.
  - cbn in H. specialize (IH i H). cbn [firstn skipn app filter]. destruct (f a); cbn [length]; cbn [skipn] in IH; lia.
Qed.
Lemma cnt_zero {A} (f : A -> bool) l : cnt f l = 0 -> forall i x, nth_error l i = Some x -> f x = false.
Proof.
  unfold cnt. induction l as [|a l IH]; intros C i x H; [destruct i; discriminate|]. cbn [filter] in C. destruct (f a) eqn:F; [discriminate|].
  destruct i as [|i]; cbn in H; [congruence|]. eapply IH; eauto.
Qed.
Lemma cnt_pos {A} (f : A -> bool) l i x : nth_error l i = Some x -> f x = true -> 1 <= cnt f l.
Proof. intros H F. destruct (cnt f l) eqn:C; [|lia]. pose proof (cnt_zero f l C i x H). congruence. Qed.
Lemma cnt_one {A} (f : A -> bool) l : cnt f l <= 1 -> forall i j x y, nth_error l i = Some x -> nth_error l j = Some y -> f x = true -> f y = true -> i = j.
Proof.
  unfold cnt. induction l as [|a l IH]; intros C i j x y Hi Hj Fx Fy; [destruct i; discriminate|]. cbn [filter] in C.
  destruct i as [|i], j as [|j]; cbn in Hi, Hj; [reflexivity| | |].
  - injection Hi as ->. rewrite Fx in C. cbn [length] in C. pose proof (cnt_pos f l j y Hj Fy) as P. unfold cnt in P. lia.
  - injection Hj as ->. rewrite Fy in C. cbn [length] in C. pose proof (cnt_pos f l i x Hi Fx) as P. unfold cnt in P. lia.
  - f_equal. apply (IH ltac:(destruct (f a); cbn [length] in C; lia) i j x y); assumption.
Qed.

(** ** The invariant *)
Definition held (r : reader) : bool := match r with RIdle => false | _ => true end.
Definition playing (r : reader) : bool :=
  match r with RStatus Collecting => false | RStatus _ | RCompared | RBuffer _ | RSpan _ _ => true | _ => false end.
Definition active (l : loader) : bool := match l with LStart | LTry => false | _ => true end.
Definition collecting (g : collector) : bool := match g with GRecheck _ | GZero | GMove | GBack | GRestore _ => true | _ => false end.
Definition freeing (g : collector) : bool := match g with GZero | GMove | GBack => true | _ => false end.
Section Safe.
Variable file : list Z.
Variable preloaded : nat.
(** The first [n] frames of the streamed data are those of the file. *)
Definition good (s : shared) (n : nat) : Prop :=
  exists g d, s_data s = Some (g, d) /\ length d = length file /\ n <= length file /\ firstn n d = firstn n file.
Definition loaderOk (s : shared) (l : loader) : Prop :=
  match l with
  | LReset => s_avail s = 0
  | LFill pos => s_avail s = pos /\ good s pos
  | LWritten pos c => s_avail s = pos /\ good s (pos + c)
  | LEnd => good s (s_avail s)
  | _ => True
  end.
Definition collectorOk (s : shared) (g : collector) : Prop :=
  match g with
  | GTry x => x = Done \/ (x = Preloaded /\ s_status s <> Preloaded)
  | GRecheck x | GRestore x => x = Done /\ good s (s_avail s)
  | GZero => good s (s_avail s)
  | GMove | GBack => s_avail s = 0
  | _ => True
  end.
Definition current (s : shared) (g : nat) : Prop := exists d, s_data s = Some (g, d).
Definition readerOk (s : shared) (r : reader) : Prop :=
  match r with
  | RCompared => 0 < s_avail s
  | RBuffer g => 0 < s_avail s /\ current s g
  | RSpan g n => 0 < n <= s_avail s /\ current s g
  | _ => True
  end.
Record inv (y : system) : Prop := {
  i_count : s_count (y_shared y) = cnt held (y_readers y);
  i_active : cnt active (y_loaders y) = match s_status (y_shared y) with Streaming => 1 | _ => 0 end;
  i_collecting : s_status (y_shared y) = Collecting <-> collecting (y_collector y) = true;
  i_collector : collectorOk (y_shared y) (y_collector y);
  i_preloaded : s_status (y_shared y) = Preloaded -> s_avail (y_shared y) = 0;
  i_loaders : forall i l, nth_error (y_loaders y) i = Some l -> loaderOk (y_shared y) l;
  i_done : s_status (y_shared y) = Done -> good (y_shared y) (s_avail (y_shared y));
  i_freeing : freeing (y_collector y) = true -> forall i r, nth_error (y_readers y) i = Some r -> playing r = false;
  i_readers : forall i r, nth_error (y_readers y) i = Some r -> readerOk (y_shared y) r }.
Lemma cnt_exists {A} (f : A -> bool) l : 1 <= cnt f l -> exists i x, nth_error l i = Some x /\ f x = true.
Proof.
  unfold cnt. induction l as [|a l IH]; cbn [filter]; [cbn; lia|]. intros C. destruct (f a) eqn:F; [exists 0, a; auto|]. destruct (IH C) as (i & x & H). exists (S i), x. exact H.
Qed.
Lemma good_le s n m : good s n -> m <= n -> good s m.
Proof.
  intros (g & d & D & L & N & F) M. exists g, d. repeat (split; [assumption || lia|]). rewrite <- (Nat.min_l m n M) at 1 2. rewrite <- !firstn_firstn. now rewrite F.
Qed.
Lemma avail_good y : inv y -> 0 < s_avail (y_shared y) -> good (y_shared y) (s_avail (y_shared y)).
Proof.
  intros [Ic Ia Ig Io Ip Il Id If Ir] P. destruct (s_status (y_shared y)) eqn:Es.
  - specialize (Ip eq_refl). lia.
  - destruct (cnt_exists active (y_loaders y) ltac:(lia)) as (i & l & Hl & Al). specialize (Il i l Hl).
    destruct l as [| | |pos|pos c|]; cbn in Al, Il; try discriminate; [lia| | |exact Il].
    + destruct Il as [-> G]. exact G.
    + destruct Il as [-> G]. eapply good_le; [exact G|lia].
  - auto.
  - destruct Ig as [Ig _]. specialize (Ig eq_refl). destruct (y_collector y); try discriminate; cbn in Io; try (apply Io); try (exact Io); lia.
Qed.
Lemma reader_frame s s' r : s_avail s' = s_avail s -> s_data s' = s_data s -> readerOk s r -> readerOk s' r.
Proof. intros A D. destruct r; cbn; unfold current; rewrite ?A, ?D; auto. Qed.
Lemma loader_frame s s' l : s_avail s' = s_avail s -> s_data s' = s_data s -> loaderOk s l -> loaderOk s' l.
Proof. intros A D. destruct l; cbn; unfold good; rewrite ?A, ?D; auto. Qed.
Lemma inv_reader s rs ls g i r s' r' : inv (System s rs ls g) -> nth_error rs i = Some r -> readerStep preloaded s r s' r' -> inv (System s' (setNth i r' rs) ls g).
Proof.
  intros [Ic Ia Ig Io Ip Il Id If Ir] Hr H. cbn [y_shared y_readers y_loaders y_collector] in *.
  pose proof (cnt_set held i r' rs r Hr) as Cs. pose proof (Ir i r Hr) as Rr.
  assert (s_status s' = s_status s /\ s_avail s' = s_avail s /\ s_data s' = s_data s /\ s_count s' + b2n (held r) = s_count s + b2n (held r') /\
    (playing r = false -> playing r' = true -> s_status s <> Collecting) /\ readerOk s r') as (E1 & E2 & E3 & E4 & E5 & E6).
  { destruct H; cbn in *; (split; [reflexivity|]); (split; [reflexivity|]); (split; [reflexivity|]); (split; [lia|]); split; auto;
      try (intros; congruence); try (destruct x; congruence); try lia.
    - intros _ P Hc. rewrite Hc in P. discriminate.
    - split; [exact Rr|]. eexists; eassumption.
    - destruct Rr. split; [lia|assumption]. }
  constructor; cbn [y_shared y_readers y_loaders y_collector].
  - lia.
  - rewrite E1. exact Ia.
  - rewrite E1. exact Ig.
  - destruct g; cbn in *; unfold good in *; rewrite ?E1, ?E2, ?E3; auto.
  - rewrite E1, E2. exact Ip.
  - intros j l Hl. eapply loader_frame; eauto.
  - rewrite E1. intros Hd. unfold good in *. rewrite E2, E3. auto.
  - intros F j z Hz. destruct (nth_set i j r' rs r Hr z Hz) as [[-> ->]|[_ Hj]]; [|eauto].
    destruct (playing r') eqn:P; [|reflexivity]. exfalso. apply (E5 (If F i r Hr) eq_refl). apply Ig. destruct g; cbn in *; congruence.
  - intros j z Hz. destruct (nth_set i j r' rs r Hr z Hz) as [[-> ->]|[_ Hj]]; eapply reader_frame; eauto.
Qed.
Lemma write_good pos n d : pos + n <= length file -> length d = length file -> firstn pos d = firstn pos file ->
  length (writeAt pos (firstn n (skipn pos file)) d) = length file /\ firstn (pos + n) (writeAt pos (firstn n (skipn pos file)) d) = firstn (pos + n) file.
Proof.
  intros L Ld F. unfold writeAt. assert (length (firstn n (skipn pos file)) = n) as Lc by (rewrite firstn_length, skipn_length; lia).
  assert (length (firstn pos d) = pos) as Lf by (rewrite firstn_length; lia).
  split; [rewrite !app_length, skipn_length, Lf, Lc; lia|]. rewrite app_assoc, firstn_app, app_length, Lf, Lc.
  rewrite firstn_all2 by (rewrite app_length; lia). replace (pos + n - (pos + n)) with 0 by lia. rewrite firstn_O, app_nil_r, F.
  clear. revert file. induction pos as [|p IH]; intros [|x l]; cbn [firstn skipn app Nat.add]; [now rewrite !firstn_nil|reflexivity|now rewrite firstn_nil|]. now rewrite IH.
Qed.
Lemma inv_loader s rs ls g i l s' l' : inv (System s rs ls g) -> nth_error ls i = Some l -> loaderStep file s l s' l' -> inv (System s' rs (setNth i l' ls) g).
Proof.
  intros I Hl H. pose proof I as [Ic Ia Ig Io Ip Il Id If Ir]. cbn [y_shared y_readers y_loaders y_collector] in *.
  pose proof (cnt_set active i l' ls l Hl) as Cs. pose proof (Il i l Hl) as Ll.
  assert (active l = true -> s_status s = Streaming) as St. { intros A. pose proof (cnt_pos active ls i l Hl A). destruct (s_status s); [lia|reflexivity|lia|lia]. }
  assert (active l = true -> forall j m, j <> i -> nth_error ls j = Some m -> active m = false) as Only.
  { intros A j m D Hm. destruct (active m) eqn:Am; [|reflexivity]. exfalso. apply D. assert (cnt active ls <= 1) as C1 by (destruct (s_status s); lia). exact (cnt_one active ls C1 j i m l Hm Hl Am A). }
  assert (forall s1, active l = true -> forall l1, loaderOk s1 l1 -> forall j m, nth_error (setNth i l1 ls) j = Some m -> loaderOk s1 m) as Lo.
  { intros s1 A l1 O j m Hm. destruct (nth_set i j l1 ls l Hl m Hm) as [[-> ->]|[D Hj]]; [exact O|]. specialize (Only A j m D Hj). destruct m; try discriminate; exact Logic.I. }
  assert (s_status s = Streaming -> collecting g = false) as NoG. { intros Hs. apply not_true_is_false. intros C. apply Ig in C. congruence. }
  assert (forall av c d f st st' l1, s = Shared st av c d f -> nth_error ls i = Some l -> loaderOk (Shared st' av c d f) l1 -> forall j m, nth_error (setNth i l1 ls) j = Some m -> loaderOk (Shared st' av c d f) m) as Lf.
  { intros av c d f st st' l1 -> Hi O j m Hm. destruct (nth_set i j l1 ls l Hi m Hm) as [[-> ->]|[_ Hj]]; [exact O|]. eapply loader_frame; [| |exact (Il j m Hj)]; reflexivity. }
  assert (forall av c d f st st', s = Shared st av c d f -> forall j r, nth_error rs j = Some r -> readerOk (Shared st' av c d f) r) as Rf.
  { intros av c d f st st' -> j r Hr. eapply reader_frame; [| |exact (Ir j r Hr)]; reflexivity. }
  destruct H; cbn [active b2n s_status s_avail s_count s_data] in *.
  - assert (cnt active (setNth i LStart ls) = cnt active ls) as Ca by lia. constructor; cbn [y_shared y_readers y_loaders y_collector]; [exact Ic|now rewrite Ca|exact Ig|exact Io|exact Ip| |exact Id|exact If|exact Ir].
    destruct s; eapply Lf; eauto; exact Logic.I.
  - assert (cnt active (setNth i LTry ls) = cnt active ls) as Ca by lia. constructor; cbn [y_shared y_readers y_loaders y_collector]; [exact Ic|now rewrite Ca|exact Ig|exact Io|exact Ip| |exact Id|exact If|exact Ir].
    destruct s; eapply Lf; eauto; exact Logic.I.
  - (* the exchange *)
    constructor; cbn [y_shared y_readers y_loaders y_collector s_status s_avail s_count s_data].
    + exact Ic.
    + lia.
    + split; [discriminate|]. intros C. apply Ig in C. discriminate.
    + destruct g; cbn in *; auto. destruct Io as [->|[-> ?]]; [now left|congruence].
    + discriminate.
    + eapply Lf; [reflexivity|exact Hl|]. exact (Ip eq_refl).
    + discriminate.
    + exact If.
    + eapply Rf. reflexivity.
  - assert (cnt active (setNth i LStart ls) = cnt active ls) as Ca by lia. constructor; cbn [y_shared y_readers y_loaders y_collector]; [exact Ic|now rewrite Ca|exact Ig|exact Io|exact Ip| |exact Id|exact If|exact Ir].
    destruct s; eapply Lf; eauto; exact Logic.I.
  - (* a new buffer *)
    specialize (St eq_refl). subst st. specialize (NoG eq_refl). cbn in Ll. subst av.
    constructor; cbn [y_shared y_readers y_loaders y_collector s_status s_avail s_count s_data].
    + exact Ic.
    + lia.
    + exact Ig.
    + destruct g; cbn in *; auto; discriminate.
    + auto.
    + apply Lo; [reflexivity|]. cbn. split; [reflexivity|]. eexists _, _. split; [reflexivity|]. rewrite repeat_length. auto with arith.
    + discriminate.
    + exact If.
    + intros j r Hr. specialize (Ir j r Hr). destruct r; cbn in *; try exact Logic.I; lia.
  - (* a chunk *)
    specialize (St eq_refl). subst st. specialize (NoG eq_refl). cbn in Ll. destruct Ll as [-> (g1 & d1 & D1 & L0 & N0 & F0)]. cbn in D1. injection D1 as <- <-.
    destruct (write_good pos n data ltac:(lia) L0 F0) as [W1 W2].
    constructor; cbn [y_shared y_readers y_loaders y_collector s_status s_avail s_count s_data].
    + exact Ic.
    + lia.
    + exact Ig.
    + destruct g; cbn in *; auto; discriminate.
    + discriminate.
    + apply Lo; [reflexivity|]. cbn. split; [reflexivity|]. eexists _, _. split; [reflexivity|]. split; [exact W1|]. split; [lia|exact W2].
    + discriminate.
    + exact If.
    + intros j r Hr. specialize (Ir j r Hr). destruct r as [| |x| |q|q w|]; cbn in *; try exact Logic.I; [exact Ir|..]; destruct Ir as [P (d & Hd)]; cbn in Hd; injection Hd as -> ->; (split; [exact P|]; eexists; reflexivity).
  - (* availableFrames *)
    specialize (St eq_refl). subst st. specialize (NoG eq_refl). cbn in Ll. destruct Ll as [-> G].
    constructor; cbn [y_shared y_readers y_loaders y_collector s_status s_avail s_count s_data].
    + exact Ic.
    + lia.
    + exact Ig.
    + destruct g; cbn in *; auto; discriminate.
    + discriminate.
    + apply Lo; [reflexivity|]. cbn. split; [reflexivity|exact G].
    + discriminate.
    + exact If.
    + intros j r Hr. specialize (Ir j r Hr). destruct r; cbn in *; try exact Logic.I; [lia|..]; (split; [lia|apply Ir]).
  - assert (cnt active (setNth i LEnd ls) = cnt active ls) as Ca by lia. constructor; cbn [y_shared y_readers y_loaders y_collector]; [exact Ic|now rewrite Ca|exact Ig|exact Io|exact Ip| |exact Id|exact If|exact Ir].
    apply Lo; [reflexivity|]. cbn in Ll |- *. destruct Ll as [Ea G]. now rewrite Ea.
  - (* done *)
    specialize (St eq_refl). subst st. specialize (NoG eq_refl). cbn in Ll.
    constructor; cbn [y_shared y_readers y_loaders y_collector s_status s_avail s_count s_data].
    + exact Ic.
    + lia.
    + split; [discriminate|]. intros C. congruence.
    + destruct g; cbn in *; auto; try discriminate. destruct Io as [->|[-> ?]]; [now left|]. right. split; [reflexivity|discriminate].
    + discriminate.
    + apply Lo; [reflexivity|]. exact Logic.I.
    + intros _. exact Ll.
    + exact If.
    + eapply Rf. reflexivity.
Qed.
Lemma inv_collector s rs ls g s' g' : inv (System s rs ls g) -> collectorStep s g s' g' -> inv (System s' rs ls g').
Proof.
  intros I H. pose proof I as [Ic Ia Ig Io Ip Il Id If Ir]. cbn [y_shared y_readers y_loaders y_collector] in *.
  assert (s_status s = Collecting -> forall j m, nth_error ls j = Some m -> active m = false) as NoL.
  { intros Hs. rewrite Hs in Ia. apply (cnt_zero active ls Ia). }
  assert (forall s1, s_status s = Collecting -> forall j m, nth_error ls j = Some m -> loaderOk s1 m) as Lo.
  { intros s1 Hs j m Hm. specialize (NoL Hs j m Hm). destruct m; try discriminate; exact Logic.I. }
  assert (forall s1, freeing g = true -> forall j r, nth_error rs j = Some r -> readerOk s1 r) as Ro.
  { intros s1 F j r Hr. specialize (If F j r Hr). destruct r; try discriminate; exact Logic.I. }
  assert (forall av c d f st st', s = Shared st av c d f -> forall j r, nth_error rs j = Some r -> readerOk (Shared st' av c d f) r) as Rf.
  { intros av c d f st st' -> j r Hr. eapply reader_frame; [| |exact (Ir j r Hr)]; reflexivity. }
  destruct H; cbn [collecting freeing s_status s_avail s_count s_data] in *;
    try (constructor; cbn [y_shared y_readers y_loaders y_collector collecting freeing collectorOk]; [exact Ic|exact Ia|exact Ig|exact Logic.I|exact Ip|exact Il|exact Id|discriminate|exact Ir]).
  - constructor; cbn [y_shared y_readers y_loaders y_collector collecting freeing collectorOk]; [exact Ic|exact Ia|exact Ig|now left|exact Ip|exact Il|exact Id|discriminate|exact Ir].
  - constructor; cbn [y_shared y_readers y_loaders y_collector collecting freeing collectorOk]; [exact Ic|exact Ia|exact Ig| |exact Ip|exact Il|exact Id|discriminate|exact Ir].
    right. split; [reflexivity|]. intros Hp. auto.
  - (* the exchange *)
    cbn in Io. destruct Io as [->|[-> C]]; [|congruence].
    constructor; cbn [y_shared y_readers y_loaders y_collector collecting freeing collectorOk s_status s_avail s_count s_data]; [exact Ic|exact Ia|tauto| |discriminate| |discriminate|discriminate|].
    + split; [reflexivity|]. exact (Id eq_refl).
    + intros j m Hm. eapply loader_frame; [| |exact (Il j m Hm)]; reflexivity.
    + eapply Rf. reflexivity.
  - (* unused *)
    destruct Io as [-> G]. constructor; cbn [y_shared y_readers y_loaders y_collector collecting freeing collectorOk]; [exact Ic|exact Ia|exact Ig|exact G|exact Ip|exact Il|exact Id| |exact Ir].
    intros _ j r Hr. rewrite Ic in H. pose proof (cnt_zero held rs H j r Hr) as Hh. destruct r; [reflexivity|discriminate..].
  - destruct Io as [-> G]. constructor; cbn [y_shared y_readers y_loaders y_collector collecting freeing collectorOk]; [exact Ic|exact Ia|exact Ig|now split|exact Ip|exact Il|exact Id|discriminate|exact Ir].
  - (* no frames *)
    pose proof (proj2 Ig eq_refl) as Hc. subst st.
    constructor; cbn [y_shared y_readers y_loaders y_collector collecting freeing collectorOk s_status s_avail s_count s_data]; [exact Ic|exact Ia|exact Ig|reflexivity|discriminate| |discriminate|exact If|now apply Ro].
    apply Lo. reflexivity.
  - (* moved *)
    pose proof (proj2 Ig eq_refl) as Hc. subst st. cbn in Io. subst av.
    constructor; cbn [y_shared y_readers y_loaders y_collector collecting freeing collectorOk s_status s_avail s_count s_data]; [exact Ic|exact Ia|exact Ig|reflexivity|discriminate| |discriminate|exact If|now apply Ro].
    apply Lo. reflexivity.
  - pose proof (proj2 Ig eq_refl) as Hc. subst st. cbn in Io. subst av.
    constructor; cbn [y_shared y_readers y_loaders y_collector collecting freeing collectorOk s_status s_avail s_count s_data]; [exact Ic|exact Ia|split; discriminate|exact Logic.I|reflexivity| |discriminate|discriminate|now apply Ro].
    apply Lo. reflexivity.
  - pose proof (proj2 Ig eq_refl) as Hc. subst st. cbn in Io. destruct Io as [-> G].
    constructor; cbn [y_shared y_readers y_loaders y_collector collecting freeing collectorOk s_status s_avail s_count s_data]; [exact Ic|exact Ia|split; discriminate|exact Logic.I|discriminate| |intros _; exact G|discriminate|eapply Rf; reflexivity].
    apply Lo. reflexivity.
Qed.
Lemma nth_repeat_eq {A} (x y : A) n i : nth_error (repeat x n) i = Some y -> y = x.
Proof. intros H. apply nth_error_In in H. now apply repeat_spec in H. Qed.
Lemma reachable_inv y : reachable file preloaded y -> inv y.
Proof.
  induction 1 as [n m|x y R IH St].
  - assert (forall k, cnt held (repeat RIdle k) = 0) as C1 by (induction k; [reflexivity|exact IHk]).
    assert (forall k, cnt active (repeat LStart k) = 0) as C2 by (induction k; [reflexivity|exact IHk]).
    constructor; cbn [initial y_shared y_readers y_loaders y_collector s_count s_status s_avail collecting freeing collectorOk];
      [symmetry; apply C1|apply C2|split; discriminate|exact Logic.I|reflexivity| |discriminate|discriminate|].
    + intros i l H. apply nth_repeat_eq in H. subst. exact Logic.I.
    + intros i r H. apply nth_repeat_eq in H. subst. exact Logic.I.
  - destruct St; [eapply inv_reader|eapply inv_loader|eapply inv_collector]; eauto.
Qed.

(** ** C25 *)
(** Under every schedule, when a voice has the span of [n] frames of the streamed data, the buffer the span points into
    is the one in place, and its first [n] frames are those of the file; a loading job writes only behind them. *)
Theorem C25_span_valid y i g n : reachable file preloaded y -> nth_error (y_readers y) i = Some (RSpan g n) ->
  (exists d, s_data (y_shared y) = Some (g, d) /\ n <= length d /\ firstn n d = firstn n file) /\
  (forall j pos, nth_error (y_loaders y) j = Some (LFill pos) -> n <= pos) /\
  (forall j, nth_error (y_loaders y) j <> Some LReset).
Proof.
  intros R Hr. apply reachable_inv in R. pose proof (i_readers _ R i _ Hr) as [P (d & D)]. pose proof (avail_good y R ltac:(lia)) as G.
  destruct (good_le _ _ n G ltac:(lia)) as (g' & d' & D' & L & N & F). assert (g' = g /\ d' = d) as [-> ->] by (split; congruence).
  split; [exists d; repeat split; [exact D|lia|exact F]|]. split.
  - intros j pos Hl. pose proof (i_loaders _ R j _ Hl) as [A _]. lia.
  - intros j Hl. pose proof (i_loaders _ R j _ Hl) as A. cbn in A. lia.
Qed.
(** A voice that found enough frames always finds the buffer, and a job that streams always has it. *)
Theorem C25_never_missing y : reachable file preloaded y ->
  (forall i, nth_error (y_readers y) i = Some RCompared -> s_data (y_shared y) <> None) /\
  (forall i pos, nth_error (y_loaders y) i = Some (LFill pos) -> s_data (y_shared y) <> None).
Proof.
  intros R. apply reachable_inv in R. split.
  - intros i Hr. pose proof (i_readers _ R i _ Hr) as P. cbn in P. destruct (avail_good y R P) as (g & d & D & _). congruence.
  - intros i pos Hl. destruct (i_loaders _ R i _ Hl) as [_ (g & d & D & _)]. congruence.
Qed.
(** The collector takes the data away only when no voice plays from it, and one job streams at a time. *)
Theorem C25_collected_unused y : reachable file preloaded y ->
  (y_collector y = GMove -> forall i g n, nth_error (y_readers y) i <> Some (RSpan g n)) /\
  cnt active (y_loaders y) <= 1.
Proof.
  intros R. apply reachable_inv in R. split.
  - intros Hg i g n Hr. pose proof (i_freeing _ R) as F. rewrite Hg in F. specialize (F eq_refl i _ Hr). discriminate.
  - rewrite (i_active _ R). destruct (s_status (y_shared y)); lia.
Qed.
(** The number of handles is the number of voices that have one. *)
Theorem C25_count y : reachable file preloaded y -> s_count (y_shared y) = cnt held (y_readers y).
Proof. intros R. apply (i_count _ (reachable_inv y R)). Qed.
End Safe.

(** ** A run *)
Section Example.
Definition sample : list Z := [10; 20; 30; 40; 50]%Z.
(** Two preloaded frames, two voices, two jobs: the first voice plays from streamed data while the collector, which saw no
    reader, has exchanged the status; it finds the reader on the second look. *)
Definition runEnd : system :=
  System (Shared Collecting 5 1 (Some (0, sample)) 1) [RSpan 0 5; RIdle] [LStart; LStart] (GRecheck Done).
Let reach := reachable sample 2.
Lemma rd s rs ls g i r s' r' : reach (System s rs ls g) -> nth_error rs i = Some r -> readerStep 2 s r s' r' -> reach (System s' (setNth i r' rs) ls g).
Proof. intros R N H. eapply Reach_step; [exact R|]. econstructor; eassumption. Qed.
Lemma ld s rs ls g i l s' l' : reach (System s rs ls g) -> nth_error ls i = Some l -> loaderStep sample s l s' l' -> reach (System s' rs (setNth i l' ls) g).
Proof. intros R N H. eapply Reach_step; [exact R|]. econstructor; eassumption. Qed.
Lemma gc s rs ls g s' g' : reach (System s rs ls g) -> collectorStep s g s' g' -> reach (System s' rs ls g').
Proof. intros R H. eapply Reach_step; [exact R|]. econstructor; eassumption. Qed.
Ltac fw H := cbn -[Nat.add] in H; try change (0 + 3) with 3 in H; try change (3 + 2) with 5 in H.
Example C25_ex : reachable sample 2 runEnd.
Proof.
  pose proof (Reach_initial sample 2 2 2) as H. unfold initial in H. cbn [repeat] in H.
  eapply (ld _ _ _ _ 0) in H; [|reflexivity|now eapply L_load]; fw H.
  eapply (ld _ _ _ _ 1) in H; [|reflexivity|now eapply L_load]; fw H.
  eapply (ld _ _ _ _ 0) in H; [|reflexivity|eapply L_exchange]; fw H.
  eapply (ld _ _ _ _ 1) in H; [|reflexivity|eapply L_failed; discriminate]; fw H.
  eapply (ld _ _ _ _ 0) in H; [|reflexivity|eapply L_reset]; fw H.
  eapply (ld _ _ _ _ 0) in H; [|reflexivity|eapply (L_write _ _ _ _ _ _ _ 0 3); cbn; lia]; fw H.
  eapply (ld _ _ _ _ 0) in H; [|reflexivity|eapply L_advance]; fw H.
  eapply (ld _ _ _ _ 0) in H; [|reflexivity|eapply (L_write _ _ _ _ _ _ _ 3 2); cbn; lia]; fw H.
  eapply (ld _ _ _ _ 0) in H; [|reflexivity|eapply L_advance]; fw H.
  eapply (ld _ _ _ _ 0) in H; [|reflexivity|eapply L_finish]; fw H.
  eapply (ld _ _ _ _ 0) in H; [|reflexivity|eapply L_done]; fw H.
  eapply gc in H; [|now eapply G_unused]; fw H.
  eapply gc in H; [|now eapply G_done]; fw H.
  eapply (rd _ _ _ _ 0) in H; [|reflexivity|eapply R_acquire]; fw H.
  eapply (rd _ _ _ _ 0) in H; [|reflexivity|eapply R_status]; fw H.
  eapply (rd _ _ _ _ 0) in H; [|reflexivity|eapply R_more; cbn; [discriminate|lia]]; fw H.
  eapply (rd _ _ _ _ 0) in H; [|reflexivity|eapply R_buffer; reflexivity]; fw H.
  eapply (rd _ _ _ _ 0) in H; [|reflexivity|eapply R_length]; fw H.
  eapply gc in H; [|eapply G_exchange]; fw H.
  exact H.
Qed.
End Example.

(** ** The preloaded part (C26) *)
Local Open Scope Z_scope.
(** The offsets asked for and the sizes set. *)
Definition offsetsOf (l : list request) : list Z := flat_map (fun r => match r with Preload o => [o] | _ => [] end) l.
Definition covered (frames : Z) (p : pool) (o : Z) : Prop := exists n off, p_file p = Some (n, off) /\ Z.min frames (o + p_size p) <= n.
(** Requests without change of the loading mode, with sums that fit in 32 bits. *)
Definition plainRequest (size : Z) (r : request) : Prop :=
  match r with Preload o => 0 <= o /\ o + size < 2 ^ 32 | Size n => 0 <= n | Ram _ => False end.
(** The sizes in force along a history. *)
Fixpoint fits (size : Z) (l : list request) : Prop :=
  match l with
  | [] => True
  | r :: l => plainRequest size r /\ fits (match r with Size n => n | _ => size end) l
  end.
Fixpoint growing (size : Z) (l : list request) : Prop :=
  match l with
  | [] => True
  | Size n :: l => size <= n /\ growing n l
  | _ :: l => growing size l
  end.
Section Covered.
Variable frames : Z.
Lemma preload_plain o p : p_ram p = false -> 0 <= o -> o + p_size p < 2 ^ 32 -> 0 <= p_size p -> preloadFile frames o p =
  match p_file p with
  | Some (n, off) => if n <? Z.min frames (o + p_size p) then Pool false (p_size p) (Some (Z.min frames (o + p_size p), o)) else p
  | None => Pool false (p_size p) (Some (Z.min frames (o + p_size p), o))
  end.
Proof. intros R O F Sz. unfold preloadFile, u32. rewrite R, Z.mod_small by lia. reflexivity. Qed.
(** C26: after a request, the offset asked for is covered. *)
Theorem C26_request o p : p_ram p = false -> 0 <= o -> o + p_size p < 2 ^ 32 -> 0 <= p_size p -> covered frames (preloadFile frames o p) o.
Proof.
  intros R O F Sz. rewrite preload_plain by assumption. unfold covered. destruct (p_file p) as [[n off]|] eqn:Ef.
  - destruct (Z.ltb_spec n (Z.min frames (o + p_size p))); cbn [p_file p_size]; [eexists _, _; split; [reflexivity|lia]|]. rewrite Ef. eexists _, _. split; [reflexivity|lia].
  - cbn [p_file p_size]. eexists _, _; split; [reflexivity|lia].
Qed.
(** C26: when the preload size does not shrink, every offset asked for stays covered. *)
Theorem C26_growing l size : 0 <= size -> fits size l -> growing size l ->
  forall o, In o (offsetsOf l) -> covered frames (history frames l (Pool false size None)) o.
Proof.
  intros Sz F G.
  assert (forall l p, p_ram p = false -> 0 <= p_size p -> fits (p_size p) l -> growing (p_size p) l -> forall seen,
    (forall o, In o seen -> covered frames p o) -> (forall n off, p_file p = Some (n, off) -> n = Z.min frames (off + p_size p)) ->
    (forall n off, p_file p = Some (n, off) -> forall o, In o seen -> o <= off \/ n = frames) ->
    forall o, In o (seen ++ offsetsOf l) -> covered frames (history frames l p) o) as H.
  { clear. induction l as [|r l IH]; intros p R Sz F G seen C I D o Ho; cbn [offsetsOf flat_map history fold_left] in *.
    - rewrite app_nil_r in Ho. auto.
    - destruct F as [Fr F]. destruct r as [x|n|b]; cbn [plainRequest] in Fr; [| |contradiction].
      + cbn [perform]. pose proof (C26_request x p R (proj1 Fr) (proj2 Fr) Sz) as Cx. rewrite preload_plain in Cx |- * by (assumption || apply Fr).
        assert (In o ((seen ++ [x]) ++ offsetsOf l)) as Ho' by (rewrite <- app_assoc; exact Ho). clear Ho. revert o Ho'.
        destruct (p_file p) as [[m off]|] eqn:Ef.
        * destruct (Z.ltb_spec m (Z.min frames (x + p_size p))) as [L|L].
          -- apply IH; cbn [p_ram p_size p_file]; auto.
             ++ intros o Ho'. apply in_app_or in Ho'. destruct Ho' as [Ho'|[<-|[]]]; [|exact Cx]. destruct (C o Ho') as (k & ko & Ek & Lk). rewrite Ef in Ek. injection Ek as <- <-.
                eexists _, _. split; [reflexivity|]. cbn [p_size]. lia.
             ++ intros k off' Ek. injection Ek as <- <-. lia.
             ++ intros k off' Ek o Ho'. injection Ek as <- <-. apply in_app_or in Ho'. destruct Ho' as [Ho'|[<-|[]]]; [|left; lia].
                destruct (D m off eq_refl o Ho') as [Dl|Dl]; [|lia]. pose proof (I m off eq_refl). left. lia.
          -- apply IH; auto.
             ++ intros o Ho'. apply in_app_or in Ho'. destruct Ho' as [Ho'|[<-|[]]]; auto.
             ++ rewrite Ef. auto.
             ++ rewrite Ef. intros k off' Ek o Ho'. injection Ek as <- <-. apply in_app_or in Ho'. destruct Ho' as [Ho'|[<-|[]]]; [eauto|].
                pose proof (I m off eq_refl). destruct (Z.le_gt_cases x off); [now left|]. right. lia.
        * apply IH; cbn [p_ram p_size p_file]; auto.
          -- intros o Ho'. apply in_app_or in Ho'. destruct Ho' as [Ho'|[<-|[]]]; [|exact Cx]. destruct (C o Ho') as (k & ko & Ek & _). congruence.
          -- intros k off' Ek. injection Ek as <- <-. lia.
          -- intros k off' Ek o Ho'. injection Ek as <- <-. apply in_app_or in Ho'. destruct Ho' as [Ho'|[<-|[]]]; [|left; lia]. destruct (C o Ho') as (k & ko & Ek & _). congruence.
      + destruct G as [Gn G]. cbn [perform app] in *. unfold setPreloadSize. rewrite R. revert o Ho. apply IH; cbn [p_ram p_size p_file]; auto.
        * intros o Ho. destruct (C o Ho) as (k & ko & Ek & Lk). rewrite Ek. eexists _, _. split; [reflexivity|]. cbn [p_size].
          destruct (D k ko Ek o Ho) as [Dl|Dl]; [lia|]. pose proof (I k ko Ek). lia.
        * intros k off Ek. destruct (p_file p) as [[m mo]|]; [|discriminate]. injection Ek as <- <-. lia.
        * intros k off Ek o Ho. destruct (p_file p) as [[m mo]|] eqn:Ef; [|discriminate]. injection Ek as <- <-. destruct (D m mo eq_refl o Ho) as [Dl|Dl]; [now left|].
          pose proof (I m mo eq_refl). right. lia. }
  intros o Ho. apply (H l (Pool false size None) eq_refl Sz F G []); cbn; try contradiction; try discriminate. exact Ho.
Qed.
End Covered.
(** C26: when the first request for the file has the largest offset (the synth makes one request per file and load, with
    the largest offset of its regions), it and the others stay covered whatever sizes are set. *)
Theorem C26_largest_first frames l size first : 0 <= size -> fits size (Preload first :: l) ->
  (forall o, In o (offsetsOf l) -> o <= first) ->
  forall o, In o (first :: offsetsOf l) -> covered frames (history frames (Preload first :: l) (Pool false size None)) o.
Proof.
  intros Sz [F1 F] Le. cbn [history fold_left perform]. cbn in F1. rewrite preload_plain by (try reflexivity; cbn; lia). cbn [p_file p_size].
  assert (forall l p, p_ram p = false -> 0 <= p_size p -> fits (p_size p) l -> p_file p = Some (Z.min frames (first + p_size p), first) -> (forall o, In o (offsetsOf l) -> o <= first) ->
    forall o, o <= first -> covered frames (history frames l p) o) as H.
  { clear. induction l as [|r l IH]; intros p R Sz F Ef Le o Ho; cbn [history fold_left] in *.
    - exists (Z.min frames (first + p_size p)), first. split; [exact Ef|lia].
    - destruct F as [Fr F]. assert (forall o, In o (offsetsOf l) -> o <= first) as Le'. { intros y Hy. apply Le. cbn. apply in_or_app. now right. }
      destruct r as [x|n|b]; cbn [plainRequest] in Fr; [| |contradiction].
      + cbn [perform]. rewrite preload_plain by (assumption || apply Fr). rewrite Ef. pose proof (Le x (or_introl eq_refl)).
        destruct (Z.ltb_spec (Z.min frames (first + p_size p)) (Z.min frames (x + p_size p))); [lia|]. apply IH; auto.
      + cbn [perform]. unfold setPreloadSize. rewrite R, Ef. apply IH; cbn [p_ram p_size p_file]; auto. }
  intros o [<-|Ho]; apply H; cbn [p_ram p_size p_file]; auto; lia.
Qed.
(** C26 does not hold in general: a request that needs no more frames than there are does not record its offset, so a
    smaller size leaves it uncovered; ... *)
Theorem C26_shrink_refuted :
  let l := [Preload 0; Preload 40000; Size 1000] in
  fits 65536 l /\ p_file (history 50000 l (Pool false 65536 None)) = Some (1000, 0) /\
  ~ covered 50000 (history 50000 l (Pool false 65536 None)) 40000.
Proof. cbn [fits plainRequest]. split; [lia|]. split; [reflexivity|]. intros (n & off & Ef & L). vm_compute in Ef, L. injection Ef as <- <-. now apply L. Qed.
(** ... the sum of the offset and the size wraps at 2^32; ... *)
Theorem C26_wrap_refuted : let p := history 50000 [Preload 4294967295] (Pool false 8192 None) in
  p_file p = Some (8191, 4294967295) /\ ~ covered 50000 p 4294967295.
Proof. cbv zeta. split; [reflexivity|]. intros (n & off & Ef & L). vm_compute in Ef, L. injection Ef as <- <-. now apply L. Qed.
(** ... loading in memory leaves out the last frame; ... *)
Theorem C26_ram_refuted : let p := history 50000 [Preload 0; Ram true] (Pool false 65536 None) in
  p_file p = Some (49999, 0) /\ ~ covered 50000 p 0.
Proof. cbv zeta. split; [reflexivity|]. intros (n & off & Ef & L). vm_compute in Ef, L. injection Ef as <- <-. now apply L. Qed.
(** ... and a request made while in memory can make the pool forget a larger offset asked for before. *)
Theorem C26_ram_forgets_refuted : let p := history 50000 [Preload 40000; Ram true; Preload 0; Ram false] (Pool false 8192 None) in
  p_file p = Some (8192, 0) /\ ~ covered 50000 p 40000.
Proof. cbv zeta. split; [reflexivity|]. intros (n & off & Ef & L). vm_compute in Ef, L. injection Ef as <- <-. now apply L. Qed.
Example C26_ex :
  let l := [Preload 100; Size 2000; Preload 4000; Size 3000] in
  fits 1000 l /\ growing 1000 l /\ p_file (history 50000 l (Pool false 1000 None)) = Some (7000, 4000) /\
  p_file (history 50000 [Preload 4000; Size 500; Preload 100] (Pool false 1000 None)) = Some (4500, 4000).
Proof. cbn [fits plainRequest growing]. split; [lia|]. split; [lia|]. split; reflexivity. Qed.

(** While the files are held in memory, no size takes frames from them. *)
Theorem C26_ram_sizes frames p l : p_ram p = true ->
  p_file (history frames (map Size l) p) = p_file p /\ p_ram (history frames (map Size l) p) = true /\
  p_size (history frames (map Size l) p) = last l (p_size p).
Proof.
  revert p. induction l as [|n l IH]; intros p R; [repeat split; exact R|].
  cbn [map history fold_left perform]. unfold setPreloadSize. rewrite R.
  destruct (IH (Pool true n (p_file p)) eq_refl) as (A & B & C). unfold history in *.
  rewrite A, B, C. cbn [p_file p_size]. repeat split. destruct l as [|m l]; [reflexivity|]. clear.
  cbn [last]. revert m. induction l as [|k l IH]; intros m; [reflexivity|]. cbn [last] in *. apply IH.
Qed.
Example C26_ram_sizes_ex : p_file (history 50000 [Preload 0; Ram true; Size 16; Size 8192] (Pool false 65536 None)) = Some (49999, 0).
Proof. vm_compute. reflexivity. Qed.
