(** The pool never leases a buffer twice (C24). *)
From Coq Require Import ZArith List Lia Bool.
Import ListNotations.
From Verif Require Import PoolModel.

(** Number of handles that hold slot [i]. *)
Definition held (i : nat) (h : holder) : bool := match slot h with Some j => i =? j | None => false end.
Definition holds (i : nat) (l : list holder) : nat := length (filter (held i) l).
Definition h1 (i : nat) (h : holder) : nat := if held i h then 1 else 0.

Lemma holds_app i a b : holds i (a ++ b) = holds i a + holds i b.
Proof. unfold holds. now rewrite filter_app, app_length. Qed.
Lemma holds_one i h : holds i [h] = h1 i h.
Proof. unfold holds, h1. cbn. now destruct (held i h). Qed.
Lemma holds_upd i k h l : k < length l -> holds i (upd k h l) + h1 i (nth k l empty_holder) = holds i l + h1 i h.
Proof.
  revert k. induction l as [|a l IH]; intros k L; [cbn in L; lia|]. destruct k as [|k]; cbn [upd nth].
  - unfold holds, h1. cbn. destruct (held i h), (held i a); cbn; lia.
  - cbn in L. specialize (IH k ltac:(lia)). unfold holds in *. cbn. destruct (held i a); cbn; lia.
Qed.
Lemma upd_out k h l : length l <= k -> upd k h l = l.
Proof. revert k. induction l as [|a l IH]; intros k L; [now destruct k|]. destruct k; cbn [upd]; cbn in L; [lia|]. f_equal. apply IH. lia. Qed.
Lemma upd_length k h l : length (upd k h l) = length l.
Proof. revert k. induction l as [|a l IH]; intros k; destruct k; cbn; auto. Qed.
Lemma upd_nth k h l j : nth j (upd k h l) empty_holder = if (j =? k) && (k <? length l) then h else nth j l empty_holder.
Proof.
  revert k j. induction l as [|a l IH]; intros k j; [destruct k; cbn; now rewrite andb_false_r|]. cbn [upd].
  destruct k, j; cbn [upd nth]; try reflexivity. rewrite IH. reflexivity.
Qed.
Lemma add_at_nth i d l j : nth j (add_at i d l) 0%Z = if (j =? i) && (i <? length l) then (nth j l 0 + d)%Z else nth j l 0%Z.
Proof.
  revert i j. induction l as [|a l IH]; intros i j; [destruct i; cbn; now rewrite andb_false_r|]. cbn [add_at].
  destruct i, j; cbn [add_at nth]; try reflexivity. rewrite IH. reflexivity.
Qed.
Lemma add_at_length i d l : length (add_at i d l) = length l.
Proof. revert i. induction l as [|a l IH]; intros [|i]; cbn; auto. Qed.
Lemma find_one_some l i : find_one l = Some i -> i < length l /\ nth i l 0%Z = 1%Z /\ forall j, j < i -> nth j l 0%Z <> 1%Z.
Proof.
  revert i. induction l as [|a l IH]; intros i; cbn [find_one]; [discriminate|].
  destruct (Z.eqb_spec a 1).
  - intros [= <-]. cbn. repeat split; [lia|assumption|lia].
  - destruct (find_one l) as [j|]; [|discriminate]. intros [= <-]. destruct (IH j eq_refl) as (A & B & C).
    cbn. split; [lia|]. split; [assumption|]. intros [|k] K; [assumption|]. apply C. lia.
Qed.
Lemma find_one_none l : find_one l = None -> forall j, nth j l 0%Z <> 1%Z.
Proof.
  induction l as [|a l IH]; cbn [find_one]; intros F j; [destruct j; discriminate|].
  destruct (Z.eqb_spec a 1); [discriminate|]. destruct (find_one l); [discriminate|].
  destruct j; cbn; [assumption|now apply IH].
Qed.
Lemma nth_ones {A} (l : list A) j : nth j (map (fun _ => 1%Z) l) 0%Z = if j <? length l then 1%Z else 0%Z.
Proof. revert j. induction l as [|a l IH]; intros [|j]; cbn [map nth length]; try reflexivity. rewrite IH. reflexivity. Qed.

(** A handle never holds a slot that does not exist; slots are leased at most once; a slot that is
    not leased is available, unless leases may get lost ([strict = false]). *)
Record inv (strict : bool) (s : state) : Prop := Inv {
  i_len : length (sizes (pl s)) = length (avail (pl s));
  i_ran : forall h i, In h (hs s) -> slot h = Some i -> i < length (avail (pl s)) /\ span h <= nth i (sizes (pl s)) 0;
  i_sum : forall i, i < length (avail (pl s)) ->
    (0 <= nth i (avail (pl s)) 0 /\ nth i (avail (pl s)) 0 + Z.of_nat (holds i (hs s)) <= 1)%Z /\
    (strict = true -> nth i (avail (pl s)) 0 + Z.of_nat (holds i (hs s)) = 1)%Z }.

Lemma in_upd k h l x : In x (upd k h l) -> x = h \/ In x l.
Proof.
  revert k. induction l as [|a l IH]; intros k; [destruct k; auto|]. destruct k; cbn; [intuition|].
  intros [->|H]; [auto|]. destruct (IH _ H); auto.
Qed.
Lemma hget_in k s : k < length (hs s) -> In (hget k s) (hs s).
Proof. intros L. unfold hget. now apply nth_In. Qed.
Lemma hget_out k s : length (hs s) <= k -> hget k s = empty_holder.
Proof. intros L. unfold hget. now apply nth_overflow. Qed.
Lemma h1_none i n : h1 i (Holder None n) = 0.
Proof. reflexivity. Qed.

Ltac fin Su := let S1 := fresh "Su" in destruct Su as [S1 Su]; split; [lia|intros ->; specialize (Su eq_refl); lia].
Lemma step_inv strict o s : inv strict s -> legal strict [o] s -> inv strict (step o s).
Proof.
  intros [Le Ra Su] [G _]. destruct o as [n|src|dst src|h|n]; cbn [step].
  - unfold getBuffer. destruct (find_one (avail (pl s))) as [i|] eqn:F.
    + apply find_one_some in F as (I1 & I2 & _). destruct (Nat.ltb_spec (nth i (sizes (pl s)) 0) n) as [L|L].
      * split; cbn [pl hs]; [assumption| |].
        { intros x j X. apply in_app_or in X as [X|[<-|[]]]; [eauto|discriminate]. }
        { intros j J. rewrite holds_app, holds_one. cbn. rewrite Nat.add_0_r. now apply Su. }
      * split; cbn [pl hs avail sizes]; [now rewrite add_at_length| |].
        { intros x j X. rewrite add_at_length. apply in_app_or in X as [X|[<-|[]]]; [eauto|]. cbn. intros [= <-]. split; [assumption|lia]. }
        { intros j. rewrite add_at_length, add_at_nth, holds_app, holds_one. intros J. specialize (Su j J).
          unfold h1, held. cbn [slot]. destruct (Nat.eqb_spec j i) as [->|N]; cbn [andb].
          - destruct (Nat.ltb_spec i (length (avail (pl s)))); [|lia]. rewrite I2 in *. fin Su.
          - rewrite Nat.add_0_r. assumption. }
    + split; cbn [pl hs]; [assumption| |].
      { intros x j X. apply in_app_or in X as [X|[<-|[]]]; [eauto|discriminate]. }
      { intros j J. rewrite holds_app, holds_one. cbn. rewrite Nat.add_0_r. now apply Su. }
  - destruct (Nat.ltb_spec src (length (hs s))) as [L|L].
    + split; cbn [pl hs]; [assumption| |].
      { intros x j X. apply in_app_or in X as [X|[<-|[]]]; [|apply Ra; now apply hget_in].
        apply in_upd in X as [->|X]; [discriminate|eauto]. }
      { intros j J. specialize (Su j J). pose proof (holds_upd j src (Holder None (span (hget src s))) (hs s) L) as E.
        rewrite h1_none in E. fold (hget src s) in E. rewrite holds_app, holds_one. fin Su. }
    + rewrite upd_out, hget_out by assumption. split; cbn [pl hs]; [assumption| |].
      { intros x j X. apply in_app_or in X as [X|[<-|[]]]; [eauto|discriminate]. }
      { intros j J. rewrite holds_app, holds_one. cbn. rewrite Nat.add_0_r. now apply Su. }
  - cbn [legal] in G. destruct (Nat.ltb_spec dst (length (hs s))) as [L1|L1]; [|now split].
    destruct (Nat.ltb_spec src (length (hs s))) as [L2|L2]; [|now split]. cbn [andb].
    split; cbn [pl hs]; [assumption| |].
    { intros x j X. apply in_upd in X as [->|X]; [discriminate|]. apply in_upd in X as [->|X]; [|eauto].
      apply Ra. now apply hget_in. }
    { intros j J. specialize (Su j J).
      pose proof (holds_upd j dst (hget src s) (hs s) L1) as E1. fold (hget dst s) in E1.
      pose proof (holds_upd j src (Holder None (span (hget src s))) (upd dst (hget src s) (hs s)) ltac:(now rewrite upd_length)) as E2.
      rewrite h1_none, upd_nth in E2.
      assert ((if (src =? dst) && (dst <? length (hs s)) then hget src s else nth src (hs s) empty_holder) = hget src s) as E3
        by (destruct (_ && _); reflexivity).
      rewrite E3 in E2. split; [lia|]. intros ->. 
      assert (h1 j (hget dst s) = 0) as E4 by (unfold h1, held; now rewrite G).
      destruct Su as [_ Su]. specialize (Su eq_refl). lia. }
  - unfold release. destruct (Nat.ltb_spec h (length (hs s))) as [L|L].
    + pose proof (hget_in h s L) as Hi. destruct (slot (hget h s)) as [i|] eqn:Sl.
      * destruct (Ra _ _ Hi Sl) as [R1 R2]. split; cbn [pl hs avail sizes]; [now rewrite add_at_length| |].
        { intros x j X. rewrite add_at_length. apply in_upd in X as [->|X]; [discriminate|eauto]. }
        { intros j. rewrite add_at_length, add_at_nth. intros J. specialize (Su j J).
          pose proof (holds_upd j h empty_holder (hs s) L) as E. fold (hget h s) in E.
          change (h1 j empty_holder) with 0 in E. unfold h1, held in E. rewrite Sl in E.
          destruct (Nat.eqb_spec j i) as [->|N]; cbn [andb].
          - destruct (Nat.ltb_spec i (length (avail (pl s)))); [|lia]. fin Su.
          - fin Su. }
      * split; cbn [pl hs]; [assumption| |].
        { intros x j X. apply in_upd in X as [->|X]; [discriminate|eauto]. }
        { intros j J. specialize (Su j J). pose proof (holds_upd j h empty_holder (hs s) L) as E. fold (hget h s) in E.
          change (h1 j empty_holder) with 0 in E. unfold h1, held in E. rewrite Sl in E. fin Su. }
    + rewrite hget_out, upd_out by assumption. cbn. now split.
  - cbn in G. split; cbn [pl hs setBufferSize avail sizes]; [now rewrite !map_length| |].
    + intros x j X Sl. rewrite (G x X) in Sl. discriminate.
    + intros j. rewrite map_length. intros J. rewrite nth_ones.
      assert (holds j (hs s) = 0) as ->.
      { unfold holds. unfold idle in G. clear -G. revert G. induction (hs s) as [|a l IH]; [reflexivity|]. intros G. cbn. unfold held at 1.
        rewrite (G a (or_introl eq_refl)). apply IH. intros x X. apply G. now right. }
      destruct (Nat.ltb_spec j (length (avail (pl s)))); lia.
Qed.
Lemma exec_inv strict ops : forall s, inv strict s -> legal strict ops s -> inv strict (exec ops s).
Proof.
  induction ops as [|o ops IH]; intros s I L; cbn [exec fold_left]; [assumption|].
  cbn [legal] in L. destruct L as [L1 L2]. apply IH; [|assumption]. apply step_inv; [assumption|]. now split.
Qed.
Lemma new_inv strict c n : inv strict (State (newPool c n) []).
Proof.
  split; cbn; [now rewrite !map_length, !repeat_length|intros ? ? []|].
  intros i. rewrite map_length, repeat_length, nth_ones, repeat_length. intros L.
  destruct (Nat.ltb_spec i c); lia.
Qed.

Lemma holds_two l i j k : i < j -> j < length l -> held k (nth i l empty_holder) = true -> held k (nth j l empty_holder) = true -> 2 <= holds k l.
Proof.
  revert i j. induction l as [|a l IH]; intros i j L Lj; [cbn in Lj; lia|].
  destruct j as [|j]; [lia|]. cbn in Lj. destruct i as [|i]; cbn [nth]; intros A B; unfold holds in *; cbn.
  - rewrite A. cbn. assert (In (nth j l empty_holder) (filter (held k) l)) as Hi.
    { apply filter_In. split; [apply nth_In; lia|assumption]. }
    destruct (filter (held k) l); [destruct Hi|cbn; lia].
  - specialize (IH i j ltac:(lia) ltac:(lia) A B). destruct (held k a); cbn; lia.
Qed.

(** C24: two live handles refer to different buffers, and each to one that exists and is large enough. *)
Theorem C24_leased_once count n ops :
  let s := exec ops (State (newPool count n) []) in
  legal false ops (State (newPool count n) []) ->
  (forall a b i j, a <> b -> slot (hget a s) = Some i -> slot (hget b s) = Some j -> i <> j) /\
  (forall a i, slot (hget a s) = Some i -> i < count /\ span (hget a s) <= nth i (sizes (pl s)) 0).
Proof.
  intros s L. pose proof (exec_inv false ops _ (new_inv false count n) L) as [Le Ra Su]. fold s in Le, Ra, Su.
  assert (length (avail (pl s)) = count) as Lc.
  { unfold s. clear. set (s0 := State _ _).
    assert (length (avail (pl s0)) = count) as L by (cbn; now rewrite map_length, repeat_length).
    clearbody s0. revert s0 L. induction ops as [|o ops IH]; intros s0 L; cbn [exec fold_left]; [assumption|]. apply IH.
    destruct o; cbn [step].
    - unfold getBuffer. destruct (find_one _); [destruct (_ <? _)|]; cbn; rewrite ?add_at_length; assumption.
    - assumption.
    - destruct (_ && _); assumption.
    - unfold release. destruct (slot _); cbn; rewrite ?add_at_length; assumption.
    - cbn. now rewrite map_length. }
  assert (forall a i, slot (hget a s) = Some i -> a < length (hs s)) as Ok.
  { intros a i H. destruct (Nat.ltb_spec a (length (hs s))); [assumption|]. rewrite hget_out in H by assumption. discriminate. }
  split.
  - intros a b i j N A B ->. pose proof (Ok _ _ A). pose proof (Ok _ _ B).
    destruct (Ra _ _ (hget_in a s H) A) as [R _]. destruct (Su j R) as [[S0 S1] _].
    assert (held j (hget a s) = true) as Ha by (unfold held; rewrite A; apply Nat.eqb_refl).
    assert (held j (hget b s) = true) as Hb by (unfold held; rewrite B; apply Nat.eqb_refl).
    assert (2 <= holds j (hs s)).
    { destruct (Nat.lt_gt_cases a b) as [X _]. destruct (X N); [apply (holds_two _ a b)|apply (holds_two _ b a)]; assumption. }
    lia.
  - intros a i A. rewrite <- Lc. apply (Ra _ _ (hget_in a s (Ok _ _ A)) A).
Qed.

(** C24: when handles are only moved into empty ones, a buffer is available exactly when no live handle
    has it; when all handles are dead everything is available again. *)
Theorem C24_available_exactly count n ops i :
  let s := exec ops (State (newPool count n) []) in
  legal true ops (State (newPool count n) []) -> i < length (avail (pl s)) ->
  (nth i (avail (pl s)) 0%Z = 1%Z <-> forall a, slot (hget a s) <> Some i).
Proof.
  intros s L Li. pose proof (exec_inv true ops _ (new_inv true count n) L) as [Le Ra Su]. fold s in Le, Ra, Su.
  destruct (Su i Li) as [_ E]. specialize (E eq_refl). split.
  - intros A a Sl. assert (holds i (hs s) = 0) as Z by lia. unfold holds in Z. apply length_zero_iff_nil in Z.
    assert (In (hget a s) (filter (held i) (hs s))) as X.
    { apply filter_In. split; [|unfold held; rewrite Sl; apply Nat.eqb_refl].
      apply hget_in. destruct (Nat.ltb_spec a (length (hs s))); [assumption|]. rewrite hget_out in Sl by assumption. discriminate. }
    rewrite Z in X. destruct X.
  - intros N. assert (holds i (hs s) = 0) as Z; [|lia].
    unfold holds. destruct (filter (held i) (hs s)) as [|h l] eqn:F; [reflexivity|]. exfalso.
    assert (In h (filter (held i) (hs s))) as X by (rewrite F; now left). apply filter_In in X as [X H].
    destruct (In_nth _ _ empty_holder X) as (a & _ & Ea). apply (N a). unfold hget. rewrite Ea.
    unfold held in H. destruct (slot h) as [j|]; [|discriminate]. apply Nat.eqb_eq in H. now subst.
Qed.
(** C24: a request is served exactly when the first available buffer is large enough; it gets the frames
    it asked for. *)
Theorem C24_request n p h p' : getBuffer n p = (h, p') ->
  match slot h with
  | Some i => nth i (avail p) 0%Z = 1%Z /\ n <= nth i (sizes p) 0 /\ span h = n /\
              (forall j, nth j (avail p') 0%Z = if j =? i then 0%Z else nth j (avail p) 0%Z)
  | None => p' = p /\ ((forall j, nth j (avail p) 0%Z <> 1%Z) \/ exists i, nth i (avail p) 0%Z = 1%Z /\ nth i (sizes p) 0 < n)
  end.
Proof.
  unfold getBuffer. destruct (find_one (avail p)) as [i|] eqn:F.
  - apply find_one_some in F as (A & B & C). destruct (Nat.ltb_spec (nth i (sizes p) 0) n).
    + intros [= <- <-]. cbn. split; [reflexivity|]. right. exists i. now split.
    + intros [= <- <-]. cbn [slot span avail]. repeat split; try assumption.
      intros j. rewrite add_at_nth. destruct (Nat.eqb_spec j i) as [->|]; cbn [andb]; [|reflexivity].
      destruct (Nat.ltb_spec i (length (avail p))); [|lia]. rewrite B. reflexivity.
  - intros [= <- <-]. cbn. split; [reflexivity|]. left. now apply find_one_none.
Qed.
(** The index pool: config::indexBufferPoolSize flags for config::bufferPoolSize buffers (Config.h 26-28,
    BufferPool.h 70, 176): a slot with a flag has a buffer. *)
Example C24_ex :
  let ops := [Acquire 64; Acquire 128; MoveNew 0; Acquire 32; Destroy 2; Acquire 100; Acquire 2000; Destroy 1] in
  let s := exec ops (State (newPool 4 1024) []) in
  legal true ops (State (newPool 4 1024) []) /\ avail (pl s) = [0; 1; 0; 1]%Z /\
  slot (hget 3 s) = Some 2 /\ slot (hget 4 s) = Some 0 /\ slot (hget 5 s) = None.
Proof. vm_compute. repeat split; intros; congruence. Qed.
(** C24: a handle that is assigned over loses its buffer; after four of these there is none left. *)
Theorem C24_assign_leaks_refuted :
  let ops := [Acquire 8; Acquire 8; MoveAssign 0 1; Destroy 0; Destroy 1] in
  let s := exec ops (State (newPool 4 1024) []) in
  legal false ops (State (newPool 4 1024) []) /\ avail (pl s) = [0; 1; 1; 1]%Z /\ idle s.
Proof. vm_compute. repeat split. intros h [<-|[<-|[]]]; reflexivity. Qed.
(** C24: with a live handle a change of the size leases the buffer again, and loses it afterwards. *)
Theorem C24_resize_refuted :
  let ops := [Acquire 8; Resize 512; Acquire 8] in
  let s := exec ops (State (newPool 4 1024) []) in
  slot (hget 0 s) = Some 0 /\ slot (hget 1 s) = Some 0 /\
  avail (pl (exec [Resize 512; Destroy 0] (exec [Acquire 8] (State (newPool 4 1024) [])))) = [2; 1; 1; 1]%Z /\
  find_one [2; 1; 1; 1]%Z = Some 1.
Proof. vm_compute. repeat split. Qed.
