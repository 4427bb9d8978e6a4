(** Proofs about the container utilities. *)
From Coq Require Import ZArith NArith Nnat List Bool Lia Permutation Sorted.
From Verif Require Import ContainersModel.
Import ListNotations.

(** * Generic list facts *)

Lemma vset_length {A} (v : list A) i x : length (vset v i x) = length v.
Proof. revert i; induction v; destruct i; simpl; auto. Qed.

Lemma nth_error_vset_eq {A} (v : list A) i x :
  i < length v -> nth_error (vset v i x) i = Some x.
Proof. revert i; induction v; destruct i; simpl; intros; try lia; auto. apply IHv; lia. Qed.

Lemma nth_error_vset_ne {A} (v : list A) i j x :
  i <> j -> nth_error (vset v i x) j = nth_error v j.
Proof.
  revert i j; induction v; destruct i, j; simpl; intros; auto; try congruence.
Qed.

Lemma vset_app_r {A} (a b : list A) i x : vset (a ++ b) (length a + i) x = a ++ vset b i x.
Proof. induction a; simpl; congruence. Qed.

Lemma vset_mid {A} (a b : list A) (y x : A) : vset (a ++ y :: b) (length a) x = a ++ x :: b.
Proof. replace (length a) with (length a + 0) by lia. rewrite vset_app_r. reflexivity. Qed.

Lemma nth_error_mid {A} (a b : list A) (y : A) : nth_error (a ++ y :: b) (length a) = Some y.
Proof. rewrite nth_error_app2 by lia. rewrite Nat.sub_diag. reflexivity. Qed.

(** Swapping the two ends of the middle segment. *)
Lemma vswap_zip {A} (a m b : list A) (x y : A) :
  vswap (a ++ x :: m ++ y :: b) (length a) (length a + S (length m))
  = Some (a ++ y :: m ++ x :: b).
Proof.
  unfold vswap. rewrite nth_error_mid.
  assert (E : nth_error (a ++ x :: m ++ y :: b) (length a + S (length m)) = Some y).
  { rewrite nth_error_app2 by lia.
    replace (length a + S (length m) - length a) with (S (length m)) by lia. simpl.
    apply nth_error_mid. }
  rewrite E. f_equal. rewrite vset_mid, vset_app_r. simpl. now rewrite vset_mid.
Qed.

Lemma vswap_self {A} (a b : list A) (x : A) :
  vswap (a ++ x :: b) (length a) (length a) = Some (a ++ x :: b).
Proof. unfold vswap. rewrite nth_error_mid. f_equal. now rewrite !vset_mid. Qed.

(** * swapAndPopAll *)

Lemma swapAndPopAll_loop_spec {A} (cond : A -> bool) :
  forall n (m a b : list A) log fuel,
    length m = n -> n < fuel ->
    forallb (fun x => negb (cond x)) a = true ->
    exists k r lg,
      swapAndPopAll_loop fuel cond (a ++ m ++ b) (length a) (length a + length m) log
      = Some (a ++ k ++ r ++ b, length (a ++ k), log ++ lg)
      /\ Permutation m (k ++ r) /\ Permutation lg r
      /\ forallb (fun x => negb (cond x)) k = true /\ forallb cond r = true.
Proof.
  induction n as [|n IH]; intros m a b log fuel Hm Hf Ha.
  - destruct m; [|discriminate]. destruct fuel; [lia|].
    exists [], [], []. simpl. replace (length a + 0) with (length a) by lia.
    rewrite Nat.ltb_irrefl. rewrite !app_nil_r. repeat split; auto.
  - destruct fuel as [|fuel]; [lia|]. destruct m as [|x m]; [discriminate|].
    simpl in Hm. injection Hm as Hm. cbn [swapAndPopAll_loop].
    assert (Hlt : (length a <? length a + length (x :: m)) = true)
      by (apply Nat.ltb_lt; simpl; lia).
    rewrite Hlt. cbn [app]. rewrite nth_error_mid.
    destruct (cond x) eqn:Hc.
    + destruct (exists_last (l := x :: m)) as [m1 [y Hy]]; [discriminate|].
      destruct m1 as [|x' m1].
      * (* the segment is [x] *)
        simpl in Hy. injection Hy as <- ->. cbn [length app] in *.
        replace (length a + 1 - 1) with (length a) by lia.
        rewrite vswap_self.
        destruct fuel as [|fuel]; [lia|]. cbn [swapAndPopAll_loop].
        rewrite Nat.ltb_irrefl. exists [], [x], [x]. cbn.
        rewrite Hc, app_nil_r. repeat split; auto.
      * simpl in Hy. injection Hy as <- Hm1. subst m.
        assert (Hlen : length a + length (x :: m1 ++ [y]) - 1 = length a + S (length m1)).
        { simpl. rewrite app_length. simpl. lia. }
        rewrite Hlen. rewrite <- app_assoc. cbn [app]. rewrite vswap_zip.
        rewrite app_length in Hm; simpl in Hm.
        destruct (IH (y :: m1) a (x :: b) (log ++ [x]) fuel) as (k & r & lg & E & P1 & P2 & K & R);
          [simpl; lia| lia | auto |].
        exists k, (r ++ [x]), (x :: lg).
        change (a ++ (y :: m1) ++ x :: b) with (a ++ y :: m1 ++ x :: b) in E.
        cbn [length] in E. rewrite E.
        repeat split.
        -- rewrite <- !app_assoc. cbn [app]. reflexivity.
        -- rewrite app_assoc. etransitivity; [|apply Permutation_app_tail, P1].
           apply perm_trans with (x :: y :: m1).
           ++ constructor. apply Permutation_sym, Permutation_cons_append.
           ++ rewrite Permutation_cons_append. reflexivity.
        -- apply perm_trans with (x :: r); [constructor; auto|apply Permutation_cons_append].
        -- auto.
        -- rewrite forallb_app, R. simpl. now rewrite Hc.
    + destruct (IH m (a ++ [x]) b log fuel) as (k & r & lg & E & P1 & P2 & K & R);
        [auto|lia| |].
      { rewrite forallb_app, Ha. simpl. now rewrite Hc. }
      exists (x :: k), r, lg.
      rewrite <- !app_assoc in E. cbn [app] in E. rewrite app_length in E. cbn [length] in E.
      replace (length a + 1 + length m) with (length a + S (length m)) in E by lia.
      cbn [length]. rewrite E. repeat split; auto.
      * simpl. constructor; auto.
      * simpl. now rewrite Hc.
Qed.

Lemma filter_perm {A} (f : A -> bool) l l' :
  Permutation l l' -> Permutation (filter f l) (filter f l').
Proof.
  induction 1; simpl; auto.
  - destruct (f x); auto.
  - destruct (f x), (f y); auto. constructor.
  - etransitivity; eauto.
Qed.

Lemma filter_all {A} (f : A -> bool) l : forallb f l = true -> filter f l = l.
Proof.
  induction l; simpl; auto. intros H. apply andb_prop in H as [-> H]. f_equal. auto.
Qed.

Lemma filter_none {A} (f : A -> bool) l :
  forallb (fun x => negb (f x)) l = true -> filter f l = [].
Proof.
  induction l; simpl; auto. intros H. apply andb_prop in H as [H1 H].
  apply negb_true_iff in H1 as ->. auto.
Qed.

Lemma swapAndPopAll_correct {A} (cond : A -> bool) (v : list A) :
  exists v' log,
    swapAndPopAll cond v = Some (v', length (filter cond v), log)
    /\ Permutation v' (filter (fun x => negb (cond x)) v)
    /\ Permutation log (filter cond v).
Proof.
  destruct (swapAndPopAll_loop_spec cond (length v) v [] [] [] (S (length v)))
    as (k & r & lg & E & P1 & P2 & K & R); auto.
  cbn [app length Nat.add] in E. rewrite !app_nil_r in E. unfold swapAndPopAll. rewrite E. clear E.
  assert (F1 : Permutation (filter cond v) r).
  { rewrite (filter_perm cond _ _ P1), filter_app.
    rewrite (filter_none cond k K), (filter_all cond r R). reflexivity. }
  assert (F2 : Permutation (filter (fun x => negb (cond x)) v) k).
  { rewrite (filter_perm _ _ _ P1), filter_app.
    rewrite (filter_all (fun x => negb (cond x)) k K).
    rewrite (filter_none (fun x => negb (cond x)) r).
    - now rewrite app_nil_r.
    - rewrite <- R. clear. induction r; simpl; auto. now rewrite negb_involutive, IHr. }
  exists k, lg. rewrite firstn_app, firstn_all, Nat.sub_diag. simpl. rewrite app_nil_r.
  repeat split.
  - rewrite (Permutation_length F1). rewrite (Permutation_length P1), app_length.
    do 3 f_equal. lia.
  - now symmetry.
  - rewrite P2. now symmetry.
Qed.

(** * swapAndPopFirst *)

Lemma swapAndPopFirst_loop_spec {A} (cond : A -> bool) :
  forall (m a : list A) fuel,
    length m < fuel -> forallb (fun x => negb (cond x)) a = true ->
    (forallb (fun x => negb (cond x)) m = true /\
     swapAndPopFirst_loop fuel cond (a ++ m) (length a) = Some (a ++ m, false, []))
    \/ (exists m1 x m2 v', m = m1 ++ x :: m2
          /\ forallb (fun x => negb (cond x)) m1 = true /\ cond x = true
          /\ swapAndPopFirst_loop fuel cond (a ++ m) (length a) = Some (v', true, [x])
          /\ Permutation v' (a ++ m1 ++ m2)).
Proof.
  induction m as [|x m IH]; intros a fuel Hf Ha.
  - left. split; auto. destruct fuel; [lia|]. simpl. rewrite app_nil_r.
    now rewrite Nat.ltb_irrefl.
  - destruct fuel as [|fuel]; [simpl in Hf; lia|]. cbn [swapAndPopFirst_loop].
    assert (Hlt : (length a <? length (a ++ x :: m)) = true).
    { apply Nat.ltb_lt. rewrite app_length; simpl; lia. }
    rewrite Hlt, nth_error_mid. destruct (cond x) eqn:Hc.
    + right. destruct (exists_last (l := x :: m)) as [m1 [y Hy]]; [discriminate|].
      destruct m1 as [|x' m1].
      * simpl in Hy. injection Hy as <- ->.
        exists [], x, [], (a ++ []). simpl. rewrite app_length. simpl.
        replace (length a + 1 - 1) with (length a) by lia. rewrite vswap_self.
        repeat split; auto. rewrite app_length. simpl.
        replace (length a + 1 - 1) with (length a) by lia.
        rewrite firstn_app, Nat.sub_diag, firstn_all. now rewrite !app_nil_r.
      * simpl in Hy. injection Hy as <- ->.
        exists [], x, (m1 ++ [y]), (a ++ y :: m1).
        assert (Hl : length (a ++ x :: m1 ++ [y]) - 1 = length a + S (length m1)).
        { rewrite app_length. simpl. rewrite app_length. simpl. lia. }
        rewrite Hl, vswap_zip. repeat split; auto.
        -- assert (Hl2 : length (a ++ y :: m1 ++ [x]) - 1 = length (a ++ y :: m1)).
           { rewrite !app_length. simpl. rewrite app_length. simpl. lia. }
           rewrite Hl2. change (a ++ y :: m1 ++ [x]) with (a ++ (y :: m1) ++ [x]).
           rewrite app_assoc, firstn_app, Nat.sub_diag, firstn_all. simpl.
           now rewrite app_nil_r.
        -- simpl. apply Permutation_app_head, Permutation_cons_append.
    + destruct (IH (a ++ [x]) fuel) as [[H1 H2]|(m1 & z & m2 & v' & E & H1 & H2 & H3 & H4)].
      * simpl in Hf; lia.
      * rewrite forallb_app, Ha. simpl. now rewrite Hc.
      * left. rewrite app_length in H2. simpl in H2. rewrite <- app_assoc in H2.
        simpl in *. now rewrite Hc.
      * right. exists (x :: m1), z, m2, v'.
        rewrite app_length in H3. simpl in H3. rewrite <- app_assoc in H3. subst m.
        simpl in *. rewrite Hc. repeat split; auto. rewrite H4.
        rewrite <- app_assoc. reflexivity.
Qed.

Lemma swapAndPopFirst_correct {A} (cond : A -> bool) (v : list A) :
  (forallb (fun x => negb (cond x)) v = true /\ swapAndPopFirst cond v = Some (v, false, []))
  \/ (exists m1 x m2 v', v = m1 ++ x :: m2
        /\ forallb (fun x => negb (cond x)) m1 = true /\ cond x = true
        /\ swapAndPopFirst cond v = Some (v', true, [x])
        /\ Permutation v' (m1 ++ m2)).
Proof. apply (swapAndPopFirst_loop_spec cond v [] (S (length v))); auto. Qed.

(** * CCMap refines a finite map *)

Definition cc_sorted {V} (c : list (Z * V)) : Prop := StronglySorted Z.lt (map fst c).

Fixpoint assoc {V} (c : list (Z * V)) (k : Z) : option V :=
  match c with
  | [] => None
  | (k', v) :: t => if (k' =? k)%Z then Some v else assoc t k
  end.

Lemma cc_sorted_inv {V} k (v : V) c : cc_sorted ((k, v) :: c) ->
  cc_sorted c /\ Forall (fun e => (k < fst e)%Z) c.
Proof.
  unfold cc_sorted. simpl. intros H. inversion H; subst. split; auto.
  clear - H3. induction c; simpl in *; inversion H3; subst; constructor; auto.
Qed.

Lemma assoc_none_lt {V} (c : list (Z * V)) k :
  Forall (fun e => (k < fst e)%Z) c -> assoc c k = None.
Proof.
  induction 1 as [|[k' v] c H _ IH]; simpl in *; auto.
  destruct (Z.eqb_spec k' k); [lia|auto].
Qed.

(** Position found by lower_bound. *)
Lemma cc_lower_bound_spec {V} (c : list (Z * V)) k : cc_sorted c ->
  exists c1 c2, c = c1 ++ c2 /\ cc_lower_bound c k = length c1
    /\ Forall (fun e => (fst e < k)%Z) c1 /\ Forall (fun e => (k <= fst e)%Z) c2.
Proof.
  induction c as [|[k' v] c IH]; intros Hs.
  - exists [], []. simpl. auto.
  - apply cc_sorted_inv in Hs as [Hs Hf]. simpl. destruct (Z.ltb_spec k' k).
    + destruct (IH Hs) as (c1 & c2 & -> & E & F1 & F2).
      exists ((k', v) :: c1), c2. simpl. rewrite E. repeat split; auto.
    + exists [], ((k', v) :: c). simpl. repeat split; auto.
      constructor; auto. eapply Forall_impl; [|apply Hf]. simpl. intros; lia.
Qed.

Lemma assoc_app {V} (c1 c2 : list (Z * V)) k :
  assoc (c1 ++ c2) k = match assoc c1 k with Some v => Some v | None => assoc c2 k end.
Proof. induction c1 as [|[k' v] c1 IH]; simpl; auto. destruct (k' =? k)%Z; auto. Qed.

Lemma assoc_none_gt {V} (c : list (Z * V)) k :
  Forall (fun e => (fst e < k)%Z) c -> assoc c k = None.
Proof.
  induction 1 as [|[k' v] c H _ IH]; simpl in *; auto.
  destruct (Z.eqb_spec k' k); [lia|auto].
Qed.

Lemma ccmap_get_assoc {V} (m : ccmap V) k : cc_sorted (cm_data m) ->
  ccmap_get m k = assoc (cm_data m) k.
Proof.
  intros Hs. unfold ccmap_get.
  destruct (cc_lower_bound_spec (cm_data m) k Hs) as (c1 & c2 & E & -> & F1 & F2).
  rewrite E in *. rewrite nth_error_app2, Nat.sub_diag by lia. rewrite assoc_app.
  rewrite (assoc_none_gt c1 k F1).
  destruct c2 as [|[k' v] c2]; simpl; auto.
  destruct (Z.eqb_spec k' k); auto. symmetry. apply assoc_none_lt.
  assert (Hs2 : cc_sorted ((k', v) :: c2)).
  { unfold cc_sorted in *. rewrite map_app in Hs. clear - Hs.
    induction c1; simpl in *; auto. inversion Hs; auto. }
  apply cc_sorted_inv in Hs2 as [_ Hf]. inversion F2; subst. simpl in *.
  eapply Forall_impl; [|apply Hf]. simpl. intros; lia.
Qed.

Lemma cc_sorted_app {V} (c1 c2 : list (Z * V)) :
  cc_sorted (c1 ++ c2) <->
  cc_sorted c1 /\ cc_sorted c2 /\
  Forall (fun e1 => Forall (fun e2 => (fst e1 < fst e2)%Z) c2) c1.
Proof.
  unfold cc_sorted. rewrite map_app. induction c1 as [|[k v] c1 IH]; simpl.
  - repeat split; intros; try tauto; constructor.
  - split.
    + intros H. inversion H; subst. apply IH in H2 as (H4 & H5 & H6).
      rewrite Forall_app in H3. destruct H3 as [H3 H3'].
      repeat split; auto.
      * constructor; auto.
      * constructor; auto. simpl. rewrite Forall_map in H3'. auto.
    + intros (H1 & H2 & H3). inversion H1; subst. inversion H3; subst. simpl in *.
      constructor; [apply IH; auto|]. rewrite Forall_app. split; auto.
      rewrite Forall_map. auto.
Qed.

Lemma ccmap_ref_spec {V} (m : ccmap V) k : cc_sorted (cm_data m) ->
  exists c1 v c2, fst (ccmap_ref m k) = CCMap (cm_default m) (c1 ++ (k, v) :: c2)
    /\ snd (ccmap_ref m k) = length c1
    /\ cc_sorted (c1 ++ (k, v) :: c2)
    /\ v = match assoc (cm_data m) k with Some v => v | None => cm_default m end
    /\ (forall k', k' <> k -> assoc (c1 ++ (k, v) :: c2) k' = assoc (cm_data m) k')
    /\ Forall (fun e => (fst e < k)%Z) c1.
Proof.
  intros Hs. unfold ccmap_ref.
  destruct (cc_lower_bound_spec (cm_data m) k Hs) as (c1 & c2 & E & -> & F1 & F2).
  destruct m as [d c]. simpl in *. subst c.
  rewrite nth_error_app2, Nat.sub_diag by lia. rewrite assoc_app.
  rewrite (assoc_none_gt c1 k F1).
  assert (Hins : forall c2', (c2' = c2) -> (forall e, In e c2 -> (k < fst e)%Z) ->
     exists c3 v c4, CCMap d (vinsert (c1 ++ c2') (length c1) (k, d)) = CCMap d (c3 ++ (k, v) :: c4)
       /\ length c1 = length c3 /\ cc_sorted (c3 ++ (k, v) :: c4)
       /\ v = match assoc c2 k with Some v => v | None => d end
       /\ (forall k', k' <> k -> assoc (c3 ++ (k, v) :: c4) k' = assoc (c1 ++ c2) k')
       /\ Forall (fun e => (fst e < k)%Z) c3).
  { intros c2' -> Hgt. exists c1, d, c2. unfold vinsert.
    rewrite firstn_app, Nat.sub_diag, firstn_all, skipn_app, Nat.sub_diag, skipn_all.
    simpl. rewrite app_nil_r.
    assert (Fgt : Forall (fun e => (k < fst e)%Z) c2) by (apply Forall_forall; auto).
    repeat split; auto.
    - apply cc_sorted_app in Hs as (S1 & S2 & S3). apply cc_sorted_app. repeat split; auto.
      + unfold cc_sorted in *. simpl. constructor; auto. rewrite Forall_map. auto.
      + rewrite Forall_forall in *. intros e He. constructor; simpl; auto.
    - now rewrite (assoc_none_lt c2 k Fgt).
    - intros k' Hk'. rewrite !assoc_app. simpl. destruct (Z.eqb_spec k k'); [congruence|auto]. }
  destruct c2 as [|[k' v] c2]; simpl.
  - destruct (Hins [] eq_refl) as (c3 & v & c4 & H); [simpl; tauto|]. exists c3, v, c4. exact H.
  - destruct (Z.eqb_spec k' k).
    + subst. exists c1, v, c2. simpl. repeat split; auto.
    + apply cc_sorted_app in Hs as Hs'. destruct Hs' as (_ & S2 & _).
      apply cc_sorted_inv in S2 as [_ Hf]. inversion F2; subst. simpl in *.
      destruct (Hins ((k', v) :: c2) eq_refl) as (c3 & w & c4 & G).
      { intros e [<-|He]; simpl; [lia|]. rewrite Forall_forall in Hf. specialize (Hf e He). lia. }
      exists c3, w, c4. simpl in *. destruct (Z.eqb_spec k' k); [congruence|]. exact G.
Qed.

Lemma ccmap_assign_spec {V} (m : ccmap V) k v : cc_sorted (cm_data m) ->
  cc_sorted (cm_data (ccmap_assign m k v))
  /\ cm_default (ccmap_assign m k v) = cm_default m
  /\ (forall k', assoc (cm_data (ccmap_assign m k v)) k'
                 = if (k =? k')%Z then Some v else assoc (cm_data m) k').
Proof.
  intros Hs. unfold ccmap_assign.
  destruct (ccmap_ref_spec m k Hs) as (c1 & w & c2 & E1 & E2 & S & _ & A & F).
  destruct (ccmap_ref m k) as [m' i]. simpl in *. subst m' i. simpl.
  rewrite vset_mid. repeat split; auto.
  - unfold cc_sorted in *. rewrite map_app in *. simpl in *. auto.
  - intros k'. destruct (Z.eqb_spec k k').
    + subst. rewrite assoc_app. rewrite (assoc_none_gt c1 k'); auto. simpl.
      now rewrite Z.eqb_refl.
    + rewrite <- A by congruence. rewrite !assoc_app. simpl.
      destruct (Z.eqb_spec k k'); [congruence|auto].
Qed.

Lemma ccmap_contains_spec {V} (m : ccmap V) k : cc_sorted (cm_data m) ->
  ccmap_contains m k = match ccmap_get m k with Some _ => true | None => false end.
Proof.
  intros Hs. unfold ccmap_contains, ccmap_get.
  destruct (cc_lower_bound_spec (cm_data m) k Hs) as (c1 & c2 & E & -> & F1 & F2).
  rewrite E in *. rewrite nth_error_app2, Nat.sub_diag by lia.
  destruct c2 as [|[k' v] c2]; simpl; auto. inversion F2; subst. simpl in *.
  destruct (Z.eqb_spec k' k), (Z.ltb_spec k k'); simpl; auto; lia.
Qed.

(** * BitArray *)

Lemma testbit_mask x j : (j < 8)%N ->
  negb (N.eqb (N.land x (N.shiftl 1 j)) 0) = N.testbit x j.
Proof.
  intros _. destruct (N.testbit x j) eqn:E.
  - apply negb_true_iff, N.eqb_neq. intros H.
    assert (H1 : N.testbit (N.land x (N.shiftl 1 j)) j = true).
    { rewrite N.land_spec, E, N.shiftl_spec_high', N.sub_diag by lia. reflexivity. }
    rewrite H, N.bits_0 in H1. discriminate.
  - apply negb_false_iff, N.eqb_eq. apply N.bits_inj. intros i. rewrite N.bits_0, N.land_spec.
    destruct (N.eq_dec i j) as [->|Hn]; [now rewrite E|].
    destruct (N.lt_ge_cases i j).
    + rewrite N.shiftl_spec_low by auto. apply andb_false_r.
    + rewrite N.shiftl_spec_high' by auto.
      replace (N.testbit 1 (i - j)) with false; [apply andb_false_r|].
      symmetry. destruct (i - j)%N eqn:E2; [lia|]. simpl. destruct p; auto.
Qed.

(** Abstract contents. *)
Definition ba_mem (b : bitarray) (i : nat) : bool :=
  N.testbit (nth (i / 8) (ba_data b) 0%N) (N.of_nat (i mod 8)).

(** Well-formedness: right number of bytes, no bit beyond the size. *)
Definition ba_wf (b : bitarray) : Prop :=
  length (ba_data b) = (ba_bits b + 7) / 8
  /\ (forall i, ba_bits b <= i -> ba_mem b i = false)
  /\ Forall (fun x => (x < 256)%N) (ba_data b).

Lemma div8_lt n i : i < n -> i / 8 < (n + 7) / 8.
Proof.
  intros H. pose proof (Nat.div_mod i 8). pose proof (Nat.div_mod (n + 7) 8).
  pose proof (Nat.mod_upper_bound i 8). pose proof (Nat.mod_upper_bound (n + 7) 8). lia.
Qed.

Lemma ba_test_spec b i : ba_wf b -> i < ba_bits b -> ba_test b i = Some (ba_mem b i).
Proof.
  intros (Hl & _) Hi. unfold ba_test, ba_mem.
  destruct (nth_error (ba_data b) (i / 8)) eqn:E.
  - rewrite testbit_mask. + now rewrite (nth_error_nth _ _ 0%N E).
    + pose proof (Nat.mod_upper_bound i 8). lia.
  - apply nth_error_None in E. pose proof (div8_lt _ _ Hi). lia.
Qed.

Lemma testbit_mod256 x j : (j < 8)%N -> N.testbit (x mod 256) j = N.testbit x j.
Proof. intros. change 256%N with (2 ^ 8)%N. now apply N.mod_pow2_bits_low. Qed.

Lemma nth_vset {A} (v : list A) i j x d : i < length v ->
  nth j (vset v i x) d = if Nat.eqb i j then x else nth j v d.
Proof.
  intros H. destruct (Nat.eqb_spec i j).
  - subst. apply nth_error_nth. now apply nth_error_vset_eq.
  - destruct (nth_error v j) eqn:E.
    + rewrite (nth_error_nth _ _ _ E). apply nth_error_nth. now rewrite nth_error_vset_ne.
    + apply nth_error_None in E. rewrite !nth_overflow; auto. now rewrite vset_length.
Qed.

Lemma Forall_vset {A} (P : A -> Prop) v i x : Forall P v -> P x -> Forall P (vset v i x).
Proof.
  intros H Hx. revert i. induction H; destruct i; simpl; auto.
Qed.

Lemma ba_modify_spec (f : N -> N) (g : bool -> bool) b i :
  (forall x j, (j < 8)%N -> N.testbit (f x) j
     = if N.eqb j (N.of_nat (i mod 8)) then g (N.testbit x j) else N.testbit x j) ->
  ba_wf b -> i < ba_bits b ->
  exists b', ba_modify f b i = Some b' /\ ba_wf b' /\ ba_bits b' = ba_bits b
    /\ forall j, ba_mem b' j = if Nat.eqb i j then g (ba_mem b i) else ba_mem b j.
Proof.
  intros Hf (Hl & Hhi & Hb) Hi. unfold ba_modify.
  pose proof (div8_lt _ _ Hi) as Hd. rewrite <- Hl in Hd.
  destruct (nth_error (ba_data b) (i / 8)) as [x|] eqn:E;
    [|apply nth_error_None in E; lia].
  eexists. split; [reflexivity|].
  assert (Hm : forall j, ba_mem (BitArr (ba_bits b) (vset (ba_data b) (i / 8) (f x mod 256)%N)) j
                = if Nat.eqb i j then g (ba_mem b i) else ba_mem b j).
  { intros j. unfold ba_mem. cbn [ba_data]. rewrite nth_vset by auto.
    rewrite (nth_error_nth _ _ 0%N E).
    pose proof (Nat.mod_upper_bound j 8). pose proof (Nat.mod_upper_bound i 8).
    destruct (Nat.eqb_spec (i / 8) (j / 8)) as [Hq|Hq].
    - rewrite testbit_mod256 by lia. rewrite Hf by lia. rewrite <- Hq.
      rewrite (nth_error_nth _ _ 0%N E).
      destruct (N.eqb_spec (N.of_nat (j mod 8)) (N.of_nat (i mod 8))) as [Hr|Hr].
      + assert (i = j).
        { pose proof (Nat.div_mod i 8). pose proof (Nat.div_mod j 8). lia. }
        subst j. now rewrite Nat.eqb_refl.
      + destruct (Nat.eqb_spec i j); [subst; congruence|auto].
    - destruct (Nat.eqb_spec i j); [subst; congruence|auto]. }
  split; [|split]; [|reflexivity|exact Hm]. split; [|split].
  - cbn [ba_data ba_bits]. now rewrite vset_length.
  - cbn [ba_bits]. intros j Hj. rewrite Hm. destruct (Nat.eqb_spec i j); [lia|auto].
  - cbn [ba_data]. apply Forall_vset; auto. apply N.mod_upper_bound. lia.
Qed.

Lemma shiftl1_testbit j k : N.testbit (N.shiftl 1 j) k = N.eqb k j.
Proof.
  destruct (N.eqb_spec k j) as [->|Hn].
  - rewrite N.shiftl_spec_high', N.sub_diag by lia. reflexivity.
  - destruct (N.lt_ge_cases k j).
    + now rewrite N.shiftl_spec_low.
    + rewrite N.shiftl_spec_high' by auto. destruct (k - j)%N eqn:E; [lia|]. destruct p; auto.
Qed.

Lemma ba_set_spec b i : ba_wf b -> i < ba_bits b ->
  exists b', ba_set b i = Some b' /\ ba_wf b' /\ ba_bits b' = ba_bits b
    /\ forall j, ba_mem b' j = if Nat.eqb i j then true else ba_mem b j.
Proof.
  intros Hw Hi. refine (ba_modify_spec _ (fun _ => true) b i _ Hw Hi). intros x j Hj.
  rewrite N.lor_spec, shiftl1_testbit. destruct (N.eqb _ _); [apply orb_true_r|apply orb_false_r].
Qed.

Lemma ba_reset_spec b i : ba_wf b -> i < ba_bits b ->
  exists b', ba_reset b i = Some b' /\ ba_wf b' /\ ba_bits b' = ba_bits b
    /\ forall j, ba_mem b' j = if Nat.eqb i j then false else ba_mem b j.
Proof.
  intros Hw Hi. refine (ba_modify_spec _ (fun _ => false) b i _ Hw Hi). intros x j Hj.
  rewrite N.land_spec, N.lxor_spec, shiftl1_testbit, N.ones_spec_low by lia.
  destruct (N.eqb _ _); [apply andb_false_r|apply andb_true_r].
Qed.

Lemma ba_flip_spec b i : ba_wf b -> i < ba_bits b ->
  exists b', ba_flip b i = Some b' /\ ba_wf b' /\ ba_bits b' = ba_bits b
    /\ forall j, ba_mem b' j = if Nat.eqb i j then negb (ba_mem b i) else ba_mem b j.
Proof.
  intros Hw Hi. refine (ba_modify_spec _ negb b i _ Hw Hi). intros x j Hj.
  rewrite N.lxor_spec, shiftl1_testbit. destruct (N.eqb _ _); [apply xorb_true_r|apply xorb_false_r].
Qed.

Lemma nth_repeat0 n i : nth i (repeat 0%N n) 0%N = 0%N.
Proof. revert i; induction n; destruct i; simpl; auto. Qed.

Lemma ba_make_spec n : ba_wf (ba_make n) /\ forall j, ba_mem (ba_make n) j = false.
Proof.
  assert (H : forall j, ba_mem (ba_make n) j = false).
  { intros j. unfold ba_mem, ba_make. cbn [ba_data]. rewrite nth_repeat0. apply N.bits_0. }
  split; auto. split; [|split]; auto.
  - unfold ba_make. cbn [ba_data ba_bits]. now rewrite repeat_length.
  - unfold ba_make. cbn [ba_data]. induction (Nat.div (n + 7) 8); simpl; constructor; auto. lia.
Qed.

Lemma ba_clear_spec b : ba_wf b -> ba_wf (ba_clear b) /\ ba_bits (ba_clear b) = ba_bits b
  /\ forall j, ba_mem (ba_clear b) j = false.
Proof.
  intros (Hl & _ & _).
  assert (H : forall j, ba_mem (ba_clear b) j = false).
  { intros j. unfold ba_mem, ba_clear. cbn [ba_data]. rewrite nth_repeat0. apply N.bits_0. }
  repeat split; auto.
  - unfold ba_clear. cbn [ba_data ba_bits]. now rewrite repeat_length.
  - unfold ba_clear. cbn [ba_data]. clear. induction (length (ba_data b)); simpl; constructor; auto. lia.
Qed.

Lemma byte_ff x : (x < 256)%N -> (N.eqb x 255 = true <-> forall j, (j < 8)%N -> N.testbit x j = true).
Proof.
  intros Hx. rewrite N.eqb_eq. change 255%N with (N.ones 8). split.
  - intros -> j Hj. now apply N.ones_spec_low.
  - intros H. apply N.bits_inj. intros j. destruct (N.lt_ge_cases j 8).
    + now rewrite H, N.ones_spec_low.
    + rewrite N.ones_spec_high by auto. destruct (N.eq_dec x 0) as [->|]; [apply N.bits_0|].
      apply N.bits_above_log2. apply N.log2_lt_pow2; [lia|].
      eapply N.lt_le_trans; [exact Hx|]. change 256%N with (2 ^ 8)%N. apply N.pow_le_mono_r; lia.
Qed.

Lemma byte_high0 x j : (x < 256)%N -> (8 <= j)%N -> N.testbit x j = false.
Proof.
  intros Hx Hj. destruct (N.eq_dec x 0) as [->|]; [apply N.bits_0|].
  apply N.bits_above_log2. apply N.log2_lt_pow2; [lia|].
  eapply N.lt_le_trans; [exact Hx|]. change 256%N with (2 ^ 8)%N. apply N.pow_le_mono_r; lia.
Qed.

Lemma shiftl1_pred r : (N.shiftl 1 r - 1 = N.ones r)%N.
Proof. rewrite N.ones_equiv, N.shiftl_1_l. lia. Qed.

Lemma divmod_mk q r : r < 8 -> (q * 8 + r) / 8 = q /\ (q * 8 + r) mod 8 = r.
Proof.
  intros. split.
  - rewrite Nat.div_add_l by lia. rewrite Nat.div_small; lia.
  - rewrite Nat.add_comm, Nat.mod_add by lia. now apply Nat.mod_small.
Qed.

Lemma firstn_forall_nth {A} (P : A -> Prop) n (l : list A) d :
  n <= length l -> (Forall P (firstn n l) <-> forall q, q < n -> P (nth q l d)).
Proof.
  revert l; induction n; intros l Hl; simpl.
  - split; [intros; lia|constructor].
  - destruct l; simpl in *; [lia|]. split.
    + intros H. inversion H; subst. intros [|q] Hq; auto. apply IHn; auto; lia.
    + intros H. constructor; [apply (H 0); lia|]. apply IHn; [lia|]. intros q Hq. apply (H (S q)). lia.
Qed.

Lemma byte_lt_nth b q : Forall (fun x => (x < 256)%N) (ba_data b) -> (nth q (ba_data b) 0 < 256)%N.
Proof.
  intros H. destruct (nth_in_or_default q (ba_data b) 0%N) as [Hin|E].
  - rewrite Forall_forall in H. auto.
  - rewrite E. lia.
Qed.

Lemma bits_bytes_len n : n / 8 <= (n + 7) / 8 /\ (n mod 8 <> 0 -> n / 8 < (n + 7) / 8).
Proof.
  pose proof (Nat.div_mod n 8). pose proof (Nat.div_mod (n + 7) 8).
  pose proof (Nat.mod_upper_bound n 8). pose proof (Nat.mod_upper_bound (n + 7) 8). lia.
Qed.

Lemma ba_all_spec b : ba_wf b ->
  exists r, ba_all b = Some r /\ (r = true <-> forall i, i < ba_bits b -> ba_mem b i = true).
Proof.
  intros (Hl & Hhi & Hb). unfold ba_all. set (n := ba_bits b) in *.
  destruct (bits_bytes_len n) as [Hn1 Hn2]. rewrite <- Hl in Hn1, Hn2.
  assert (Hfull : forallb (fun x => N.eqb x 255) (firstn (n / 8) (ba_data b)) = true
                  <-> forall i, i < n / 8 * 8 -> ba_mem b i = true).
  { rewrite forallb_forall, <- Forall_forall, (firstn_forall_nth _ _ _ 0%N Hn1). split.
    - intros H i Hi. unfold ba_mem.
      assert (Hq : i / 8 < n / 8) by (apply Nat.div_lt_upper_bound; lia).
      apply (proj1 (byte_ff _ (byte_lt_nth b (i / 8) Hb))); [apply H; auto|].
      pose proof (Nat.mod_upper_bound i 8). lia.
    - intros H q Hq. apply byte_ff; [now apply byte_lt_nth|]. intros j Hj.
      specialize (H (q * 8 + N.to_nat j)). unfold ba_mem in H.
      destruct (divmod_mk q (N.to_nat j)) as [D1 D2]; [lia|].
      rewrite D1, D2, N2Nat.id in H. apply H. nia. }
  pose proof (Nat.div_mod n 8) as Hdm. pose proof (Nat.mod_upper_bound n 8) as Hmb.
  destruct (forallb _ _) eqn:Ef.
  - apply proj1 in Hfull. specialize (Hfull eq_refl).
    destruct (Nat.eqb_spec (n mod 8) 0) as [E0|E0].
    + exists true. split; auto. split; auto. intros _ i Hi. apply Hfull. lia.
    + destruct (nth_error (ba_data b) (n / 8)) as [x|] eqn:Ex;
        [|apply nth_error_None in Ex; lia].
      eexists. split; [reflexivity|]. rewrite shiftl1_pred, N.eqb_eq.
      pose proof (nth_error_nth _ _ 0%N Ex) as Hx. split.
      * intros -> i Hi. destruct (Nat.lt_ge_cases i (n / 8 * 8)); [now apply Hfull|].
        unfold ba_mem. assert (Hq : i / 8 = n / 8).
        { pose proof (Nat.div_mod i 8). pose proof (Nat.mod_upper_bound i 8). nia. }
        rewrite Hq, Hx. apply N.ones_spec_low.
        pose proof (Nat.div_mod i 8). lia.
      * intros H. apply N.bits_inj. intros j.
        destruct (N.lt_ge_cases j (N.of_nat (n mod 8))).
        -- rewrite N.ones_spec_low by auto.
           specialize (H (n / 8 * 8 + N.to_nat j)). unfold ba_mem in H.
           destruct (divmod_mk (n / 8) (N.to_nat j)) as [E1 E2]; [lia|].
           rewrite E1, E2, Hx, N2Nat.id in H. apply H. lia.
        -- rewrite N.ones_spec_high by auto.
           destruct (N.lt_ge_cases j 8).
           ++ specialize (Hhi (n / 8 * 8 + N.to_nat j)). unfold ba_mem in Hhi.
              destruct (divmod_mk (n / 8) (N.to_nat j)) as [E1 E2]; [lia|].
              rewrite E1, E2, Hx, N2Nat.id in Hhi. apply Hhi. lia.
           ++ apply byte_high0; auto. rewrite <- Hx. now apply byte_lt_nth.
  - exists false. split; auto. split; [discriminate|]. intros H.
    apply Hfull. intros i Hi. apply H. lia.
Qed.

Lemma byte_nz x : (x < 256)%N ->
  (negb (N.eqb x 0) = true <-> exists j, (j < 8)%N /\ N.testbit x j = true).
Proof.
  intros Hx. rewrite negb_true_iff, N.eqb_neq. split.
  - intros Hn. exists (N.log2 x). split.
    + apply N.log2_lt_pow2; [lia|]. exact Hx.
    + now apply N.bit_log2.
  - intros (j & _ & Hj) ->. rewrite N.bits_0 in Hj. discriminate.
Qed.

Lemma ba_any_spec b : ba_wf b ->
  exists r, ba_any b = Some r /\ (r = true <-> exists i, i < ba_bits b /\ ba_mem b i = true).
Proof.
  intros (Hl & Hhi & Hb). unfold ba_any. set (n := ba_bits b) in *.
  destruct (bits_bytes_len n) as [Hn1 Hn2]. rewrite <- Hl in Hn1, Hn2.
  assert (Hfull : existsb (fun x => negb (N.eqb x 0)) (firstn (n / 8) (ba_data b)) = true
                  <-> exists i, i < n / 8 * 8 /\ ba_mem b i = true).
  { rewrite existsb_exists. split.
    - intros (x & Hin & Hx). apply (In_nth _ _ 0%N) in Hin as (q & Hq & E).
      rewrite firstn_length in Hq. assert (Hq2 : q < n / 8) by lia.
      rewrite <- (firstn_skipn (n / 8) (ba_data b)) in Hb.
      assert (E2 : nth q (ba_data b) 0%N = x).
      { rewrite <- (firstn_skipn (n / 8) (ba_data b)), app_nth1; auto. rewrite firstn_length. lia. }
      rewrite (firstn_skipn (n / 8) (ba_data b)) in Hb. subst x. rewrite <- E2 in Hx.
      apply byte_nz in Hx as (j & Hj & Hj2); [|now apply byte_lt_nth].
      exists (q * 8 + N.to_nat j). split; [nia|]. unfold ba_mem.
      destruct (divmod_mk q (N.to_nat j)) as [-> ->]; [lia|]. now rewrite N2Nat.id.
    - intros (i & Hi & Hm). unfold ba_mem in Hm.
      assert (Hq : i / 8 < n / 8) by (apply Nat.div_lt_upper_bound; lia).
      exists (nth (i / 8) (ba_data b) 0%N). split.
      + rewrite <- (firstn_skipn (n / 8) (ba_data b)) at 1. rewrite app_nth1.
        * apply nth_In. rewrite firstn_length. lia.
        * rewrite firstn_length. lia.
      + apply byte_nz; [now apply byte_lt_nth|]. eexists. split; [|exact Hm].
        pose proof (Nat.mod_upper_bound i 8). lia. }
  pose proof (Nat.div_mod n 8) as Hdm. pose proof (Nat.mod_upper_bound n 8) as Hmb.
  destruct (existsb _ _) eqn:Ef.
  - exists true. split; auto. split; auto. intros _. apply proj1 in Hfull.
    destruct (Hfull eq_refl) as (i & Hi & Hm). exists i. split; auto. lia.
  - assert (Hno : forall i, i < n / 8 * 8 -> ba_mem b i = false).
    { intros i Hi. destruct (ba_mem b i) eqn:E; auto. exfalso.
      assert (false = true) by (apply Hfull; eauto). discriminate. }
    destruct (Nat.eqb_spec (n mod 8) 0) as [E0|E0].
    + exists false. split; auto. split; [discriminate|]. intros (i & Hi & Hm).
      rewrite Hno in Hm; [discriminate|lia].
    + destruct (nth_error (ba_data b) (n / 8)) as [x|] eqn:Ex;
        [|apply nth_error_None in Ex; lia].
      eexists. split; [reflexivity|]. rewrite shiftl1_pred.
      pose proof (nth_error_nth _ _ 0%N Ex) as Hx. rewrite negb_true_iff, N.eqb_neq. split.
      * intros Hnz. set (y := N.land x (N.ones (N.of_nat (n mod 8)))) in *.
        pose proof (N.bit_log2 y Hnz) as Hbit.
        set (j := N.log2 y) in *. unfold y in Hbit. rewrite N.land_spec in Hbit.
        apply andb_prop in Hbit as [B1 B2].
        destruct (N.lt_ge_cases j (N.of_nat (n mod 8))) as [Hj|Hj];
          [|rewrite N.ones_spec_high in B2 by auto; discriminate].
        exists (n / 8 * 8 + N.to_nat j). split; [lia|]. unfold ba_mem.
        destruct (divmod_mk (n / 8) (N.to_nat j)) as [-> ->]; [lia|].
        now rewrite N2Nat.id, Hx.
      * intros (i & Hi & Hm) Hz.
        destruct (Nat.lt_ge_cases i (n / 8 * 8)); [rewrite Hno in Hm; auto; discriminate|].
        unfold ba_mem in Hm. assert (Hq : i / 8 = n / 8).
        { pose proof (Nat.div_mod i 8). pose proof (Nat.mod_upper_bound i 8). nia. }
        rewrite Hq, Hx in Hm.
        assert (Ht : N.testbit (N.land x (N.ones (N.of_nat (n mod 8)))) (N.of_nat (i mod 8)) = true).
        { rewrite N.land_spec, Hm. apply N.ones_spec_low. pose proof (Nat.div_mod i 8). lia. }
        rewrite Hz, N.bits_0 in Ht. discriminate.
Qed.

(** * Identifier search *)

Lemma sorted_nth_lt (ids : list Z) : StronglySorted Z.lt ids ->
  forall i j, i < j -> j < length ids -> (nth i ids 0 < nth j ids 0)%Z.
Proof.
  induction 1 as [|a l Hs IH Hf]; simpl; intros i j Hij Hj; [lia|].
  destruct j; [lia|]. destruct i.
  - rewrite Forall_forall in Hf. apply Hf. apply nth_In. lia.
  - apply IH; lia.
Qed.

Lemma sorted_nth_ge (ids : list Z) : StronglySorted Z.lt ids -> Forall (fun x => (0 <= x)%Z) ids ->
  forall i, i < length ids -> (Z.of_nat i <= nth i ids 0)%Z.
Proof.
  intros Hs Hp. induction i; intros Hi.
  - rewrite Forall_forall in Hp. apply Hp. apply nth_In. lia.
  - pose proof (sorted_nth_lt ids Hs i (S i)). lia.
Qed.

Lemma idsearch_down_spec ids id : StronglySorted Z.lt ids ->
  forall idx, idx < length ids ->
    (forall i, idx < i -> i < length ids -> (id < nth i ids 0)%Z) ->
    let r := idsearch_down ids id idx in
    r < length ids
    /\ (forall i, r < i -> i < length ids -> (id < nth i ids 0)%Z)
    /\ (r = 0 \/ (nth r ids 0 <= id)%Z).
Proof.
  intros Hs. induction idx as [|idx IH]; intros Hi Hgt; cbn [idsearch_down].
  - simpl. auto.
  - destruct (Z.ltb_spec id (nth (S idx) ids 0%Z)).
    + apply IH; [lia|]. intros i H1 H2. destruct (Nat.eq_dec i (S idx)); [subst; auto|].
      apply Hgt; lia.
    + simpl. repeat split; auto.
Qed.

Lemma id_search_correct ids : StronglySorted Z.lt ids -> Forall (fun x => (0 <= x)%Z) ids ->
  forall id, match id_search ids id with
             | Some i => nth_error ids i = Some id
             | None => ~ In id ids
             end.
Proof.
  intros Hs Hp id. unfold id_search.
  destruct (Nat.eqb_spec (length ids) 0) as [E|E]; simpl.
  { destruct ids; [simpl; tauto|discriminate]. }
  destruct (Z.eqb_spec id (-1)) as [->|Hm].
  { rewrite Forall_forall in Hp. intros Hin. specialize (Hp _ Hin). lia. }
  set (index0 := if (id <? 0)%Z then length ids - 1
                 else Z.to_nat (Z.min id (Z.of_nat (length ids) - 1))).
  assert (Hi0 : index0 < length ids) by (unfold index0; destruct (Z.ltb_spec id 0); lia).
  assert (Hgt0 : forall i, index0 < i -> i < length ids -> (id < nth i ids 0)%Z).
  { intros i H1 H2. pose proof (sorted_nth_ge ids Hs Hp i H2). unfold index0 in H1.
    destruct (Z.ltb_spec id 0); lia. }
  destruct (idsearch_down_spec ids id Hs index0 Hi0 Hgt0) as (R1 & R2 & R3).
  set (r := idsearch_down ids id index0) in *.
  destruct (Z.eqb_spec (nth r ids 0%Z) id) as [Eq|Ne].
  - rewrite <- Eq. apply nth_error_nth'. auto.
  - intros Hin. apply (In_nth _ _ 0%Z) in Hin as (i & Hi & Ei).
    destruct (Nat.lt_trichotomy i r) as [H|[H|H]].
    + pose proof (sorted_nth_lt ids Hs i r H R1). destruct R3; [lia|]. lia.
    + subst i. congruence.
    + pose proof (R2 i H Hi). lia.
Qed.

(** * insertPairUniquely *)

Lemma pair_find_spec {K V} (eqb : K -> K -> bool) (eqb_ok : forall a b, eqb a b = true <-> a = b)
  (l : list (K * V)) k :
  match pair_find eqb l k with
  | Some i => exists l1 v l2, l = l1 ++ (k, v) :: l2 /\ length l1 = i /\ ~ In k (map fst l1)
  | None => ~ In k (map fst l)
  end.
Proof.
  induction l as [|[k' v] l IH]; simpl; auto.
  destruct (eqb k' k) eqn:E.
  - apply eqb_ok in E as ->. exists [], v, l. auto.
  - destruct (pair_find eqb l k); simpl.
    + destruct IH as (l1 & w & l2 & -> & H1 & H2). exists ((k', v) :: l1), w, l2.
      simpl. repeat split; auto. intros [<-|Hin]; auto.
      assert (eqb k' k' = true) by now apply eqb_ok. congruence.
    + intros [<-|Hin]; auto. assert (eqb k' k' = true) by now apply eqb_ok. congruence.
Qed.
