(** Keys and registry of the modulation matrix (C27, C29, C58). *)
From Coq Require Import ZArith List Bool Lia.
From Verif Require Import ModModel.
Import ListNotations.
Local Open Scope Z_scope.
Local Open Scope list_scope.

(** * Keys *)

Lemma modid_eqb_iff a b : modid_eqb a b = true <-> a = b.
Proof. unfold modid_eqb. destruct (modid_eq_dec a b); split; congruence. Qed.
Lemma key_eqb_iff a b : key_eqb a b = true <-> a = b.
Proof.
  unfold key_eqb. rewrite !andb_true_iff, modid_eqb_iff, Z.eqb_eq.
  destruct (list_eq_dec _ _ _) as [E|E]; destruct a as [i r p], b as [i' r' p'];
    cbn [k_id k_region k_params] in *; split.
  - intros [[-> ->] _]. now subst.
  - intros [= -> -> ->]. auto.
  - intros [_ H]. discriminate.
  - intros [= -> -> ->]. now elim E.
Qed.
Lemma key_eqb_refl k : key_eqb k k = true.
Proof. now apply key_eqb_iff. Qed.
Lemma key_eqb_neq a b : a <> b -> key_eqb a b = false.
Proof. intros H. destruct (key_eqb a b) eqn:E; [apply key_eqb_iff in E; contradiction|reflexivity]. Qed.

Definition in_bits (n : Z) (v : Z) : Prop := 0 <= v < 2 ^ n.

Lemma le_bytes_inj n : forall v w, 0 <= v < 256 ^ Z.of_nat n -> 0 <= w < 256 ^ Z.of_nat n ->
  le_bytes n v = le_bytes n w -> v = w.
Proof.
  induction n as [|n IH]; intros v w Hv Hw.
  - cbn in *. lia.
  - replace (Z.of_nat (S n)) with (Z.of_nat n + 1) in * by lia.
    rewrite Z.pow_add_r in * by lia. cbn [le_bytes].
    intros [= H1 H2].
    assert (v / 256 = w / 256).
    { apply IH; [split; [apply Z.div_pos; lia | apply Z.div_lt_upper_bound; lia] ..|assumption]. }
    pose proof (Z.div_mod v 256). pose proof (Z.div_mod w 256). lia.
Qed.
Lemma le_bytes_length n v : length (le_bytes n v) = n.
Proof. revert v; induction n; intros; cbn [le_bytes length]; auto. Qed.

Lemma app_inj_length {A} (a b c d : list A) :
  length a = length c -> a ++ b = c ++ d -> a = c /\ b = d.
Proof.
  revert c; induction a as [|x a IH]; intros [|y c] L H; try discriminate; auto.
  cbn in H. injection H as -> H. cbn in L. destruct (IH c) as [-> ->]; auto.
Qed.

(** C58: keys made from different arguments are different. *)
Theorem C58_controller_keys_distinct cc cu sm st cc' cu' sm' st' :
  in_bits 16 cc -> in_bits 8 cu -> in_bits 16 sm -> in_bits 32 st ->
  in_bits 16 cc' -> in_bits 8 cu' -> in_bits 16 sm' -> in_bits 32 st' ->
  createCC cc cu sm st = createCC cc' cu' sm' st' ->
  cc = cc' /\ cu = cu' /\ sm = sm' /\ st = st'.
Proof.
  unfold in_bits. intros H1 H2 H3 H4 H5 H6 H7 H8. unfold createCC. intros E.
  apply (f_equal k_params) in E. cbn [k_params] in E.
  apply app_inj_length in E as [E1 E]; [|now rewrite !le_bytes_length].
  apply app_inj_length in E as [E2 E]; [|now rewrite !le_bytes_length].
  apply app_inj_length in E as [_ E]; [|reflexivity].
  apply app_inj_length in E as [E3 E]; [|now rewrite !le_bytes_length].
  apply app_inj_length in E as [_ E4]; [|reflexivity].
  apply le_bytes_inj in E1; [|cbn; lia ..]. apply le_bytes_inj in E2; [|cbn; lia ..].
  apply le_bytes_inj in E3; [|cbn; lia ..]. apply le_bytes_inj in E4; [|cbn; lia ..].
  auto.
Qed.
Theorem C58_numbered_keys_distinct_partial id r n x y z id' r' n' x' y' z' :
  in_bits 8 n -> in_bits 8 x -> in_bits 8 y -> in_bits 8 z ->
  in_bits 8 n' -> in_bits 8 x' -> in_bits 8 y' -> in_bits 8 z' ->
  createNXYZ id r n x y z = createNXYZ id' r' n' x' y' z' ->
  id = id' /\ r = r' /\ n = n' /\ x = x' /\ y = y' /\ z = z'.
Proof.
  unfold in_bits. intros H1 H2 H3 H4 H5 H6 H7 H8 E. unfold createNXYZ in E.
  pose proof (f_equal k_id E) as Ei. pose proof (f_equal k_region E) as Er.
  apply (f_equal k_params) in E. cbn [k_id k_region k_params] in *.
  apply app_inj_length in E as [E1 E]; [|now rewrite !le_bytes_length].
  apply app_inj_length in E as [E2 E]; [|now rewrite !le_bytes_length].
  apply app_inj_length in E as [E3 E]; [|now rewrite !le_bytes_length].
  apply app_inj_length in E as [E4 _]; [|now rewrite !le_bytes_length].
  apply le_bytes_inj in E1; [|cbn; lia ..]. apply le_bytes_inj in E2; [|cbn; lia ..].
  apply le_bytes_inj in E3; [|cbn; lia ..]. apply le_bytes_inj in E4; [|cbn; lia ..].
  auto 6.
Qed.
Theorem C58_kinds_distinct cc cu sm st id r n x y z :
  id <> MController -> createCC cc cu sm st <> createNXYZ id r n x y z.
Proof. intros H E. apply (f_equal k_id) in E. cbn in E. congruence. Qed.
(** Numbers are cut to eight bits: the cutoff of the 44th filter and that of the 300th filter
    (cutoff44, cutoff300; Region.cpp 592-600 puts no limit on the number) are one target. *)
Theorem C58_numbers_cut_refuted :
  exists n n', 0 <= n < n' /\ n' < 65536 /\
    forall id r x y z, createNXYZ id r n x y z = createNXYZ id r n' x y z.
Proof. exists 43, 299. repeat split; try lia. Qed.
Example C58_ex :
  createCC 74 1 20 0 <> createCC 74 1 20 1065353216 /\
  createNXYZ MEqGain 3 0 1 0 0 <> createNXYZ MEqGain 3 1 0 0 0.
Proof. split; intros E; vm_compute in E; discriminate. Qed.

(** * Depth keys *)

(** C29: the depth key tells what kind of source and which target it belongs to. *)
Theorem C29_depth_key_determines_partial s t s' t' :
  isKey (getSourceDepthKey s t) = true ->
  getSourceDepthKey s t = getSourceDepthKey s' t' ->
  k_id s = k_id s' /\ k_region s = k_region s' /\ k_id t = k_id t'.
Proof.
  destruct s as [i r p], t as [j q u], s' as [i' r' p'], t' as [j' q' u'].
  unfold getSourceDepthKey. cbn [k_id k_region k_params].
  destruct i; try discriminate; destruct j; try discriminate; intros _;
    destruct i'; try discriminate; destruct j'; try discriminate;
    intros E; apply (f_equal (fun k => (k_id k, k_region k))) in E; cbn in E; try discriminate;
    apply (f_equal snd) in E; cbn in E; auto.
Qed.

Definition filter_or_eq (id : modid) : bool :=
  match id with
  | MFilCutoff | MFilResonance | MFilGain | MEqGain | MEqFrequency | MEqBandwidth => true
  | _ => false
  end.
(** For the modulators of the second version of SFZ and the targets with a number, different
    numbers give different keys. *)
Theorem C29_depth_key_number_partial sid id r sn n n' :
  sid = MLFO \/ sid = MEnvelope -> filter_or_eq id = true -> in_bits 8 n -> in_bits 8 n' ->
  getSourceDepthKey (createNXYZ sid r sn 0 0 0) (createNXYZ id r n 0 0 0) =
  getSourceDepthKey (createNXYZ sid r sn 0 0 0) (createNXYZ id r n' 0 0 0) -> n = n'.
Proof.
  unfold in_bits. intros Hs Ht Hn Hn' E.
  assert (forall n, 0 <= n < 2 ^ 8 -> ((n mod 256) mod 256) = n) as M.
  { intros m Hm. rewrite Z.mod_mod by lia. apply Z.mod_small. lia. }
  assert (exists d, forall m, getSourceDepthKey (createNXYZ sid r sn 0 0 0) (createNXYZ id r m 0 0 0) =
            createNXYZ d r (m mod 256) 0 0 0) as (d & D).
  { destruct Hs as [-> | ->]; destruct id; try discriminate Ht; eexists; intros m; reflexivity. }
  rewrite !D in E. unfold createNXYZ in E. apply (f_equal p_N) in E.
  unfold p_N in E. cbn [k_params le_bytes app nth] in E. rewrite !M in E by lia. exact E.
Qed.
(** But the number of the source is not part of it: lfo1_pitch_oncc1 and lfo2_pitch_oncc2 set the depth
    of both (Region.cpp 1289). *)
Theorem C29_depth_shared_refuted :
  exists s s' t, s <> s' /\ isKey (getSourceDepthKey s t) = true /\
    getSourceDepthKey s t = getSourceDepthKey s' t.
Proof.
  exists (createNXYZ MLFO 5 0 0 0 0), (createNXYZ MLFO 5 1 0 0 0), (createNXYZ MPitch 5 0 0 0 0).
  split; [intros E; vm_compute in E; discriminate|]. split; reflexivity.
Qed.
Theorem C29_all_lfos_shared_refuted r n n' t :
  getSourceDepthKey (createNXYZ MLFO r n 0 0 0) t = getSourceDepthKey (createNXYZ MLFO r n' 0 0 0) t /\
  getSourceDepthKey (createNXYZ MEnvelope r n 0 0 0) t = getSourceDepthKey (createNXYZ MEnvelope r n' 0 0 0) t.
Proof. split; reflexivity. Qed.

(** * Registry *)

Section Registry.
Variable V : Type.

(** What is done with the matrix. *)
Inductive op :=
| RegSource (k : key)
| RegTarget (k : key)
| Connect (s t : Z) (d : V) (dm : key) (v : V).
Definition run1 (m : matrix V) (o : op) : matrix V :=
  match o with
  | RegSource k => snd (registerSource V m k)
  | RegTarget k => snd (registerTarget V m k)
  | Connect s t d dm v => snd (connect V m s t d dm v)
  end.
Definition run (l : list op) : matrix V := fold_left run1 l (emptyMatrix V).

(** Specification: keys in the order in which they first come. *)
Definition add_new (seen : list key) (k : key) : list key :=
  if existsb (key_eqb k) seen then seen else seen ++ [k].
Fixpoint position (k : key) (l : list key) : option nat :=
  match l with
  | [] => None
  | k' :: l' => if key_eqb k' k then Some O else option_map S (position k l')
  end.
(** The source keys and the target keys of a history; a connection that is made registers the
    key of its depth as a target. *)
Fixpoint history (l : list op) (ks kt : list key) : list key * list key :=
  match l with
  | [] => (ks, kt)
  | RegSource k :: l' => history l' (add_new ks k) kt
  | RegTarget k :: l' => history l' ks (add_new kt k)
  | Connect s t _ dm _ :: l' =>
      history l' ks
        (if (Z.modulo s (2 ^ 32) <? Z.of_nat (length ks)) && (Z.modulo t (2 ^ 32) <? Z.of_nat (length kt))
            && isKey dm
         then add_new kt dm else kt)
  end.
Definition sources_of (l : list op) : list key := fst (history l [] []).
Definition targets_of (l : list op) : list key := snd (history l [] []).

(** Invariant: the index and the vector agree. *)
Definition agrees (ix : list (key * nat)) (ks : list key) : Prop :=
  forall k, lookup ix k = position k ks.

Lemma position_app k l k' :
  position k (l ++ [k']) =
  match position k l with
  | Some i => Some i
  | None => if key_eqb k' k then Some (length l) else None
  end.
Proof.
  induction l as [|a l IH]; cbn [app position length].
  - destruct (key_eqb k' k); reflexivity.
  - destruct (key_eqb a k); [reflexivity|]. rewrite IH.
    destruct (position k l); cbn [option_map]; [reflexivity|].
    destruct (key_eqb k' k); reflexivity.
Qed.
Lemma position_some k l i : position k l = Some i -> nth_error l i = Some k /\ (i < length l)%nat.
Proof.
  revert i; induction l as [|a l IH]; intros i; cbn [position]; [discriminate|].
  destruct (key_eqb a k) eqn:E.
  - intros [= <-]. apply key_eqb_iff in E. subst. cbn. split; [reflexivity|lia].
  - destruct (position k l) as [j|]; [|discriminate]. cbn. intros [= <-].
    destruct (IH j eq_refl). cbn. split; [assumption|lia].
Qed.
Lemma position_none k l : position k l = None <-> ~ In k l.
Proof.
  induction l as [|a l IH]; cbn [position In]; [tauto|].
  destruct (key_eqb a k) eqn:E.
  - apply key_eqb_iff in E. split; [discriminate|]. intros H. elim H. now left.
  - assert (a <> k) by (intros ->; rewrite key_eqb_refl in E; discriminate).
    destruct (position k l) as [n|]; cbn [option_map].
    + split; [discriminate|]. intros H0.
      assert (Some n = None) by (apply IH; tauto). discriminate.
    + split; [|reflexivity]. intros _ [A|A]; [contradiction|]. now apply IH in A.
Qed.
Lemma existsb_key k l : existsb (key_eqb k) l = true <-> In k l.
Proof.
  rewrite existsb_exists. split.
  - intros (x & I & E). apply key_eqb_iff in E. now subst.
  - intros I. exists k. split; [assumption|apply key_eqb_refl].
Qed.
Lemma position_exists k l : position k l = None -> existsb (key_eqb k) l = false.
Proof. intros H. apply position_none in H. rewrite <- existsb_key in H. now destruct existsb. Qed.
Lemma exists_position k l i : position k l = Some i -> existsb (key_eqb k) l = true.
Proof.
  intros H. apply existsb_key. apply position_some in H as [H _]. now apply nth_error_In in H.
Qed.
Lemma agrees_add ix ks k : agrees ix ks -> position k ks = None ->
  agrees ((k, length ks) :: ix) (ks ++ [k]).
Proof.
  intros A P k'. cbn [lookup]. rewrite position_app, (A k').
  destruct (key_eqb k k') eqn:E.
  - apply key_eqb_iff in E as <-. now rewrite P.
  - destruct (position k' ks); reflexivity.
Qed.

(** The connection of a source to a target. *)
Fixpoint assoc (s : nat) (l : list (nat * conn V)) : option (conn V) :=
  match l with
  | [] => None
  | (s', c) :: l' => if Nat.eqb s' s then Some c else assoc s l'
  end.
Definition connection (m : matrix V) (s t : nat) : option (conn V) :=
  match nth_error (m_targets V m) t with
  | Some g => assoc s (t_conns V g)
  | None => None
  end.

Definition conns_ok (ns nt : nat) (l : list (nat * conn V)) : Prop :=
  NoDup (map fst l) /\
  Forall (fun p => (fst p < ns)%nat /\
                   match c_modId V (snd p) with Some i => (i < nt)%nat | None => True end) l.
Record inv (m : matrix V) (ks kt : list key) : Prop := Inv {
  i_sources : m_sources V m = ks;
  i_targets : map (t_key V) (m_targets V m) = kt;
  i_sidx : agrees (m_sourceIndex V m) ks;
  i_tidx : agrees (m_targetIndex V m) kt;
  i_nds : NoDup ks;
  i_ndt : NoDup kt;
  i_conns : Forall (fun g => conns_ok (length ks) (length kt) (t_conns V g)) (m_targets V m) }.

Lemma NoDup_snoc {A} (l : list A) x : NoDup l -> ~ In x l -> NoDup (l ++ [x]).
Proof. intros H1 H2. apply NoDup_rev in H1. rewrite <- (rev_involutive (l ++ [x])).
  apply NoDup_rev. rewrite rev_app_distr. cbn. constructor; [now rewrite <- in_rev|assumption]. Qed.
Lemma conns_ok_mono a b a' b' l : (a <= a')%nat -> (b <= b')%nat -> conns_ok a b l -> conns_ok a' b' l.
Proof.
  intros Ha Hb [N F]. split; [assumption|]. eapply Forall_impl; [|exact F].
  intros [s c]. cbn [fst snd]. destruct (c_modId V c); lia.
Qed.
Lemma set_conn_in s d dm id v l x : In x (map fst (set_conn V s d dm id v l)) <-> x = s \/ In x (map fst l).
Proof.
  induction l as [|[s' c] l IH]; cbn [set_conn map fst In]; [intuition auto|].
  destruct (Nat.eqb_spec s' s) as [->|N]; cbn [map fst In].
  - intuition auto.
  - rewrite IH. intuition auto.
Qed.
Lemma set_conn_ok s d dm id v ns nt l : (s < ns)%nat ->
  match id with Some i => (i < nt)%nat | None => True end ->
  conns_ok ns nt l -> conns_ok ns nt (set_conn V s d dm id v l).
Proof.
  intros Hs Hi [N F]. split.
  - induction l as [|[s' c] l IH]; cbn [set_conn map fst].
    + repeat constructor. intros [].
    + destruct (Nat.eqb_spec s' s) as [->|Ne]; cbn [map fst]; [exact N|].
      inversion N as [|? ? N1 N2]; subst. inversion F; subst. constructor; [|now apply IH].
      rewrite set_conn_in. intros [A|A]; [congruence|contradiction].
  - induction l as [|[s' c] l IH]; cbn [set_conn].
    + repeat constructor; cbn; assumption.
    + inversion F as [|? ? F1 F2]; subst. inversion N; subst.
      destruct (Nat.eqb_spec s' s) as [->|Ne]; constructor; auto.
      cbn [fst snd c_modId]. split; [assumption|]. destruct id; [assumption|]. cbn in F1. tauto.
Qed.
Lemma map_update_nth {A B} (g : A -> B) f n l : (forall x, g (f x) = g x) ->
  map g (update_nth n f l) = map g l.
Proof.
  intros H. revert n; induction l as [|x l IH]; intros [|n]; cbn; try reflexivity.
  - now rewrite H.
  - now rewrite IH.
Qed.
Lemma nth_update_nth {A} f n (l : list A) m :
  nth_error (update_nth n f l) m =
  if Nat.eqb m n then option_map f (nth_error l m) else nth_error l m.
Proof.
  revert n m; induction l as [|x l IH]; intros [|n] [|m]; cbn; try reflexivity.
  - destruct (Nat.eqb m n); reflexivity.
  - now rewrite IH.
Qed.
Lemma Forall_update_nth {A} (P : A -> Prop) f n l : (forall x, P x -> P (f x)) -> Forall P l ->
  Forall P (update_nth n f l).
Proof.
  intros H F. revert n; induction F; intros [|n]; cbn; constructor; auto.
Qed.

Lemma inv_source m ks kt k : inv m ks kt ->
  inv (snd (registerSource V m k)) (add_new ks k) kt /\
  position k (add_new ks k) = Some (fst (registerSource V m k)).
Proof.
  intros H. destruct H as [S T SI TI NS NT C]. unfold registerSource, findSource, add_new.
  rewrite SI. destruct (position k ks) as [i|] eqn:P; cbn [snd fst].
  - rewrite (exists_position _ _ _ P). split; [|exact P]. now constructor.
  - rewrite (position_exists _ _ P), S. split; [|rewrite position_app, P, key_eqb_refl; reflexivity].
    constructor; cbn [m_sources m_targets m_sourceIndex m_targetIndex]; auto.
    + now apply agrees_add.
    + apply NoDup_snoc; [assumption|]. now apply position_none.
    + eapply Forall_impl; [|exact C]. intros g. cbn beta. apply conns_ok_mono; [|lia].
      rewrite app_length. lia.
Qed.
Lemma inv_target m ks kt k : inv m ks kt ->
  inv (snd (registerTarget V m k)) ks (add_new kt k) /\
  position k (add_new kt k) = Some (fst (registerTarget V m k)).
Proof.
  intros H. destruct H as [S T SI TI NS NT C]. unfold registerTarget, findTarget, add_new.
  rewrite TI. destruct (position k kt) as [i|] eqn:P; cbn [snd fst].
  - rewrite (exists_position _ _ _ P). split; [|exact P]. now constructor.
  - assert (length (m_targets V m) = length kt) as L by (rewrite <- T; now rewrite map_length).
    rewrite (position_exists _ _ P), L. split; [|rewrite position_app, P, key_eqb_refl; reflexivity].
    constructor; cbn [m_sources m_targets m_sourceIndex m_targetIndex]; auto.
    + rewrite map_app, T. reflexivity.
    + now apply agrees_add.
    + apply NoDup_snoc; [assumption|]. now apply position_none.
    + apply Forall_app. split.
      * eapply Forall_impl; [|exact C]. intros g. cbn beta. apply conns_ok_mono; [lia|].
        rewrite app_length. lia.
      * constructor; [|constructor]. cbn [t_conns]. split; constructor.
Qed.

Definition in_range (s t : Z) (ks kt : list key) : bool :=
  (Z.modulo s (2 ^ 32) <? Z.of_nat (length ks)) && (Z.modulo t (2 ^ 32) <? Z.of_nat (length kt)).
Lemma connect_eq m ks kt s t d dm v : inv m ks kt ->
  connect V m s t d dm v =
  if in_range s t ks kt then
    let '(id, m1) := if isKey dm then let '(i, m') := registerTarget V m dm in (Some i, m')
                     else (None, m) in
    (true, Matrix V (m_sourceIndex V m1) (m_targetIndex V m1) (m_sources V m1)
             (update_nth (Z.to_nat (Z.modulo t (2 ^ 32)))
                (fun g => Target V (t_key V g)
                  (set_conn V (Z.to_nat (Z.modulo s (2 ^ 32))) d dm id v (t_conns V g)))
                (m_targets V m1)))
  else (false, m).
Proof.
  intros H. unfold connect, in_range.
  assert (length (m_targets V m) = length kt) as L by (rewrite <- (i_targets _ _ _ H); now rewrite map_length).
  rewrite L, (i_sources _ _ _ H).
  destruct (Z.leb_spec (Z.of_nat (length ks)) (Z.modulo s (2 ^ 32)));
  destruct (Z.ltb_spec (Z.modulo s (2 ^ 32)) (Z.of_nat (length ks))); try lia; [reflexivity|].
  destruct (Z.leb_spec (Z.of_nat (length kt)) (Z.modulo t (2 ^ 32)));
  destruct (Z.ltb_spec (Z.modulo t (2 ^ 32)) (Z.of_nat (length kt))); try lia; reflexivity.
Qed.
Lemma connect_fst m ks kt s t d dm v : inv m ks kt -> fst (connect V m s t d dm v) = in_range s t ks kt.
Proof.
  intros H. rewrite (connect_eq _ _ _ _ _ _ _ _ H). destruct (in_range s t ks kt); [|reflexivity].
  destruct (isKey dm); [destruct (registerTarget V m dm)|]; reflexivity.
Qed.
Definition after_connect (s t : Z) (dm : key) (ks kt : list key) : list key :=
  if in_range s t ks kt && isKey dm then add_new kt dm else kt.
Lemma add_new_le kt k : (length kt <= length (add_new kt k))%nat.
Proof. unfold add_new. destruct existsb; [lia|]. rewrite app_length. lia. Qed.
Lemma inv_connect m ks kt s t d dm v : inv m ks kt ->
  inv (snd (connect V m s t d dm v)) ks (after_connect s t dm ks kt).
Proof.
  intros H. rewrite (connect_eq _ _ _ _ _ _ _ _ H). unfold after_connect.
  destruct (in_range s t ks kt) eqn:R; cbn [andb]; [|exact H].
  unfold in_range in R. apply andb_true_iff in R as [R1 R2]. apply Z.ltb_lt in R1, R2.
  assert (0 <= Z.modulo s (2 ^ 32)) by (apply Z.mod_pos_bound; lia).
  destruct (isKey dm) eqn:D.
  - destruct (registerTarget V m dm) as [i m1] eqn:E.
    destruct (inv_target _ _ _ dm H) as [I P]. rewrite E in I, P. cbn [fst snd] in I, P.
    destruct I as [S T SI TI NS NT C]. cbn [snd].
    constructor; cbn [m_sources m_targets m_sourceIndex m_targetIndex]; auto.
    + rewrite map_update_nth; [assumption|reflexivity].
    + apply Forall_update_nth; [|exact C]. intros g G. cbn [t_conns].
      apply set_conn_ok; [lia| |assumption]. now apply position_some in P.
  - cbn [snd]. destruct H as [S T SI TI NS NT C].
    constructor; cbn [m_sources m_targets m_sourceIndex m_targetIndex]; auto.
    + rewrite map_update_nth; [assumption|reflexivity].
    + apply Forall_update_nth; [|exact C]. intros g G. cbn [t_conns].
      apply set_conn_ok; [lia|exact Logic.I|assumption].
Qed.

Lemma inv_run_gen l : forall m ks kt, inv m ks kt ->
  let '(ks', kt') := history l ks kt in inv (fold_left run1 l m) ks' kt'.
Proof.
  induction l as [|o l IH]; intros m ks kt H; cbn [history fold_left]; [exact H|].
  destruct o as [k|k|s t d dm v]; cbn [run1].
  - apply IH, inv_source, H.
  - apply IH, inv_target, H.
  - apply IH. apply (inv_connect _ _ _ s t d dm v H).
Qed.
Lemma inv_run l : inv (run l) (sources_of l) (targets_of l).
Proof.
  unfold run, sources_of, targets_of.
  assert (inv (emptyMatrix V) [] []) as H.
  { constructor; cbn; try constructor; intros k; reflexivity. }
  pose proof (inv_run_gen l _ _ _ H) as R. destruct (history l [] []). exact R.
Qed.

(** ** C27 *)

(** A key is found exactly when it has been registered, and its identifier is its place in
    the order of first registration. *)
Theorem C27_find l k :
  findSource V (run l) k = position k (sources_of l) /\
  findTarget V (run l) k = position k (targets_of l).
Proof. destruct (inv_run l) as [S T SI TI _ _ _]. split; [apply SI|apply TI]. Qed.
Theorem C27_register l k :
  let m := run l in
  findSource V (snd (registerSource V m k)) k = Some (fst (registerSource V m k)) /\
  findTarget V (snd (registerTarget V m k)) k = Some (fst (registerTarget V m k)) /\
  (forall i, findSource V m k = Some i -> registerSource V m k = (i, m)) /\
  (forall i, findTarget V m k = Some i -> registerTarget V m k = (i, m)).
Proof.
  intros m. pose proof (inv_run l) as H.
  destruct (inv_source _ _ _ k H) as [Hs Ps]. destruct (inv_target _ _ _ k H) as [Ht Pt].
  repeat split.
  - unfold findSource. now rewrite (i_sidx _ _ _ Hs).
  - unfold findTarget. now rewrite (i_tidx _ _ _ Ht).
  - intros i E. unfold registerSource. fold m. now rewrite E.
  - intros i E. unfold registerTarget. fold m. now rewrite E.
Qed.
Theorem C27_distinct l k k' i :
  (findSource V (run l) k = Some i -> findSource V (run l) k' = Some i -> k = k') /\
  (findTarget V (run l) k = Some i -> findTarget V (run l) k' = Some i -> k = k').
Proof.
  destruct (C27_find l k) as [-> ->]. destruct (C27_find l k') as [-> ->].
  split; intros H1 H2; apply position_some in H1 as [H1 _]; apply position_some in H2 as [H2 _];
    congruence.
Qed.
(** Identifiers stay valid: nothing done later changes them. *)
Lemma position_prefix k a b i : position k a = Some i -> position k (a ++ b) = Some i.
Proof.
  revert i; induction a as [|x a IH]; intros i; cbn [app position]; [discriminate|].
  destruct (key_eqb x k); [auto|]. destruct (position k a) as [j|] eqn:E; [|discriminate].
  rewrite (IH j eq_refl). auto.
Qed.
Lemma history_grows l : forall ks kt, exists a b,
  history l ks kt = (ks ++ a, kt ++ b).
Proof.
  assert (forall ks k, exists a, add_new ks k = ks ++ a) as A.
  { intros ks k. unfold add_new. destruct existsb; [exists []; now rewrite app_nil_r|now exists [k]]. }
  induction l as [|o l IH]; intros ks kt; cbn [history].
  - exists [], []. now rewrite !app_nil_r.
  - destruct o as [k|k|s t d dm v].
    + destruct (A ks k) as [a E]. destruct (IH (add_new ks k) kt) as (a' & b' & ->).
      exists (a ++ a'), b'. now rewrite E, app_assoc.
    + destruct (A kt k) as [a E]. destruct (IH ks (add_new kt k)) as (a' & b' & ->).
      exists a', (a ++ b'). now rewrite E, app_assoc.
    + destruct (_ && isKey dm).
      * destruct (A kt dm) as [a E]. destruct (IH ks (add_new kt dm)) as (a' & b' & ->).
        exists a', (a ++ b'). now rewrite E, app_assoc.
      * apply IH.
Qed.
Lemma history_app l l' : forall ks kt, history (l ++ l') ks kt =
  let '(a, b) := history l ks kt in history l' a b.
Proof. induction l as [|[k|k|s t d dm v] l IH]; intros; cbn [app history]; auto. Qed.
Theorem C27_stable l l' k i :
  (findSource V (run l) k = Some i -> findSource V (run (l ++ l')) k = Some i) /\
  (findTarget V (run l) k = Some i -> findTarget V (run (l ++ l')) k = Some i).
Proof.
  destruct (C27_find l k) as [-> ->]. destruct (C27_find (l ++ l') k) as [-> ->].
  unfold sources_of, targets_of. rewrite history_app. destruct (history l [] []) as [ks kt].
  destruct (history_grows l' ks kt) as (a & b & ->). cbn [fst snd].
  split; apply position_prefix.
Qed.
(** Connections are made between registered sources and targets only. *)
Theorem C27_connections_registered l s t c :
  connection (run l) s t = Some c ->
  (exists k, findSource V (run l) k = Some s) /\
  (exists k, findTarget V (run l) k = Some t) /\
  forall i, c_modId V c = Some i -> exists k, findTarget V (run l) k = Some i.
Proof.
  pose proof (inv_run l) as H. unfold connection.
  destruct (nth_error (m_targets V (run l)) t) as [g|] eqn:G; [|discriminate]. intros A.
  assert (forall n ks, (n < length ks)%nat -> NoDup ks -> exists k, position k ks = Some n) as F.
  { intros n ks L N. destruct (nth_error ks n) as [k|] eqn:E; [|apply nth_error_None in E; lia].
    exists k. destruct (position k ks) as [j|] eqn:P.
    - apply position_some in P as [P _]. f_equal. rewrite NoDup_nth_error in N. symmetry.
      apply N; [lia|congruence].
    - apply position_none in P. elim P. now apply nth_error_In in E. }
  pose proof (i_conns _ _ _ H) as C. rewrite Forall_forall in C.
  specialize (C g (nth_error_In _ _ G)). destruct C as [_ C].
  assert (In (s, c) (t_conns V g)) as I.
  { clear -A. induction (t_conns V g) as [|[s' c'] r IH]; cbn in *; [discriminate|].
    destruct (Nat.eqb_spec s' s) as [->|]; [injection A as ->; now left|right; auto]. }
  rewrite Forall_forall in C. specialize (C _ I). cbn [fst snd] in C. destruct C as [C1 C2].
  assert (forall k, findSource V (run l) k = position k (sources_of l)) as ES by (intros; apply C27_find).
  assert (forall k, findTarget V (run l) k = position k (targets_of l)) as ET by (intros; apply C27_find).
  repeat split.
  - destruct (F s _ C1 (i_nds _ _ _ H)) as [k K]. exists k. now rewrite ES.
  - assert (t < length (targets_of l))%nat as L.
    { rewrite <- (i_targets _ _ _ H), map_length. apply nth_error_Some. congruence. }
    destruct (F t _ L (i_ndt _ _ _ H)) as [k K]. exists k. now rewrite ET.
  - intros i E. rewrite E in C2. destruct (F i _ C2 (i_ndt _ _ _ H)) as [k K]. exists k. now rewrite ET.
Qed.
(** connect succeeds exactly for valid identifiers; it then sets that connection and leaves
    the others as they were, and the depth target is the registered one. *)
Lemma assoc_set s d dm id v l s' : assoc s' (set_conn V s d dm id v l) =
  if Nat.eqb s' s
  then Some (Conn V d dm (match id with Some _ => id
                                   | None => match assoc s l with Some c => c_modId V c | None => None end
                          end) v)
  else assoc s' l.
Proof.
  induction l as [|[a c] l IH]; cbn [set_conn assoc].
  - rewrite (Nat.eqb_sym s s'). destruct (Nat.eqb s' s); [destruct id|]; reflexivity.
  - destruct (Nat.eqb_spec a s) as [->|N]; cbn [assoc].
    + rewrite (Nat.eqb_sym s s'). destruct (Nat.eqb s' s); reflexivity.
    + rewrite IH. destruct (Nat.eqb_spec a s') as [->|N'].
      * destruct (Nat.eqb_spec s' s); [contradiction|reflexivity].
      * reflexivity.
Qed.
Theorem C27_connect l s t d dm v ks kt :
  findSource V (run l) ks = Some s -> findTarget V (run l) kt = Some t ->
  Z.of_nat s < 2 ^ 31 -> Z.of_nat t < 2 ^ 31 ->
  let r := connect V (run l) (Z.of_nat s) (Z.of_nat t) d dm v in
  fst r = true /\
  (exists c, connection (snd r) s t = Some c /\ c_depth V c = d /\ c_mod V c = dm /\ c_vel V c = v /\
     (isKey dm = true -> c_modId V c = findTarget V (snd r) dm /\ findTarget V (snd r) dm <> None)) /\
  (forall s' t', (s', t') <> (s, t) -> connection (snd r) s' t' = connection (run l) s' t').
Proof.
  intros Fs Ft Ls Lt r. pose proof (inv_run l) as H.
  destruct (C27_find l ks) as [Es _]. destruct (C27_find l kt) as [_ Et]. rewrite Fs in Es. rewrite Ft in Et.
  symmetry in Es, Et. apply position_some in Es as [_ Es]. apply position_some in Et as [_ Et].
  assert (in_range (Z.of_nat s) (Z.of_nat t) (sources_of l) (targets_of l) = true) as R.
  { unfold in_range. rewrite !Z.mod_small by lia. apply andb_true_iff. rewrite !Z.ltb_lt. lia. }
  assert (r = connect V (run l) (Z.of_nat s) (Z.of_nat t) d dm v) as Er by reflexivity.
  clearbody r. rewrite (connect_eq _ _ _ _ _ _ _ _ H), R in Er. rewrite !Z.mod_small, !Nat2Z.id in Er by lia.
  assert (length (m_targets V (run l)) = length (targets_of l)) as L.
  { rewrite <- (i_targets _ _ _ H). now rewrite map_length. }
  destruct (nth_error (m_targets V (run l)) t) as [g|] eqn:G; [|apply nth_error_None in G; lia].
  assert (forall id m1, (forall n h, nth_error (m_targets V (run l)) n = Some h -> nth_error (m_targets V m1) n = Some h) ->
            (forall n, nth_error (m_targets V (run l)) n = None -> match nth_error (m_targets V m1) n with Some h => t_conns V h = [] | None => True end) ->
            forall m2, m2 = Matrix V (m_sourceIndex V m1) (m_targetIndex V m1) (m_sources V m1)
              (update_nth t (fun g => Target V (t_key V g) (set_conn V s d dm id v (t_conns V g))) (m_targets V m1)) ->
            connection m2 s t = Some (Conn V d dm (match id with Some _ => id
                | None => match assoc s (t_conns V g) with Some c => c_modId V c | None => None end end) v) /\
            forall s' t', (s', t') <> (s, t) -> connection m2 s' t' = connection (run l) s' t') as K.
  { intros id m1 P1 P2 m2 ->. split.
    - unfold connection. cbn [m_targets]. rewrite nth_update_nth, Nat.eqb_refl, (P1 _ _ G). cbn [option_map t_conns].
      now rewrite assoc_set, Nat.eqb_refl.
    - intros s' t' Ne. unfold connection. cbn [m_targets]. rewrite nth_update_nth.
      destruct (Nat.eqb_spec t' t) as [->|Nt].
      + rewrite (P1 _ _ G), G. cbn [option_map t_conns]. rewrite assoc_set.
        destruct (Nat.eqb_spec s' s) as [->|]; [now elim Ne|reflexivity].
      + destruct (nth_error (m_targets V (run l)) t') as [h|] eqn:E.
        * now rewrite (P1 _ _ E).
        * specialize (P2 _ E). destruct (nth_error (m_targets V m1) t') as [h|]; [|reflexivity].
          now rewrite P2. }
  destruct (isKey dm) eqn:D.
  - destruct (registerTarget V (run l) dm) as [i m1] eqn:E.
    destruct (inv_target _ _ _ dm H) as [I P]. rewrite E in I, P. cbn [fst snd] in I, P.
    assert (findTarget V m1 dm = Some i) as FT by (unfold findTarget; now rewrite (i_tidx _ _ _ I)).
    destruct (K (Some i) m1) with (m2 := snd r) as [K1 K2]; [| | now rewrite Er|].
    + intros n h. unfold registerTarget in E. destruct (findTarget V (run l) dm); injection E as <- <-; [auto|].
      cbn [m_targets]. intros N. rewrite nth_error_app1; [assumption|]. apply nth_error_Some. congruence.
    + intros n N. unfold registerTarget in E. destruct (findTarget V (run l) dm); injection E as <- <-; [now rewrite N|].
      cbn [m_targets]. apply nth_error_None in N. rewrite nth_error_app2 by assumption.
      destruct (n - length (m_targets V (run l)))%nat as [|[|]]; cbn; auto.
    + split; [now rewrite Er|]. split; [|exact K2].
      eexists. split; [exact K1|]. cbn [c_depth c_mod c_vel c_modId]. repeat split; auto; rewrite Er; cbn [snd];
        unfold findTarget in *; cbn [m_targetIndex]; rewrite FT; [reflexivity|discriminate].
  - destruct (K None (run l)) with (m2 := snd r) as [K1 K2]; [auto| | now rewrite Er|].
    + intros n ->. exact Logic.I.
    + split; [now rewrite Er|]. split; [|exact K2].
      eexists. split; [exact K1|]. cbn [c_depth c_mod c_vel c_modId]. repeat split; auto; discriminate.
Qed.
Theorem C27_connect_refused l s t d dm v :
  let m := run l in
  (forall k, findSource V m k <> Some (Z.to_nat (Z.modulo s (2 ^ 32)))) \/
  (forall k, findTarget V m k <> Some (Z.to_nat (Z.modulo t (2 ^ 32)))) ->
  connect V m s t d dm v = (false, m).
Proof.
  intros m Hm. pose proof (inv_run l) as H. subst m.
  assert (forall n ks, (n < length ks)%nat -> NoDup ks -> exists k, position k ks = Some n) as F.
  { intros n ks L N. destruct (nth_error ks n) as [k|] eqn:E; [|apply nth_error_None in E; lia].
    exists k. destruct (position k ks) as [j|] eqn:P.
    - apply position_some in P as [P _]. f_equal. rewrite NoDup_nth_error in N. symmetry.
      apply N; [lia|congruence].
    - apply position_none in P. elim P. now apply nth_error_In in E. }
  rewrite (connect_eq _ _ _ _ _ _ _ _ H).
  destruct (in_range s t (sources_of l) (targets_of l)) eqn:R; [|reflexivity]. exfalso.
  unfold in_range in R. apply andb_true_iff in R as [R1 R2]. apply Z.ltb_lt in R1, R2.
  pose proof (Z.mod_pos_bound s (2 ^ 32) ltac:(lia)). pose proof (Z.mod_pos_bound t (2 ^ 32) ltac:(lia)).
  destruct Hm as [Hm|Hm].
  - destruct (F (Z.to_nat (Z.modulo s (2 ^ 32))) (sources_of l)) as [k K]; [lia|apply H|].
    apply (Hm k). destruct (C27_find l k) as [-> _]. exact K.
  - destruct (F (Z.to_nat (Z.modulo t (2 ^ 32))) (targets_of l)) as [k K]; [lia|apply H|].
    apply (Hm k). destruct (C27_find l k) as [_ ->]. exact K.
Qed.
End Registry.

(** An LFO and a controller on the pitch of a region, with a controller on the depth of the LFO. *)
Definition ex_lfo := createNXYZ MLFO 0 0 0 0 0.
Definition ex_pitch := createNXYZ MPitch 0 0 0 0 0.
Definition ex_cc := createCC 1 0 0 0.
Definition ex_depth := getSourceDepthKey ex_lfo ex_pitch.
Definition ex_ops : list (op Z) :=
  [ RegSource Z ex_lfo; RegTarget Z ex_pitch; Connect Z 0 0 100 ex_depth 0;
    RegSource Z ex_cc; RegTarget Z ex_pitch; Connect Z 1 0 50 noKey 0;
    RegSource Z ex_cc; RegTarget Z ex_depth; Connect Z 1 1 20 noKey 0; Connect Z 2 0 7 noKey 0;
    Connect Z (-1) 0 7 noKey 0 ].
Example C27_ex :
  let m := run Z ex_ops in
  map (findSource Z m) [ex_lfo; ex_cc; ex_pitch] = [Some 0; Some 1; None]%nat /\
  map (findTarget Z m) [ex_pitch; ex_depth; ex_cc] = [Some 0; Some 1; None]%nat /\
  connection Z m 0 0 = Some (Conn Z 100 ex_depth (Some 1%nat) 0) /\
  connection Z m 1 1 = Some (Conn Z 20 noKey None 0) /\
  map (fun g => length (t_conns Z g)) (m_targets Z m) = [2; 1]%nat.
Proof. vm_compute. repeat split. Qed.
