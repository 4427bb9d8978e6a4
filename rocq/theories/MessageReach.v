(** C88: what messages reach and change. *)
From Coq Require Import ZArith List Bool String Lia.
From Verif Require Import ParserModel OpcodeModel OpcodeNumbers OpcodeNames MessageModel Message.
Import ListNotations.
Local Open Scope Z_scope.
Local Open Scope list_scope.

(** ** What is reached *)

(** The element is there. *)
Definition there (s : synth) (p : place) : Prop :=
  match p with
  | PGlobal => True
  | PKey _ | PLabel _ => True
  | PCC c => 0 <= c < 512
  | PNote n => 0 <= n < 128
  | PRegion r => (r < List.length (s_regions s))%nat
  | PFilter r f => exists x, nth_error (s_regions s) r = Some x /\ (f < r_filters x)%nat
  | PEQ r e => exists x, nth_error (s_regions s) r = Some x /\ (e < r_eqs x)%nat
  | PSub r l k => exists x n, nth_error (s_regions s) r = Some x /\ nth_error (r_lfos x) l = Some n /\ (k < n)%nat
  | PEG r e => exists x, nth_error (s_regions s) r = Some x /\ (e < List.length (r_egs x))%nat
  | PPoint r e k => exists x n, nth_error (s_regions s) r = Some x /\ nth_error (r_egs x) e = Some n /\ (k < n)%nat
  | PEffect r i => exists x, nth_error (s_regions s) r = Some x /\ (i < r_effects x)%nat
  | PVoice v => nth_error (s_voices s) v = Some false
  end.

(** The numbers the element is named by in the path.  The points of an envelope are counted from the second one, as the first is implicit. *)
Definition named (a : access) (is : list Z) (p : place) : Prop :=
  match p with
  | PGlobal => True
  | PKey k | PLabel k => nth_error is 0 = Some k
  | PCC c => nth_error is 0 = Some c
  | PNote n => nth_error is 0 = Some n
  | PRegion r => nth_error is 0 = Some (Z.of_nat r)
  | PFilter r f | PEQ r f | PEG r f | PEffect r f => nth_error is 0 = Some (Z.of_nat r) /\ nth_error is 1 = Some (Z.of_nat f)
  | PSub r l k => nth_error is 0 = Some (Z.of_nat r) /\ nth_error is 1 = Some (Z.of_nat l) /\
      (nth_error is 2 = Some (Z.of_nat k) \/ List.length is = 2%nat /\ k = 0%nat)
  | PPoint r e k => nth_error is 0 = Some (Z.of_nat r) /\ nth_error is 1 = Some (Z.of_nat e) /\ exists i, nth_error is 2 = Some (Z.of_nat i) /\ k = S i
  | PVoice v => nth_error is 0 = Some (Z.of_nat v)
  end.

(** how many numbers a case uses *)
Definition needs (c : case) : nat :=
  (match c_access c with
   | Global => 0 | Key | ArrayCC | LabelCC | Note | Region | Voice | AddFilter | AddEQ | AddEG => 1
   | Mod | Filter | EQ | Sub | AddPoint | Effect => 2 | ModFilter | Point => 3
   end + if c_map c then 1 else 0)%nat.
Lemma table_needs : forallb (fun c => Nat.leb (needs c) (amps (str (c_path c)))) table = true.
Proof. vm_compute. reflexivity. Qed.
(** '&' three times in the path of a sub-oscillator or twice *)
Lemma table_maps : forallb (fun c => negb (c_map c) || match c_access c with Region | Filter | EQ | Sub | Point | Effect => true | _ => false end) table = true.
Proof. vm_compute. reflexivity. Qed.

Lemma instance_range p t is : instance p t is -> Forall (fun n => 0 <= n < 2 ^ 32) is.
Proof.
  induction 1 as [|c p t is N H IH|d p t is D LT T H IH]; [constructor|exact IH|]. constructor; [|exact IH].
  split; [apply decimal_nonneg, D|exact LT].
Qed.
Lemma nth_range is i n : Forall (fun n => 0 <= n < 2 ^ 32) is -> nth_error is i = Some n -> 0 <= n < 2 ^ 32.
Proof. intros F E. rewrite Forall_forall in F. apply F. eapply nth_error_In, E. Qed.
Lemma index_in is i k : (i < List.length is)%nat -> exists n, nth_error is i = Some n /\ index is i k = k n.
Proof.
  intros H. unfold index. destruct (nth_error is i) as [n|] eqn:E; [now exists n|]. apply nth_error_None in E. lia.
Qed.
Lemma toInt_small n : n < 2 ^ 31 -> toInt n = n.
Proof. intros H. unfold toInt. destruct (Z.ltb_spec n (2 ^ 31)); lia. Qed.

Lemma lookup_nth {A} (l : list A) n : 0 <= n -> lookup l n = nth_error l (Z.to_nat n).
Proof.
  intros H. unfold lookup. destruct (Z.ltb_spec n (Z.of_nat (List.length l))); [reflexivity|]. symmetry. apply nth_error_None. lia.
Qed.
Lemma lookup_nat {A} (l : list A) n : lookup l (Z.of_nat n) = nth_error l n.
Proof. rewrite lookup_nth by lia. now rewrite Nat2Z.id. Qed.

(** what getRegion gives *)
Definition good (s : synth) (a : access) (is : list Z) (x : reached) : Prop :=
  match x with Nothing => True | Wrong => False | Reach p => there s p /\ named a is p end.
Lemma good_region s a is k : (0 < List.length is)%nat -> Forall (fun n => 0 <= n < 2 ^ 32) is ->
  (forall i r, nth_error (s_regions s) i = Some r -> nth_error is 0 = Some (Z.of_nat i) -> good s a is (k i r)) ->
  good s a is (getRegion s is k).
Proof.
  intros L F K. unfold getRegion. destruct (index_in is 0 (fun n => match lookup (s_regions s) n with Some r => k (Z.to_nat n) r | None => Nothing end) L) as (n & E & ->).
  pose proof (nth_range _ _ _ F E) as R. rewrite lookup_nth by lia. destruct (nth_error (s_regions s) (Z.to_nat n)) as [r|] eqn:N; [|exact Logic.I].
  apply K; [exact N|]. rewrite E. f_equal. lia.
Qed.
Lemma good_below s a is i size k : (i < List.length is)%nat -> Forall (fun n => 0 <= n < 2 ^ 32) is ->
  (forall j, (j < size)%nat -> nth_error is i = Some (Z.of_nat j) -> good s a is (k j)) -> good s a is (below is i size k).
Proof.
  intros L F K. unfold below. destruct (index_in is i (fun n => if n <? Z.of_nat size then k (Z.to_nat n) else Nothing) L) as (n & E & ->).
  pose proof (nth_range _ _ _ F E) as R. destruct (Z.ltb_spec n (Z.of_nat size)); [|exact Logic.I].
  apply K; [lia|]. rewrite E. f_equal. lia.
Qed.
Lemma nth_below {A} (l : list A) j d : (j < List.length l)%nat -> nth_error l j = Some (nth j l d).
Proof. intros H. apply nth_error_nth'. exact H. Qed.

(** the numbers are below 2^31, those of points and controllers small enough *)
Definition ordinary (c : case) (is : list Z) : Prop :=
  Forall (fun n => n < 2 ^ 31) is /\ (c_access c = ArrayCC -> nth_error is 0 <> Some 512).
Definition voicesFit (s : synth) : Prop := s_numVoices s <= Z.of_nat (List.length (s_voices s)).

(** C88: whatever message is sent, with numbers below 2^31 and not for controller 512: what it works on is there, and is what its path
    names; otherwise nothing happens. *)
Theorem C88_reached : forall s path sig c is, voicesFit s -> dispatch path sig = Some (c, is) -> ordinary c is ->
  match reach s (c_access c) is with
  | Nothing => True
  | Reach p => there s p /\ named (c_access c) is p
  | Wrong => False
  end.
Proof.
  intros s path sig c is VF D [O1 O2]. apply C87_dispatch in D. destruct D as (I & _ & H).
  pose proof (proj1 (forallb_forall _ _) table_needs c I) as N. apply Nat.leb_le in N. rewrite <- (instance_count _ _ _ H) in N.
  pose proof (instance_range _ _ _ H) as R. change (good s (c_access c) is (reach s (c_access c) is)).
  assert (SM : forall i n, nth_error is i = Some n -> 0 <= n < 2 ^ 31).
  { intros i n E. split; [apply (nth_range _ _ _ R E)|]. rewrite Forall_forall in O1. apply O1. eapply nth_error_In, E. }
  unfold needs in N. destruct (c_access c) eqn:A; cbn [reach].
  - cbn [good there named]. auto.
  - destruct (index_in is 0 (fun n => Reach (PKey (toInt n))) ltac:(lia)) as (n & E & ->). cbn. rewrite toInt_small by apply (SM 0%nat n E). auto.
  - unfold checkCC. match goal with |- context [index is 0 ?k] => destruct (index_in is 0 k ltac:(lia)) as (n & E & ->) end. cbn beta.
    pose proof (SM 0%nat n E). destruct (Z.leb_spec n 512); [|exact Logic.I]. destruct (Z.ltb_spec n 512); [cbn; split; [lia|exact E]|].
    elim (O2 eq_refl). rewrite E. f_equal. lia.
  - unfold checkCC. match goal with |- context [index is 0 ?k] => destruct (index_in is 0 k ltac:(lia)) as (n & E & ->) end. cbn beta.
    destruct (Z.leb_spec n 512); [|exact Logic.I]. cbn [good there named]. auto.
  - unfold checkNote. match goal with |- context [index is 0 ?k] => destruct (index_in is 0 k ltac:(lia)) as (n & E & ->) end. cbn beta.
    pose proof (SM 0%nat n E). rewrite toInt_small by lia. destruct (Z.leb_spec n 127); [|exact Logic.I]. destruct (Z.ltb_spec n 0); [cbn; auto|]. cbn [good there named]. split; [lia|exact E].
  - apply good_region; [lia|exact R|]. intros i r Hr Hi. cbn [good there named]. split; [|exact Hi]. apply nth_error_Some. congruence.
  - apply good_region; [lia|exact R|]. intros i r Hr Hi. destruct is as [|x is]; [cbn in N; lia|]. cbn [good there named]. split; [|exact Hi]. apply nth_error_Some. congruence.
  - apply good_region; [lia|exact R|]. intros i r Hr Hi. destruct (index_in is 1 (fun _ => Reach (PRegion i)) ltac:(lia)) as (n & E & ->). cbn [good there named]. split; [|exact Hi]. apply nth_error_Some. congruence.
  - apply good_region; [lia|exact R|]. intros i r Hr Hi. apply good_below; [lia|exact R|]. intros j Hj Ej. cbn [good there named]. split; [now exists r|auto].
  - apply good_region; [lia|exact R|]. intros i r Hr Hi. apply good_below; [lia|exact R|]. intros j Hj Ej. cbn [good there named]. split; [now exists r|auto].
  - apply good_region; [lia|exact R|]. intros i r Hr Hi. apply good_below; [lia|exact R|]. intros j Hj Ej. unfold getSub.
    destruct (Nat.eqb_spec (List.length is) 2) as [L2|L2].
    + destruct (Nat.eqb_spec (nth j (r_lfos r) 0%nat) 0) as [Z0|Z0]; [exact Logic.I|]. cbn [good there named]. split; [|auto].
      exists r, (nth j (r_lfos r) 0%nat). split; [exact Hr|]. split; [now apply nth_below|lia].
    + apply good_below; [lia|exact R|]. intros k Hk Ek. cbn [good there named]. split; [|auto]. exists r, (nth j (r_lfos r) 0%nat). split; [exact Hr|]. split; [now apply nth_below|lia].
  - apply good_region; [lia|exact R|]. intros i r Hr Hi. apply good_below; [lia|exact R|]. intros j Hj Ej. unfold getPoint.
    match goal with |- context [index is 2 ?k] => destruct (index_in is 2 k ltac:(lia)) as (n & E & ->) end. cbn beta zeta.
    pose proof (SM 2%nat n E). rewrite Z.mod_small by lia. destruct (Z.ltb_spec (n + 1) (Z.of_nat (nth j (r_egs r) 0%nat))); [|exact Logic.I]. cbn [good there named].
    split; [exists r, (nth j (r_egs r) 0%nat); split; [exact Hr|]; split; [now apply nth_below|lia]|]. split; [exact Hi|]. split; [exact Ej|].
    exists (Z.to_nat n). split; [rewrite E; f_equal; lia|lia].
  - apply good_region; [lia|exact R|]. intros i r Hr Hi.
    match goal with |- context [index is 1 ?k] => destruct (index_in is 1 k ltac:(lia)) as (n & E & ->) end. cbn beta.
    pose proof (SM 1%nat n E). rewrite toInt_small by lia. destruct (Z.ltb_spec 0 n); [|exact Logic.I]. destruct (Z.ltb_spec n (Z.of_nat (r_effects r))); [|exact Logic.I].
    cbn [good there named]. split; [exists r; split; [exact Hr|lia]|]. split; [exact Hi|]. rewrite E. f_equal. lia.
  - unfold getVoice. match goal with |- context [index is 0 ?k] => destruct (index_in is 0 k ltac:(lia)) as (n & E & ->) end. cbn beta.
    pose proof (SM 0%nat n E). rewrite toInt_small by lia. destruct (Z.leb_spec (s_numVoices s) n); [exact Logic.I|].
    rewrite lookup_nth by lia. destruct (nth_error (s_voices s) (Z.to_nat n)) as [[|]|] eqn:V; [exact Logic.I| |].
    + cbn [good there named]. split; [exact V|]. rewrite E. f_equal. lia.
    + apply nth_error_None in V. unfold voicesFit in VF. lia.
  - apply good_region; [lia|exact R|]. intros i r Hr Hi. cbn [good there named]. split; [|exact Hi]. apply nth_error_Some. congruence.
  - apply good_region; [lia|exact R|]. intros i r Hr Hi. cbn [good there named]. split; [|exact Hi]. apply nth_error_Some. congruence.
  - apply good_region; [lia|exact R|]. intros i r Hr Hi. cbn [good there named]. split; [|exact Hi]. apply nth_error_Some. congruence.
  - apply good_region; [lia|exact R|]. intros i r Hr Hi. apply good_below; [lia|exact R|]. intros j Hj Ej. cbn [good there named]. split; [now exists r|auto].
Qed.

(** C88: the other way round: every element that is there, except the first point of an envelope, the gain to the main bus and free voices, is what a message with its numbers works on. *)
Theorem C88_reachable : forall s a is p, Forall (fun n => 0 <= n < 2 ^ 31) is -> (List.length is <= 3)%nat -> voicesFit s -> there s p -> named a is p ->
  match p with
  | PFilter _ _ => a = Filter | PEQ _ _ => a = EQ | PSub _ _ _ => a = Sub | PPoint _ _ _ => a = Point | PEG _ _ => a = AddPoint
  | PRegion _ => a = Region \/ a = AddFilter \/ a = AddEQ \/ a = AddEG
  | PEffect _ i => a = Effect /\ i <> 0%nat
  | PCC _ => a = ArrayCC | PNote _ => a = Note
  | PVoice v => a = Voice /\ Z.of_nat v < s_numVoices s
  | _ => False
  end -> reach s a is = Reach p.
Proof.
  intros s a is p F L3 VF T NM K.
  assert (G : forall i r k, nth_error (s_regions s) i = Some r -> nth_error is 0 = Some (Z.of_nat i) -> getRegion s is k = k i r).
  { intros i r k Hr Hi. unfold getRegion, index. rewrite Hi, lookup_nat, Nat2Z.id, Hr. reflexivity. }
  assert (B : forall i j size k, nth_error is i = Some (Z.of_nat j) -> (j < size)%nat -> below is i size k = k j).
  { intros i j size k Hj L. unfold below, index. rewrite Hj, Nat2Z.id. destruct (Z.ltb_spec (Z.of_nat j) (Z.of_nat size)); [reflexivity|lia]. }
  assert (SM : forall i n, nth_error is i = Some n -> 0 <= n < 2 ^ 31).
  { intros i n E. rewrite Forall_forall in F. apply F. eapply nth_error_In, E. }
  destruct p; cbn [there named] in *; try contradiction.
  - subst a. cbn [reach]. unfold checkCC, index. rewrite NM. destruct (Z.leb_spec cc 512); [|lia]. destruct (Z.ltb_spec cc 512); [reflexivity|lia].
  - subst a. cbn [reach]. unfold checkNote, index. rewrite NM, toInt_small by lia. destruct (Z.leb_spec n 127); [|lia]. destruct (Z.ltb_spec n 0); [lia|reflexivity].
  - apply nth_error_Some in T. destruct (nth_error (s_regions s) r) as [x|] eqn:E; [|congruence].
    decompose [or] K; subst a; cbn [reach]; rewrite (G r x _ E NM); reflexivity.
  - subst a. destruct T as (x & E & T). destruct NM as [N0 N1]. cbn [reach]. rewrite (G r x _ E N0). now rewrite (B 1%nat f _ _ N1 T).
  - subst a. destruct T as (x & E & T). destruct NM as [N0 N1]. cbn [reach]. rewrite (G r x _ E N0). now rewrite (B 1%nat e _ _ N1 T).
  - subst a. destruct T as (x & n & E & El & T). destruct NM as (N0 & N1 & N2). cbn [reach]. rewrite (G r x _ E N0).
    rewrite (B 1%nat l _ _ N1) by (apply nth_error_Some; congruence). rewrite (nth_error_nth _ _ 0%nat El). unfold getSub.
    destruct N2 as [N2|[N2 ->]].
    + destruct (Nat.eqb_spec (List.length is) 2) as [L2|L2]; [assert (nth_error is 2 <> None) as X by congruence; apply nth_error_Some in X; lia|].
      now rewrite (B 2%nat s0 _ _ N2 T).
    + rewrite N2. cbn [Nat.eqb]. destruct (Nat.eqb_spec n 0); [lia|reflexivity].
  - subst a. destruct T as (x & E & T). destruct NM as [N0 N1]. cbn [reach]. rewrite (G r x _ E N0). now rewrite (B 1%nat e _ _ N1 T).
  - subst a. destruct T as (x & n & E & El & T). destruct NM as (N0 & N1 & i & N2 & ->). cbn [reach]. rewrite (G r x _ E N0).
    rewrite (B 1%nat e _ _ N1) by (apply nth_error_Some; congruence). rewrite (nth_error_nth _ _ 0%nat El). unfold getPoint, index. rewrite N2. cbv zeta.
    pose proof (SM _ _ N2). rewrite Z.mod_small by lia. destruct (Z.ltb_spec (Z.of_nat i + 1) (Z.of_nat n)); [|lia]. do 2 f_equal. lia.
  - destruct K as [-> K]. destruct T as (x & E & T). destruct NM as [N0 N1]. cbn [reach]. rewrite (G r x _ E N0). unfold index. rewrite N1.
    pose proof (SM _ _ N1). rewrite toInt_small by lia. destruct (Z.ltb_spec 0 (Z.of_nat i)); [|lia]. destruct (Z.ltb_spec (Z.of_nat i) (Z.of_nat (r_effects x))); [|lia].
    cbn. now rewrite Nat2Z.id.
  - destruct K as [-> K]. cbn [reach]. unfold getVoice, index. rewrite NM. pose proof (SM _ _ NM). rewrite toInt_small by lia.
    destruct (Z.leb_spec (s_numVoices s) (Z.of_nat v)); [lia|]. now rewrite lookup_nat, Nat2Z.id, T.
Qed.

Definition oneRegion : region := RegionOf 1 0 1 [1%nat] [3%nat] [].
Definition small : synth := Synth [oneRegion] (repeat true 160) 64 1 0 1.

(** C88: a query for the controller 512 reads behind the arrays and setting it writes there. *)
Theorem C88_cc_refuted : handle small (str "/cc512/default") (str "") = None /\ handle small (str "/cc512/value") (str "f") = None.
Proof. unfold handle. rewrite !quick_ok. vm_compute. auto. Qed.
(** C88: the number of a voice is compared as a signed one, so from 2^31 on memory outside the voices is read; and no more than 256 voices
    are made, whatever number was asked for. *)
Theorem C88_voice_refuted : handle small (str "/voice2147483648/trigger_value") (str "") = None /\
  handle (setNumVoices small 300) (str "/voice299/trigger_value") (str "") = None.
Proof. unfold handle. rewrite !quick_ok. vm_compute. auto. Qed.
(** C88: the number after the last names the first point of an envelope. *)
Theorem C88_point_refuted : handle small (str "/region0/eg0/point4294967295/level") (str "") = Some (small, Value (PPoint 0 0 0)).
Proof. unfold handle. rewrite quick_ok. vm_compute. reflexivity. Qed.

(** ** What changes *)

Lemma shuffle (l : list region) r (Q : region -> nat -> Prop) (P : nat -> Prop) :
  (exists x n, nth_error l r = Some x /\ Q x n /\ P n) <-> (exists x, nth_error l r = Some x /\ exists n, Q x n /\ P n).
Proof. split; [intros (x & n & A & B); exists x; split; [exact A|now exists n]|intros (x & A & n & B); exists x, n; auto]. Qed.

(** C88: a query changes nothing, and has an answer exactly if there is something it reaches; setting has no answer and adds or removes no
    element; *)
Theorem C88_queries : forall s path sig c is s' a, dispatch path sig = Some (c, is) -> handle s path sig = Some (s', a) ->
  (c_op c = Get -> s' = s /\ (a = NoAnswer <-> reach s (c_access c) is = Nothing)) /\
  (c_op c = Set_ -> a = NoAnswer /\ s_voices s' = s_voices s /\ s_numVoices s' = s_numVoices s /\ s_filters s' = s_filters s /\ s_eqs s' = s_eqs s /\
     s_egs s' = s_egs s /\ forall p, there s' p <-> there s p).
Proof.
  intros s path sig c is s' a D H. unfold handle in H. rewrite D in H. destruct (reach s (c_access c) is) as [|p|] eqn:RE; [| |discriminate].
  - inversion H; subst. split; intros _; [split; [reflexivity|split; reflexivity]|]. repeat split; tauto.
  - split; intros O; rewrite O in H.
    + inversion H; subst. split; [reflexivity|]. split; discriminate.
    + assert (ID : s' = s /\ a = NoAnswer \/ exists i, s' = withRegion s i (addCC (toInt (last is 0))) /\ a = NoAnswer).
      { destruct (c_map c); [|injection H as <- <-; auto]. destruct (regionOf p) as [i|]; injection H as <- <-; [right; now exists i|auto]. }
      destruct ID as [[-> ->]|(i & -> & ->)]; [repeat split; tauto|]. do 6 (split; [reflexivity|]).
      assert (U : forall (l : list region) i j cc, match nth_error (update l i (addCC cc)) j, nth_error l j with
         | Some x, Some y => r_filters x = r_filters y /\ r_eqs x = r_eqs y /\ r_effects x = r_effects y /\ r_lfos x = r_lfos y /\ r_egs x = r_egs y
         | None, None => True | _, _ => False end).
      { clear. induction l as [|y l IH]; intros [|i] [|j] cc; cbn; auto 10; try apply IH; destruct (nth_error l j); auto 10. }
      assert (LE : List.length (update (s_regions s) i (addCC (toInt (last is 0)))) = List.length (s_regions s)).
      { generalize (s_regions s) i. clear. induction l as [|y l IH]; intros [|i]; cbn; auto. }
      assert (E : forall r Q Q', (forall x y, r_filters x = r_filters y -> r_eqs x = r_eqs y -> r_effects x = r_effects y -> r_lfos x = r_lfos y -> r_egs x = r_egs y -> (Q x <-> Q' y)) ->
        ((exists x : region, nth_error (update (s_regions s) i (addCC (toInt (last is 0)))) r = Some x /\ Q x) <-> (exists x, nth_error (s_regions s) r = Some x /\ Q' x))).
      { intros r Q Q' HQ. specialize (U (s_regions s) i r (toInt (last is 0))).
        destruct (nth_error (update _ _ _) r) as [x|], (nth_error (s_regions s) r) as [y|]; try contradiction.
        - destruct U as (U1 & U2 & U3 & U4 & U5). specialize (HQ x y U1 U2 U3 U4 U5). split; intros (z & Z1 & Z2); inversion Z1; subst; eexists; (split; [reflexivity|tauto]).
        - split; intros (z & Z1 & _); discriminate. }
      intros q. destruct q; cbn [there withRegion s_regions s_voices]; try tauto; try (rewrite LE; tauto).
      * apply E. intros x y U1 U2 U3 U4 U5. now rewrite U1.
      * apply E. intros x y U1 U2 U3 U4 U5. now rewrite U2.
      * transitivity (exists x, nth_error (update (s_regions s) i (addCC (toInt (last is 0)))) r = Some x /\ exists n, nth_error (r_lfos x) l = Some n /\ (s0 < n)%nat);
          [apply shuffle|]. rewrite shuffle. apply E. intros x y U1 U2 U3 U4 U5. now rewrite U4.
      * apply E. intros x y U1 U2 U3 U4 U5. now rewrite U5.
      * transitivity (exists x, nth_error (update (s_regions s) i (addCC (toInt (last is 0)))) r = Some x /\ exists n, nth_error (r_egs x) e = Some n /\ (p0 < n)%nat);
          [apply shuffle|]. rewrite shuffle. apply E. intros x y U1 U2 U3 U4 U5. now rewrite U5.
      * apply E. intros x y U1 U2 U3 U4 U5. now rewrite U3.
Qed.
