(** C88: what messages add. *)
From Coq Require Import ZArith List Bool String Lia.
From Verif Require Import ParserModel OpcodeModel OpcodeNumbers MessageModel Message MessageReach.
Import ListNotations.
Local Open Scope Z_scope.
Local Open Scope list_scope.

Lemma nth_update {A} (l : list A) : forall i j f, nth_error (update l i f) j = if Nat.eqb i j then option_map f (nth_error l j) else nth_error l j.
Proof.
  induction l as [|x l IH]; intros [|i] [|j] f; cbn [update nth_error Nat.eqb option_map]; auto.
  destruct (Nat.eqb i j); reflexivity.
Qed.
Lemma length_update {A} (l : list A) : forall i f, List.length (update l i f) = List.length l.
Proof. induction l as [|x l IH]; intros [|i] f; cbn; auto. Qed.
Lemma regionAt_some s i r : nth_error (s_regions s) i = Some r -> regionAt s i = r.
Proof. intros H. unfold regionAt. now apply nth_error_nth. Qed.

(** The cases that add something, and the place of what is added. *)
Definition added (c : case) (is : list Z) (n : Z) (p : place) : Prop :=
  match c_access c with
  | AddFilter => exists r f, nth_error is 0 = Some (Z.of_nat r) /\ n = Z.of_nat f /\ p = PFilter r f
  | AddEQ => exists r f, nth_error is 0 = Some (Z.of_nat r) /\ n = Z.of_nat f /\ p = PEQ r f
  | AddEG => exists r f, nth_error is 0 = Some (Z.of_nat r) /\ n = Z.of_nat f /\ p = PEG r f
  | AddPoint => exists r e k, nth_error is 0 = Some (Z.of_nat r) /\ nth_error is 1 = Some (Z.of_nat e) /\ n = Z.of_nat k - 1 /\ p = PPoint r e k
  | _ => False
  end.
Lemma table_adds : forallb (fun c => match c_op c, c_access c with
  | Add, (AddFilter | AddEQ | AddEG | AddPoint) => true | Add, _ => false
  | _, (AddFilter | AddEQ | AddEG | AddPoint) => false | _, _ => true end) table = true.
Proof. vm_compute. reflexivity. Qed.

(** a region that gets more of everything *)
Definition grows (x y : region) : Prop :=
  (r_filters x <= r_filters y)%nat /\ (r_eqs x <= r_eqs y)%nat /\ r_effects x = r_effects y /\ r_lfos x = r_lfos y /\
  forall e n, nth_error (r_egs x) e = Some n -> exists m, nth_error (r_egs y) e = Some m /\ (n <= m)%nat.
Lemma grown s s' p : s_voices s' = s_voices s -> List.length (s_regions s') = List.length (s_regions s) ->
  (forall r x, nth_error (s_regions s) r = Some x -> exists y, nth_error (s_regions s') r = Some y /\ grows x y) -> there s p -> there s' p.
Proof.
  intros V L G T. destruct p; cbn [there] in *; try exact T.
  - now rewrite L.
  - destruct T as (x & E & T). destruct (G _ _ E) as (y & Ey & G1 & G2 & G3 & G4 & G5). exists y. split; [exact Ey|lia].
  - destruct T as (x & E & T). destruct (G _ _ E) as (y & Ey & G1 & G2 & G3 & G4 & G5). exists y. split; [exact Ey|lia].
  - destruct T as (x & n & E & El & T). destruct (G _ _ E) as (y & Ey & G1 & G2 & G3 & G4 & G5). exists y, n. rewrite <- G4. auto.
  - destruct T as (x & E & T). destruct (G _ _ E) as (y & Ey & G1 & G2 & G3 & G4 & G5). exists y. split; [exact Ey|].
    apply nth_error_Some in T. destruct (nth_error (r_egs x) e) as [n|] eqn:En; [|congruence]. destruct (G5 _ _ En) as (m & Em & _).
    apply nth_error_Some. congruence.
  - destruct T as (x & n & E & El & T). destruct (G _ _ E) as (y & Ey & G1 & G2 & G3 & G4 & G5). destruct (G5 _ _ El) as (m & Em & Lm). exists y, m. split; [exact Ey|]. split; [exact Em|lia].
  - destruct T as (x & E & T). destruct (G _ _ E) as (y & Ey & G1 & G2 & G3 & G4 & G5). exists y. split; [exact Ey|lia].
  - now rewrite V.
Qed.
Lemma grows_refl x : grows x x.
Proof. unfold grows. repeat split; try lia. intros e n H. exists n. auto. Qed.
Lemma grown_region s i f x : nth_error (s_regions s) i = Some x -> (forall y, grows y (f y)) ->
  forall r z, nth_error (s_regions s) r = Some z -> exists y, nth_error (update (s_regions s) i f) r = Some y /\ grows z y.
Proof.
  intros E G r z Hz. rewrite nth_update. destruct (Nat.eqb_spec i r) as [->|]; [|exists z; split; [exact Hz|apply grows_refl]].
  rewrite Hz. exists (f z). split; [reflexivity|apply G].
Qed.

(** what is known in the cases that add *)
Lemma add_cases s path sig c is s' a : dispatch path sig = Some (c, is) -> handle s path sig = Some (s', a) -> c_op c = Add ->
  (s' = s /\ a = NoAnswer /\ reach s (c_access c) is = Nothing) \/
  exists i x, nth_error is 0 = Some (Z.of_nat i) /\ nth_error (s_regions s) i = Some x /\
   ((c_access c = AddFilter /\ s' = Synth (update (s_regions s) i (fun r => RegionOf (S (r_filters r)) (r_eqs r) (r_effects r) (r_lfos r) (r_egs r) (r_ccs r)))
        (s_voices s) (s_numVoices s) (Nat.max (s_filters s) (List.length (r_egs x))) (s_eqs s) (s_egs s) /\ a = Number (Z.of_nat (r_filters x))) \/
    (c_access c = AddEQ /\ s' = Synth (update (s_regions s) i (fun r => RegionOf (r_filters r) (S (r_eqs r)) (r_effects r) (r_lfos r) (r_egs r) (r_ccs r)))
        (s_voices s) (s_numVoices s) (s_filters s) (Nat.max (s_eqs s) (List.length (r_egs x))) (s_egs s) /\ a = Number (Z.of_nat (r_eqs x))) \/
    (c_access c = AddEG /\ s' = Synth (update (s_regions s) i (fun r => RegionOf (r_filters r) (r_eqs r) (r_effects r) (r_lfos r) (r_egs r ++ [1%nat]) (r_ccs r)))
        (s_voices s) (s_numVoices s) (s_filters s) (s_eqs s) (Nat.max (s_egs s) (S (List.length (r_egs x)))) /\ a = Number (Z.of_nat (List.length (r_egs x)))) \/
    (c_access c = AddPoint /\ exists e n, nth_error is 1 = Some (Z.of_nat e) /\ nth_error (r_egs x) e = Some n /\
        s' = withRegion s i (fun r => RegionOf (r_filters r) (r_eqs r) (r_effects r) (r_lfos r) (update (r_egs r) e S) (r_ccs r)) /\ a = Number (Z.of_nat n - 1))).
Proof.
  intros D H O. unfold handle in H. rewrite D in H. apply C87_dispatch in D. destruct D as (I & _ & IN). pose proof (instance_range _ _ _ IN) as R.
  pose proof (proj1 (forallb_forall _ _) table_adds c I) as TA. cbv beta in TA. rewrite O in TA, H.
  pose proof (proj1 (forallb_forall _ _) table_needs c I) as N. apply Nat.leb_le in N. rewrite <- (instance_count _ _ _ IN) in N. unfold needs in N.
  destruct (reach s (c_access c) is) as [|p|] eqn:RE; [left; injection H as <- <-; auto| |discriminate]. right.
  assert (G : good s (c_access c) is (reach s (c_access c) is)).
  { destruct (c_access c); try discriminate; cbn [reach].
    1-3: apply good_region; [lia|exact R|]; intros i r Hr Hi; cbn [good there named]; split; [apply nth_error_Some; congruence|exact Hi].
    apply good_region; [lia|exact R|]. intros i r Hr Hi. apply good_below; [lia|exact R|]. intros j Hj Ej. cbn [good there named]. split; [now exists r|auto]. }
  rewrite RE in G. cbn [good] in G. destruct G as [T NM].
  assert (P : match c_access c with AddPoint => exists r e, p = PEG r e | _ => exists r, p = PRegion r end).
  { destruct (c_access c); try discriminate; cbn [reach] in RE; unfold getRegion, below, index in RE.
    1-3: destruct (nth_error is 0); [|discriminate]; destruct (lookup _ _); [|discriminate]; injection RE as <-; eexists; reflexivity.
    destruct (nth_error is 0); [|discriminate]; destruct (lookup _ _); [|discriminate]. destruct (nth_error is 1); [|discriminate].
    destruct (_ <? _); [|discriminate]. injection RE as <-. eauto. }
  destruct (c_access c) eqn:A; try discriminate.
  - destruct P as (i & ->). cbn [there named] in T, NM. apply nth_error_Some in T. destruct (nth_error (s_regions s) i) as [x|] eqn:E; [|congruence]. exists i, x.
    split; [exact NM|]. split; [exact E|]. left. split; [reflexivity|]. injection H as <- <-. cbn [withRegion s_regions s_voices s_numVoices s_filters s_eqs s_egs].
    rewrite (regionAt_some _ i (RegionOf (S (r_filters x)) (r_eqs x) (r_effects x) (r_lfos x) (r_egs x) (r_ccs x))).
    + cbn [r_egs r_filters]. split; [reflexivity|]. f_equal. lia.
    + cbn [withRegion s_regions]. rewrite nth_update, Nat.eqb_refl, E. reflexivity.
  - destruct P as (i & ->). cbn [there named] in T, NM. apply nth_error_Some in T. destruct (nth_error (s_regions s) i) as [x|] eqn:E; [|congruence]. exists i, x.
    split; [exact NM|]. split; [exact E|]. right. left. split; [reflexivity|]. injection H as <- <-. cbn [withRegion s_regions s_voices s_numVoices s_filters s_eqs s_egs].
    rewrite (regionAt_some _ i (RegionOf (r_filters x) (S (r_eqs x)) (r_effects x) (r_lfos x) (r_egs x) (r_ccs x))).
    + cbn [r_egs r_eqs]. split; [reflexivity|]. f_equal. lia.
    + cbn [withRegion s_regions]. rewrite nth_update, Nat.eqb_refl, E. reflexivity.
  - destruct P as (i & ->). cbn [there named] in T, NM. apply nth_error_Some in T. destruct (nth_error (s_regions s) i) as [x|] eqn:E; [|congruence]. exists i, x.
    split; [exact NM|]. split; [exact E|]. right. right. left. split; [reflexivity|]. injection H as <- <-. cbn [withRegion s_regions s_voices s_numVoices s_filters s_eqs s_egs].
    rewrite (regionAt_some _ i (RegionOf (r_filters x) (r_eqs x) (r_effects x) (r_lfos x) (r_egs x ++ [1%nat]) (r_ccs x))).
    + cbn [r_egs]. rewrite app_length. cbn [List.length]. rewrite Nat.add_1_r. split; [reflexivity|]. f_equal. lia.
    + cbn [withRegion s_regions]. rewrite nth_update, Nat.eqb_refl, E. reflexivity.
  - destruct P as (i & e & ->). cbn [there named] in T, NM. destruct T as (x & E & T). destruct NM as [N0 N1]. exists i, x. split; [exact N0|]. split; [exact E|].
    right. right. right. split; [reflexivity|]. apply nth_error_Some in T. destruct (nth_error (r_egs x) e) as [n|] eqn:En; [|congruence].
    exists e, n. split; [exact N1|]. split; [exact En|]. injection H as <- <-. split; [reflexivity|].
    rewrite (regionAt_some _ i (RegionOf (r_filters x) (r_eqs x) (r_effects x) (r_lfos x) (update (r_egs x) e S) (r_ccs x))).
    + cbn [r_egs]. rewrite (nth_error_nth (update (r_egs x) e S) e 0%nat (x := S n)); [f_equal; lia|]. rewrite nth_update, Nat.eqb_refl, En. reflexivity.
    + cbn [withRegion s_regions]. rewrite nth_update, Nat.eqb_refl, E. reflexivity.
Qed.

(** C88: adding answers the number of the new element, which was not there before and is there now; everything else is still there under
    its old number.  Without an answer nothing was added. *)
Theorem C88_added : forall s path sig c is s' a, dispatch path sig = Some (c, is) -> handle s path sig = Some (s', a) -> c_op c = Add ->
  (a = NoAnswer /\ s' = s) \/
  exists n p, a = Number n /\ added c is n p /\ ~ there s p /\ there s' p /\ forall q, there s q -> there s' q.
Proof.
  intros s path sig c is s' a D H O. destruct (add_cases _ _ _ _ _ _ _ D H O) as [(-> & -> & _)|(i & x & N0 & E & K)]; [left; auto|right].
  destruct K as [(A & -> & ->)|[(A & -> & ->)|[(A & -> & ->)|(A & e & n & N1 & En & -> & ->)]]].
  - exists (Z.of_nat (r_filters x)), (PFilter i (r_filters x)). split; [reflexivity|]. split; [unfold added; rewrite A; eauto 6|].
    split; [|split].
    + intros (y & Ey & Y). rewrite E in Ey. injection Ey as <-. lia.
    + cbn [there s_regions]. eexists. rewrite nth_update, Nat.eqb_refl, E. split; [reflexivity|]. cbn. lia.
    + intros q. apply grown; [reflexivity|apply length_update|]. apply (grown_region s i _ x E). intros y. unfold grows. cbn. repeat split; try lia. intros k m Hk. eauto.
  - exists (Z.of_nat (r_eqs x)), (PEQ i (r_eqs x)). split; [reflexivity|]. split; [unfold added; rewrite A; eauto 6|].
    split; [|split].
    + intros (y & Ey & Y). rewrite E in Ey. injection Ey as <-. lia.
    + cbn [there s_regions]. eexists. rewrite nth_update, Nat.eqb_refl, E. split; [reflexivity|]. cbn. lia.
    + intros q. apply grown; [reflexivity|apply length_update|]. apply (grown_region s i _ x E). intros y. unfold grows. cbn. repeat split; try lia. intros k m Hk. eauto.
  - exists (Z.of_nat (List.length (r_egs x))), (PEG i (List.length (r_egs x))). split; [reflexivity|]. split; [unfold added; rewrite A; eauto 6|].
    split; [|split].
    + intros (y & Ey & Y). rewrite E in Ey. injection Ey as <-. lia.
    + cbn [there s_regions]. eexists. rewrite nth_update, Nat.eqb_refl, E. split; [reflexivity|]. cbn. rewrite app_length. cbn. lia.
    + intros q. apply grown; [reflexivity|apply length_update|]. apply (grown_region s i _ x E). intros y. unfold grows. cbn. repeat split; try lia.
      intros k m Hk. exists m. split; [|lia]. rewrite nth_error_app1; [exact Hk|]. apply nth_error_Some. congruence.
  - exists (Z.of_nat n - 1), (PPoint i e n). split; [reflexivity|]. split; [unfold added; rewrite A; eauto 8|].
    split; [|split].
    + intros (y & m & Ey & Em & Y). rewrite E in Ey. injection Ey as <-. rewrite En in Em. injection Em as <-. lia.
    + cbn [there withRegion s_regions]. exists (RegionOf (r_filters x) (r_eqs x) (r_effects x) (r_lfos x) (update (r_egs x) e S) (r_ccs x)), (S n).
      split; [rewrite nth_update, Nat.eqb_refl, E; reflexivity|]. cbn [r_egs]. split; [rewrite nth_update, Nat.eqb_refl, En; reflexivity|lia].
    + intros q. apply grown; [reflexivity|apply length_update|]. apply (grown_region s i _ x E). intros y. unfold grows. cbn [r_filters r_eqs r_effects r_lfos r_egs].
      repeat split; try lia. intros k m Hk. rewrite nth_update, Hk. destruct (Nat.eqb e k); [exists (S m)|exists m]; (split; [reflexivity|lia]).
Qed.

(** Every voice has the envelopes that a region needs. *)
Definition envelopesFit (s : synth) : Prop := forall r, In r (s_regions s) -> (List.length (r_egs r) <= s_egs s)%nat.
Definition filtersFit (s : synth) : Prop := forall r, In r (s_regions s) -> (r_filters r <= s_filters s)%nat.
Definition equalizersFit (s : synth) : Prop := forall r, In r (s_regions s) -> (r_eqs r <= s_eqs s)%nat.

Lemma in_update {A} (l : list A) i f y : In y (update l i f) -> In y l \/ exists x, nth_error l i = Some x /\ y = f x.
Proof.
  revert i. induction l as [|x l IH]; intros [|i] H; cbn [update] in H; [destruct H|destruct H| |].
  - destruct H as [<-|H]; [right; exists x; auto|left; now right].
  - destruct H as [<-|H]; [left; now left|]. destruct (IH i H) as [X|X]; [left; now right|right; exact X].
Qed.

(** C88: whatever messages come, every voice keeps as many flexible envelopes as the largest region has. *)
Theorem C88_envelopes_fit : forall s path sig s' a, envelopesFit s -> handle s path sig = Some (s', a) -> envelopesFit s'.
Proof.
  intros s path sig s' a FIT H. destruct (dispatch path sig) as [[c is]|] eqn:D; [|unfold handle in H; rewrite D in H; injection H as <- <-; exact FIT].
  destruct (c_op c) eqn:O.
  - destruct (C88_queries _ _ _ _ _ _ _ D H) as [Q _]. destruct (Q O) as [-> _]. exact FIT.
  - unfold handle in H. rewrite D, O in H. destruct (reach s (c_access c) is) as [|p|]; [injection H as <- <-; exact FIT| |discriminate].
    destruct (c_map c); [|injection H as <- <-; exact FIT]. destruct (regionOf p) as [i|]; [|injection H as <- <-; exact FIT].
    injection H as <- <-. intros r Hr. cbn [withRegion s_regions s_egs] in *. apply in_update in Hr. destruct Hr as [Hr|(x & Ex & ->)]; [now apply FIT|].
    cbn [addCC r_egs]. apply FIT. eapply nth_error_In, Ex.
  - destruct (add_cases _ _ _ _ _ _ _ D H O) as [(-> & -> & _)|(i & x & N0 & E & K)]; [exact FIT|].
    pose proof (FIT x (nth_error_In _ _ E)) as FX.
    destruct K as [(A & -> & ->)|[(A & -> & ->)|[(A & -> & ->)|(A & e & n & N1 & En & -> & ->)]]]; intros r Hr; cbn [withRegion s_regions s_egs] in *;
      apply in_update in Hr; destruct Hr as [Hr|(y & Ey & ->)]; cbn [r_egs]; try (specialize (FIT r Hr); lia); rewrite E in Ey; injection Ey as <-.
    + exact FX.
    + exact FX.
    + rewrite app_length. cbn [List.length]. lia.
    + rewrite length_update. exact FX.
Qed.

(** C88: not so for filters and equalizers: adding one to a region takes the number of its envelopes for that of its filters, and a voice of
    this region then uses filters it does not have. *)
Theorem C88_filters_fit_refuted : exists s', handle small (str "/region0/add_filter") (str "") = Some (s', Number 1) /\ filtersFit small /\ ~ filtersFit s'.
Proof.
  eexists. split; [unfold handle; rewrite quick_ok; vm_compute; reflexivity|]. split; [intros r [<-|[]]; cbn; lia|]. intros F. specialize (F _ (or_introl eq_refl)). cbn in F. lia.
Qed.
Theorem C88_equalizers_fit_refuted : exists s s1 s2, handle s (str "/region0/add_eq") (str "") = Some (s1, Number 0) /\
  handle s1 (str "/region0/add_eq") (str "") = Some (s2, Number 1) /\ equalizersFit s /\ ~ equalizersFit s2.
Proof.
  exists small. do 2 eexists. split; [unfold handle; rewrite quick_ok; vm_compute; reflexivity|]. split; [unfold handle; rewrite quick_ok; vm_compute; reflexivity|]. split; [intros r [<-|[]]; cbn; lia|].
  intros F. specialize (F _ (or_introl eq_refl)). cbn in F. lia.
Qed.

(** C88: a message can enter controllers that do not exist; their values are then read when a note starts. *)
Theorem C88_controllers_refuted : exists s1 s2, handle small (str "/region0/delay_cc99999") (str "f") = Some (s1, NoAnswer) /\
  handle s1 (str "/region0/delay_cc4294967295") (str "f") = Some (s2, NoAnswer) /\ map r_ccs (s_regions s2) = [[-1; 99999]].
Proof. do 2 eexists. split; [unfold handle; rewrite quick_ok; vm_compute; reflexivity|]. split; [unfold handle; rewrite quick_ok; vm_compute; reflexivity|]. vm_compute. reflexivity. Qed.

(** adding an envelope and a point, and asking for it *)
Example C88_ex : exists s1 s2, handle small (str "/region0/add_eg") (str "") = Some (s1, Number 1) /\
  handle s1 (str "/region0/eg1/add_point") (str "") = Some (s2, Number 0) /\
  handle s2 (str "/region0/eg1/point0/level_cc4") (str "") = Some (s2, Value (PPoint 0 1 1)) /\
  handle s2 (str "/region0/eg1/point1/time") (str "") = Some (s2, NoAnswer) /\ handle s2 (str "/region1/delay") (str "") = Some (s2, NoAnswer).
Proof. do 2 eexists. split; [unfold handle; rewrite quick_ok; vm_compute; reflexivity|]. split; [unfold handle; rewrite quick_ok; vm_compute; reflexivity|]. unfold handle. rewrite !quick_ok. vm_compute. auto. Qed.
