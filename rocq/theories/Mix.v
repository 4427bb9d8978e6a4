(** C82, C83: what a block consists of, and which effects a bus has.  Model: MixModel.v. *)
From Coq Require Import List Arith ZArith Bool Lia.
From Verif Require Import MixModel.
Import ListNotations.

Section Facts.
Variable A : Type.
Variable zero : A.
Variables add mul : A -> A -> A.
Variable isz : A -> bool.
Variable fx : Type.
Variable run : fx -> stereo A -> fx * stereo A.

Hypothesis add_assoc : forall a b c, add (add a b) c = add a (add b c).
Hypothesis add_comm : forall a b, add a b = add b a.
Hypothesis add_zero : forall a, add a zero = a.
Hypothesis mul_zero : forall a, mul zero a = zero.
Hypothesis isz_zero : forall a, isz a = true -> a = zero.

(** ** Spec *)
(** A block of n frames; its sample of channel c (false: left) at frame f. *)
Definition isBlock (n : nat) (s : stereo A) : Prop := length (fst s) = n /\ length (snd s) = n.
Definition sat (s : stereo A) (c : bool) (f : nat) : A := nth f (if c then snd s else fst s) zero.
Definition sum (l : list A) : A := fold_right add zero l.
Fixpoint imap {T U : Type} (g : nat -> T -> U) (k : nat) (l : list T) : list U := match l with [] => [] | x :: l => g k x :: imap g (S k) l end.

(** What the voices send to bus k of output i. *)
Definition sent (vs : list (voice A)) (i k : nat) (c : bool) (f : nat) : A :=
  sum (map (fun v => if v_output A v =? i then mul (nth k (v_gains A v) zero) (sat (v_block A v) c f) else zero) vs).
Definition busInput (n : nat) (vs : list (voice A)) (i k : nat) : stereo A :=
  (map (sent vs i k false) (seq 0 n), map (sent vs i k true) (seq 0 n)).
(** Effects in series. *)
Fixpoint series (fs : list fx) (x : stereo A) : stereo A := match fs with [] => x | f :: fs => series fs (snd (run f x)) end.
Fixpoint advanced (fs : list fx) (x : stereo A) : list fx := match fs with [] => [] | f :: fs => fst (run f x) :: advanced fs (snd (run f x)) end.
(** What bus k of output i gives to that output. *)
Definition given (n : nat) (vs : list (voice A)) (i : nat) (c : bool) (f : nat) (k : nat) (ob : option (bus A fx)) : A :=
  match ob with
  | Some b => let x := sat (series (b_fx A fx b) (busInput n vs i k)) c f in add (mul (b_main A fx b) x) (mul (b_mix A fx b) x)
  | None => zero
  end.

Hypothesis run_block : forall f x n, isBlock n x -> isBlock n (snd (run f x)).

(** ** Sums *)
Lemma zero_add a : add zero a = a.
Proof. rewrite add_comm. apply add_zero. Qed.

Lemma swap4 a b c d : add (add a b) (add c d) = add (add a c) (add b d).
Proof. rewrite !add_assoc. f_equal. rewrite <- !add_assoc, (add_comm b c). reflexivity. Qed.

Lemma sum_app l m : sum (l ++ m) = add (sum l) (sum m).
Proof. induction l as [|a l IH]; cbn [sum app fold_right]; [symmetry; apply zero_add|]. unfold sum in *. rewrite IH. symmetry. apply add_assoc. Qed.

(** ** Lists *)
Lemma madd_length g xs os : length xs = length os -> length (madd A add mul g xs os) = length os.
Proof. revert os. induction xs as [|x xs IH]; intros [|o os] H; try discriminate; cbn in *; [reflexivity|]. f_equal. apply IH. lia. Qed.
Lemma madd_nth g xs os f : length xs = length os -> f < length os -> nth f (madd A add mul g xs os) zero = add (nth f os zero) (mul g (nth f xs zero)).
Proof.
  revert os f. induction xs as [|x xs IH]; intros [|o os] f H L; try discriminate; cbn in *; try lia.
  destruct f as [|f]; [reflexivity|]. apply IH; lia.
Qed.
Lemma addl_length xs os : length xs = length os -> length (addl A add xs os) = length os.
Proof. revert os. induction xs as [|x xs IH]; intros [|o os] H; try discriminate; cbn in *; [reflexivity|]. f_equal. apply IH. lia. Qed.
Lemma addl_nth xs os f : length xs = length os -> f < length os -> nth f (addl A add xs os) zero = add (nth f os zero) (nth f xs zero).
Proof.
  revert os f. induction xs as [|x xs IH]; intros [|o os] f H L; try discriminate; cbn in *; try lia.
  destruct f as [|f]; [reflexivity|]. apply IH; lia.
Qed.

Lemma madd2_block n g x o : isBlock n x -> isBlock n o -> isBlock n (madd2 A add mul g x o).
Proof. intros [H1 H2] [H3 H4]. split; cbn [madd2 fst snd]; rewrite madd_length by congruence; assumption. Qed.
Lemma madd2_at n g x o c f : isBlock n x -> isBlock n o -> f < n -> sat (madd2 A add mul g x o) c f = add (sat o c f) (mul g (sat x c f)).
Proof. intros [H1 H2] [H3 H4] L. unfold sat. destruct c; cbn [madd2 fst snd]; apply madd_nth; lia. Qed.

Lemma silence_block n : isBlock n (silence A zero n).
Proof. split; apply repeat_length. Qed.
Lemma nth_rep f n : nth f (repeat zero n) zero = zero.
Proof. revert f. induction n as [|n IH]; intros [|f]; cbn; auto. Qed.
Lemma silence_at n c f : sat (silence A zero n) c f = zero.
Proof. unfold sat. destruct c; apply nth_rep. Qed.

Lemma upd_length {T} (l : list T) i x : length (upd l i x) = length l.
Proof. revert i. induction l as [|y l IH]; intros [|i]; cbn; auto. Qed.
Lemma upd_same {T} (l : list T) i x : i < length l -> nth_error (upd l i x) i = Some x.
Proof. revert i. induction l as [|y l IH]; intros [|i] H; cbn in *; try lia; [reflexivity|]. apply IH. lia. Qed.
Lemma upd_other {T} (l : list T) i j x : i <> j -> nth_error (upd l i x) j = nth_error l j.
Proof. revert i j. induction l as [|y l IH]; intros [|i] [|j] H; cbn; try reflexivity; try lia. apply IH. lia. Qed.
Lemma nth_nth_error {T} (l : list T) i x d : nth_error l i = Some x -> nth i l d = x.
Proof. apply nth_error_nth. Qed.

Lemma imap_ext {T U} (g h : nat -> T -> U) l : (forall k x, g k x = h k x) -> forall k, imap g k l = imap h k l.
Proof. intros H. induction l as [|x l IH]; intros k; cbn; [reflexivity|]. rewrite H, IH. reflexivity. Qed.
Lemma imap_imap {T U V} (g : nat -> U -> V) (h : nat -> T -> U) l k : imap g k (imap h k l) = imap (fun k x => g k (h k x)) k l.
Proof. revert k. induction l as [|x l IH]; intros k; cbn; [reflexivity|]. rewrite IH. reflexivity. Qed.
Lemma imap_id {T} (l : list T) k : imap (fun _ x => x) k l = l.
Proof. revert k. induction l as [|x l IH]; intros k; cbn; [reflexivity|]. rewrite IH. reflexivity. Qed.
Lemma imap_map {T U} (g : T -> U) (l : list T) k : map g l = imap (fun _ => g) k l.
Proof. revert k. induction l as [|x l IH]; intros k; cbn; [reflexivity|]. rewrite (IH (S k)). reflexivity. Qed.

(** ** Voices into buses *)
Definition setIn (x : stereo A) (b : bus A fx) : bus A fx := Bus A fx (b_fx A fx b) (b_main A fx b) (b_mix A fx b) x (b_out A fx b).
Definition take (v : voice A) (i k : nat) (x : stereo A) : stereo A :=
  if v_output A v =? i then (if isz (gainTo A zero v k) then x else madd2 A add mul (gainTo A zero v k) (v_block A v) x) else x.
Definition accum (vs : list (voice A)) (i k : nat) (x : stereo A) : stereo A := fold_left (fun x v => take v i k x) vs x.
Definition accumBuses (vs : list (voice A)) (i : nat) : list (option (bus A fx)) -> list (option (bus A fx)) :=
  imap (fun k ob => option_map (fun b => setIn (accum vs i k (b_in A fx b)) b) ob) 0.

Lemma addVoice_imap v k bs : addVoice A zero add mul isz fx v k bs =
  imap (fun k ob => option_map (fun b => setIn (take v (v_output A v) k (b_in A fx b)) b) ob) k bs.
Proof.
  revert k. induction bs as [|[b|] bs IH]; intros k; cbn [addVoice imap option_map]; [reflexivity| |f_equal; apply IH].
  f_equal; [|apply IH]. f_equal. unfold addToInputs, take. rewrite Nat.eqb_refl. destruct (isz _); [destruct b; reflexivity|reflexivity].
Qed.

Lemma addVoices_spec vs : forall outs, Forall (fun v => v_output A v < length outs) vs ->
  exists outs', addVoices A zero add mul isz fx vs outs = Some outs' /\ length outs' = length outs /\
    forall i, nth_error outs' i = option_map (accumBuses vs i) (nth_error outs i).
Proof.
  induction vs as [|v vs IH]; intros outs HF.
  { exists outs. split; [reflexivity|]. split; [reflexivity|]. intros i. destruct (nth_error outs i) as [bs|]; [|reflexivity]. cbn [option_map].
    f_equal. unfold accumBuses. rewrite <- (imap_id bs 0) at 1. apply imap_ext. intros k [b|]; cbn [option_map]; [|reflexivity]. destruct b; reflexivity. }
  inversion HF as [|v' vs' HV HFS]; subst. cbn [addVoices].
  destruct (nth_error outs (v_output A v)) as [bs|] eqn:EB; [|apply nth_error_None in EB; lia].
  destruct (IH (upd outs (v_output A v) (addVoice A zero add mul isz fx v 0 bs))) as (outs' & E & EL & HN).
  { rewrite upd_length. exact HFS. }
  exists outs'. split; [exact E|]. split; [rewrite EL; apply upd_length|]. intros i. rewrite HN.
  destruct (Nat.eq_dec (v_output A v) i) as [<-|N].
  - rewrite upd_same, EB by exact HV. cbn [option_map]. f_equal. rewrite addVoice_imap. unfold accumBuses. rewrite imap_imap. apply imap_ext.
    intros k [b|]; [|reflexivity]. reflexivity.
  - rewrite upd_other by exact N. destruct (nth_error outs i) as [cs|]; [|reflexivity]. cbn [option_map]. f_equal. unfold accumBuses. apply imap_ext.
    intros k [b|]; cbn [option_map]; [|reflexivity]. unfold accum. cbn [fold_left].
    assert (T : take v i k (b_in A fx b) = b_in A fx b) by (unfold take; apply Nat.eqb_neq in N; rewrite N; reflexivity). rewrite T. reflexivity.
Qed.

Lemma accum_spec n vs i k : Forall (fun v => isBlock n (v_block A v)) vs -> forall x, isBlock n x ->
  isBlock n (accum vs i k x) /\ forall c f, f < n -> sat (accum vs i k x) c f = add (sat x c f) (sent vs i k c f).
Proof.
  intros HF. induction HF as [|v vs HV HF IH]; intros x HX.
  { split; [exact HX|]. intros c f L. unfold sent. cbn [map sum fold_right]. rewrite add_zero. reflexivity. }
  assert (TB : isBlock n (take v i k x)) by (unfold take; destruct (_ =? i); [destruct (isz _)|]; auto; apply madd2_block; assumption).
  destruct (IH _ TB) as [IB IS]. split; [exact IB|]. intros c f L. unfold accum. cbn [fold_left]. fold (accum vs i k (take v i k x)). rewrite IS by exact L.
  unfold sent. cbn [map sum fold_right]. rewrite <- add_assoc. f_equal. unfold take. destruct (v_output A v =? i); [|rewrite add_zero; reflexivity].
  unfold gainTo. destruct (isz (nth k (v_gains A v) zero)) eqn:Z.
  - rewrite (isz_zero _ Z), mul_zero, add_zero. reflexivity.
  - apply (madd2_at n); assumption.
Qed.

Lemma accum_input n vs i k : Forall (fun v => isBlock n (v_block A v)) vs -> accum vs i k (silence A zero n) = busInput n vs i k.
Proof.
  intros HF. destruct (accum_spec n vs i k HF _ (silence_block n)) as [[H1 H2] HS].
  destruct (accum vs i k (silence A zero n)) as [l r] eqn:E. cbn [fst snd] in H1, H2.
  assert (X : forall (c : bool) f, f < n -> nth f (if c then r else l) zero = sent vs i k c f).
  { intros c f L. specialize (HS c f L). rewrite silence_at, zero_add in HS. unfold sat in HS. cbn [fst snd] in HS. exact HS. }
  unfold busInput. f_equal.
  - apply (nth_ext _ _ zero zero); [rewrite map_length, seq_length; exact H1|]. intros f L. rewrite H1 in L. rewrite (X false f L).
    rewrite (nth_indep _ zero (sent vs i k false 0)) by (rewrite map_length, seq_length; exact L). rewrite map_nth, seq_nth by exact L. reflexivity.
  - apply (nth_ext _ _ zero zero); [rewrite map_length, seq_length; exact H2|]. intros f L. rewrite H2 in L. rewrite (X true f L).
    rewrite (nth_indep _ zero (sent vs i k true 0)) by (rewrite map_length, seq_length; exact L). rewrite map_nth, seq_nth by exact L. reflexivity.
Qed.

(** ** Buses into outputs *)
Lemma inPlace_spec fs x : inPlace A fx run fs x = (advanced fs x, series fs x).
Proof.
  revert x. induction fs as [|f fs IH]; intros x; cbn [inPlace advanced series]; [reflexivity|]. destruct (run f x) as [f' x'] eqn:E. rewrite IH. reflexivity.
Qed.
Lemma series_block n fs : forall x, isBlock n x -> isBlock n (series fs x).
Proof. induction fs as [|f fs IH]; intros x H; cbn [series]; [exact H|]. apply IH, run_block, H. Qed.

Definition processed (b : bus A fx) : bus A fx :=
  let on := negb (isz (b_main A fx b)) || negb (isz (b_mix A fx b)) in
  Bus A fx (if on then advanced (b_fx A fx b) (b_in A fx b) else b_fx A fx b) (b_main A fx b) (b_mix A fx b) (b_in A fx b)
    (if on then series (b_fx A fx b) (b_in A fx b) else b_in A fx b).
Lemma process_spec b : process A isz fx run b = processed b.
Proof.
  unfold process, processed. destruct (b_fx A fx b) as [|f fs]; cbn [advanced series].
  - destruct (_ || _); reflexivity.
  - destruct (negb (isz (b_main A fx b)) || negb (isz (b_mix A fx b))); [|reflexivity].
    destruct (run f (b_in A fx b)) as [f' o]. rewrite inPlace_spec. reflexivity.
Qed.

Lemma processed_gain b c f :
  mul (b_main A fx b) (sat (b_out A fx (processed b)) c f) = mul (b_main A fx b) (sat (series (b_fx A fx b) (b_in A fx b)) c f) /\
  mul (b_mix A fx b) (sat (b_out A fx (processed b)) c f) = mul (b_mix A fx b) (sat (series (b_fx A fx b) (b_in A fx b)) c f).
Proof.
  unfold processed. cbn [b_out]. destruct (isz (b_main A fx b)) eqn:Z1; cbn [negb orb]; [|auto].
  destruct (isz (b_mix A fx b)) eqn:Z2; cbn [negb orb]; [|auto].
  rewrite (isz_zero _ Z1), (isz_zero _ Z2), !mul_zero. auto.
Qed.

(** what the buses add to the main and the mix signal *)
Definition part (gain : bus A fx -> A) (c : bool) (f : nat) (ob : option (bus A fx)) : A :=
  match ob with Some b => mul (gain b) (sat (series (b_fx A fx b) (b_in A fx b)) c f) | None => zero end.
Definition goodBus (n : nat) (ob : option (bus A fx)) : Prop := match ob with Some b => isBlock n (b_in A fx b) | None => True end.

Lemma mixBuses_spec n bs : Forall (goodBus n) bs -> forall main mix, isBlock n main -> isBlock n mix ->
  exists main' mix', mixBuses A add mul isz fx run bs main mix = (map (option_map processed) bs, main', mix') /\
    isBlock n main' /\ isBlock n mix' /\
    (forall c f, f < n -> sat main' c f = add (sat main c f) (sum (map (part (b_main A fx) c f) bs)) /\
                          sat mix' c f = add (sat mix c f) (sum (map (part (b_mix A fx) c f) bs))).
Proof.
  intros HF. induction HF as [|ob bs HB HF IH]; intros main mix HM HX.
  { exists main, mix. cbn. repeat split; auto; try apply HM; try apply HX; rewrite add_zero; reflexivity. }
  destruct ob as [b|]; cbn [mixBuses map option_map].
  - rewrite process_spec. cbn [mixOutputsTo].
    assert (BO : isBlock n (b_out A fx (processed b))).
    { unfold processed. cbn [b_out]. destruct (_ || _); [apply series_block|]; exact HB. }
    destruct (IH (madd2 A add mul (b_main A fx (processed b)) (b_out A fx (processed b)) main)
                 (madd2 A add mul (b_mix A fx (processed b)) (b_out A fx (processed b)) mix)) as (main' & mix' & E & B1 & B2 & S).
    { apply madd2_block; assumption. } { apply madd2_block; assumption. }
    unfold mixOutputsTo. rewrite E. exists main', mix'. split; [reflexivity|]. split; [exact B1|]. split; [exact B2|].
    intros c f L. destruct (S c f L) as [S1 S2]. destruct (processed_gain b c f) as [G1 G2].
    rewrite S1, S2, !(madd2_at n) by assumption. change (b_main A fx (processed b)) with (b_main A fx b). change (b_mix A fx (processed b)) with (b_mix A fx b).
    rewrite G1, G2. cbn [sum fold_right part]. rewrite !add_assoc. auto.
  - destruct (IH main mix HM HX) as (main' & mix' & E & B1 & B2 & S). rewrite E. exists main', mix'. split; [reflexivity|]. split; [exact B1|]. split; [exact B2|].
    intros c f L. destruct (S c f L) as [S1 S2]. cbn [sum fold_right part]. rewrite S1, S2, !zero_add. auto.
Qed.

Definition both (c : bool) (f : nat) (bs : list (option (bus A fx))) : A :=
  add (sum (map (part (b_main A fx) c f) bs)) (sum (map (part (b_mix A fx) c f) bs)).

Lemma mixOutputs_spec n p : 0 < p -> forall k i outs buf, i + k <= length outs -> length buf = 2 * p -> Forall (fun ch => length ch = n) buf ->
  (forall j bs, i <= j < i + k -> nth_error outs j = Some bs -> Forall (goodBus n) bs) ->
  exists outs' buf', mixOutputs A zero add mul isz fx run n k i outs buf = Some (outs', buf') /\ length buf' = 2 * p /\ Forall (fun ch => length ch = n) buf' /\
    (forall j, nth_error outs' j = if (i <=? j) && (j <? i + k) then option_map (map (option_map processed)) (nth_error outs j) else nth_error outs j) /\
    forall c f, c < 2 * p -> f < n -> nth f (nth c buf' []) zero =
      add (nth f (nth c buf []) zero) (sum (map (fun j => if j mod p =? c / 2 then both (Nat.odd c) f (nth j outs []) else zero) (seq i k))).
Proof.
  intros Hp. induction k as [|k IH]; intros i outs buf HK HL HC HG.
  { exists outs, buf. split; [reflexivity|]. split; [exact HL|]. split; [exact HC|]. split.
    - intros j. destruct (Nat.leb_spec i j), (Nat.ltb_spec j (i + 0)); try lia; reflexivity.
    - intros c f _ _. cbn [seq map sum fold_right]. rewrite add_zero. reflexivity. }
  cbn [mixOutputs]. destruct (Nat.eqb_spec (length buf) 0) as [X|_]; [lia|].
  rewrite HL, Nat.mul_mod_distr_l by lia. pose proof (Nat.mod_upper_bound i p ltac:(lia)) as MB.
  remember (i mod p) as q eqn:EQ. unfold getStereo.
  destruct (nth_error buf (2 * q)) as [l|] eqn:E1; [|apply nth_error_None in E1; lia].
  destruct (nth_error buf (S (2 * q))) as [r|] eqn:E2; [|apply nth_error_None in E2; lia].
  destruct (nth_error outs i) as [bs|] eqn:E3; [|apply nth_error_None in E3; lia].
  assert (LL : length l = n) by (apply (proj1 (Forall_forall _ _) HC), (nth_error_In _ _ E1)).
  assert (LR : length r = n) by (apply (proj1 (Forall_forall _ _) HC), (nth_error_In _ _ E2)).
  destruct (mixBuses_spec n bs (HG i bs ltac:(lia) E3) (l, r) (silence A zero n)) as (main & mix & E & B1 & B2 & S); [split; assumption|apply silence_block|].
  rewrite E. set (ml := addl A add (fst mix) (fst main)). set (mr := addl A add (snd mix) (snd main)).
  destruct B1 as [B1 B1']. destruct B2 as [B2 B2'].
  assert (ML : length ml = n) by (unfold ml; rewrite addl_length; congruence).
  assert (MR : length mr = n) by (unfold mr; rewrite addl_length; congruence).
  set (buf1 := upd (upd buf (2 * q) ml) (Datatypes.S (2 * q)) mr).
  assert (NB : forall c, c < 2 * p -> nth_error buf1 c = if c =? Datatypes.S (2 * q) then Some mr else if c =? 2 * q then Some ml else nth_error buf c).
  { intros c Hc. unfold buf1. destruct (Nat.eqb_spec c (Datatypes.S (2 * q))) as [->|N1]; [rewrite upd_same; [reflexivity|rewrite upd_length; lia]|].
    rewrite upd_other by congruence. destruct (Nat.eqb_spec c (2 * q)) as [->|N2]; [rewrite upd_same; [reflexivity|lia]|]. rewrite upd_other by congruence. reflexivity. }
  assert (LB : length buf1 = 2 * p) by (unfold buf1; rewrite !upd_length; exact HL).
  destruct (IH (Datatypes.S i) (upd outs i (map (option_map processed) bs)) buf1) as (outs' & buf' & E' & L' & C' & N' & V').
  - rewrite upd_length. lia.
  - exact LB.
  - apply Forall_forall. intros ch Hin. apply In_nth_error in Hin. destruct Hin as [c Hc]. assert (c < 2 * p) by (rewrite <- LB; apply nth_error_Some; congruence).
    rewrite NB in Hc by assumption. destruct (c =? _); [congruence|]. destruct (c =? _); [congruence|].
    apply (proj1 (Forall_forall _ _) HC), (nth_error_In _ _ Hc).
  - intros j bs' Hj. rewrite upd_other by lia. apply HG. lia.
  - exists outs', buf'. split; [exact E'|]. split; [exact L'|]. split; [exact C'|]. split.
    + intros j. rewrite N'. destruct (Nat.eq_dec j i) as [->|NE].
      * destruct (Nat.leb_spec (Datatypes.S i) i); [lia|]. cbn [andb]. rewrite upd_same by lia.
        destruct (Nat.leb_spec i i), (Nat.ltb_spec i (i + Datatypes.S k)); try lia. cbn [andb]. rewrite E3. reflexivity.
      * rewrite upd_other by congruence.
        destruct (Nat.leb_spec (Datatypes.S i) j), (Nat.leb_spec i j), (Nat.ltb_spec j (Datatypes.S i + k)), (Nat.ltb_spec j (i + Datatypes.S k)); try lia; reflexivity.
    + intros c f Hc Hf. rewrite V' by assumption. cbn [seq map sum fold_right]. rewrite <- add_assoc. f_equal.
      * assert (CV : nth c buf1 [] = if c =? Datatypes.S (2 * q) then mr else if c =? 2 * q then ml else nth c buf []).
        { pose proof (NB c Hc) as X. destruct (c =? Datatypes.S (2 * q)); [apply nth_nth_error, X|]. destruct (c =? 2 * q); [apply nth_nth_error, X|].
          destruct (nth_error buf c) as [ch|] eqn:EC; [|apply nth_error_None in EC; lia]. rewrite (nth_nth_error _ _ _ _ X), (nth_nth_error _ _ _ _ EC). reflexivity. }
        rewrite CV. rewrite <- EQ. rewrite (nth_nth_error _ _ _ _ E3).
        pose proof (Nat.div_mod c 2 ltac:(lia)) as DM. pose proof (Nat.mod_upper_bound c 2 ltac:(lia)) as MU.
        destruct (Nat.eqb_spec c (Datatypes.S (2 * q))) as [->|N1].
        { replace (Datatypes.S (2 * q) / 2) with q by (apply (Nat.div_unique _ 2 q 1); lia). rewrite Nat.eqb_refl.
          destruct (S true f Hf) as [S1 S2]. rewrite silence_at, zero_add in S2.
          replace (Nat.odd (Datatypes.S (2 * q))) with true by (symmetry; apply Nat.odd_spec; exists q; lia).
          unfold mr. rewrite addl_nth by lia. unfold sat in S1, S2. cbn [fst snd] in S1, S2. rewrite S1, S2, (nth_nth_error _ _ _ _ E2). apply add_assoc. }
        destruct (Nat.eqb_spec c (2 * q)) as [->|N2].
        { replace (2 * q / 2) with q by (apply (Nat.div_unique _ 2 q 0); lia). rewrite Nat.eqb_refl.
          destruct (S false f Hf) as [S1 S2]. rewrite silence_at, zero_add in S2.
          replace (Nat.odd (2 * q)) with false.
          2:{ symmetry. rewrite <- Nat.negb_even. apply negb_false_iff, Nat.even_spec. exists q; lia. }
          unfold ml. rewrite addl_nth by lia. unfold sat in S1, S2. cbn [fst snd] in S1, S2. rewrite S1, S2, (nth_nth_error _ _ _ _ E1). apply add_assoc. }
        destruct (Nat.eqb_spec q (c / 2)) as [X|_]; [exfalso; lia|]. rewrite add_zero. reflexivity.
      * unfold sum. f_equal. apply map_ext_in. intros j Hj. apply in_seq in Hj.
        assert (EN : nth j (upd outs i (map (option_map processed) bs)) [] = nth j outs []).
        { destruct (nth_error outs j) as [x|] eqn:EX.
          - rewrite (nth_nth_error outs j x) by exact EX. apply nth_nth_error. rewrite upd_other by lia. exact EX.
          - rewrite !nth_overflow; [reflexivity| |rewrite upd_length]; apply nth_error_None; exact EX. }
        rewrite EN. reflexivity.
Qed.

Lemma sum_imap_add {T} (g h : nat -> T -> A) l k : add (sum (imap g k l)) (sum (imap h k l)) = sum (imap (fun k x => add (g k x) (h k x)) k l).
Proof.
  revert k. induction l as [|x l IH]; intros k; cbn [imap sum fold_right]; [apply add_zero|]. fold (sum (imap g (S k) l)) (sum (imap h (S k) l)).
  rewrite swap4, IH. reflexivity.
Qed.

Lemma nth_map_list (g : list A -> list A) l c : g [] = [] -> nth c (map g l) [] = g (nth c l []).
Proof. intros H. rewrite <- H at 1. apply map_nth. Qed.

Lemma render_spec n p numOutputs volume vs outs : 0 < p -> numOutputs <= length outs ->
  Forall (fun v => v_output A v < numOutputs /\ isBlock n (v_block A v)) vs ->
  exists outs' buf, renderBlock A zero add mul isz fx run n (2 * p) numOutputs volume vs outs = Some (outs', buf) /\ length buf = 2 * p /\
    (forall c f, c < 2 * p -> f < n -> nth f (nth c buf []) zero =
       mul volume (sum (map (fun i => if i mod p =? c / 2 then sum (imap (given n vs i (Nat.odd c) f) 0 (nth i outs [])) else zero) (seq 0 numOutputs)))) /\
    (forall i k b, i < numOutputs -> nth k (nth i outs []) None = Some b ->
       exists b', nth k (nth i outs' []) None = Some b' /\ b_main A fx b' = b_main A fx b /\ b_mix A fx b' = b_mix A fx b /\
         b_fx A fx b' = if isz (b_main A fx b) && isz (b_mix A fx b) then b_fx A fx b else advanced (b_fx A fx b) (busInput n vs i k)).
Proof.
  intros Hp HN HV. unfold renderBlock. set (cl := clearBuses A zero fx n numOutputs outs).
  assert (CL : length cl = length outs).
  { unfold cl, clearBuses. rewrite app_length, map_length, firstn_length, skipn_length. lia. }
  assert (CN : forall i, i < numOutputs -> nth_error cl i = option_map (map (option_map (clearInputs A zero fx n))) (nth_error outs i)).
  { intros i Hi. unfold cl, clearBuses. rewrite nth_error_app1 by (rewrite map_length, firstn_length; lia).
    rewrite nth_error_map. f_equal. rewrite <- (firstn_skipn numOutputs outs) at 2. rewrite nth_error_app1 by (rewrite firstn_length; lia). reflexivity. }
  assert (HB : Forall (fun v => isBlock n (v_block A v)) vs) by (eapply Forall_impl; [|exact HV]; intros v [_ X]; exact X).
  destruct (addVoices_spec vs cl) as (o1 & E1 & L1 & N1).
  { eapply Forall_impl; [|exact HV]. intros v [X _]. cbv beta. lia. }
  rewrite E1.
  assert (N2 : forall i bs, i < numOutputs -> nth_error outs i = Some bs ->
    nth_error o1 i = Some (imap (fun k ob => option_map (fun b => setIn (busInput n vs i k) (clearInputs A zero fx n b)) ob) 0 bs)).
  { intros i bs Hi EB. rewrite N1, CN, EB by exact Hi. cbn [option_map]. f_equal. unfold accumBuses. rewrite (imap_map _ _ 0), imap_imap. apply imap_ext.
    intros k [b|]; [|reflexivity]. cbn [option_map clearInputs b_in]. rewrite accum_input by exact HB. reflexivity. }
  destruct (mixOutputs_spec n p Hp numOutputs 0 o1 (repeat (repeat zero n) (2 * p))) as (o2 & buf & E2 & L2 & C2 & N3 & V2).
  - lia.
  - apply repeat_length.
  - apply Forall_forall. intros ch Hin. apply repeat_spec in Hin. subst ch. apply repeat_length.
  - intros j bs Hj EB. destruct (nth_error outs j) as [bs0|] eqn:EO; [|apply nth_error_None in EO; lia].
    rewrite (N2 j bs0) in EB by (auto; lia). injection EB as <-. generalize 0. induction bs0 as [|ob bs0 IH]; intros k; cbn [imap]; constructor.
    + destruct ob as [b|]; cbn; [|trivial]. split; cbn; rewrite map_length; apply seq_length.
    + assert (G : forall l k, Forall (goodBus n) (imap (fun k ob => option_map (fun b => setIn (busInput n vs j k) (clearInputs A zero fx n b)) ob) k l)).
      { clear. induction l as [|ob l IH]; intros k; cbn [imap]; constructor; [|apply IH]. destruct ob as [b|]; cbn; [|trivial]. split; cbn; rewrite map_length; apply seq_length. }
      apply G.
  - rewrite E2. exists o2, (map (map (mul volume)) buf). split; [reflexivity|]. split; [rewrite map_length; exact L2|]. split.
    + intros c f Hc Hf. rewrite nth_map_list by reflexivity.
      assert (LC : length (nth c buf []) = n) by (apply (proj1 (Forall_forall _ _) C2), nth_In; lia).
      rewrite (nth_indep _ zero (mul volume zero)) by (rewrite map_length; lia). rewrite map_nth. f_equal. rewrite V2 by assumption.
      assert (ZR : nth f (nth c (repeat (repeat zero n) (2 * p)) []) zero = zero).
      { pose proof (nth_In (repeat (repeat zero n) (2 * p)) [] (n := c)) as X. rewrite repeat_length in X. specialize (X Hc). apply repeat_spec in X. rewrite X. apply nth_rep. }
      rewrite ZR, zero_add. f_equal. apply map_ext_in. intros i Hi. apply in_seq in Hi. destruct (i mod p =? c / 2); [|reflexivity].
      destruct (nth_error outs i) as [bs|] eqn:EO; [|apply nth_error_None in EO; lia].
      rewrite (nth_nth_error _ _ _ _ EO), (nth_nth_error _ _ _ _ (N2 i bs ltac:(lia) EO)). unfold both.
      rewrite !(imap_map _ _ 0), !imap_imap, sum_imap_add. f_equal. apply imap_ext. intros k [b|]; cbn [option_map part given]; [reflexivity|apply add_zero].
    + intros i k b Hi Hb. destruct (nth_error outs i) as [bs|] eqn:EO; [|apply nth_error_None in EO; lia]. rewrite (nth_nth_error _ _ _ _ EO) in Hb.
      assert (EI : forall l k j, nth k (map (option_map processed) (imap (fun k ob => option_map (fun b => setIn (busInput n vs i k) (clearInputs A zero fx n b)) ob) j l)) None =
        option_map (fun b => processed (setIn (busInput n vs i (j + k)) (clearInputs A zero fx n b))) (nth k l None)).
      { clear. induction l as [|ob l IH]; intros [|k] j; cbn [imap map nth option_map]; try reflexivity.
        - rewrite Nat.add_0_r. destruct ob; reflexivity.
        - rewrite IH. replace (S j + k) with (j + S k) by lia. reflexivity. }
      pose proof (N3 i) as X. cbn [Nat.leb andb Nat.add] in X. destruct (Nat.ltb_spec i numOutputs); [|lia]. rewrite (N2 i bs Hi EO) in X. cbn [option_map] in X.
      rewrite (nth_nth_error _ _ _ _ X), EI, Hb. cbn [option_map Nat.add]. eexists. split; [reflexivity|]. unfold processed. cbn [b_main b_mix b_fx setIn clearInputs b_in].
      repeat split. destruct (isz (b_main A fx b)), (isz (b_mix A fx b)); reflexivity.
Qed.
End Facts.

(** C82: what a block of n frames consists of.  Sample f of channel c is the volume times the sum, over the stereo outputs that go to
    the pair of channels of c (output i goes to pair i mod p), of what their buses give: the samples sent by the voices of this output,
    weighted with the gain of their region to the bus, through the effects of the bus in series, times the gains of the bus.  For
    exact addition and any effects, voices, buses and gains.  Nothing is undefined.  Effects of buses with a gain advance, others stay. *)
Theorem C82_mix : forall A zero add mul isz fx (run : fx -> stereo A -> fx * stereo A),
  (forall a b c, add (add a b) c = add a (add b c)) -> (forall a b, add a b = add b a) -> (forall a, add a zero = a) ->
  (forall a, mul zero a = zero) -> (forall a, isz a = true -> a = zero) ->
  (forall f x n, isBlock A n x -> isBlock A n (snd (run f x))) ->
  forall n p numOutputs volume vs outs, 0 < p -> numOutputs <= length outs ->
  Forall (fun v => v_output A v < numOutputs /\ isBlock A n (v_block A v)) vs ->
  exists outs' buf, renderBlock A zero add mul isz fx run n (2 * p) numOutputs volume vs outs = Some (outs', buf) /\ length buf = 2 * p /\
    (forall c f, c < 2 * p -> f < n -> nth f (nth c buf []) zero =
       mul volume (sum A zero add (map (fun i => if i mod p =? c / 2
         then sum A zero add (imap (given A zero add mul fx run n vs i (Nat.odd c) f) 0 (nth i outs [])) else zero) (seq 0 numOutputs)))) /\
    (forall i k b, i < numOutputs -> nth k (nth i outs []) None = Some b ->
       exists b', nth k (nth i outs' []) None = Some b' /\ b_main A fx b' = b_main A fx b /\ b_mix A fx b' = b_mix A fx b /\
         b_fx A fx b' = if isz (b_main A fx b) && isz (b_mix A fx b) then b_fx A fx b
                        else advanced A fx run (b_fx A fx b) (busInput A zero add mul n vs i k)).
Proof. intros. apply render_spec; assumption. Qed.

(** C82: without effects: one stereo output, the volume times the sum of the voices. *)
Theorem C82_plain : forall A zero one add mul isz fx (run : fx -> stereo A -> fx * stereo A),
  (forall a b c, add (add a b) c = add a (add b c)) -> (forall a b, add a b = add b a) -> (forall a, add a zero = a) ->
  (forall a, mul zero a = zero) -> (forall a, mul one a = a) -> (forall a, isz a = true -> a = zero) ->
  (forall f x n, isBlock A n x -> isBlock A n (snd (run f x))) ->
  forall n volume vs outs, nth_error outs 0 = Some [Some (newBus A zero fx one)] ->
  Forall (fun v => v_output A v = 0 /\ nth 0 (v_gains A v) zero = one /\ isBlock A n (v_block A v)) vs ->
  exists outs' l r, renderBlock A zero add mul isz fx run n 2 1 volume vs outs = Some (outs', [l; r]) /\
    forall f, f < n -> nth f l zero = mul volume (sum A zero add (map (fun v => nth f (fst (v_block A v)) zero) vs)) /\
                       nth f r zero = mul volume (sum A zero add (map (fun v => nth f (snd (v_block A v)) zero) vs)).
Proof.
  intros A zero one add mul isz fx run H1 H2 H3 H4 H5 H6 H7 n volume vs outs HO HV.
  destruct (C82_mix A zero add mul isz fx run H1 H2 H3 H4 H6 H7 n 1 1 volume vs outs) as (outs' & buf & E & L & V & _).
  - lia.
  - destruct outs; [discriminate|cbn; lia].
  - eapply Forall_impl; [|exact HV]. cbv beta. intros v (X & _ & Y). split; [lia|exact Y].
  - destruct buf as [|l [|r [|]]]; try discriminate. exists outs', l, r. split; [exact E|].
    assert (G : forall c f, f < n -> given A zero add mul fx run n vs 0 c f 0 (Some (newBus A zero fx one)) =
                 sum A zero add (map (fun v => nth f (if c then snd (v_block A v) else fst (v_block A v)) zero) vs)).
    { intros c f Hf. unfold given. cbn [newBus b_fx b_main b_mix series]. rewrite H5, H4, H3. unfold sat, busInput. cbn [fst snd].
      assert (X : nth f (map (sent A zero add mul vs 0 0 c) (seq 0 n)) zero = sent A zero add mul vs 0 0 c f).
      { rewrite (nth_indep _ zero (sent A zero add mul vs 0 0 c 0)) by (rewrite map_length, seq_length; exact Hf). rewrite map_nth, seq_nth by exact Hf. reflexivity. }
      transitivity (sent A zero add mul vs 0 0 c f); [destruct c; exact X|]. unfold sent. f_equal. apply map_ext_in. intros v Hin.
      apply (proj1 (Forall_forall _ _) HV) in Hin. destruct Hin as (-> & -> & _). rewrite Nat.eqb_refl, H5. reflexivity. }
    assert (NO : nth 0 outs [] = [Some (newBus A zero fx one)]) by (apply nth_error_nth; exact HO).
    intros f Hf. split.
    + pose proof (V 0 f ltac:(lia) Hf) as X. cbn [nth seq map] in X. rewrite X. change (0 mod 1 =? 0 / 2) with true. cbn iota. rewrite NO. cbn [imap sum fold_right].
      change (Nat.odd 0) with false. rewrite (G false f Hf), !H3. reflexivity.
    + pose proof (V 1 f ltac:(lia) Hf) as X. cbn [nth seq map] in X. rewrite X. change (0 mod 1 =? 1 / 2) with true. cbn iota. rewrite NO. cbn [imap sum fold_right].
      change (Nat.odd 1) with true. rewrite (G true f Hf), !H3. reflexivity.
Qed.

(** Three voices, two stereo outputs into two or four channels, a bus fx1 that doubles. *)
Example C82_ex :
  let run (f : Z) (x : stereo Z) := ((f + 1)%Z, (map (Z.mul 2) (fst x), map (Z.mul 2) (snd x))) in
  let bus m x fs := Some (Bus Z Z fs m x ([], []) ([], []))%Z in
  let outs := [[bus 1 0 []; bus 3 4 [7]]; [bus 1 0 []; None]; [bus 1 0 []]]%Z in
  let vs := [Voice Z 0 [1] ([1; 2], [3; 4]); Voice Z 0 [1; 10] ([5; 6], [7; 8]); Voice Z 1 [1] ([100; 200], [300; 400])]%Z in
  option_map snd (renderBlock Z 0%Z Z.add Z.mul (Z.eqb 0) Z run 2 4 2 2%Z vs outs) =
    Some [[1412; 1696]; [1980; 2264]; [200; 400]; [600; 800]]%Z /\
  option_map snd (renderBlock Z 0%Z Z.add Z.mul (Z.eqb 0) Z run 2 2 2 2%Z vs outs) = Some [[1612; 2096]; [2580; 3064]]%Z.
Proof. split; vm_compute; reflexivity. Qed.

(** ** Loading the effects *)
Section Loading.
Variable A : Type.
Variables zero one : A.
Variable fx : Type.
Variable make : list (eop A) -> fx.

Definition view (outs : list (list (option (bus A fx)))) (o k : nat) : option (bus A fx) := nth k (nth o outs []) None.

(** the settings a header makes for bus k of output o, in order, and the effects *)
Definition outputs (ms : list (eop A)) : list nat := flat_map (fun m => match m with OOutput _ n => [n] | _ => [] end) ms.
Definition names (ms : list (eop A)) : list (list Z) := flat_map (fun m => match m with OBus _ s => [s] | _ => [] end) ms.
Definition outputOf (ms : list (eop A)) : nat := last (outputs ms) 0.
Definition nameOf (ms : list (eop A)) : list Z := last (names ms) [109; 97; 105; 110]%Z.
Definition mainBy (k : nat) (m : eop A) : list A :=
  match m with
  | ODirect _ g => if k =? 0 then [g] else []
  | OToMain _ j g => if ((1 <=? j) && (j <=? 256) && (j =? Z.of_nat k))%Z then [g] else []
  | _ => []
  end.
Definition mixBy (k : nat) (m : eop A) : list A :=
  match m with OToMix _ j g => if ((1 <=? j) && (j <=? 256) && (j =? Z.of_nat k))%Z then [g] else [] | _ => [] end.
Definition at_ {T : Type} (o : nat) (g : list (eop A) -> list T) (ms : list (eop A)) : list T := if outputOf ms =? o then g ms else [].
Definition mains (o k : nat) (hs : list (list (eop A))) : list A := flat_map (at_ o (flat_map (mainBy k))) hs.
Definition mixes (o k : nat) (hs : list (list (eop A))) : list A := flat_map (at_ o (flat_map (mixBy k))) hs.
Definition effects (o k : nat) (hs : list (list (eop A))) : list fx :=
  flat_map (at_ o (fun ms => match busIndex (nameOf ms) with Some j => if j =? k then [make ms] else [] | None => [] end)) hs.

Lemma fold_last {T U} (p : T -> list U) (upd1 : U -> T -> U) : (forall o m, upd1 o m = last (p m) o) -> (forall m, length (p m) <= 1) ->
  forall ms d, fold_left upd1 ms d = last (flat_map p ms) d.
Proof.
  intros H L. induction ms as [|m ms IH]; intros d; cbn [fold_left flat_map]; [reflexivity|]. rewrite IH, H. specialize (L m).
  destruct (p m) as [|a [|]]; cbn [app last length] in *; try lia; [reflexivity|].
  generalize (flat_map p ms). intros [|b l]; [reflexivity|]. revert b. induction l as [|c l IHl]; intros b; [reflexivity|]. cbn [last] in *. apply IHl.
Qed.
Lemma lastOutput_spec ms : lastOutput A ms = outputOf ms.
Proof. apply (fold_last (fun m => match m with OOutput _ n => [n] | _ => [] end)); intros; destruct m; cbn; auto; lia. Qed.
Lemma lastName_spec ms : lastName A ms = nameOf ms.
Proof. apply (fold_last (fun m => match m with OBus _ s => [s] | _ => [] end)); intros; destruct m; cbn; auto; lia. Qed.

Lemma nth_app_repeat {T} (l : list T) k n d x : nth k (l ++ repeat x n) d = if k <? length l then nth k l d else if k <? length l + n then x else d.
Proof.
  destruct (Nat.ltb_spec k (length l)) as [H|H]; [apply app_nth1, H|]. rewrite app_nth2 by exact H.
  remember (k - length l) as j eqn:EJ. destruct (Nat.ltb_spec k (length l + n)).
  - assert (J : j < n) by lia. clear -J. revert j J. induction n as [|n IH]; intros [|j] J; cbn; try lia; auto. apply IH. lia.
  - apply nth_overflow. rewrite repeat_length. lia.
Qed.
Lemma nth_upd {T} (l : list T) i j x d : i < length l -> nth j (upd l i x) d = if j =? i then x else nth j l d.
Proof.
  revert i j. induction l as [|y l IH]; intros [|i] [|j] H; cbn in *; try lia; try reflexivity. apply IH. lia.
Qed.

Lemma view_addBuses outs n o k : view (addBuses A zero fx one outs n) o k =
  if o <? length outs then view outs o k else if (o <=? n) && (k =? 0) then Some (newBus A zero fx one) else None.
Proof.
  unfold view, addBuses. rewrite nth_app_repeat. destruct (Nat.ltb_spec o (length outs)); [reflexivity|].
  destruct (Nat.ltb_spec o (length outs + (S n - length outs))), (Nat.leb_spec o n); try lia; cbn [andb]; destruct k as [|[|k]]; reflexivity.
Qed.
Lemma length_addBuses outs n : length (addBuses A zero fx one outs n) = Nat.max (length outs) (S n).
Proof. unfold addBuses. rewrite app_length, repeat_length. lia. Qed.

Lemma view_withBus outs o i f o' k : o < length outs -> view (withBus A zero fx outs o i f) o' k =
  if (o' =? o) && (k =? i) then Some (f (match view outs o i with Some b => b | None => newBus A zero fx zero end)) else view outs o' k.
Proof.
  intros H. unfold withBus, view. destruct (nth_error outs o) as [bs|] eqn:E; [|apply nth_error_None in E; lia].
  rewrite (nth_upd outs) by exact H. rewrite (nth_error_nth _ _ [] E) in *. destruct (Nat.eqb_spec o' o) as [->|N]; [|reflexivity].
  rewrite (nth_error_nth _ _ [] E). cbn [andb]. rewrite nth_upd by (rewrite app_length, repeat_length; lia).
  rewrite !nth_app_repeat. destruct (Nat.eqb_spec k i) as [->|N2].
  - do 2 f_equal. destruct (Nat.ltb_spec i (length bs)); [reflexivity|]. rewrite (nth_overflow bs) by lia. destruct (i <? _); reflexivity.
  - destruct (Nat.ltb_spec k (length bs)); [reflexivity|]. rewrite (nth_overflow bs) by lia. destruct (k <? _); reflexivity.
Qed.
Lemma length_withBus outs o i f : length (withBus A zero fx outs o i f) = length outs.
Proof. unfold withBus. destruct (nth_error outs o); [apply upd_length|reflexivity]. Qed.

(** what is known of the buses: gains set, mix gains set and effects added so far *)
Definition Inv (outs : list (list (option (bus A fx)))) (T X : nat -> nat -> list A) (C : nat -> nat -> list fx) : Prop :=
  (forall o k, length outs <= o -> T o k = [] /\ X o k = [] /\ C o k = []) /\
  (forall o k, o < length outs -> match view outs o k with
     | Some b => (k = 0 \/ T o k <> [] \/ X o k <> [] \/ C o k <> []) /\
                 b_fx A fx b = C o k /\ b_main A fx b = last (T o k) (if k =? 0 then one else zero) /\ b_mix A fx b = last (X o k) zero
     | None => k <> 0 /\ T o k = [] /\ X o k = [] /\ C o k = []
     end).

Lemma Inv_ext outs T X C T' X' C' : (forall o k, T o k = T' o k) -> (forall o k, X o k = X' o k) -> (forall o k, C o k = C' o k) ->
  Inv outs T X C -> Inv outs T' X' C'.
Proof.
  intros HT HX HC [H1 H2]. split; intros o k Ho; rewrite <- HT, <- HX, <- HC; [apply H1, Ho|apply H2, Ho].
Qed.

Lemma Inv_addBuses outs T X C n : Inv outs T X C -> Inv (addBuses A zero fx one outs n) T X C.
Proof.
  intros [H1 H2]. split; intros o k Ho; rewrite length_addBuses in Ho; [apply H1; lia|]. rewrite view_addBuses.
  destruct (Nat.ltb_spec o (length outs)) as [L|L]; [apply H2, L|]. destruct (H1 o k L) as (E1 & E2 & E3). rewrite E1, E2, E3.
  destruct (Nat.leb_spec o n); [|lia]. cbn [andb]. destruct (Nat.eqb_spec k 0) as [->|N]; cbn; auto.
Qed.

Definition at1 {T} (o i : nat) (x : T) (o' k : nat) : list T := if (o' =? o) && (k =? i) then [x] else [].

Lemma last_snoc {T} (l : list T) x d : last (l ++ [x]) d = x.
Proof. apply last_last. Qed.

Lemma Inv_withBus outs T X C o i f T1 X1 C1 : o < length outs -> Inv outs T X C ->
  (forall b, b_fx A fx (f b) = b_fx A fx b ++ C1 /\ b_main A fx (f b) = last T1 (b_main A fx b) /\ b_mix A fx (f b) = last X1 (b_mix A fx b)) ->
  (T1 <> [] \/ X1 <> [] \/ C1 <> []) -> length T1 <= 1 -> length X1 <= 1 ->
  Inv (withBus A zero fx outs o i f)
      (fun o' k => T o' k ++ if (o' =? o) && (k =? i) then T1 else []) (fun o' k => X o' k ++ if (o' =? o) && (k =? i) then X1 else [])
      (fun o' k => C o' k ++ if (o' =? o) && (k =? i) then C1 else []).
Proof.
  intros Ho [H1 H2] HF NE LT LX. split.
  - intros o' k Hk. rewrite length_withBus in Hk. destruct (H1 o' k Hk) as (-> & -> & ->).
    destruct (Nat.eqb_spec o' o) as [->|N]; [lia|]. auto.
  - intros o' k Hk. rewrite length_withBus in Hk. rewrite view_withBus by exact Ho. specialize (H2 o' k Hk).
    destruct (Nat.eqb_spec o' o) as [->|N]; cbn [andb]; [|rewrite !app_nil_r; exact H2].
    destruct (Nat.eqb_spec k i) as [->|N]; cbn [andb]; [|rewrite !app_nil_r; exact H2].
    assert (LST : forall (T0 : list A) T2 d, length T2 <= 1 -> last T2 (last T0 d) = last (T0 ++ T2) d).
    { intros T0 [|a [|]] d L; cbn [length] in L; try lia; [rewrite app_nil_r; reflexivity|rewrite last_last; reflexivity]. }
    destruct (view outs o i) as [b|] eqn:EV; cbn [b_fx b_main b_mix].
    + destruct H2 as (_ & E1 & E2 & E3). destruct (HF b) as (F1 & F2 & F3). rewrite F1, F2, F3, E1, E2, E3, !LST by assumption. split; [|auto].
      right. destruct NE as [G|[G|G]]; [left|right; left|right; right]; intros Z; apply app_eq_nil in Z; destruct Z as [_ Z]; contradiction.
    + destruct H2 as (NK & E1 & E2 & E3). destruct (HF (newBus A zero fx zero)) as (F1 & F2 & F3). rewrite F1, F2, F3, E1, E2, E3. cbn [newBus b_fx b_main b_mix app].
      split; [tauto|]. apply Nat.eqb_neq in NK. rewrite NK. auto.
Qed.

Lemma effectOpcode_Inv output outs T X C m : output < length outs -> Inv outs T X C ->
  length (effectOpcode A zero fx output outs m) = length outs /\
  Inv (effectOpcode A zero fx output outs m) (fun o k => T o k ++ if o =? output then mainBy k m else [])
      (fun o k => X o k ++ if o =? output then mixBy k m else []) C.
Proof.
  intros Ho HI.
  assert (KB : forall j k, validBus j = true -> ((1 <=? j) && (j <=? 256) && (j =? Z.of_nat k))%Z = (k =? Z.to_nat j)).
  { intros j k H. unfold validBus, maxEffectBuses in H. rewrite H. cbn [andb]. apply andb_true_iff in H. destruct H as [H1 H2]. apply Z.leb_le in H1, H2.
    destruct (Z.eqb_spec j (Z.of_nat k)), (Nat.eqb_spec k (Z.to_nat j)); try reflexivity; lia. }
  assert (KN : forall j k, validBus j = false -> ((1 <=? j) && (j <=? 256) && (j =? Z.of_nat k))%Z = false).
  { intros j k H. unfold validBus, maxEffectBuses in H. rewrite H. reflexivity. }
  destruct m as [s|j|g|j g|j g|]; cbn [effectOpcode mainBy mixBy].
  - split; [reflexivity|]. eapply Inv_ext; [| | |exact HI]; intros o k; destruct (o =? output); rewrite ?app_nil_r; reflexivity.
  - split; [reflexivity|]. eapply Inv_ext; [| | |exact HI]; intros o k; destruct (o =? output); rewrite ?app_nil_r; reflexivity.
  - split; [apply length_withBus|]. eapply Inv_ext; [| | |apply (Inv_withBus outs T X C output 0 (setMain A fx g) [g] [] [] Ho HI)]; cbv beta.
    + intros o k. destruct (o =? output), (k =? 0); reflexivity.
    + intros o k. destruct (o =? output), (k =? 0); reflexivity.
    + intros o k. destruct (o =? output), (k =? 0); cbn; apply app_nil_r.
    + intros b. cbn. rewrite app_nil_r. auto.
    + left. discriminate.
    + cbn; lia.
    + cbn; lia.
  - destruct (validBus j) eqn:VB.
    + split; [apply length_withBus|]. eapply Inv_ext; [| | |apply (Inv_withBus outs T X C output (Z.to_nat j) (setMain A fx g) [g] [] [] Ho HI)]; cbv beta.
      * intros o k. rewrite (KB j k VB). destruct (o =? output), (k =? Z.to_nat j); reflexivity.
      * intros o k. destruct (o =? output), (k =? Z.to_nat j); reflexivity.
      * intros o k. destruct (o =? output), (k =? Z.to_nat j); cbn; apply app_nil_r.
      * intros b. cbn. rewrite app_nil_r. auto.
      * left. discriminate.
      * cbn; lia.
      * cbn; lia.
    + split; [reflexivity|]. eapply Inv_ext; [| | |exact HI]; intros o k; try rewrite (KN j k VB); destruct (o =? output); rewrite ?app_nil_r; reflexivity.
  - destruct (validBus j) eqn:VB.
    + split; [apply length_withBus|]. eapply Inv_ext; [| | |apply (Inv_withBus outs T X C output (Z.to_nat j) (setMix A fx g) [] [g] [] Ho HI)]; cbv beta.
      * intros o k. destruct (o =? output), (k =? Z.to_nat j); reflexivity.
      * intros o k. rewrite (KB j k VB). destruct (o =? output), (k =? Z.to_nat j); reflexivity.
      * intros o k. destruct (o =? output), (k =? Z.to_nat j); cbn; apply app_nil_r.
      * intros b. cbn. rewrite app_nil_r. auto.
      * right; left. discriminate.
      * cbn; lia.
      * cbn; lia.
    + split; [reflexivity|]. eapply Inv_ext; [| | |exact HI]; intros o k; try rewrite (KN j k VB); destruct (o =? output); rewrite ?app_nil_r; reflexivity.
  - split; [reflexivity|]. eapply Inv_ext; [| | |exact HI]; intros o k; destruct (o =? output); rewrite ?app_nil_r; reflexivity.
Qed.

Lemma fold_Inv output ms : forall outs T X C, output < length outs -> Inv outs T X C ->
  length (fold_left (effectOpcode A zero fx output) ms outs) = length outs /\
  Inv (fold_left (effectOpcode A zero fx output) ms outs) (fun o k => T o k ++ if o =? output then flat_map (mainBy k) ms else [])
      (fun o k => X o k ++ if o =? output then flat_map (mixBy k) ms else []) C.
Proof.
  induction ms as [|m ms IH]; intros outs T X C Ho HI; cbn [fold_left flat_map].
  - split; [reflexivity|]. eapply Inv_ext; [| | |exact HI]; intros o k; destruct (o =? output); rewrite ?app_nil_r; reflexivity.
  - destruct (effectOpcode_Inv output outs T X C m Ho HI) as [L1 I1].
    destruct (IH _ _ _ _ ltac:(rewrite L1; exact Ho) I1) as [L2 I2]. split; [congruence|].
    eapply Inv_ext; [| | |exact I2]; intros o k; cbv beta; destruct (o =? output); rewrite ?app_nil_r, <- ?app_assoc; reflexivity.
Qed.

Lemma handle_Inv outs ms T X C : Inv outs T X C ->
  length (handleEffect A zero fx one make outs ms) = Nat.max (length outs) (S (outputOf ms)) /\
  Inv (handleEffect A zero fx one make outs ms) (fun o k => T o k ++ at_ o (flat_map (mainBy k)) ms) (fun o k => X o k ++ at_ o (flat_map (mixBy k)) ms)
      (fun o k => C o k ++ at_ o (fun ms => match busIndex (nameOf ms) with Some j => if j =? k then [make ms] else [] | None => [] end) ms).
Proof.
  intros HI. unfold handleEffect. rewrite lastOutput_spec, lastName_spec.
  pose proof (Inv_addBuses _ _ _ _ (outputOf ms) HI) as I1.
  assert (L1 : outputOf ms < length (addBuses A zero fx one outs (outputOf ms))) by (rewrite length_addBuses; lia).
  destruct (fold_Inv (outputOf ms) ms _ _ _ _ L1 I1) as [L2 I2]. rewrite length_addBuses in L2.
  destruct (busIndex (nameOf ms)) as [j|] eqn:EB.
  - split; [rewrite length_withBus; exact L2|].
    eapply Inv_ext; [| | |apply (Inv_withBus _ _ _ _ (outputOf ms) j (addEffect A fx (make ms)) [] [] [make ms] ltac:(rewrite L2; lia) I2)]; cbv beta.
    + intros o k. unfold at_. rewrite (Nat.eqb_sym o). destruct (outputOf ms =? o), (k =? j); cbn [andb]; rewrite ?app_nil_r; reflexivity.
    + intros o k. unfold at_. rewrite (Nat.eqb_sym o). destruct (outputOf ms =? o), (k =? j); cbn [andb]; rewrite ?app_nil_r; reflexivity.
    + intros o k. unfold at_. rewrite EB, (Nat.eqb_sym o), (Nat.eqb_sym k). destruct (outputOf ms =? o), (j =? k); cbn [andb]; rewrite ?app_nil_r; reflexivity.
    + intros b. cbn. auto.
    + right; right. discriminate.
    + cbn; lia.
    + cbn; lia.
  - split; [exact L2|]. eapply Inv_ext; [| | |exact I2]; intros o k; cbv beta; unfold at_; rewrite ?EB, ?(Nat.eqb_sym o); destruct (outputOf ms =? o); rewrite ?app_nil_r; reflexivity.
Qed.

Lemma headers_Inv hs : forall outs T X C, Inv outs T X C ->
  length outs <= length (fold_left (handleEffect A zero fx one make) hs outs) /\
  Inv (fold_left (handleEffect A zero fx one make) hs outs) (fun o k => T o k ++ mains o k hs) (fun o k => X o k ++ mixes o k hs) (fun o k => C o k ++ effects o k hs).
Proof.
  induction hs as [|ms hs IH]; intros outs T X C HI; cbn [fold_left].
  - split; [lia|]. eapply Inv_ext; [| | |exact HI]; intros o k; cbn; rewrite ?app_nil_r; reflexivity.
  - destruct (handle_Inv outs ms T X C HI) as [L1 I1]. destruct (IH _ _ _ _ I1) as [L2 I2]. split; [lia|].
    eapply Inv_ext; [| | |exact I2]; intros o k; cbv beta; unfold mains, mixes, effects; cbn [flat_map]; rewrite <- app_assoc; reflexivity.
Qed.

Lemma load_Inv headers regions : Inv (loadEffects A zero fx one make headers regions) (fun o k => mains o k headers) (fun o k => mixes o k headers) (fun o k => effects o k headers).
Proof.
  unfold loadEffects. apply Inv_addBuses. destruct (headers_Inv headers (addBuses A zero fx one [] 0) (fun _ _ => []) (fun _ _ => []) (fun _ _ => [])) as [_ H].
  - apply Inv_addBuses. split; [auto|]. intros o k Ho. cbn in Ho. lia.
  - exact H.
Qed.

Lemma numOutputs_ge regions : 1 <= numOutputsOf regions /\ Forall (fun o => o < numOutputsOf regions) regions.
Proof.
  unfold numOutputsOf. assert (G : forall l n, n <= fold_left (fun n o => Nat.max (o + 1) n) l n /\ Forall (fun o => o < fold_left (fun n o => Nat.max (o + 1) n) l n) l).
  { induction l as [|a l IH]; intros n; cbn [fold_left]; [auto|]. destruct (IH (Nat.max (a + 1) n)) as [H1 H2]. split; [lia|]. constructor; [lia|exact H2]. }
  apply G.
Qed.

Lemma headers_length hs : forall outs, length (fold_left (handleEffect A zero fx one make) hs outs) = fold_left (fun n ms => Nat.max n (S (outputOf ms))) hs (length outs).
Proof.
  assert (L : forall outs ms, length (handleEffect A zero fx one make outs ms) = Nat.max (length outs) (S (outputOf ms))).
  { intros outs ms. unfold handleEffect. rewrite lastOutput_spec, lastName_spec.
    assert (F : forall ms outs, length (fold_left (effectOpcode A zero fx (outputOf ms)) ms outs) = length outs).
    { intros ms0. generalize (outputOf ms0). intros o. induction ms0 as [|m ms0 IH]; intros outs0; cbn [fold_left]; [reflexivity|]. rewrite IH.
      destruct m; cbn [effectOpcode]; try reflexivity; try destruct (validBus k); try reflexivity; apply length_withBus. }
    destruct (busIndex _); rewrite ?length_withBus, F; apply length_addBuses. }
  induction hs as [|ms hs IH]; intros outs; cbn [fold_left]; [reflexivity|]. rewrite IH, L. reflexivity.
Qed.
End Loading.

(** C83: the buses after loading.  Bus k of output o has the effects of the headers that name it, in the order of the file; its gains are
    the last ones given for it (of a main bus 1 if none is given, of the others 0).  There is a bus exactly where there is a main bus or
    something was given for it. *)
Theorem C83_buses : forall A zero one fx (make : list (eop A) -> fx) headers regions o k,
  let outs := loadEffects A zero fx one make headers regions in
  match nth k (nth o outs []) None with
  | Some b => b_fx A fx b = effects A fx make o k headers /\ b_main A fx b = last (mains A o k headers) (if k =? 0 then one else zero) /\
              b_mix A fx b = last (mixes A o k headers) zero
  | None => (o < length outs -> k <> 0) /\ effects A fx make o k headers = [] /\ mains A o k headers = [] /\ mixes A o k headers = []
  end.
Proof.
  intros A zero one fx make headers regions o k outs. destruct (load_Inv A zero one fx make headers regions) as [H1 H2]. fold outs in H1, H2.
  destruct (Nat.ltb_spec o (length outs)) as [L|L].
  - specialize (H2 o k L). unfold view in H2. destruct (nth k (nth o outs []) None); [tauto|]. destruct H2 as (N & E1 & E2 & E3). auto.
  - rewrite (nth_overflow outs) by exact L. destruct (H1 o k L) as (E1 & E2 & E3). destruct k; cbn [nth]; (split; [lia|auto]).
Qed.

(** C83: every region has its output with a main bus, so that no voice is sent beyond the buses (the premise of C82). *)
Theorem C83_outputs : forall A zero one fx (make : list (eop A) -> fx) headers regions,
  let outs := loadEffects A zero fx one make headers regions in
  numOutputsOf regions < length outs /\ (forall o, In o regions -> o < numOutputsOf regions) /\
  (forall o, o < length outs -> exists b, nth 0 (nth o outs []) None = Some b) /\
  (forall h, In h headers -> outputOf A h < length outs).
Proof.
  intros A zero one fx make headers regions outs. split; [|split; [|split]].
  - unfold outs, loadEffects. rewrite length_addBuses. lia.
  - intros o Hin. destruct (numOutputs_ge regions) as [_ H]. apply (proj1 (Forall_forall _ _) H), Hin.
  - intros o L. pose proof (C83_buses A zero one fx make headers regions o 0) as X. fold outs in X. cbv zeta in X. destruct (nth 0 (nth o outs []) None); [eauto|].
    destruct X as [X _]. exfalso. apply X; auto.
  - intros h Hin. unfold outs, loadEffects. rewrite length_addBuses, headers_length.
    assert (G : forall l n, n <= fold_left (fun n ms => Nat.max n (S (outputOf A ms))) l n /\
      (In h l -> outputOf A h < fold_left (fun n ms => Nat.max n (S (outputOf A ms))) l n)).
    { induction l as [|a l IH]; intros n; cbn [fold_left]; [split; [lia|intros []]|]. destruct (IH (Nat.max n (S (outputOf A a)))) as [H1 H2]. split; [lia|].
      intros [->|X]; [lia|auto]. }
    destruct (G headers (length (addBuses A zero fx one [] 0))) as [_ G2]. specialize (G2 Hin). lia.
Qed.

(** C83: the names of buses: nothing or "main" is the main bus, "fx" and a decimal number from 1 to 256 the others; a name means another
    bus only if it begins with "fx". *)
Definition decimal (k : nat) : list Z :=
  let d := fun n => (48 + Z.of_nat n)%Z in
  if k <? 10 then [d k] else if k <? 100 then [d (k / 10); d (k mod 10)] else [d (k / 100); d (k / 10 mod 10); d (k mod 10)].
Theorem C83_bus_names :
  busIndex [] = Some 0 /\ busIndex [109; 97; 105; 110]%Z = Some 0 /\
  (forall k, 1 <= k <= 256 -> busIndex (102 :: 120 :: decimal k)%Z = Some k) /\
  (forall s k, busIndex s = Some k -> k <= 256 /\ (k = 0 <-> s = [] \/ s = [109; 97; 105; 110]%Z) /\ (k <> 0 -> exists r, s = (102 :: 120 :: r)%Z)).
Proof.
  split; [reflexivity|]. split; [reflexivity|]. split.
  - assert (ALL : forallb (fun k => match busIndex (102 :: 120 :: decimal k)%Z with Some j => j =? k | None => false end) (seq 1 256) = true) by (vm_compute; reflexivity).
    intros k Hk. pose proof (proj1 (forallb_forall _ _) ALL k) as X. specialize (X (proj2 (in_seq 256 1 k) ltac:(lia))). cbv beta in X.
    destruct (busIndex (102 :: 120 :: decimal k)%Z) as [j|]; [|discriminate X]. apply Nat.eqb_eq in X. congruence.
  - intros s k. unfold busIndex.
    assert (FX : forall n (t : list Z), match simpleAtoi n with Some k0 => if validBus k0 then Some (Z.to_nat k0) else None | None => None end = Some k ->
       s = (102 :: 120 :: t)%Z -> k <= 256 /\ (k = 0 <-> s = [] \/ s = [109; 97; 105; 110]%Z) /\ (k <> 0 -> exists r, s = (102 :: 120 :: r)%Z)).
    { intros n t E ->. destruct (simpleAtoi n) as [j|]; [|discriminate E]. destruct (validBus j) eqn:VB; [|discriminate E]. injection E as <-.
      unfold validBus, maxEffectBuses in VB. apply andb_true_iff in VB. destruct VB as [V1 V2]. apply Z.leb_le in V1, V2.
      split; [lia|]. split; [|eauto]. split; [lia|]. intros [X|X]; discriminate X. }
    assert (MN : Some 0 = Some k -> s = [] \/ s = [109; 97; 105; 110]%Z -> k <= 256 /\ (k = 0 <-> s = [] \/ s = [109; 97; 105; 110]%Z) /\ (k <> 0 -> exists r, s = (102 :: 120 :: r)%Z)).
    { intros E HS. injection E as <-. split; [lia|]. split; [tauto|]. intros X. contradiction X; reflexivity. }
    repeat match goal with
    | |- (match ?x with _ => _ end = Some k) -> _ => lazymatch x with simpleAtoi _ => fail | _ => destruct x eqn:? end
    end; intros E; try discriminate E; subst; try (apply MN; auto; fail); eapply FX; eauto.
Qed.

Example C83_ex :
  let h1 := [OBus Z [102; 120; 49]%Z; OToMain Z 1 50%Z; OToMix Z 300 1%Z] in
  let h2 := [OToMain Z 1 60%Z; OOutput Z 1; ODirect Z 5%Z] in
  let h3 := [OBus Z [102; 120; 32; 49]%Z; OToMain Z 1 70%Z] in
  let outs := loadEffects Z 0%Z nat 1%Z (fun ms => length ms) [h1; h2; h3] [0; 2; 0] in
  length outs = 4 /\ map (fun b => match b with Some b => Some (b_fx Z nat b, b_main Z nat b, b_mix Z nat b) | None => None end) (nth 0 outs []) =
    [Some ([], 1%Z, 0%Z); Some ([3; 2], 70%Z, 0%Z)] /\
  map (fun b => match b with Some b => Some (b_fx Z nat b, b_main Z nat b, b_mix Z nat b) | None => None end) (nth 1 outs []) =
    [Some ([3], 5%Z, 0%Z); Some ([], 60%Z, 0%Z)].
Proof. repeat split; vm_compute; reflexivity. Qed.
