(** C101: what an effect puts out depends on the samples it gets, not on the buffers they are in nor on how they are cut into blocks. *)
From Coq Require Import List Arith Bool Lia.
Import ListNotations.
Require Import Verif.EffectsModel Verif.Effects.

Section Blocks.
  Context {X : world}.
  Notation V := (w_V X).
  Notation eff := (@effect X).
  Implicit Types m : @store X.

  (** ** Specification *)
  (** Buffers that an effect may get: two outputs, and the second input is not the first output.  In place: each output is its input. *)
  Definition apart (i0 i1 o0 o1 : nat) : Prop := o0 <> o1 /\ i1 <> o0.
  (** The distortion asks for outputs that are not its inputs. *)
  Definition allowed (e : eff) (i0 i1 o0 o1 : nat) : Prop :=
    apart i0 i1 o0 o1 /\ match e with EDisto _ => i0 <> o0 /\ i1 <> o1 | _ => True end.
  (** Neither a compressor nor a gate with linked channels. *)
  Definition unlinked (e : eff) : Prop := match e with EDyn d => dy_link d = false | _ => True end.
  (** Effects whose clear forgets everything. *)
  Definition forgets (e : eff) : Prop := match e with EDyn _ | ELimiter _ => False | _ => True end.

  (** ** Effects on lists *)
  Definition bitL (q : option (V -> V)) (s : @bitred X) (l : list V) : bitred * list V :=
    match q with None => (bitredClear, l) | Some q => run (bitredStep q) s l end.
  Definition decL (q : option V) (s : @decim X) (l : list V) : decim * list V :=
    match q with None => (decimClear, l) | Some q => run (decimStep q) s l end.
  Definition lofiC (q : option (V -> V)) (dt : option V) (s : bitred * decim) (l : list V) : (bitred * decim) * list V :=
    let '(b, l) := bitL q (fst s) l in let '(d, l) := decL dt (snd s) l in (b, d, l).
  Definition distoC (e : @disto X) (c : dchan) (l : list V) : dchan * list V :=
    let '(lpf, l1) := run (fun mem x => let y := w_add X (w_mul X (w_mul X x (dt_dry e)) (w_sub X (w_one X) (dt_pole e))) (w_mul X mem (dt_pole e)) in (y, y))
                       (dc_lpf c) l in
    let '(u2, u4, u8, l2) := up8 (dc_up2 c) (dc_up4 c) (dc_up8 c) l1 in
    let '(st, l3) := distoStages (dt_stages e) (dt_depth e) (dc_stages c) l2 in
    let '(d8, d4, d2, l4) := down8 (length l) (dc_down8 c) (dc_down4 c) (dc_down2 c) l3 in
    (DChan lpf u2 u4 u8 st d8 d4 d2, zipWith (fun x y => w_add X (w_mul X x (dt_wet e)) (w_mul X y (w_sub X (w_one X) (dt_wet e)))) l4 l).
  Definition dynL (e : @dyn X) (l r : list V) : dyn * (list V * list V) :=
    let '(u0, lft) := upBlock (w_cs2 X) (dy_up0 e) l in
    let '(u1, rgt) := upBlock (w_cs2 X) (dy_up1 e) r in
    let lft := map (fun x => w_mul X x (dy_in e)) lft in
    let rgt := map (fun x => w_mul X x (dy_in e)) rgt in
    let '(k0, k1, lft, rgt) :=
      if dy_link e then
        let '(k0, g) := run (w_gain X (dy_par e)) (dy_c0 e) (map (fun x => w_add X (w_abs X x) (w_abs X (nth 1 rgt (w_zero X)))) lft) in
        (k0, dy_c1 e, zipWith (w_mul X) lft g, zipWith (w_mul X) rgt g)
      else
        let '(k0, gl) := run (w_gain X (dy_par e)) (dy_c0 e) lft in
        let '(k1, gr) := run (w_gain X (dy_par e)) (dy_c1 e) rgt in
        (k0, k1, zipWith (w_mul X) lft gl, zipWith (w_mul X) rgt gr) in
    let '(d0, outl) := downBlock (length l) (w_cs2 X) (dy_down0 e) lft in
    let '(d1, outr) := downBlock (length l) (w_cs2 X) (dy_down1 e) rgt in
    (Dyn (dy_par e) (dy_link e) (dy_in e) k0 k1 u0 u1 d0 d1, (outl, outr)).
  Definition limiterL (e : @limiter X) (l r : list V) : limiter * (list V * list V) :=
    let '(u0, lft) := upBlock (w_cs2 X) (li_up0 e) l in
    let '(u1, rgt) := upBlock (w_cs2 X) (li_up1 e) r in
    let '(s, fr) := run (w_limit X) (li_s e) (combine lft rgt) in
    let '(d0, outl) := downBlock (length l) (w_cs2 X) (li_down0 e) (map fst fr) in
    let '(d1, outr) := downBlock (length l) (w_cs2 X) (li_down1 e) (map snd fr) in
    (Limiter s u0 u1 d0 d1, (outl, outr)).
  Definition stringsL (e : @strings X) (l r : list V) : strings * (list V * list V) :=
    let resIn := zipWith (w_add X) (map (w_mul X (sg_mix e)) l) (map (w_mul X (sg_mix e)) r) in
    let '(ss, resOut) := resonate (sg_strings e) resIn (repeat (w_zero X) (length l)) in
    let f := map (fun '(y, x) => w_add X x (w_mul X (sg_wet e) y)) in
    (Strings (sg_wet e) (sg_mix e) ss, (f (combine resOut l), f (combine resOut r))).
  Definition apanL (e : @apan X) (l r : list V) : apan * (list V * list V) :=
    let '(ph, mods) := run (apanLfo e) (a_phase e) (repeat (w_zero X) (length l)) in
    let f := map (fun '(a, x) => apanOut e a x) (combine mods (combine l r)) in
    (Apan (a_inc e) (a_offset e) (a_wave e) (a_depth e) (a_dry e) (a_wet e) ph, (map fst f, map snd f)).
  Definition lists (e : eff) (l r : list V) : eff * (list V * list V) :=
    match e with
    | ENothing => (e, (l, r))
    | EGain g => (e, (map (w_mul X g) l, map (w_mul X g) r))
    | EWidth c1 c2 => let f := map (widthOut c1 c2) (combine l r) in (e, (map fst f, map snd f))
    | EApan s => let '(s, o) := apanL s l r in (EApan s, o)
    | ELofi s =>
        let '(s0, a) := lofiC (lf_quant s) (lf_dt s) (lf_b0 s, lf_d0 s) l in
        let '(s1, b) := lofiC (lf_quant s) (lf_dt s) (lf_b1 s, lf_d1 s) r in
        (ELofi (Lofi (lf_quant s) (lf_dt s) (fst s0) (snd s0) (fst s1) (snd s1)), (a, b))
    | ERectify s =>
        let '(s0, a) := run (rectStep (re_amount s)) (re_0 s) l in
        let '(s1, b) := run (rectStep (re_amount s)) (re_1 s) r in (ERectify (Rectify (re_amount s) s0 s1), (a, b))
    | EDisto s =>
        let '(s0, a) := distoC s (dt_0 s) l in
        let '(s1, b) := distoC s (dt_1 s) r in
        (EDisto (Disto (dt_pole s) (dt_depth s) (dt_dry s) (dt_wet s) (dt_stages s) s0 s1), (a, b))
    | EStrings s => let '(s, o) := stringsL s l r in (EStrings s, o)
    | EDyn s => let '(s, o) := dynL s l r in (EDyn s, o)
    | ELimiter s => let '(s, o) := limiterL s l r in (ELimiter s, o)
    | EFverb p s => let '(s, fr) := run (w_reverb X p) s (combine l r) in (EFverb p s, (map fst fr, map snd fr))
    end.

  (** *** One channel after the other *)
  Definition chan {S} (ok : nat -> nat -> Prop) (P : nat -> nat -> nat -> S -> store -> S * store) (F : S -> list V -> S * list V) : Prop :=
    forall src dst n s m, ok src dst ->
      fst (P src dst n s m) = fst (F s (block m src n)) /\
      eqm (snd (P src dst n s m)) (put m dst (snd (F s (block m src n)))) /\
      length (snd (F s (block m src n))) = n.
  Lemma two : forall S ok P (F : S -> list V -> S * list V) i0 i1 o0 o1 n s0 s1 m,
    chan ok P F -> ok i0 o0 -> ok i1 o1 -> i1 <> o0 ->
    fst (P i0 o0 n s0 m) = fst (F s0 (block m i0 n)) /\
    fst (P i1 o1 n s1 (snd (P i0 o0 n s0 m))) = fst (F s1 (block m i1 n)) /\
    eqm (snd (P i1 o1 n s1 (snd (P i0 o0 n s0 m))))
        (put (put m o0 (snd (F s0 (block m i0 n)))) o1 (snd (F s1 (block m i1 n)))) /\
    length (snd (F s0 (block m i0 n))) = n /\ length (snd (F s1 (block m i1 n))) = n.
  Proof.
    intros S ok P F i0 i1 o0 o1 n s0 s1 m H K0 K1 Hi.
    destruct (H i0 o0 n s0 m K0) as [A0 [B0 C0]]. destruct (H i1 o1 n s1 (snd (P i0 o0 n s0 m)) K1) as [A1 [B1 C1]].
    assert (E : block (snd (P i0 o0 n s0 m)) i1 n = block m i1 n).
    { rewrite (eqm_block _ _ _ _ B0). apply put_other. auto. }
    rewrite E in *. repeat split; auto.
    intros b i. rewrite B1. apply eqm_put. auto.
  Qed.
  Lemma chan_pass : forall S (f : S -> V -> S * V), chan (fun _ _ => True) (pass f) (run f).
  Proof.
    intros S f src dst n s m _. destruct (pass_spec S f src dst n s m) as [A B]. repeat split; auto.
    rewrite run_length, block_length. reflexivity.
  Qed.
  Lemma chan_copy : forall S (c : S), chan (fun _ _ => True) (fun src dst n _ m => (c, copy src dst n m)) (fun _ l => (c, l)).
  Proof. intros S c src dst n s m _. cbn [fst snd]. repeat split; [ apply copy_eq | apply block_length ]. Qed.
  Lemma chan_bit : forall q, chan (fun _ _ => True) (bitredProcess q) (bitL q).
  Proof. intros [q|]; [ apply chan_pass | apply chan_copy ]. Qed.
  Lemma chan_dec : forall q, chan (fun _ _ => True) (decimProcess q) (decL q).
  Proof. intros [q|]; [ apply chan_pass | apply chan_copy ]. Qed.
  Definition lofiP (q : option (V -> V)) (dt : option V) (src dst n : nat) (s : bitred * decim) (m : store) : (bitred * decim) * store :=
    let '(b, m) := bitredProcess q src dst n (fst s) m in let '(d, m) := decimProcess dt dst dst n (snd s) m in (b, d, m).
  Lemma chan_lofi : forall q dt, chan (fun _ _ => True) (lofiP q dt) (lofiC q dt).
  Proof.
    intros q dt src dst n [s t] m _. unfold lofiP, lofiC. cbn [fst snd].
    destruct (chan_bit q src dst n s m Logic.I) as [A [B C]].
    destruct (bitredProcess q src dst n s m) as [b m1]. destruct (bitL q s (block m src n)) as [b' l]. cbn [fst snd] in *. subst b'.
    destruct (chan_dec dt dst dst n t m1 Logic.I) as [A1 [B1 C1]].
    destruct (decimProcess dt dst dst n t m1) as [d m2].
    rewrite (eqm_block _ _ _ _ B), put_same in * by auto.
    destruct (decL dt t l) as [d' l']. cbn [fst snd] in *. subst d'. repeat split; auto.
    intros x i. rewrite B1. rewrite (eqm_put _ _ _ _ B x i). apply put_put. lia.
  Qed.
  Lemma chan_disto : forall e, chan (fun src dst => src <> dst) (fun src dst n c m => distoChannel e c src dst n m) (distoC e).
  Proof.
    intros e src dst n c m Hne. unfold distoChannel, distoC.
    match goal with |- context [pass ?f src dst n (dc_lpf c) m] => destruct (pass_spec _ f src dst n (dc_lpf c) m) as [A B];
      pose proof (run_length _ _ _ f (block m src n) (dc_lpf c)) as L; destruct (pass f src dst n (dc_lpf c) m) as [lpf m1];
      destruct (run f (dc_lpf c) (block m src n)) as [lpf' l1] end.
    cbn [fst snd] in *. subst lpf'. rewrite block_length in *.
    rewrite (eqm_block _ _ dst n B), put_same by auto.
    destruct (up8 (dc_up2 c) (dc_up4 c) (dc_up8 c) l1) as [[[u2 u4] u8] l2] eqn:E2. apply up8_length in E2.
    destruct (distoStages (dt_stages e) (dt_depth e) (dc_stages c) l2) as [st l3] eqn:E3. apply distoStages_length in E3. destruct E3 as [E3 _].
    destruct (down8 n (dc_down8 c) (dc_down4 c) (dc_down2 c) l3) as [[[d8 d4] d2] l4] eqn:E4. apply down8_length in E4; [ | lia ].
    cbn [fst snd].
    assert (Bm : block (put m1 dst l4) src n = block m src n).
    { rewrite put_other by auto. rewrite (eqm_block _ _ src n B). apply put_other. auto. }
    split; [ reflexivity | split ].
    - intros b i.
      rewrite (loop_mix (fun x y => w_add X (w_mul X x (dt_wet e)) (w_mul X y (w_sub X (w_one X) (dt_wet e)))) src dst n (put m1 dst l4) b i).
      rewrite put_same by auto. rewrite Bm. rewrite put_put by (rewrite zipWith_length; rewrite ?block_length; lia).
      rewrite (eqm_put _ _ _ _ B). apply put_put. rewrite zipWith_length; rewrite ?block_length; lia.
    - rewrite zipWith_length; rewrite ?block_length; lia.
  Qed.

  Lemma put_again : forall m o0 o1 a b c d n, o0 <> o1 -> length a = n -> length b = n -> length c = n -> length d = n ->
    eqm (put (put (put (put m o0 a) o1 b) o0 c) o1 d) (put (put m o0 c) o1 d).
  Proof.
    intros m o0 o1 a b c d n Ho La Lb Lc Ld x i. unfold put.
    destruct (Nat.eqb_spec o1 o0); [ congruence | ]. destruct (Nat.eqb_spec o0 o1); [ congruence | ]. rewrite !Nat.eqb_refl.
    destruct (Nat.lt_ge_cases i n).
    - destruct (Nat.eqb_spec x o1); [ apply nth_indep; lia | ]. destruct (Nat.eqb_spec x o0); [ apply nth_indep; lia | reflexivity ].
    - rewrite !(nth_overflow _ _ (n := i)) by lia. destruct (Nat.eqb_spec x o1), (Nat.eqb_spec x o0); congruence.
  Qed.
  Lemma map_length_snd : forall S A B (f : S -> A -> S * B) s l n C (g : B -> C), length l = n -> length (map g (snd (run f s l))) = n.
  Proof. intros. rewrite map_length, run_length. auto. Qed.

  (** The effect on the store is the effect on lists. *)
  Lemma process_lists : forall e i0 i1 o0 o1 n m, allowed e i0 i1 o0 o1 ->
    fst (process e i0 i1 o0 o1 n m) = fst (lists e (block m i0 n) (block m i1 n)) /\
    eqm (snd (process e i0 i1 o0 o1 n m))
        (put (put m o0 (fst (snd (lists e (block m i0 n) (block m i1 n))))) o1 (snd (snd (lists e (block m i0 n) (block m i1 n))))) /\
    length (fst (snd (lists e (block m i0 n) (block m i1 n)))) = n /\
    length (snd (snd (lists e (block m i0 n) (block m i1 n)))) = n.
  Proof.
    intros e i0 i1 o0 o1 n m [[Ho Hi] Hd]. destruct e as [|g|c1 c2|s|s|s|s|s|s|s|p s]; cbn [process lists].
    - cbn [fst snd]. destruct (two _ _ _ _ i0 i1 o0 o1 n tt tt m (chan_copy _ tt) Logic.I Logic.I Hi) as [_ [_ [H [H0 H1]]]].
      cbn [fst snd] in *. auto.
    - cbn [fst snd]. destruct (two _ _ _ _ i0 i1 o0 o1 n tt tt m (chan_pass _ (fun (s : unit) x => (s, w_mul X g x))) Logic.I Logic.I Hi) as [_ [_ [H [H0 H1]]]].
      rewrite !run_map in *. auto.
    - cbn [fst snd]. destruct (pass2_spec _ (fun (s : unit) x => (s, widthOut c1 c2 x)) i0 i1 o0 o1 n tt m Ho) as [_ H].
      rewrite run_map in H. repeat split; auto; rewrite !map_length, combine_block_length; auto.
    - unfold apanProcess, apanL. rewrite block_length. pose proof (run_length _ _ _ (apanLfo s) (repeat (w_zero X) n) (a_phase s)) as L.
      rewrite repeat_length in L. destruct (run (apanLfo s) (a_phase s) (repeat (w_zero X) n)) as [ph mods]. cbn [fst snd] in *.
      destruct (pass2_spec _ (fun k x => (S k, apanOut s (nth k mods (w_zero X, w_zero X)) x)) i0 i1 o0 o1 n 0 m Ho) as [_ H].
      rewrite loop_pass2 in H. cbn [snd] in H.
      pose proof (run_nth _ _ _ (apanOut s) (w_zero X, w_zero X) (combine (block m i0 n) (block m i1 n)) mods []) as R.
      cbn [app length] in R. rewrite R in H by (rewrite combine_block_length; auto).
      repeat split; auto; rewrite !map_length, combine_length, combine_block_length; lia.
    - destruct (two _ _ _ _ i0 i1 o0 o1 n (lf_b0 s, lf_d0 s) (lf_b1 s, lf_d1 s) m (chan_lofi (lf_quant s) (lf_dt s)) Logic.I Logic.I Hi) as [A [B [H [H0 H1]]]].
      unfold lofiProcess. unfold lofiP in *. cbn [fst snd] in *.
      destruct (bitredProcess (lf_quant s) i0 o0 n (lf_b0 s) m) as [b0 m1]. destruct (decimProcess (lf_dt s) o0 o0 n (lf_d0 s) m1) as [d0 m2].
      cbn [fst snd] in *.
      destruct (bitredProcess (lf_quant s) i1 o1 n (lf_b1 s) m2) as [b1 m3]. destruct (decimProcess (lf_dt s) o1 o1 n (lf_d1 s) m3) as [d1 m4].
      cbn [fst snd] in *.
      destruct (lofiC (lf_quant s) (lf_dt s) (lf_b0 s, lf_d0 s) (block m i0 n)) as [x0 a].
      destruct (lofiC (lf_quant s) (lf_dt s) (lf_b1 s, lf_d1 s) (block m i1 n)) as [x1 b]. cbn [fst snd] in *. subst x0 x1. auto.
    - destruct (two _ _ _ _ i0 i1 o0 o1 n (re_0 s) (re_1 s) m (chan_pass _ (rectStep (re_amount s))) Logic.I Logic.I Hi) as [A [B [H [H0 H1]]]].
      unfold rectifyProcess.
      destruct (pass (rectStep (re_amount s)) i0 o0 n (re_0 s) m) as [t0 m1]. cbn [fst snd] in *.
      destruct (pass (rectStep (re_amount s)) i1 o1 n (re_1 s) m1) as [t1 m2]. cbn [fst snd] in *.
      destruct (run (rectStep (re_amount s)) (re_0 s) (block m i0 n)) as [x0 a].
      destruct (run (rectStep (re_amount s)) (re_1 s) (block m i1 n)) as [x1 b]. cbn [fst snd] in *. subst. auto.
    - destruct Hd as [Hd0 Hd1].
      destruct (two _ _ _ _ i0 i1 o0 o1 n (dt_0 s) (dt_1 s) m (chan_disto s) Hd0 Hd1 Hi) as [A [B [H [H0 H1]]]].
      unfold distoProcess.
      destruct (distoChannel s (dt_0 s) i0 o0 n m) as [t0 m1]. cbn [fst snd] in *.
      destruct (distoChannel s (dt_1 s) i1 o1 n m1) as [t1 m2]. cbn [fst snd] in *.
      destruct (distoC s (dt_0 s) (block m i0 n)) as [x0 a]. destruct (distoC s (dt_1 s) (block m i1 n)) as [x1 b].
      cbn [fst snd] in *. subst. auto.
    - unfold stringsProcess, stringsL. rewrite block_length.
      destruct (resonate _ _ _) as [ss out] eqn:E. apply resonate_length in E;
        [ | rewrite repeat_length, zipWith_length; rewrite !map_length, !block_length; auto ].
      rewrite repeat_length in E. cbn [fst snd]. split; [ reflexivity | ].
      destruct (two _ _ _ _ i0 i1 o0 o1 n tt tt m (chan_copy _ tt) Logic.I Logic.I Hi) as [_ [_ [H _]]]. cbn [fst snd] in H.
      set (m1 := copy i1 o1 n (copy i0 o0 n m)) in *.
      set (g := fun y x => w_add X x (w_mul X (sg_wet s) y)).
      assert (K : forall o m, eqm (loop n (fun i m => write m o i (w_add X (m o i) (w_mul X (sg_wet s) (nth i out (w_zero X))))) m)
                             (put m o (map (fun '(y, x) => g y x) (combine out (block m o n))))).
      { intros o m'. pose proof (pass_spec _ (fun k x => (S k, g (nth k out (w_zero X)) x)) o o n 0 m') as [_ Q].
        rewrite (loop_pass (fun k x => g (nth k out (w_zero X)) x)) in Q. cbn [snd] in Q.
        pose proof (run_nth _ _ _ g (w_zero X) (block m' o n) out []) as R. cbn [app length] in R.
        rewrite R in Q by (rewrite block_length; auto). exact Q. }
      assert (P0 : block m1 o0 n = block m i0 n).
      { rewrite (eqm_block _ _ _ _ H), put_other by auto. apply put_same. apply block_length. }
      assert (P1 : block m1 o1 n = block m i1 n).
      { rewrite (eqm_block _ _ _ _ H). apply put_same. apply block_length. }
      set (m2 := loop n (fun i m => write m o0 i _) m1).
      assert (Q0 : eqm m2 (put m1 o0 (map (fun '(y, x) => g y x) (combine out (block m i0 n))))).
      { rewrite <- P0. apply K. }
      assert (LEN : forall b, length (map (fun '(y, x) => g y x) (combine out (block m b n))) = n).
      { intros. rewrite map_length, combine_length, block_length. lia. }
      repeat split; [ | apply LEN | apply LEN ].
      intros b i. rewrite (K o1 m2 b i). rewrite (eqm_block _ _ o1 n Q0), put_other, P1 by auto.
      rewrite (eqm_put _ _ _ _ Q0 b i). fold g.
      set (A := map (fun '(y, x) => g y x) (combine out (block m i0 n))) in *. set (B := map (fun '(y, x) => g y x) (combine out (block m i1 n))) in *.
      assert (LA : length A = n) by apply LEN. assert (LB : length B = n) by apply LEN.
      rewrite <- (put_again m o0 o1 (block m i0 n) (block m i1 n) A B n Ho) by (auto using block_length).
      apply eqm_put. apply eqm_put. exact H.
    - unfold dynProcess, dynL. rewrite block_length.
      destruct (upBlock (w_cs2 X) (dy_up0 s) (block m i0 n)) as [u0 l] eqn:E0. destruct (upBlock (w_cs2 X) (dy_up1 s) (block m i1 n)) as [u1 r] eqn:E1.
      apply upBlock_length in E0, E1. rewrite block_length in *.
      destruct (dy_link s).
      + destruct (run _ (dy_c0 s) _) as [k0 gg] eqn:Eg. apply run_length' in Eg. rewrite !map_length in Eg.
        destruct (downBlock n (w_cs2 X) (dy_down0 s) _) as [d0 a] eqn:D0. destruct (downBlock n (w_cs2 X) (dy_down1 s) _) as [d1 b] eqn:D1.
        apply downBlock_length in D0; [ | rewrite zipWith_length; rewrite ?map_length; lia ].
        apply downBlock_length in D1; [ | rewrite zipWith_length; rewrite ?map_length; lia ].
        cbn [fst snd]. repeat split; auto.
      + destruct (run _ (dy_c0 s) _) as [k0 gl] eqn:Eg. apply run_length' in Eg. rewrite !map_length in Eg.
        destruct (run _ (dy_c1 s) _) as [k1 gr] eqn:Eh. apply run_length' in Eh. rewrite !map_length in Eh.
        destruct (downBlock n (w_cs2 X) (dy_down0 s) _) as [d0 a] eqn:D0. destruct (downBlock n (w_cs2 X) (dy_down1 s) _) as [d1 b] eqn:D1.
        apply downBlock_length in D0; [ | rewrite zipWith_length; rewrite ?map_length; lia ].
        apply downBlock_length in D1; [ | rewrite zipWith_length; rewrite ?map_length; lia ].
        cbn [fst snd]. repeat split; auto.
    - unfold limiterProcess, limiterL. rewrite block_length.
      destruct (upBlock (w_cs2 X) (li_up0 s) (block m i0 n)) as [u0 l] eqn:E0. destruct (upBlock (w_cs2 X) (li_up1 s) (block m i1 n)) as [u1 r] eqn:E1.
      apply upBlock_length in E0, E1. rewrite block_length in *.
      destruct (run _ (li_s s) _) as [k0 gg] eqn:Eg. apply run_length' in Eg. rewrite combine_length in Eg.
      destruct (downBlock n (w_cs2 X) (li_down0 s) _) as [d0 a] eqn:D0. destruct (downBlock n (w_cs2 X) (li_down1 s) _) as [d1 b] eqn:D1.
      apply downBlock_length in D0; [ | rewrite map_length; lia ]. apply downBlock_length in D1; [ | rewrite map_length; lia ].
      cbn [fst snd]. repeat split; auto.
    - destruct (pass2_spec _ (w_reverb X p) i0 i1 o0 o1 n s m Ho) as [A H].
      pose proof (run_length _ _ _ (w_reverb X p) (combine (block m i0 n) (block m i1 n)) s) as L. rewrite combine_block_length in L.
      destruct (pass2 (w_reverb X p) i0 i1 o0 o1 n s m) as [t m1]. destruct (run (w_reverb X p) s _) as [t' fr].
      cbn [fst snd] in *. subst t'. repeat split; auto; rewrite map_length; auto.
  Qed.

  (** *** Cutting lists *)
  Lemma bitL_app : forall q s l1 l2 s1 s2 r1 r2, bitL q s l1 = (s1, r1) -> bitL q s1 l2 = (s2, r2) -> bitL q s (l1 ++ l2) = (s2, r1 ++ r2).
  Proof. intros [q|] s l1 l2 s1 s2 r1 r2 H1 H2; [ eapply run_app; eauto | cbn [bitL] in *; congruence ]. Qed.
  Lemma decL_app : forall q s l1 l2 s1 s2 r1 r2, decL q s l1 = (s1, r1) -> decL q s1 l2 = (s2, r2) -> decL q s (l1 ++ l2) = (s2, r1 ++ r2).
  Proof. intros [q|] s l1 l2 s1 s2 r1 r2 H1 H2; [ eapply run_app; eauto | cbn [decL] in *; congruence ]. Qed.
  Lemma lofiC_app : forall q dt s l1 l2 s1 s2 r1 r2, lofiC q dt s l1 = (s1, r1) -> lofiC q dt s1 l2 = (s2, r2) -> lofiC q dt s (l1 ++ l2) = (s2, r1 ++ r2).
  Proof.
    unfold lofiC. intros q dt s l1 l2 s1 s2 r1 r2 H1 H2.
    destruct (bitL q (fst s) l1) as [b p] eqn:E1. destruct (decL dt (snd s) p) as [d p'] eqn:E2. inversion H1; subst. cbn [fst snd] in *.
    destruct (bitL q b l2) as [b' t] eqn:F1. destruct (decL dt d t) as [d' t'] eqn:F2. inversion H2; subst.
    rewrite (bitL_app _ _ _ _ _ _ _ _ E1 F1), (decL_app _ _ _ _ _ _ _ _ E2 F2). reflexivity.
  Qed.
  Lemma distoC_app : forall e c l1 l2 c1 c2 r1 r2, distoC e c l1 = (c1, r1) -> distoC e c1 l2 = (c2, r2) -> distoC e c (l1 ++ l2) = (c2, r1 ++ r2).
  Proof.
    unfold distoC. intros e c l1 l2 c1 c2 r1 r2 H1 H2.
    match type of H1 with context [run ?f _ l1] => set (lp := f) in * end.
    destruct (run lp (dc_lpf c) l1) as [x1 p1] eqn:E1. destruct (up8 _ _ _ p1) as [[[a1 b1] d1] p2] eqn:E2.
    destruct (distoStages _ _ _ p2) as [st p3] eqn:E3. destruct (down8 _ _ _ _ p3) as [[[f1 g1] h1] p4] eqn:E4.
    inversion H1; subst. cbn [dc_lpf dc_up2 dc_up4 dc_up8 dc_stages dc_down8 dc_down4 dc_down2] in *.
    destruct (run lp x1 l2) as [x2 q1] eqn:F1. destruct (up8 _ _ _ q1) as [[[a2 b2] d2] q2] eqn:F2.
    destruct (distoStages _ _ st q2) as [st' q3] eqn:F3. destruct (down8 _ f1 g1 h1 q3) as [[[f2 g2] h2] q4] eqn:F4.
    inversion H2; subst.
    rewrite (run_app _ _ _ _ _ _ _ _ _ _ _ E1 F1), (up8_app _ _ _ _ _ _ _ _ _ _ _ _ _ E2 F2), (distoStages_app _ _ _ _ _ _ _ _ _ E3 F3).
    apply run_length' in E1. apply up8_length in E2. apply distoStages_length in E3. destruct E3 as [E3 _].
    rewrite app_length, (down8_app (length l1) (length l2) p3 q3 _ _ _ _ _ _ _ _ _ _ _ ltac:(lia) E4 F4).
    apply down8_length in E4; [ | lia ]. rewrite zipWith_app by lia. reflexivity.
  Qed.
  Lemma lists_app : forall e l1 r1 l2 r2 e1 a1 b1 e2 a2 b2,
    unlinked e -> length l1 = length r1 -> length l2 = length r2 ->
    lists e l1 r1 = (e1, (a1, b1)) -> lists e1 l2 r2 = (e2, (a2, b2)) -> lists e (l1 ++ l2) (r1 ++ r2) = (e2, (a1 ++ a2, b1 ++ b2)).
  Proof.
    intros e l1 r1 l2 r2 e1 a1 b1 e2 a2 b2 U L1 L2 H1 H2. destruct e as [|g|c1 c2|s|s|s|s|s|s|s|p s]; cbn [lists] in *.
    - inversion H1; subst. cbn [lists] in H2. inversion H2; subst. reflexivity.
    - inversion H1; subst. cbn [lists] in H2. inversion H2; subst. rewrite !map_app. reflexivity.
    - inversion H1; subst. cbn [lists] in H2. inversion H2; subst. rewrite combine_app by auto. rewrite !map_app. reflexivity.
    - unfold apanL in *. destruct (run _ _ (repeat _ (length l1))) as [ph mods] eqn:E. inversion H1; subst. cbn [lists] in H2. unfold apanL in H2.
      cbn [a_phase a_inc a_offset a_wave a_depth a_dry a_wet] in H2. change (apanLfo (Apan (a_inc s) (a_offset s) (a_wave s) (a_depth s) (a_dry s) (a_wet s) ph)) with (apanLfo s) in H2.
      change (apanOut (Apan (a_inc s) (a_offset s) (a_wave s) (a_depth s) (a_dry s) (a_wet s) ph)) with (apanOut s) in H2.
      destruct (run _ ph (repeat _ (length l2))) as [ph' mods'] eqn:F. inversion H2; subst.
      rewrite app_length, repeat_app, (run_app _ _ _ _ _ _ _ _ _ _ _ E F). apply run_length' in E. rewrite repeat_length in E.
      rewrite combine_app by auto. rewrite combine_app by (rewrite combine_length; lia). rewrite !map_app. reflexivity.
    - destruct (lofiC _ _ _ l1) as [[x0 y0] p] eqn:E0. destruct (lofiC _ _ _ r1) as [[x1 y1] q] eqn:E1. inversion H1; subst. cbn [lists fst snd lf_quant lf_dt lf_b0 lf_d0 lf_b1 lf_d1] in H2.
      destruct (lofiC _ _ (x0, y0) l2) as [[x2 y2] p'] eqn:F0. destruct (lofiC _ _ _ r2) as [[x3 y3] q'] eqn:F1. inversion H2; subst.
      rewrite (lofiC_app _ _ _ _ _ _ _ _ _ E0 F0), (lofiC_app _ _ _ _ _ _ _ _ _ E1 F1). reflexivity.
    - destruct (run _ _ l1) as [x p] eqn:E0. destruct (run _ _ r1) as [y q] eqn:E1. inversion H1; subst. cbn [lists re_amount re_0 re_1] in H2.
      destruct (run _ x l2) as [x' p'] eqn:F0. destruct (run _ y r2) as [y' q'] eqn:F1. inversion H2; subst.
      rewrite (run_app _ _ _ _ _ _ _ _ _ _ _ E0 F0), (run_app _ _ _ _ _ _ _ _ _ _ _ E1 F1). reflexivity.
    - destruct (distoC s _ l1) as [x p] eqn:E0. destruct (distoC s _ r1) as [y q] eqn:E1. inversion H1; subst. cbn [lists dt_0 dt_1] in H2.
      change (distoC (Disto (dt_pole s) (dt_depth s) (dt_dry s) (dt_wet s) (dt_stages s) x y)) with (distoC s) in H2.
      destruct (distoC s x l2) as [x' p'] eqn:F0. destruct (distoC s y r2) as [y' q'] eqn:F1. inversion H2; subst.
      rewrite (distoC_app _ _ _ _ _ _ _ _ E0 F0), (distoC_app _ _ _ _ _ _ _ _ E1 F1). reflexivity.
    - unfold stringsL in *. destruct (resonate _ _ _) as [ss out] eqn:E. inversion H1; subst. cbn [lists] in H2. unfold stringsL in H2.
      cbn [sg_wet sg_mix sg_strings] in H2. destruct (resonate ss _ _) as [ss' out'] eqn:F. inversion H2; subst.
      rewrite app_length, repeat_app, !map_app, zipWith_app by (rewrite !map_length; auto).
      assert (HL : length (zipWith (w_add X) (map (w_mul X (sg_mix s)) l1) (map (w_mul X (sg_mix s)) r1)) = length (repeat (w_zero X) (length l1))).
      { rewrite repeat_length, zipWith_length; rewrite !map_length; auto. }
      rewrite (resonate_app _ _ _ _ _ _ _ _ _ HL E F).
      apply resonate_length in E; [ | rewrite repeat_length, zipWith_length; rewrite !map_length; auto ]. rewrite repeat_length in E.
      rewrite !combine_app by lia. rewrite !map_app. reflexivity.
    - cbn [unlinked] in U. unfold dynL in *.
      destruct (upBlock _ _ l1) as [u0 p0] eqn:E0. destruct (upBlock _ _ r1) as [u1 p1] eqn:E1. rewrite U in *.
      destruct (run _ _ (map _ p0)) as [k0 gl] eqn:E2. destruct (run _ _ (map _ p1)) as [k1 gr] eqn:E3.
      destruct (downBlock _ _ _ (zipWith _ _ gl)) as [d0 o0] eqn:E4. destruct (downBlock _ _ _ (zipWith _ _ gr)) as [d1 o1] eqn:E5.
      inversion H1; subst. cbn [lists] in H2. unfold dynL in H2. cbn [dy_par dy_link dy_in dy_c0 dy_c1 dy_up0 dy_up1 dy_down0 dy_down1] in H2.
      destruct (upBlock _ u0 l2) as [u2 q0] eqn:F0. destruct (upBlock _ u1 r2) as [u3 q1] eqn:F1.
      destruct (run _ k0 (map _ q0)) as [k2 hl] eqn:F2. destruct (run _ k1 (map _ q1)) as [k3 hr] eqn:F3.
      destruct (downBlock _ _ d0 (zipWith _ _ hl)) as [d2 o2] eqn:F4. destruct (downBlock _ _ d1 (zipWith _ _ hr)) as [d3 o3] eqn:F5.
      inversion H2; subst.
      rewrite (upBlock_app _ _ _ _ _ _ _ _ E0 F0), (upBlock_app _ _ _ _ _ _ _ _ E1 F1), !map_app.
      rewrite (run_app _ _ _ _ _ _ _ _ _ _ _ E2 F2), (run_app _ _ _ _ _ _ _ _ _ _ _ E3 F3).
      apply upBlock_length in E0, E1. apply run_length' in E2, E3. rewrite map_length in E2, E3.
      rewrite !zipWith_app by (rewrite map_length; lia). rewrite app_length.
      erewrite (downBlock_app _ (length l1) (length l2) _ _ _ _ _ _ _ _ E4 F4), (downBlock_app _ (length l1) (length l2) _ _ _ _ _ _ _ _ E5 F5).
      reflexivity.
      Unshelve. all: rewrite zipWith_length; rewrite map_length; lia.
    - unfold limiterL in *.
      destruct (upBlock _ _ l1) as [u0 p0] eqn:E0. destruct (upBlock _ _ r1) as [u1 p1] eqn:E1.
      destruct (run _ _ (combine p0 p1)) as [k0 fr] eqn:E2.
      destruct (downBlock _ _ _ (map fst fr)) as [d0 o0] eqn:E4. destruct (downBlock _ _ _ (map snd fr)) as [d1 o1] eqn:E5.
      inversion H1; subst. cbn [lists] in H2. unfold limiterL in H2. cbn [li_s li_up0 li_up1 li_down0 li_down1] in H2.
      destruct (upBlock _ u0 l2) as [u2 q0] eqn:F0. destruct (upBlock _ u1 r2) as [u3 q1] eqn:F1.
      destruct (run _ k0 (combine q0 q1)) as [k2 fr'] eqn:F2.
      destruct (downBlock _ _ d0 (map fst fr')) as [d2 o2] eqn:F4. destruct (downBlock _ _ d1 (map snd fr')) as [d3 o3] eqn:F5.
      inversion H2; subst.
      rewrite (upBlock_app _ _ _ _ _ _ _ _ E0 F0), (upBlock_app _ _ _ _ _ _ _ _ E1 F1).
      apply upBlock_length in E0, E1. rewrite combine_app by lia.
      rewrite (run_app _ _ _ _ _ _ _ _ _ _ _ E2 F2), !map_app, app_length. apply run_length' in E2. rewrite combine_length in E2.
      erewrite (downBlock_app _ (length l1) (length l2) _ _ _ _ _ _ _ _ E4 F4), (downBlock_app _ (length l1) (length l2) _ _ _ _ _ _ _ _ E5 F5).
      reflexivity.
      Unshelve. all: rewrite map_length; lia.
    - destruct (run _ s (combine l1 r1)) as [x fr] eqn:E. inversion H1; subst. cbn [lists] in H2.
      destruct (run _ x (combine l2 r2)) as [x' fr'] eqn:F. inversion H2; subst.
      rewrite combine_app by auto. rewrite (run_app _ _ _ _ _ _ _ _ _ _ _ E F), !map_app. reflexivity.
  Qed.

  (** ** Theorems about one effect *)
  Lemma lists_len : forall e i0 i1 o0 o1 n m, allowed e i0 i1 o0 o1 ->
    block (snd (process e i0 i1 o0 o1 n m)) o0 n = fst (snd (lists e (block m i0 n) (block m i1 n))) /\
    block (snd (process e i0 i1 o0 o1 n m)) o1 n = snd (snd (lists e (block m i0 n) (block m i1 n))).
  Proof.
    intros e i0 i1 o0 o1 n m H. destruct (process_lists e i0 i1 o0 o1 n m H) as [_ [B [L0 L1]]]. destruct H as [[Ho _] _].
    rewrite !(eqm_block _ _ _ _ B). rewrite put_other, !put_same by auto. auto.
  Qed.
  Lemma block_inj : forall m m' b b' n i, block m b n = block m' b' n -> i < n -> m b i = m' b' i.
  Proof. intros. rewrite <- (block_nth m b n i (m b i)), <- (block_nth m' b' n i (m b i)) by auto. congruence. Qed.

  (** What comes out depends on what goes in, not on which buffers hold it nor on whether they are the same. *)
  Theorem C101_buffers : forall e n m m' i0 i1 o0 o1 j0 j1 p0 p1,
    allowed e i0 i1 o0 o1 -> allowed e j0 j1 p0 p1 ->
    (forall i, i < n -> m i0 i = m' j0 i /\ m i1 i = m' j1 i) ->
    fst (process e i0 i1 o0 o1 n m) = fst (process e j0 j1 p0 p1 n m') /\
    (forall i, i < n -> snd (process e i0 i1 o0 o1 n m) o0 i = snd (process e j0 j1 p0 p1 n m') p0 i /\
                        snd (process e i0 i1 o0 o1 n m) o1 i = snd (process e j0 j1 p0 p1 n m') p1 i).
  Proof.
    intros e n m m' i0 i1 o0 o1 j0 j1 p0 p1 H K HM.
    assert (B0 : block m i0 n = block m' j0 n) by (apply block_ext; intros; apply HM; auto).
    assert (B1 : block m i1 n = block m' j1 n) by (apply block_ext; intros; apply HM; auto).
    destruct (process_lists e i0 i1 o0 o1 n m H) as [A _]. destruct (process_lists e j0 j1 p0 p1 n m' K) as [A' _].
    destruct (lists_len e i0 i1 o0 o1 n m H) as [C D]. destruct (lists_len e j0 j1 p0 p1 n m' K) as [C' D'].
    rewrite B0, B1 in *. split; [ congruence | ]. intros i Hi. split; eapply block_inj; eauto; congruence.
  Qed.

  (** Nothing but the first [n] samples of the outputs is written. *)
  Theorem C101_local : forall e n m i0 i1 o0 o1 b i, allowed e i0 i1 o0 o1 -> (b <> o0 /\ b <> o1) \/ n <= i ->
    snd (process e i0 i1 o0 o1 n m) b i = m b i.
  Proof.
    intros e n m i0 i1 o0 o1 b i H Hb. destruct (process_lists e i0 i1 o0 o1 n m H) as [_ [B [L0 L1]]]. destruct H as [[Ho _] _].
    rewrite B. unfold put. destruct (Nat.eqb_spec b o1), (Nat.eqb_spec b o0); subst; try (exfalso; lia); rewrite ?Nat.eqb_refl.
    - destruct (Nat.eqb_spec o1 o0); [ congruence | ]. apply nth_overflow. lia.
    - apply nth_overflow. lia.
    - reflexivity.
  Qed.

  Lemma block_app : forall m b n1 n2, block m b (n1 + n2) = block m b n1 ++ map (fun i => m b (n1 + i)) (seq 0 n2).
  Proof.
    intros. induction n2 as [|n2 IH]; [ rewrite Nat.add_0_r; cbn [seq map]; rewrite app_nil_r; reflexivity | ].
    rewrite Nat.add_succ_r, block_S, IH, seq_S, map_app, app_assoc. reflexivity.
  Qed.
  Lemma block_cut : forall m m1 m2 b n1 n2, (forall i, i < n1 -> m b i = m1 b i) -> (forall i, i < n2 -> m b (n1 + i) = m2 b i) ->
    block m b (n1 + n2) = block m1 b n1 ++ block m2 b n2.
  Proof.
    intros. rewrite block_app. f_equal; [ apply block_ext; auto | ]. unfold block. apply map_ext_in. intros i Hi. apply in_seq in Hi. apply H0. lia.
  Qed.
  Lemma block_join : forall m m1 m2 b n1 n2, block m b (n1 + n2) = block m1 b n1 ++ block m2 b n2 ->
    (forall i, i < n1 -> m b i = m1 b i) /\ (forall i, i < n2 -> m b (n1 + i) = m2 b i).
  Proof.
    intros m m1 m2 b n1 n2 H. split; intros i Hi.
    - rewrite <- (block_nth m b (n1 + n2) i (m b i)) by lia. rewrite H, app_nth1 by (rewrite block_length; auto). apply block_nth. auto.
    - rewrite <- (block_nth m b (n1 + n2) (n1 + i) (m b i)) by lia. rewrite H, app_nth2 by (rewrite block_length; lia).
      rewrite block_length. replace (n1 + i - n1) with i by lia. apply block_nth. auto.
  Qed.

  (** The same sound in one block or in two: the same result and the same effect afterwards. *)
  Theorem C101_split : forall e n1 n2 m m1 m2 i0 i1 o0 o1, allowed e i0 i1 o0 o1 -> unlinked e ->
    (forall i, i < n1 -> m i0 i = m1 i0 i /\ m i1 i = m1 i1 i) ->
    (forall i, i < n2 -> m i0 (n1 + i) = m2 i0 i /\ m i1 (n1 + i) = m2 i1 i) ->
    let r := process e i0 i1 o0 o1 (n1 + n2) m in
    let r1 := process e i0 i1 o0 o1 n1 m1 in
    let r2 := process (fst r1) i0 i1 o0 o1 n2 m2 in
    fst r = fst r2 /\
    (forall i, i < n1 -> snd r o0 i = snd r1 o0 i /\ snd r o1 i = snd r1 o1 i) /\
    (forall i, i < n2 -> snd r o0 (n1 + i) = snd r2 o0 i /\ snd r o1 (n1 + i) = snd r2 o1 i).
  Proof.
    intros e n1 n2 m m1 m2 i0 i1 o0 o1 H U H1 H2 r r1 r2.
    assert (B0 : block m i0 (n1 + n2) = block m1 i0 n1 ++ block m2 i0 n2) by (apply block_cut; intros; [ apply H1 | apply H2 ]; auto).
    assert (B1 : block m i1 (n1 + n2) = block m1 i1 n1 ++ block m2 i1 n2) by (apply block_cut; intros; [ apply H1 | apply H2 ]; auto).
    assert (K : allowed (fst r1) i0 i1 o0 o1).
    { destruct H as [Ha Hb]. split; auto. unfold r1. destruct e; cbn [process] in *; try destruct (_ : _ * store) as [? ?]; auto;
        match goal with |- context [let '(_, _) := ?p in _] => destruct p end; exact Hb || exact Logic.I. }
    destruct (process_lists e i0 i1 o0 o1 (n1 + n2) m H) as [A _]. destruct (lists_len e i0 i1 o0 o1 (n1 + n2) m H) as [C D].
    destruct (process_lists e i0 i1 o0 o1 n1 m1 H) as [A1 _]. destruct (lists_len e i0 i1 o0 o1 n1 m1 H) as [C1 D1].
    destruct (process_lists (fst r1) i0 i1 o0 o1 n2 m2 K) as [A2 _]. destruct (lists_len (fst r1) i0 i1 o0 o1 n2 m2 K) as [C2 D2].
    fold r in A, C, D. fold r1 in A1, C1, D1. fold r2 in A2, C2, D2. rewrite B0, B1 in *.
    destruct (lists e (block m1 i0 n1) (block m1 i1 n1)) as [e1 [a1 b1]] eqn:E1. cbn [fst snd] in *. rewrite A1 in *.
    destruct (lists e1 (block m2 i0 n2) (block m2 i1 n2)) as [e2 [a2 b2]] eqn:E2. cbn [fst snd] in *.
    rewrite (lists_app e _ _ _ _ e1 a1 b1 e2 a2 b2 U) in * by (rewrite ?block_length; auto). cbn [fst snd] in *.
    split; [ congruence | ]. rewrite <- C1, <- C2 in C. rewrite <- D1, <- D2 in D.
    apply block_join in C, D. destruct C as [Ca Cb], D as [Da Db]. auto.
  Qed.
End Blocks.
