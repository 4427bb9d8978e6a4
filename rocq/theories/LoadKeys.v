(** The keys a region answers to, from the text of the opcodes in force for it (C70). *)
From Coq Require Import ZArith List Bool String Ascii Lia.
From Verif Require Import ParserModel OpcodeModel OpcodeCleanProps OpcodeNumbers ParserAdvance LoadModel Load.
Import ListNotations.
Local Open Scope Z_scope.

(** The opcodes as a region reads them. *)
Fixpoint asRead (l : list opcode) : option (list opcode) :=
  match l with
  | [] => Some []
  | raw :: rest => o <- cleanUp 1 raw ScopeRegion ;; os <- asRead rest ;; Some (o :: os)
  end.

(** Specification: a key is a number of the keyboard or the name of a note. *)
Definition keyNumber (v : text) : option Z :=
  match readLeadingInt v with
  | Some n => if (0 <=? n) && (n <=? 127) then Some n else None
  | None => match readNoteValue v with Result r => r | Undefined => None end
  end.
Definition keyOr (d : Z) (v : text) : Z := match keyNumber v with Some n => n | None => d end.

(** The first and the last result of [f] along a list. *)
Fixpoint lastOf {A} (f : opcode -> option A) (l : list opcode) : option A :=
  match l with
  | [] => None
  | o :: rest => match lastOf f rest with Some x => Some x | None => f o end
  end.
Fixpoint firstOf {A} (f : opcode -> option A) (l : list opcode) : option A :=
  match l with
  | [] => None
  | o :: rest => match f o with Some x => Some x | None => firstOf f rest end
  end.
Definition orElse {A} (x : option A) (d : A) : A := match x with Some a => a | None => d end.
Definition named (s : string) (d : Z) (o : opcode) : option Z :=
  if is o s then Some (keyOr d (o_value o)) else None.
Definition named2 (s : string) (o : opcode) : option (option Z) :=
  if is o s then Some (keyNumber (o_value o)) else None.

Definition setsLow (o : opcode) : option Z :=
  if is o "key" then Some (keyOr 60 (o_value o)) else named "lokey" 0 o.
Definition setsHigh (o : opcode) : option Z :=
  if is o "key" then Some (keyOr 60 (o_value o)) else named "hikey" 127 o.
Definition setsCenter (o : opcode) : option Z :=
  if is o "key" then Some (keyOr 60 (o_value o))
  else if is o "pitch_keycenter" then
    if text_eqb (o_value o) (str "sample") then None else Some (keyOr 60 (o_value o))
  else None.
Definition lowKey (l : list opcode) : Z := orElse (lastOf setsLow l) 0.
Definition highKey (l : list opcode) : Z := orElse (lastOf setsHigh l) 127.
Definition center (l : list opcode) : Z := orElse (lastOf setsCenter l) 60.
(** The keyswitches: a range, as soon as one of its ends is given, wins over a single key; an end
    that is not given is where the other one was given first. *)
Definition switchRange (l : list opcode) : option (Z * Z) :=
  match lastOf (named "sw_lolast" 60) l, lastOf (named "sw_hilast" 60) l with
  | None, None => None
  | Some a, Some b => Some (a, b)
  | Some a, None => Some (a, orElse (firstOf (named "sw_lolast" 60) l) 0)
  | None, Some b => Some (orElse (firstOf (named "sw_hilast" 60) l) 0, b)
  end.
Definition switchKey (l : list opcode) : option Z :=
  match switchRange l with
  | Some _ => None
  | None => orElse (lastOf (named2 "sw_last") l) None
  end.

Record says (l : list opcode) (k : keys) : Prop := Says {
  sy_lo : k_lo k = lowKey l;
  sy_hi : k_hi k = highKey l;
  sy_center : k_center k = center l;
  sy_last : k_last k = switchKey l;
  sy_range : k_lastRange k = switchRange l;
  sy_up : k_up k = orElse (lastOf (named2 "sw_up") l) None;
  sy_down : k_down k = orElse (lastOf (named2 "sw_down") l) None;
  sy_prev : k_prev k = orElse (lastOf (named2 "sw_previous") l) None;
  sy_default : k_default k = lastOf (named "sw_default" 60) l;
  sy_xin : k_xin k = (orElse (lastOf (named "xfin_lokey" 0) l) 0,
                      orElse (lastOf (named "xfin_hikey" 0) l) 0);
  sy_xout : k_xout k = (orElse (lastOf (named "xfout_lokey" 127) l) 127,
                        orElse (lastOf (named "xfout_hikey" 127) l) 127) }.

(** ** Reading keys *)
Lemma note_range v n : readNoteValue v = Result (Some n) -> 0 <= n <= 127.
Proof.
  unfold readNoteValue. destruct v as [|c v]; [discriminate|].
  destruct (_ || _); [discriminate|]. destruct (accidental _ _ _) as [[d w]|]; [|discriminate].
  destruct (simpleAtoi _ _ _) as [oc|]; [|discriminate].
  destruct (negb _); [discriminate|]. destruct (negb _); [discriminate|].
  destruct (negb _); [discriminate|].
  destruct ((_ <? 0) || _) eqn:Q; [discriminate|]. intros [= <-].
  apply orb_false_iff in Q. destruct Q as [Q1 Q2]. apply Z.ltb_ge in Q1. apply Z.leb_gt in Q2. lia.
Qed.
Lemma key_transform d n : transformInt (keySpec d) n = if (0 <=? n) && (n <=? 127) then Some n else None.
Proof.
  unfold transformInt. cbn [keySpec s_hi s_lo s_enforceHi s_enforceLo s_permHi s_permLo s_min s_max negb].
  destruct (Z.ltb_spec 127 n), (Z.ltb_spec n 0), (Z.leb_spec 0 n), (Z.leb_spec n 127);
    cbn [andb]; try lia; try reflexivity.
  f_equal. lia.
Qed.
Lemma key_read d v r : readOpt (keySpec d) v = Some r -> r = keyNumber v.
Proof.
  unfold readOpt, readInt, keyNumber. cbn [keySpec s_note]. destruct (readLeadingInt v) as [n|].
  - rewrite key_transform. intros [= <-]. reflexivity.
  - destruct (readNoteValue v) as [|[n|]] eqn:R; [discriminate| |intros [= <-]; reflexivity].
    rewrite key_transform. apply note_range in R. intros [= <-].
    destruct (Z.leb_spec 0 n), (Z.leb_spec n 127); cbn [andb]; try lia; reflexivity.
Qed.
Lemma key_readOr d v n : readIntOr (keySpec d) v = Some n -> n = keyOr d v.
Proof.
  intros R. unfold keyOr. rewrite <- (key_read d v (match readInt (keySpec d) v with Result r => r | Undefined => None end)).
  - unfold readIntOr in R. destruct (readInt _ _) as [|[k|]]; [discriminate|..]; injection R as <-; reflexivity.
  - unfold readOpt. unfold readIntOr in R. destruct (readInt _ _); [discriminate|reflexivity].
Qed.

(** ** One opcode *)
Definition keyNames : list string :=
  ["lokey"; "hikey"; "key"; "sw_last"; "sw_lolast"; "sw_hilast"; "sw_down"; "sw_up"; "sw_previous";
   "xfin_lokey"; "xfin_hikey"; "xfout_lokey"; "xfout_hikey"; "pitch_keycenter"; "sw_default"]%string.
Definition isKeyOp (o : opcode) : bool := existsb (is o) keyNames.

Record keyStep (o : opcode) (k k' : keys) : Prop := KeyStep {
  ks_lo : k_lo k' = orElse (setsLow o) (k_lo k);
  ks_hi : k_hi k' = orElse (setsHigh o) (k_hi k);
  ks_center : k_center k' = orElse (setsCenter o) (k_center k);
  ks_last : k_last k' =
    match k_lastRange k' with Some _ => match k_lastRange k, named "sw_lolast" 60 o, named "sw_hilast" 60 o with
                                        | Some _, None, None => k_last k | _, _, _ => None end
    | None => orElse (named2 "sw_last" o) (k_last k) end;
  ks_range : k_lastRange k' =
    match k_lastRange k, named "sw_lolast" 60 o, named "sw_hilast" 60 o with
    | None, None, None => None
    | None, Some n, _ => Some (n, n)
    | None, None, Some n => Some (n, n)
    | Some (a, b), x, y => Some (orElse x a, orElse y b)
    end;
  ks_up : k_up k' = orElse (named2 "sw_up" o) (k_up k);
  ks_down : k_down k' = orElse (named2 "sw_down" o) (k_down k);
  ks_prev : k_prev k' = orElse (named2 "sw_previous" o) (k_prev k);
  ks_default : k_default k' = match named "sw_default" 60 o with Some n => Some n | None => k_default k end;
  ks_xin : k_xin k' = (orElse (named "xfin_lokey" 0 o) (fst (k_xin k)),
                       orElse (named "xfin_hikey" 0 o) (snd (k_xin k)));
  ks_xout : k_xout k' = (orElse (named "xfout_lokey" 127 o) (fst (k_xout k)),
                         orElse (named "xfout_hikey" 127 o) (snd (k_xout k))) }.

Ltac same_names :=
  repeat match goal with
  | H : is ?o ?a = true, K : is ?o ?b = true |- _ =>
      unfold is in H, K; apply Z.eqb_eq in H; apply Z.eqb_eq in K; rewrite H in K;
      vm_compute in K; discriminate K
  end.
(** Only one name fits. *)
Definition sameHash (a b : string) : bool := hash (str a) fnvBasis =? hash (str b) fnvBasis.
Lemma names_distinct : forallb (fun a => forallb (fun b => String.eqb a b || negb (sameHash a b)) keyNames) keyNames = true.
Proof. vm_compute. reflexivity. Qed.
Definition twoNames (a b : string) : bool :=
  existsb (String.eqb a) keyNames && existsb (String.eqb b) keyNames && negb (String.eqb a b).
Lemma one_name o a b : is o a = true -> twoNames a b = true -> is o b = false.
Proof.
  unfold is, twoNames. intros A N. apply Z.eqb_eq in A. rewrite A.
  apply andb_true_iff in N. destruct N as [N D]. apply andb_true_iff in N. destruct N as [NA NB].
  apply existsb_exists in NA. destruct NA as (a' & IA & QA). apply String.eqb_eq in QA. subst a'.
  apply existsb_exists in NB. destruct NB as (b' & IB & QB). apply String.eqb_eq in QB. subst b'.
  pose proof names_distinct as H. rewrite forallb_forall in H. specialize (H a IA). cbn beta in H.
  rewrite forallb_forall in H. specialize (H b IB). cbn beta in H. apply negb_true_iff in D. rewrite D in H.
  apply negb_true_iff in H. exact H.
Qed.
Ltac other a :=
  match goal with
  | H : is ?o a = true |- _ =>
      repeat match goal with
      | |- context [is o ?b] =>
          first [constr_eq a b; rewrite H
                | rewrite (one_name o a b H eq_refl)]
      end
  end.

Lemma key_op o a : is o a = true -> In a keyNames -> isKeyOp o = true.
Proof. intros A I. apply existsb_exists. exists a. auto. Qed.
Lemma key_step o k res : parseKey o k = Some res ->
  (isKeyOp o = false /\ res = None) \/
  (isKeyOp o = true /\ exists k', res = Some k' /\ keyStep o k k').
Proof.
  destruct k as [lo hi on c fs la rg up dn pv us upv df xi xo]. intros P. unfold parseKey in P.
  do 15 (match type of P with (if is o ?a then _ else _) = _ => let K := fresh "K" in destruct (is o a) eqn:K end;
    [match goal with H : is o _ = true |- _ => rename H into T end; right; split; [refine (key_op _ _ T _); cbn [keyNames In]; tauto|];
     repeat match goal with H : is o _ = false |- _ => clear H end;
     repeat match type of P with
     | bind ?a _ = Some _ => let R := fresh "R" in destruct a eqn:R; cbn [bind] in P; [|discriminate P];
         first [apply key_readOr in R | apply key_read in R]; subst
     | (if ?a then _ else _) = Some _ => destruct a eqn:?
     | match rg with _ => _ end = Some _ => destruct rg eqn:?
     end; injection P as <-; eexists; (split; [reflexivity|]);
     constructor; cbn [k_lo k_hi k_center k_last k_lastRange k_up k_down k_prev k_default k_xin k_xout];
     unfold setsLow, setsHigh, setsCenter, named, named2;
     match type of T with is _ ?a = true => other a end;
     cbn [orElse fst snd]; try reflexivity;
     try (destruct rg as [[? ?]|]; cbn [orElse fst snd]; reflexivity);
     try (destruct xi; reflexivity); try (destruct xo; reflexivity);
     try match goal with H : text_eqb _ _ = _ |- _ => rewrite H; reflexivity end;
     try match goal with p : (Z * Z)%type |- Some ?p = _ => destruct p; reflexivity end|]).
  left. injection P as <-. split; [|reflexivity]. unfold isKeyOp, keyNames. cbn [existsb].
  repeat match goal with H : is o _ = false |- _ => rewrite H; clear H end. reflexivity.
Qed.

(** ** A list of opcodes *)
Lemma orElse_last {A} (f : opcode -> option A) o l d :
  orElse (lastOf f (o :: l)) d = orElse (lastOf f l) (orElse (f o) d).
Proof. cbn [lastOf]. destruct (lastOf f l); reflexivity. Qed.

(** What the fields become from any state. *)
Definition rangeFrom (rg : option (Z * Z)) (l : list opcode) : option (Z * Z) :=
  match rg with
  | Some (a, b) => Some (orElse (lastOf (named "sw_lolast" 60) l) a,
                         orElse (lastOf (named "sw_hilast" 60) l) b)
  | None => switchRange l
  end.
Record saysFrom (k : keys) (l : list opcode) (k' : keys) : Prop := SaysFrom {
  sf_lo : k_lo k' = orElse (lastOf setsLow l) (k_lo k);
  sf_hi : k_hi k' = orElse (lastOf setsHigh l) (k_hi k);
  sf_center : k_center k' = orElse (lastOf setsCenter l) (k_center k);
  sf_last : (k_lastRange k <> None -> k_last k = None) ->
    k_last k' = match rangeFrom (k_lastRange k) l with
                | Some _ => None
                | None => orElse (lastOf (named2 "sw_last") l) (k_last k)
                end;
  sf_range : k_lastRange k' = rangeFrom (k_lastRange k) l;
  sf_up : k_up k' = orElse (lastOf (named2 "sw_up") l) (k_up k);
  sf_down : k_down k' = orElse (lastOf (named2 "sw_down") l) (k_down k);
  sf_prev : k_prev k' = orElse (lastOf (named2 "sw_previous") l) (k_prev k);
  sf_default : k_default k' =
    match lastOf (named "sw_default" 60) l with Some n => Some n | None => k_default k end;
  sf_xin : k_xin k' = (orElse (lastOf (named "xfin_lokey" 0) l) (fst (k_xin k)),
                       orElse (lastOf (named "xfin_hikey" 0) l) (snd (k_xin k)));
  sf_xout : k_xout k' = (orElse (lastOf (named "xfout_lokey" 127) l) (fst (k_xout k)),
                         orElse (lastOf (named "xfout_hikey" 127) l) (snd (k_xout k))) }.

Lemma says_nil k : saysFrom k [] k.
Proof.
  constructor; try reflexivity.
  - intros H. unfold rangeFrom, switchRange. cbn [lastOf orElse].
    destruct (k_lastRange k) as [[a b]|]; [apply H; discriminate|reflexivity].
  - unfold rangeFrom, switchRange. cbn [lastOf orElse]. destruct (k_lastRange k) as [[a b]|]; reflexivity.
  - cbn [lastOf orElse]. destruct (k_xin k); reflexivity.
  - cbn [lastOf orElse]. destruct (k_xout k); reflexivity.
Qed.
Lemma range_cons o l k k1 : keyStep o k k1 -> rangeFrom (k_lastRange k1) l = rangeFrom (k_lastRange k) (o :: l).
Proof.
  intros S. rewrite (ks_range _ _ _ S).
  assert (D : forall n m, named "sw_lolast" 60 o = Some n -> named "sw_hilast" 60 o = Some m -> False).
  { unfold named. intros n m. destruct (is o "sw_lolast") eqn:A; [|discriminate].
    rewrite (one_name o _ "sw_hilast" A eq_refl). discriminate. }
  unfold rangeFrom, switchRange. cbn [lastOf firstOf].
  destruct (k_lastRange k) as [[a b]|].
  - destruct (lastOf (named "sw_lolast" 60) l), (lastOf (named "sw_hilast" 60) l); reflexivity.
  - destruct (named "sw_lolast" 60 o) as [n|] eqn:N, (named "sw_hilast" 60 o) as [m|] eqn:M;
      [destruct (D _ _ eq_refl eq_refl)|..];
      destruct (lastOf (named "sw_lolast" 60) l), (lastOf (named "sw_hilast" 60) l); reflexivity.
Qed.
Lemma says_cons o l k k1 k' : keyStep o k k1 -> saysFrom k1 l k' -> saysFrom k (o :: l) k'.
Proof.
  intros S T. pose proof (range_cons o l k k1 S) as R. constructor.
  - rewrite (sf_lo _ _ _ T), (ks_lo _ _ _ S). symmetry. apply orElse_last.
  - rewrite (sf_hi _ _ _ T), (ks_hi _ _ _ S). symmetry. apply orElse_last.
  - rewrite (sf_center _ _ _ T), (ks_center _ _ _ S). symmetry. apply orElse_last.
  - intros H.
    assert (H1 : k_lastRange k1 <> None -> k_last k1 = None).
    { intros N. rewrite (ks_last _ _ _ S). destruct (k_lastRange k1); [|destruct (N eq_refl)].
      destruct (k_lastRange k); [|reflexivity]. destruct (named "sw_lolast" 60 o); [reflexivity|].
      destruct (named "sw_hilast" 60 o); [reflexivity|]. apply H. discriminate. }
    rewrite (sf_last _ _ _ T H1), R.
    destruct (rangeFrom (k_lastRange k) (o :: l)) eqn:Q; [reflexivity|].
    rewrite orElse_last. f_equal. rewrite (ks_last _ _ _ S).
    destruct (k_lastRange k1) as [[a b]|]; [discriminate R|reflexivity].
  - rewrite (sf_range _ _ _ T). exact R.
  - rewrite (sf_up _ _ _ T), (ks_up _ _ _ S). symmetry. apply orElse_last.
  - rewrite (sf_down _ _ _ T), (ks_down _ _ _ S). symmetry. apply orElse_last.
  - rewrite (sf_prev _ _ _ T), (ks_prev _ _ _ S). symmetry. apply orElse_last.
  - rewrite (sf_default _ _ _ T), (ks_default _ _ _ S). cbn [lastOf].
    destruct (lastOf (named "sw_default" 60) l); reflexivity.
  - rewrite (sf_xin _ _ _ T), (ks_xin _ _ _ S), !orElse_last. reflexivity.
  - rewrite (sf_xout _ _ _ T), (ks_xout _ _ _ S), !orElse_last. reflexivity.
Qed.
Lemma no_key o k : isKeyOp o = false -> keyStep o k k.
Proof.
  intros K. unfold isKeyOp, keyNames in K. cbn [existsb] in K.
  repeat (apply orb_false_iff in K; destruct K as [? K]).
  constructor; unfold setsLow, setsHigh, setsCenter, named, named2;
    repeat match goal with H : is o _ = false |- _ => rewrite H; clear H end; cbn [orElse];
    try reflexivity; try (destruct (k_lastRange k) as [[? ?]|]; reflexivity).
  - destruct (k_xin k); reflexivity.
  - destruct (k_xout k); reflexivity.
Qed.

Section Keys.
  Variable X : Type.
  Variable newRest : nat -> text -> X.
  Variable parseRest : opcode -> X -> bool * X.
  Variable avail : X -> bool.

  (** A name collected as unknown is not that of a key opcode. *)
  Definition notKey (n : text) : Prop :=
    forall raw o, o_name raw = n -> cleanUp 1 raw ScopeRegion = Some o -> isKeyOp o = false.
  Lemma key_by_name raw raw' o o' : o_name raw = o_name raw' ->
    cleanUp 1 raw ScopeRegion = Some o -> cleanUp 1 raw' ScopeRegion = Some o' ->
    isKeyOp o' = isKeyOp o.
  Proof.
    intros N C C'. destruct (clean_name _ _ N) as (n & A & A'). rewrite A in C. rewrite A' in C'.
    injection C as <-. injection C' as <-. unfold isKeyOp, is, mkOpcode.
    destruct (scan_name _ _ _ _). reflexivity.
  Qed.
  Lemma parse_says l : forall u r u' r', parseOpcodes X parseRest l u r = Some (u', r') ->
    (forall n, In n u -> notKey n) ->
    (forall n, In n u' -> notKey n) /\
    exists cs, asRead l = Some cs /\ saysFrom (fst r) cs (fst r').
  Proof.
    induction l as [|raw l IH]; intros u r u' r'; cbn [parseOpcodes asRead].
    - intros [= <- <-] U. split; [exact U|]. exists []. split; [reflexivity|apply says_nil].
    - destruct (clean_name raw raw eq_refl) as (n & C & _).
      rewrite C. cbn [bind]. remember (mkOpcode n (o_value raw)) as o.
      destruct (existsb _ u) eqn:Q; intros P U.
      + apply existsb_exists in Q. destruct Q as (m & I & T). apply text_eqb_eq in T.
        destruct (IH _ _ _ _ P U) as (U' & cs & A & B). split; [exact U'|].
        exists (o :: cs). rewrite A. split; [reflexivity|].
        refine (says_cons _ _ _ (fst r) _ _ B). apply no_key.
        exact (U m I raw o T C).
      + unfold parseOpcode in P. rewrite C in P. cbn [bind] in P.
        destruct (parseKey o (fst r)) as [res|] eqn:K; cbn [bind] in P; [|discriminate P].
        destruct (key_step _ _ _ K) as [(A & ->)|(A & k1 & -> & S)].
        * destruct (parseRest o (snd r)) as [b x] eqn:E. cbn [bind] in P.
          destruct (IH _ _ _ _ P) as (U' & cs & D & B).
          { destruct b; [exact U|]. intros m I. apply in_app_or in I. destruct I as [I|[<-|[]]]; [auto|].
            intros raw' o' N' C'. rewrite (key_by_name raw raw' o o' (eq_sym N') C C'). exact A. }
          split; [exact U'|]. exists (o :: cs). rewrite D. split; [reflexivity|].
          refine (says_cons _ _ _ (fst r) _ (no_key _ _ A) B).
        * cbn [bind] in P. destruct (IH _ _ _ _ P U) as (U' & cs & D & B).
          split; [exact U'|]. exists (o :: cs). rewrite D. split; [reflexivity|].
          exact (says_cons _ _ _ k1 _ S B).
  Qed.
  Lemma says_fresh cs k : saysFrom freshKeys cs k -> says cs k.
  Proof.
    intros [A1 A2 A3 A4 A5 A6 A7 A8 A9 A10 A11].
    cbn [freshKeys k_lo k_hi k_center k_last k_lastRange k_up k_down k_prev k_default k_xin k_xout fst snd] in *.
    constructor; try assumption.
    - unfold switchKey. apply A4. intros H; destruct (H eq_refl).
    - rewrite A9. destruct (lastOf (named "sw_default" 60) cs); reflexivity.
  Qed.

  Lemma unknown_block b (s t : state X) :
    (forall n, In n (st_unknown X s) -> notKey n) -> onBlock X newRest parseRest s b = Some t ->
    forall n, In n (st_unknown X t) -> notKey n.
  Proof.
    intros U. destruct b as [[] m]; cbn [onBlock fst snd]; intros P.
    1-4: ob P; injection P as <-; exact U.
    - rewrite build_parse in P. ob P. injection P as <-. cbn [st_unknown].
      exact (proj1 (parse_says _ _ _ _ _ B U)).
    - injection P as <-. exact U.
  Qed.
  Lemma unknown_blocks l : forall (s t : state X),
    (forall n, In n (st_unknown X s) -> notKey n) -> onBlocks X newRest parseRest s l = Some t ->
    forall n, In n (st_unknown X t) -> notKey n.
  Proof.
    induction l as [|b l IH]; intros s t U O.
    - injection O as <-. exact U.
    - cbn [onBlocks] in O. ob O. exact (IH _ _ (unknown_block _ _ _ U B) O).
  Qed.

  (** The keys of a region are those of the opcodes in force for it, whatever else the file
      holds. *)
  Theorem C70_keys (pre : list block) own (post : list block) (s : state X) :
    controls pre = [] ->
    onBlocks X newRest parseRest (cleared X) (pre ++ (HRegion, own) :: post) = Some s ->
    exists g cs, nth_error (st_layers X s) (regionsIn pre) = Some g /\
      asRead (effective (rev pre) own) = Some cs /\ says cs (g_keys X g).
  Proof.
    intros N O. rewrite blocks_app in O. ob O. rename s0 into p.
    cbn [onBlocks] in O. ob O. rename s0 into q.
    destruct (blocks_extend X newRest parseRest pre (cleared X) p B) as (n1 & L1 & C1).
    destruct (blocks_extend X newRest parseRest post q s O) as (n2 & L2 & C2).
    pose proof (knows_blocks X newRest parseRest pre [] (cleared X) p (knows_cleared X parseRest) B) as [K1 K2 K3 _].
    rewrite app_nil_r in K1, K2, K3.
    pose proof (unknown_blocks pre (cleared X) p ltac:(intros n []) B) as U.
    destruct (controls_state X newRest parseRest pre (cleared X) (cleared X) p ltac:(constructor; reflexivity) B)
      as (c & Oc & [A1 A2 A3 A4 A5 A6 A7 A8]).
    rewrite N in Oc. injection Oc as <-. cbn [cleared st_note st_octave] in A2, A3.
    cbn [onBlock fst snd] in B0. rewrite build_parse in B0. ob B0.
    assert (Lq : st_layers X q = st_layers X p ++ [LRegion X k (snd p0) (st_current X p)]).
    { injection B0 as <-. reflexivity. }
    destruct (parse_says _ _ _ _ _ B1 U) as (_ & cs & R & S).
    exists (LRegion X k (snd p0) (st_current X p)), cs.
    split; [|split].
    - rewrite L2, Lq, L1. cbn [cleared st_layers app].
      rewrite nth_error_app1 by (rewrite app_length; cbn [List.length]; lia).
      rewrite nth_error_app2 by lia. rewrite C1, Nat.sub_diag. reflexivity.
    - rewrite <- R. unfold allOpcodes, effective. rewrite K1, K2, K3. reflexivity.
    - unfold offsetKeys in B2. rewrite <- A2, <- A3 in B2. cbn [Z.eqb andb] in B2.
      injection B2 as <-. exact (says_fresh _ _ S).
  Qed.

  (** So the region is in the list of exactly the keys from its lowest to its highest. *)
  Theorem C70_activation (pre : list block) own (post : list block) (s : state X) note :
    controls pre = [] ->
    onBlocks X newRest parseRest (cleared X) (pre ++ (HRegion, own) :: post) = Some s ->
    exists g cs, nth_error (st_layers X s) (regionsIn pre) = Some g /\
      asRead (effective (rev pre) own) = Some cs /\
      (In (regionsIn pre) (activationList X avail s note) <->
       avail (g_rest X g) = true /\ lowKey cs <= note <= highKey cs).
  Proof.
    intros N O. destruct (C70_keys _ _ _ _ N O) as (g & cs & G & R & S).
    exists g, cs. split; [exact G|]. split; [exact R|].
    rewrite C67_activation, <- (sy_lo _ _ S), <- (sy_hi _ _ S). rewrite G. split.
    - intros (g' & [= <-] & A & B). auto.
    - intros (A & B). exists g. auto.
  Qed.
End Keys.

Definition op (n v : string) : opcode := mkOpcode (str n) (str v).
Example C70_ex :
  let own := [op "hikey" "c5"; op "sw_hilast" "40"; op "sw_lolast" "36"] in
  let file := [(HGroup, [op "key" "60"; op "sw_last" "20"]); (HRegion, [op "nosuch" "1"]); (HRegion, own)] in
  exists s cs,
    onBlocks unit (fun _ _ => tt) (fun _ _ => (false, tt)) (cleared unit) file = Some s /\
    asRead (effective (rev (firstn 2 file)) own) = Some cs /\
    lowKey cs = 60 /\ highKey cs = 72 /\ center cs = 60 /\
    switchRange cs = Some (36, 40) /\ switchKey cs = None /\
    activationList unit (fun _ => true) s 60 = [0%nat; 1%nat] /\
    activationList unit (fun _ => true) s 72 = [1%nat].
Proof.
  eexists. eexists. split; [vm_compute; reflexivity|]. split; [vm_compute; reflexivity|].
  vm_compute. repeat split.
Qed.
