(** Instrument loading: what a region inherits from the headers before it, the tree of region
    sets, the key offsets, and the lists the note dispatch works on. *)
From Coq Require Import ZArith List Bool String Ascii Lia Sorted.
From Verif Require Import ParserModel OpcodeModel OpcodeCleanProps ParserAdvance LoadModel.
Import ListNotations.
Local Open Scope Z_scope.

Ltac ob H :=
  repeat match type of H with
         | bind ?a ?f = Some _ =>
             let E := fresh "B" in destruct a eqn:E; cbn [bind] in H; [|discriminate H]
         | (let '(_, _) := ?p in _) = Some _ => destruct p
         end.

(** Specification, independent of the loader's state: the opcodes in force at a place, looking
    back from it.  A header hides the earlier ones of its kind and of the kinds below it. *)
Fixpoint globalOf (back : list block) : list opcode :=
  match back with
  | [] => []
  | (HGlobal, m) :: _ => m
  | _ :: r => globalOf r
  end.
Fixpoint masterOf (back : list block) : list opcode :=
  match back with
  | [] => []
  | (HMaster, m) :: _ => m
  | (HGlobal, _) :: _ => []
  | _ :: r => masterOf r
  end.
Fixpoint groupOf (back : list block) : list opcode :=
  match back with
  | [] => []
  | (HGroup, m) :: _ => m
  | (HMaster, _) :: _ | (HGlobal, _) :: _ => []
  | _ :: r => groupOf r
  end.
Definition effective (back : list block) (own : list opcode) : list opcode :=
  globalOf back ++ masterOf back ++ groupOf back ++ own.
(** The same file with every header's opcodes written out in the regions they apply to. *)
Fixpoint flatten (back l : list block) : list block :=
  match l with
  | [] => []
  | (h, m) as b :: r =>
      match h with
      | HRegion => (HRegion, effective back m) :: flatten (b :: back) r
      | HGlobal | HMaster | HGroup => flatten (b :: back) r
      | _ => b :: flatten (b :: back) r
      end
  end.

(** The region sets are numbered in the order of their headers.  The sets a place belongs to,
    innermost first, looking back from it. *)
Definition isSet (b : block) : bool :=
  match fst b with HGlobal | HMaster | HGroup => true | _ => false end.
Definition setsIn (l : list block) : nat := List.length (filter isSet l).
Fixpoint globalPos (back : list block) : list nat :=
  match back with
  | [] => []
  | (HGlobal, _) :: r => [setsIn r]
  | _ :: r => globalPos r
  end.
Fixpoint masterPos (back : list block) : list nat :=
  match back with
  | [] => []
  | (HMaster, _) :: r => [setsIn r]
  | (HGlobal, _) :: _ => []
  | _ :: r => masterPos r
  end.
Fixpoint groupPos (back : list block) : list nat :=
  match back with
  | [] => []
  | (HGroup, _) :: r => [setsIn r]
  | (HMaster, _) :: _ | (HGlobal, _) :: _ => []
  | _ :: r => groupPos r
  end.
Definition chainOf (back : list block) : list nat :=
  groupPos back ++ masterPos back ++ globalPos back.
(** The sets reached from one by going to the parents, as registerVoiceInHierarchy does. *)
Inductive ancestors (sets : list rset) : option nat -> list nat -> Prop :=
| An_none : ancestors sets None []
| An_some i p lv c :
    nth_error sets i = Some (p, lv) -> ancestors sets p c -> ancestors sets (Some i) (i :: c).

(** A key moved by [d] and kept on the keyboard. *)
Definition move (d z : Z) : Z := Z.max 0 (Z.min 127 (z + d)).
Definition moveRange (d : Z) (whole r : Z * Z) : Z * Z :=
  if (fst r =? fst whole) && (snd r =? snd whole) then r else (move d (fst r), move d (snd r)).

(** The keys on which a region's switch is on: sw_last, or from sw_lolast to sw_hilast. *)
Definition lastOn (key : Z) (k : keys) : bool :=
  match k_lastRange k with
  | Some (lo, hi) => (lo <=? key) && (key <=? hi)
  | None => match k_last k with Some n => n =? key | None => false end
  end.
Definition isKey (key : Z) (r : option Z) : bool :=
  match r with Some n => n =? key | None => false end.
(** The state of a layer in a table of switches. *)
Fixpoint look (id : nat) (m : list (nat * bool)) : option bool :=
  match m with
  | [] => None
  | (i, b) :: r => if Nat.eqb i id then Some b else look id r
  end.

Section LoadProofs.
  Variable X : Type.
  Variable newRest : nat -> text -> X.
  Variable parseRest : opcode -> X -> bool * X.
  Variable avail : X -> bool.

  Let state := state X.
  Let onBlocks := onBlocks X newRest parseRest.
  Let onBlock := onBlock X newRest parseRest.
  Let parseOpcodes := parseOpcodes X parseRest.
  Let parseOpcode := parseOpcode X parseRest.
  Let cleared := cleared X.

  Lemma parseOpcodes_app a b u r :
    parseOpcodes (a ++ b) u r = ('(u', r') <- parseOpcodes a u r ;; parseOpcodes b u' r').
  Proof.
    revert u r. induction a as [|o a IH]; intros u r; cbn; [reflexivity|].
    destruct (existsb _ u); [apply IH|].
    destruct (LoadModel.parseOpcode X parseRest o r) as [[ok r']|]; cbn; [|reflexivity].
    apply IH.
  Qed.

  (** What two loader states have in common when only headers differ. *)
  Definition content (g : lregion X) : keys * X := (g_keys X g, g_rest X g).
  Record alike (a b : state) : Prop := Alike {
    a_unknown : st_unknown X a = st_unknown X b;
    a_path : st_path X a = st_path X b;
    a_note : st_note X a = st_note X b;
    a_octave : st_octave X a = st_octave X b;
    a_layers : map content (st_layers X a) = map content (st_layers X b);
    a_last : st_last X a = st_last X b;
    a_up : st_up X a = st_up X b;
    a_down : st_down X a = st_down X b;
    a_prev : st_prev X a = st_prev X b }.

  Lemma flatten_step l : forall back (s s' : state) t,
    st_globals X s = globalOf back -> st_masters X s = masterOf back ->
    st_groups X s = groupOf back ->
    st_globals X s' = [] -> st_masters X s' = [] -> st_groups X s' = [] ->
    alike s s' -> onBlocks s l = Some t ->
    exists t', onBlocks s' (flatten back l) = Some t' /\ alike t t'.
  Proof.
    induction l as [|[h m] l IH]; intros back s s' t Hg Hm Hp Zg Zm Zp A O.
    - cbn in O. injection O as <-. exists s'. split; [reflexivity|exact A].
    - cbn [LoadModel.onBlocks onBlocks] in O. unfold onBlocks in O. cbn [LoadModel.onBlocks] in O.
      ob O. rename B into E. destruct A as [A1 A2 A3 A4 A5 A6 A7 A8 A9].
      destruct h; cbn [flatten].
      + cbn [LoadModel.onBlock fst snd] in E. ob E. injection E as <-.
        eapply (IH ((HGlobal, m) :: back)); [..|exact O]; try reflexivity; try assumption.
        constructor; assumption.
      + cbn [LoadModel.onBlock fst snd] in E. ob E. injection E as <-.
        unfold onBlocks. cbn [LoadModel.onBlocks LoadModel.onBlock fst snd].
        rewrite <- A3, <- A4, B. cbn [bind].
        eapply (IH ((HControl, m) :: back)); [..|exact O]; try reflexivity; try assumption.
        constructor; try assumption; reflexivity.
      + cbn [LoadModel.onBlock fst snd] in E. ob E. injection E as <-.
        eapply (IH ((HMaster, m) :: back)); [..|exact O]; try reflexivity; try assumption.
        constructor; assumption.
      + cbn [LoadModel.onBlock fst snd] in E. ob E. injection E as <-.
        eapply (IH ((HGroup, m) :: back)); [..|exact O]; try reflexivity; try assumption.
        constructor; assumption.
      + cbn [LoadModel.onBlock fst snd] in E. unfold buildRegion in E.
        assert (L : List.length (st_layers X s') = List.length (st_layers X s)).
        { rewrite <- (map_length content), <- A5, map_length. reflexivity. }
        assert (P : parseOpcodes (effective back m) (st_unknown X s')
                      (freshKeys, newRest (List.length (st_layers X s')) (st_path X s'))
                    = ('(u1, r1) <- parseOpcodes (st_globals X s) (st_unknown X s)
                          (freshKeys, newRest (List.length (st_layers X s)) (st_path X s)) ;;
                       '(u2, r2) <- parseOpcodes (st_masters X s) u1 r1 ;;
                       '(u3, r3) <- parseOpcodes (st_groups X s) u2 r2 ;;
                       parseOpcodes m u3 r3)).
        { unfold effective. rewrite parseOpcodes_app, L, <- A1, <- A2, Hg, Hm, Hp.
          destruct (parseOpcodes (globalOf back) _ _) as [[? ?]|]; cbn [bind]; [|reflexivity].
          rewrite parseOpcodes_app.
          destruct (parseOpcodes (masterOf back) _ _) as [[? ?]|]; cbn [bind]; [|reflexivity].
          rewrite parseOpcodes_app.
          destruct (parseOpcodes (groupOf back) _ _) as [[? ?]|]; cbn [bind]; reflexivity. }
        unfold parseOpcodes in P. ob E.
        repeat match goal with H : LoadModel.parseOpcodes _ _ _ _ _ = Some _ |- _ =>
          rewrite H in P; clear H; cbn [bind] in P end.
        unfold onBlocks. cbn [LoadModel.onBlocks LoadModel.onBlock fst snd]. unfold buildRegion.
        rewrite Zg, Zm, Zp. cbn [LoadModel.parseOpcodes bind]. rewrite P. cbn [bind].
        rewrite <- A3, <- A4, <- A6, <- A7, <- A8, <- A9, L.
        repeat match goal with H : ?x = Some _ |- context [bind ?x] =>
          rewrite H; clear H; cbn [bind] end.
        destruct (k_default k) as [n|] eqn:D; cbn [bind] in *.
        * ob B7. rewrite B8. cbn [bind].
          injection E as <-.
          eapply (IH ((HRegion, m) :: back)); [..|exact O]; try reflexivity; try assumption.
          constructor; try assumption; try reflexivity. cbn [st_layers].
          rewrite !map_app, A5. reflexivity.
        * injection E as <-.
          eapply (IH ((HRegion, m) :: back)); [..|exact O]; try reflexivity; try assumption.
          constructor; try assumption; try reflexivity. cbn [st_layers].
          rewrite !map_app, A5. reflexivity.
      + cbn [LoadModel.onBlock fst snd] in E. injection E as <-.
        unfold onBlocks. cbn [LoadModel.onBlocks LoadModel.onBlock fst snd bind].
        eapply (IH ((HOther, m) :: back)); [..|exact O]; try assumption.
        constructor; assumption.
  Qed.

  Lemma content_kept (a b : state) note :
    map content (st_layers X a) = map content (st_layers X b) ->
    activationList X avail a note = activationList X avail b note.
  Proof.
    intros H. unfold activationList, kept.
    assert (L : List.length (st_layers X a) = List.length (st_layers X b)).
    { rewrite <- (map_length content (st_layers X a)), H, map_length. reflexivity. }
    rewrite L. clear L. remember (List.length (st_layers X b)) as n eqn:N. clear N.
    revert H. generalize (st_layers X b) as lb. generalize (st_layers X a) as la.
    generalize (seq 0 n) as ids. clear.
    induction ids as [|i ids IH]; intros la lb H; [reflexivity|].
    destruct la as [|x la], lb as [|y lb]; cbn in H; try discriminate; [reflexivity|].
    injection H as K R H2. cbn [combine filter].
    cbn [snd]. rewrite R. specialize (IH la lb H2).
    destruct (avail (g_rest X y)); [|exact IH].
    cbn [filter snd]. rewrite K. destruct (_ && _); cbn [map fst]; rewrite IH; reflexivity.
  Qed.

  (** C64: a file and the same file with all headers written out give the same regions, the
      same note lists and the same keyswitch lists. *)
  Theorem C64_flatten l (s : state) :
    onBlocks cleared l = Some s ->
    exists s', onBlocks cleared (flatten [] l) = Some s' /\
      map content (st_layers X s') = map content (st_layers X s) /\
      (forall note, activationList X avail s' note = activationList X avail s note) /\
      (forall key, listAt (st_last X s') key = listAt (st_last X s) key) /\
      (forall key, listAt (st_up X s') key = listAt (st_up X s) key) /\
      (forall key, listAt (st_down X s') key = listAt (st_down X s) key) /\
      st_prev X s' = st_prev X s.
  Proof.
    intros O. destruct (flatten_step l [] cleared cleared s) as (s' & O' & A); try reflexivity.
    - constructor; reflexivity.
    - exact O.
    - exists s'. destruct A. repeat split; try congruence.
      intros note. apply content_kept. congruence.
  Qed.

  (** *** Independence of the regions *)
  Definition controls (l : list block) : list block :=
    filter (fun b => match fst b with HControl => true | _ => false end) l.
  Definition regionsIn (l : list block) : nat :=
    List.length (filter (fun b => match fst b with HRegion => true | _ => false end) l).

  (** An opcode is refused because of its name alone, and then leaves the region unchanged. *)
  Definition refusesByName : Prop :=
    (forall o o' x x', o_name o = o_name o' -> o_hash o = o_hash o' ->
       fst (parseRest o x) = fst (parseRest o' x')) /\
    (forall o x, fst (parseRest o x) = false -> snd (parseRest o x) = x).

  Lemma parseKey_other o k o' k' :
    parseKey o k = Some None -> o_hash o' = o_hash o -> parseKey o' k' = Some None.
  Proof.
    intros P H. unfold parseKey, is in *. rewrite H.
    destruct k as [lo hi on c fs la rg up dn pv us upv df xi xo].
    destruct k' as [lo' hi' on' c' fs' la' rg' up' dn' pv' us' upv' df' xi' xo'].
    repeat (match type of P with
            | (if ?c then _ else _) = _ => destruct c
            end;
            [exfalso;
             repeat match type of P with
                    | bind ?a _ = _ => destruct a; cbn [bind] in P; try discriminate P
                    | match ?a with _ => _ end = _ => destruct a; try discriminate P
                    end; discriminate P|]).
    reflexivity.
  Qed.

  (** The names the loader has collected are really refused, whatever the value and region. *)
  Definition refused (n : text) : Prop :=
    forall o r, o_name o = n -> parseOpcode o r = Some (false, r).

  Lemma clean_name o o' : o_name o = o_name o' ->
    exists n, cleanUp 1 o ScopeRegion = Some (mkOpcode n (o_value o)) /\
              cleanUp 1 o' ScopeRegion = Some (mkOpcode n (o_value o')).
  Proof.
    intros H. unfold cleanUp. rewrite H.
    destruct (OpcodeCleanProps.C12_terminates 0 (o_name o') ScopeRegion) as (u & U & _).
    rewrite U. exists u. split; reflexivity.
  Qed.

  Lemma refused_intro o r r' :
    refusesByName -> parseOpcode o r = Some (false, r') -> refused (o_name o) /\ r' = r.
  Proof.
    intros [H1 H2] P.
    assert (Q : forall o' q, o_name o' = o_name o -> parseOpcode o' q = Some (false, q)).
    { intros o' q N. destruct (clean_name o' o N) as (n & C' & C).
      unfold parseOpcode, LoadModel.parseOpcode in *. rewrite C in P. rewrite C'.
      cbn [bind] in *. ob P.
      assert (B' : parseKey (mkOpcode n (o_value o')) (fst q) = Some None).
      { destruct o0; [discriminate P|].
        refine (parseKey_other _ _ _ _ B _).
        unfold mkOpcode. destruct (scan_name _ _ _ _). reflexivity. }
      rewrite B'. cbn [bind]. destruct o0 as [k|]; [discriminate P|].
      destruct (parseRest (mkOpcode n (o_value o)) (snd r)) as [b x] eqn:E.
      injection P as -> _.
      destruct (parseRest (mkOpcode n (o_value o')) (snd q)) as [b' x'] eqn:E'.
      assert (b' = false).
      { pose proof (H1 (mkOpcode n (o_value o')) (mkOpcode n (o_value o)) (snd q) (snd r)) as K.
        rewrite E, E' in K. cbn [fst] in K. apply K.
        - unfold mkOpcode. destruct (scan_name _ _ _ _). reflexivity.
        - unfold mkOpcode. destruct (scan_name _ _ _ _). reflexivity. }
      subst b'. pose proof (H2 (mkOpcode n (o_value o')) (snd q)) as K. rewrite E' in K.
      cbn [fst snd] in K. rewrite (K eq_refl). destruct q; reflexivity. }
    split; [exact Q|]. rewrite (Q o r eq_refl) in P. congruence.
  Qed.

  Lemma existsb_text n u : existsb (text_eqb n) u = true -> In n u.
  Proof.
    rewrite existsb_exists. intros (x & I1 & E). apply text_eqb_eq in E. subst. exact I1.
  Qed.

  Lemma parse_unknown l : refusesByName -> forall u u' r v r1,
    (forall n, In n u -> refused n) -> (forall n, In n u' -> refused n) ->
    parseOpcodes l u r = Some (v, r1) ->
    (forall n, In n v -> refused n) /\
    exists v', parseOpcodes l u' r = Some (v', r1) /\ (forall n, In n v' -> refused n).
  Proof.
    intros H. induction l as [|o l IH]; intros u u' r v r1 U U' P.
    - cbn in P. injection P as <- <-. split; [exact U|]. exists u'. split; [reflexivity|exact U'].
    - unfold parseOpcodes in P. cbn [LoadModel.parseOpcodes] in P.
      unfold parseOpcodes. cbn [LoadModel.parseOpcodes].
      assert (Sn : forall w a, (forall n, In n w -> refused n) -> refused a ->
                   forall n, In n (w ++ [a]) -> refused n).
      { intros w a W A n I1. apply in_app_or in I1. destruct I1 as [I1|[<-|[]]]; auto. }
      destruct (existsb (text_eqb (o_name o)) u) eqn:E.
      + apply existsb_text in E. pose proof (U _ E) as R.
        destruct (existsb (text_eqb (o_name o)) u') eqn:E'.
        * exact (IH u u' r v r1 U U' P).
        * pose proof (R o r eq_refl) as Po. unfold parseOpcode in Po. rewrite Po. cbn [bind].
          exact (IH u (u' ++ [o_name o]) r v r1 U (Sn u' _ U' R) P).
      + ob P. destruct b.
        * destruct (existsb (text_eqb (o_name o)) u') eqn:E'.
          { apply existsb_text in E'. pose proof (U' _ E' o r eq_refl) as Po.
            unfold parseOpcode in Po. rewrite Po in B. discriminate B. }
          cbn [bind]. exact (IH u u' _ v r1 U U' P).
        * destruct (refused_intro o r p H B) as [R ->].
          destruct (existsb (text_eqb (o_name o)) u') eqn:E'.
          { exact (IH (u ++ [o_name o]) u' r v r1 (Sn u _ U R) U' P). }
          cbn [bind].
          exact (IH (u ++ [o_name o]) (u' ++ [o_name o]) r v r1 (Sn u _ U R) (Sn u' _ U' R) P).
  Qed.

  (** buildRegion in one piece. *)
  Definition offsetKeys (octave note : Z) (k : keys) : option keys :=
    if (octave =? 0) && (note =? 0) then Some k
    else a <- int_ok (octave * 12) ;; d <- int_ok (a + note) ;; offsetAllKeys k d.
  Definition allOpcodes (s : state) (m : list opcode) : list opcode :=
    st_globals X s ++ st_masters X s ++ st_groups X s ++ m.

  Lemma build_parse (s : state) m :
    buildRegion X newRest parseRest s m =
    ('(u, r) <- parseOpcodes (allOpcodes s m) (st_unknown X s)
                  (freshKeys, newRest (List.length (st_layers X s)) (st_path X s)) ;;
     k <- offsetKeys (st_octave X s) (st_note X s) (fst r) ;;
     last1 <- push (st_last X s) (k_last k) (List.length (st_layers X s)) ;;
     last2 <- pushRange last1 (k_lastRange k) (List.length (st_layers X s)) ;;
     up <- push (st_up X s) (k_up k) (List.length (st_layers X s)) ;;
     down <- push (st_down X s) (k_down k) (List.length (st_layers X s)) ;;
     sw <- match k_default k with
           | None => Some (st_switch X s)
           | Some n => c <- switch_of n (st_octave X s) (st_note X s) ;; Some (Some c)
           end ;;
     Some (State X (st_globals X s) (st_masters X s) (st_groups X s) u (st_sets X s)
             (st_current X s) (st_path X s) (st_note X s) (st_octave X s) sw
             (st_layers X s ++ [LRegion X k (snd r) (st_current X s)])
             last2 up down
             (st_prev X s ++ (if has (k_prev k) then [List.length (st_layers X s)] else [])))).
  Proof.
    unfold buildRegion, allOpcodes. rewrite parseOpcodes_app.
    unfold parseOpcodes at 1. destruct (LoadModel.parseOpcodes X parseRest _ _ _) as [[? ?]|];
      cbn [bind]; [|reflexivity].
    rewrite parseOpcodes_app. unfold parseOpcodes at 1.
    destruct (LoadModel.parseOpcodes X parseRest _ _ _) as [[? ?]|]; cbn [bind]; [|reflexivity].
    rewrite parseOpcodes_app. unfold parseOpcodes at 1.
    destruct (LoadModel.parseOpcodes X parseRest _ _ _) as [[? ?]|]; cbn [bind]; reflexivity.
  Qed.

  Lemma push_id lists key id lists' id' b :
    push lists key id = Some b -> exists b', push lists' key id' = Some b'.
  Proof.
    destruct key as [n|]; cbn; [|eauto]. destruct (_ && _); [eauto|discriminate].
  Qed.
  Lemma pushRange_id lists range id lists' id' b :
    pushRange lists range id = Some b -> exists b', pushRange lists' range id' = Some b'.
  Proof.
    destruct range as [[lo hi]|]; cbn; [|eauto].
    destruct (hi <? lo); [eauto|]. destruct (_ && _); [eauto|discriminate].
  Qed.

  (** Every block only adds layers behind those there are. *)
  Lemma block_extends b (s t : state) :
    onBlock s b = Some t ->
    exists new, st_layers X t = st_layers X s ++ new /\
      List.length new = (match fst b with HRegion => 1 | _ => 0 end)%nat.
  Proof.
    destruct b as [[] m]; unfold onBlock; cbn [LoadModel.onBlock fst snd]; intros E.
    - ob E. injection E as <-. exists []. cbn. rewrite app_nil_r. auto.
    - ob E. injection E as <-. exists []. cbn. rewrite app_nil_r. auto.
    - ob E. injection E as <-. exists []. cbn. rewrite app_nil_r. auto.
    - ob E. injection E as <-. exists []. cbn. rewrite app_nil_r. auto.
    - rewrite build_parse in E. ob E. injection E as <-. eexists. split; reflexivity.
    - injection E as <-. exists []. rewrite app_nil_r. auto.
  Qed.

  Lemma blocks_app l1 l2 (s : state) :
    onBlocks s (l1 ++ l2) = (t <- onBlocks s l1 ;; onBlocks t l2).
  Proof.
    revert s. induction l1 as [|b l1 IH]; intros s; [reflexivity|].
    unfold onBlocks in *. cbn [app LoadModel.onBlocks].
    destruct (LoadModel.onBlock X newRest parseRest s b); cbn [bind]; [apply IH|reflexivity].
  Qed.

  Lemma blocks_extend l : forall (s t : state),
    onBlocks s l = Some t ->
    exists new, st_layers X t = st_layers X s ++ new /\ List.length new = regionsIn l.
  Proof.
    induction l as [|b l IH]; intros s t O.
    - injection O as <-. exists []. rewrite app_nil_r. auto.
    - unfold onBlocks in O. cbn [LoadModel.onBlocks] in O. ob O.
      destruct (block_extends b s _ B) as (n1 & L1 & C1).
      destruct (IH _ _ O) as (n2 & L2 & C2). exists (n1 ++ n2).
      rewrite L2, L1, app_assoc. split; [reflexivity|]. rewrite app_length, C1, C2.
      unfold regionsIn. cbn [filter]. destruct (fst b); reflexivity.
  Qed.

  (** What the loader knows after a part of the file. *)
  Record knows (back : list block) (s : state) : Prop := Knows {
    kn_globals : st_globals X s = globalOf back;
    kn_masters : st_masters X s = masterOf back;
    kn_groups : st_groups X s = groupOf back;
    kn_unknown : refusesByName -> forall n, In n (st_unknown X s) -> refused n }.

  Lemma knows_block b (s t : state) back :
    knows back s -> onBlock s b = Some t -> knows (b :: back) t.
  Proof.
    intros [K1 K2 K3 K4]. destruct b as [[] m]; unfold onBlock;
      cbn [LoadModel.onBlock fst snd]; intros E.
    - ob E. injection E as <-. constructor; cbn; auto.
    - ob E. injection E as <-. constructor; cbn; auto.
    - ob E. injection E as <-. constructor; cbn; auto.
    - ob E. injection E as <-. constructor; cbn; auto.
    - rewrite build_parse in E. ob E. injection E as <-. constructor; cbn; auto.
      intros H. refine (proj1 (parse_unknown _ H _ [] _ _ _ (K4 H) _ B)). intros n [].
    - injection E as <-. constructor; cbn; auto.
  Qed.
  Lemma knows_blocks l : forall back (s t : state),
    knows back s -> onBlocks s l = Some t -> knows (rev l ++ back) t.
  Proof.
    induction l as [|b l IH]; intros back s t K O.
    - injection O as <-. exact K.
    - unfold onBlocks in O. cbn [LoadModel.onBlocks] in O. ob O.
      cbn [rev]. rewrite <- app_assoc. refine (IH _ _ _ (knows_block _ _ _ _ K B) O).
  Qed.
  Lemma knows_cleared : knows [] cleared.
  Proof. constructor; try reflexivity. intros _ n []. Qed.

  (** The control headers alone give the same path and offsets. *)
  Record bare (s t : state) : Prop := Bare {
    ba_path : st_path X t = st_path X s;
    ba_note : st_note X t = st_note X s;
    ba_octave : st_octave X t = st_octave X s;
    ba_globals : st_globals X t = [];
    ba_masters : st_masters X t = [];
    ba_groups : st_groups X t = [];
    ba_unknown : st_unknown X t = [];
    ba_layers : st_layers X t = [] }.
  Lemma controls_state l : forall (s s1 t : state),
    bare s s1 -> onBlocks s l = Some t ->
    exists t1, onBlocks s1 (controls l) = Some t1 /\ bare t t1.
  Proof.
    induction l as [|[h m] l IH]; intros s s1 t A O.
    - injection O as <-. exists s1. split; [reflexivity|exact A].
    - unfold onBlocks in O. cbn [LoadModel.onBlocks] in O. ob O.
      destruct A as [A1 A2 A3 A4 A5 A6 A7 A8].
      destruct h; unfold controls; cbn [filter fst]; cbn [LoadModel.onBlock fst snd] in B.
      + ob B. injection B as <-. eapply IH; [|exact O]. constructor; assumption.
      + ob B. injection B as <-. unfold onBlocks.
        cbn [LoadModel.onBlocks LoadModel.onBlock fst snd]. rewrite A2, A3, B0. cbn [bind].
        eapply IH; [|exact O]. constructor; try assumption; reflexivity.
      + ob B. injection B as <-. eapply IH; [|exact O]. constructor; assumption.
      + ob B. injection B as <-. eapply IH; [|exact O]. constructor; assumption.
      + rewrite build_parse in B. ob B. injection B as <-. eapply IH; [|exact O].
        constructor; assumption.
      + injection B as <-. eapply IH; [|exact O]. constructor; assumption.
  Qed.

  (** C64: what a region becomes depends on the opcodes in force for it and on the control
      headers before it, and on no other region: it is the region one gets from a file with
      nothing else in it. *)
  Theorem C64_independent (pre : list block) own (post : list block) (s : state) :
    refusesByName -> (forall i j p, newRest i p = newRest j p) ->
    onBlocks cleared (pre ++ (HRegion, own) :: post) = Some s ->
    exists g s1 g1,
      nth_error (st_layers X s) (regionsIn pre) = Some g /\
      onBlocks cleared (controls pre ++ [(HRegion, effective (rev pre) own)]) = Some s1 /\
      st_layers X s1 = [g1] /\ content g1 = content g.
  Proof.
    intros H Num O. rewrite blocks_app in O. ob O. rename s0 into p. unfold onBlocks in O.
    cbn [LoadModel.onBlocks] in O. ob O. rename s0 into q.
    destruct (blocks_extend pre cleared p B) as (n1 & L1 & C1).
    destruct (blocks_extend post q s O) as (n2 & L2 & C2).
    pose proof (knows_blocks pre [] cleared p knows_cleared B) as [K1 K2 K3 K4].
    rewrite app_nil_r in K1, K2, K3.
    destruct (controls_state pre cleared cleared p ltac:(constructor; reflexivity) B)
      as (c & Oc & [A1 A2 A3 A4 A5 A6 A7 A8]).
    cbn [LoadModel.onBlock fst snd] in B0. rewrite build_parse in B0. ob B0.
    assert (Lq : st_layers X q = st_layers X p ++ [LRegion X k (snd p0) (st_current X p)]).
    { injection B0 as <-. reflexivity. }
    exists (LRegion X k (snd p0) (st_current X p)).
    unfold allOpcodes in B1. rewrite K1, K2, K3 in B1.
    destruct (parse_unknown _ H _ [] _ _ _ (K4 H) ltac:(intros n []) B1) as (_ & v & P & _).
    destruct (push_id _ _ _ (st_last X c) 0%nat _ B3) as (b3 & E3).
    destruct (pushRange_id _ _ _ b3 0%nat _ B4) as (b4 & E4).
    destruct (push_id _ _ _ (st_up X c) 0%nat _ B5) as (b5 & E5).
    destruct (push_id _ _ _ (st_down X c) 0%nat _ B6) as (b6 & E6).
    assert (Bc : exists s1, buildRegion X newRest parseRest c (effective (rev pre) own) = Some s1
                  /\ st_layers X s1 = [LRegion X k (snd p0) (st_current X c)]).
    { rewrite build_parse. unfold allOpcodes. rewrite A1, A2, A3, A4, A5, A6, A7, A8.
      cbn [app List.length]. rewrite (Num 0%nat (List.length (st_layers X p))).
      unfold effective. rewrite P. cbn [bind].
      rewrite B2. cbn [bind]. rewrite E3. cbn [bind]. rewrite E4. cbn [bind].
      rewrite E5. cbn [bind]. rewrite E6. cbn [bind].
      destruct (k_default k) as [d|].
      - ob B7. cbn [bind]. eexists. split; reflexivity.
      - cbn [bind]. eexists. split; reflexivity. }
    destruct Bc as (s1 & Bc & Ls1). exists s1, (LRegion X k (snd p0) (st_current X c)).
    repeat split.
    - change (st_layers X p = n1) in L1. rewrite L2, Lq, L1.
      rewrite <- app_assoc, nth_error_app2 by (rewrite C1; reflexivity).
      rewrite C1, PeanoNat.Nat.sub_diag. reflexivity.
    - rewrite blocks_app, Oc. cbn [bind]. unfold onBlocks.
      cbn [LoadModel.onBlocks LoadModel.onBlock fst snd]. rewrite Bc. reflexivity.
    - exact Ls1.
  Qed.

  (** *** Region sets *)
  Inductive chain (sets : list rset) : option nat -> list (nat * Z) -> Prop :=
  | Ch_none : chain sets None []
  | Ch_some i p lv c :
      nth_error sets i = Some (p, lv) -> (forall j, p = Some j -> (j < i)%nat) ->
      chain sets p c -> chain sets (Some i) ((i, lv) :: c).
  Lemma chain_ancestors sets p c : chain sets p c -> ancestors sets p (map fst c).
  Proof. induction 1; cbn; econstructor; eauto. Qed.
  Lemma chain_length sets p c : chain sets p c ->
    (match p with None => List.length c = 0 | Some i => List.length c <= S i /\
       i < List.length sets end)%nat.
  Proof.
    induction 1 as [|i p lv c N L C IH]; [reflexivity|].
    split; [|apply nth_error_Some; congruence].
    destruct p as [j|]; cbn [List.length]; [|lia]. specialize (L j eq_refl). lia.
  Qed.
  Lemma chain_app sets x p c : chain sets p c -> chain (sets ++ x) p c.
  Proof.
    induction 1 as [|i p lv c N L C IH]; econstructor; eauto.
    rewrite nth_error_app1; [exact N|]. apply nth_error_Some. congruence.
  Qed.
  Fixpoint above (lv : Z) (c : list (nat * Z)) : list (nat * Z) :=
    match c with
    | [] => []
    | (i, l) :: r => if lv <=? l then above lv r else c
    end.
  Lemma find_parent_chain sets lv : forall c p fuel, chain sets p c -> (List.length c < fuel)%nat ->
    exists q, find_parent fuel sets p lv = Some q /\ chain sets q (above lv c) /\
      (forall j i, q = Some j -> p = Some i -> (j <= i)%nat) /\ (p = None -> q = None).
  Proof.
    induction c as [|[i l] c IH]; intros p fuel C F.
    - inversion C; subst. destruct fuel; [lia|]. exists None. cbn. repeat split; auto; congruence.
    - inversion C as [|i' p' l' c' N L C']; subst. destruct fuel; [lia|]. cbn [find_parent above].
      rewrite N. destruct (lv <=? l).
      + destruct (IH p' fuel C') as (q & Q & Cq & Mq & Nq); [cbn in F; lia|].
        exists q. repeat split; auto; [|congruence].
        intros j i0 -> E. injection E as <-. destruct p' as [j'|]; [|specialize (Nq eq_refl); congruence].
        specialize (Mq j j' eq_refl eq_refl). specialize (L j' eq_refl). lia.
      + exists (Some i). split; [reflexivity|]. split; [exact C|]. split; [|congruence].
        intros j i0 [= <-] [= <-]. lia.
  Qed.

  Definition tag (lv : Z) (l : list nat) : list (nat * Z) := map (fun i => (i, lv)) l.
  Definition levels (back : list block) : list (nat * Z) :=
    tag 4 (groupPos back) ++ tag 3 (masterPos back) ++ tag 1 (globalPos back).
  Lemma levels_fst back : map fst (levels back) = chainOf back.
  Proof.
    unfold levels, chainOf, tag. rewrite !map_app, !map_map. cbn [fst]. rewrite !map_id.
    reflexivity.
  Qed.
  Lemma pos_one back :
    (groupPos back = [] \/ exists i, groupPos back = [i]) /\
    (masterPos back = [] \/ exists i, masterPos back = [i]) /\
    (globalPos back = [] \/ exists i, globalPos back = [i]).
  Proof.
    induction back as [|[[] m] back (A & B & C)]; cbn; repeat split; auto; right; eauto.
  Qed.
  Lemma above_1 back : above 1 (levels back) = [].
  Proof.
    unfold levels, tag.
    destruct (pos_one back) as ([->|[i ->]] & [->|[j ->]] & [->|[k ->]]); reflexivity.
  Qed.
  Lemma above_3 back : above 3 (levels back) = tag 1 (globalPos back).
  Proof.
    unfold levels, tag.
    destruct (pos_one back) as ([->|[i ->]] & [->|[j ->]] & [->|[k ->]]); reflexivity.
  Qed.
  Lemma above_4 back : above 4 (levels back) = tag 3 (masterPos back) ++ tag 1 (globalPos back).
  Proof.
    unfold levels, tag.
    destruct (pos_one back) as ([->|[i ->]] & [->|[j ->]] & [->|[k ->]]); reflexivity.
  Qed.

  Record tree (back : list block) (s : state) : Prop := Tree {
    tr_count : List.length (st_sets X s) = setsIn back;
    tr_chain : chain (st_sets X s) (st_current X s) (levels back) }.

  Lemma tree_new back (s : state) lv : tree back s ->
    exists q, newRegionSet X s lv = Some (st_sets X s ++ [(q, lv)]) /\
      List.length (st_sets X s ++ [(q, lv)]) = S (setsIn back) /\
      chain (st_sets X s ++ [(q, lv)]) (Some (List.length (st_sets X s)))
        ((setsIn back, lv) :: above lv (levels back)).
  Proof.
    intros [T1 T2]. pose proof (chain_length _ _ _ T2) as L.
    destruct (find_parent_chain (st_sets X s) lv _ _ (S (List.length (st_sets X s))) T2)
      as (q & Q & Cq & Mq & Nq).
    { destruct (st_current X s); lia. }
    exists q. unfold newRegionSet. rewrite Q. cbn [bind]. split; [reflexivity|].
    split; [rewrite app_length; cbn; lia|]. rewrite <- T1. econstructor.
    - rewrite nth_error_app2, PeanoNat.Nat.sub_diag by lia. reflexivity.
    - intros j ->. destruct (st_current X s) as [i|]; [|specialize (Nq eq_refl); discriminate].
      specialize (Mq j i eq_refl eq_refl). lia.
    - apply chain_app. exact Cq.
  Qed.

  Lemma tree_block b (s t : state) back :
    tree back s -> onBlock s b = Some t -> tree (b :: back) t.
  Proof.
    intros T. destruct b as [[] m]; unfold onBlock; cbn [LoadModel.onBlock fst snd]; intros E.
    - destruct (tree_new back s 1 T) as (q & Q & Lq & Cq). rewrite Q in E. cbn [bind] in E.
      ob E. injection E as <-. rewrite above_1 in Cq. constructor; [exact Lq|exact Cq].
    - ob E. injection E as <-. destruct T. constructor; assumption.
    - destruct (tree_new back s 3 T) as (q & Q & Lq & Cq). rewrite Q in E. cbn [bind] in E.
      ob E. injection E as <-. rewrite above_3 in Cq. constructor; [exact Lq|exact Cq].
    - destruct (tree_new back s 4 T) as (q & Q & Lq & Cq). rewrite Q in E. cbn [bind] in E.
      ob E. injection E as <-. rewrite above_4 in Cq. constructor; [exact Lq|exact Cq].
    - rewrite build_parse in E. ob E. injection E as <-. destruct T. constructor; assumption.
    - injection E as <-. destruct T. constructor; assumption.
  Qed.
  Lemma tree_blocks l : forall back (s t : state),
    tree back s -> onBlocks s l = Some t -> tree (rev l ++ back) t.
  Proof.
    induction l as [|b l IH]; intros back s t K O.
    - injection O as <-. exact K.
    - unfold onBlocks in O. cbn [LoadModel.onBlocks] in O. ob O.
      cbn [rev]. rewrite <- app_assoc. refine (IH _ _ _ (tree_block _ _ _ _ K B) O).
  Qed.
  Lemma tree_cleared : tree [] cleared.
  Proof. constructor; [reflexivity|constructor]. Qed.

  (** The sets only grow, so that the tree above a region does not change later. *)
  Lemma sets_extend l : forall (s t : state), onBlocks s l = Some t ->
    exists new, st_sets X t = st_sets X s ++ new.
  Proof.
    induction l as [|b l IH]; intros s t O.
    - injection O as <-. exists []. rewrite app_nil_r. reflexivity.
    - unfold onBlocks in O. cbn [LoadModel.onBlocks] in O. ob O.
      assert (E : exists new, st_sets X s0 = st_sets X s ++ new).
      { destruct b as [[] m]; cbn [LoadModel.onBlock fst snd] in B.
        - unfold newRegionSet in B. ob B. injection B as <-. ob B0. injection B0 as <-.
          eexists. reflexivity.
        - ob B. injection B as <-. exists []. rewrite app_nil_r. reflexivity.
        - unfold newRegionSet in B. ob B. injection B as <-. ob B0. injection B0 as <-.
          eexists. reflexivity.
        - unfold newRegionSet in B. ob B. injection B as <-. ob B0. injection B0 as <-.
          eexists. reflexivity.
        - rewrite build_parse in B. ob B. injection B as <-. exists []. rewrite app_nil_r.
          reflexivity.
        - injection B as <-. exists []. rewrite app_nil_r. reflexivity. }
      destruct E as (n1 & E1). destruct (IH _ _ O) as (n2 & E2). exists (n1 ++ n2).
      rewrite E2, E1, app_assoc. reflexivity.
  Qed.

  (** C65: the sets of a region, from the innermost outwards, are those of the headers whose
      opcodes it inherits: the last group, master and global header in force. *)
  Theorem C65_sets (pre : list block) own (post : list block) (s : state) :
    onBlocks cleared (pre ++ (HRegion, own) :: post) = Some s ->
    exists g, nth_error (st_layers X s) (regionsIn pre) = Some g /\
      ancestors (st_sets X s) (g_set X g) (chainOf (rev pre)).
  Proof.
    intros O. rewrite blocks_app in O. ob O. rename s0 into p. unfold onBlocks in O.
    cbn [LoadModel.onBlocks] in O. ob O. rename s0 into q.
    destruct (blocks_extend pre cleared p B) as (n1 & L1 & C1).
    destruct (blocks_extend post q s O) as (n2 & L2 & C2).
    pose proof (tree_blocks pre [] cleared p tree_cleared B) as [T1 T2].
    rewrite app_nil_r in T2. cbn [LoadModel.onBlock fst snd] in B0.
    rewrite build_parse in B0. ob B0.
    exists (LRegion X k (snd p0) (st_current X p)). split.
    - assert (Lq : st_layers X q = st_layers X p ++ [LRegion X k (snd p0) (st_current X p)]).
      { injection B0 as <-. reflexivity. }
      change (st_layers X p = n1) in L1. rewrite L2, Lq, L1.
      rewrite <- app_assoc, nth_error_app2 by (rewrite C1; reflexivity).
      rewrite C1, PeanoNat.Nat.sub_diag. reflexivity.
    - cbn [g_set]. rewrite <- levels_fst. apply chain_ancestors.
      destruct (sets_extend post q s O) as (n3 & E3). rewrite E3.
      assert (Eq : st_sets X q = st_sets X p) by (injection B0 as <-; reflexivity).
      rewrite Eq. apply chain_app. exact T2.
  Qed.

  (** Finding the parent of a new set always ends inside the sets there are. *)
  Theorem C65_parent_found l (s : state) lv :
    onBlocks cleared l = Some s -> newRegionSet X s lv <> None.
  Proof.
    intros O. pose proof (tree_blocks l [] cleared s tree_cleared O) as T.
    destruct (tree_new _ s lv T) as (q & Q & _). rewrite Q. discriminate.
  Qed.

  (** *** Key offsets *)
  Lemma int_ok_some v : int_min <= v <= int_max -> int_ok v = Some v.
  Proof.
    intros H. unfold int_ok, in_int.
    destruct (Z.leb_spec int_min v); [|lia]. destruct (Z.leb_spec v int_max); [|lia]. reflexivity.
  Qed.
  Lemma offset_move d z : int_min <= z + d <= int_max -> offsetAndClampKey z d = Some (move d z).
  Proof.
    intros H. unfold offsetAndClampKey. rewrite (int_ok_some _ H). cbn [bind]. unfold move.
    destruct (Z.ltb_spec 255 (z + d)); [f_equal; lia|].
    destruct (Z.ltb_spec (z + d) 0); f_equal; lia.
  Qed.

  (** All keys of a region are on the keyboard. *)
  Definition onBoard (z : Z) : Prop := 0 <= z <= 127.
  Definition onBoardOpt (r : option Z) : Prop :=
    match r with None => True | Some z => onBoard z end.
  Record goodKeys (k : keys) : Prop := GoodKeys {
    bk_lo : onBoard (k_lo k); bk_hi : onBoard (k_hi k); bk_center : onBoard (k_center k);
    bk_last : onBoardOpt (k_last k); bk_up : onBoardOpt (k_up k);
    bk_down : onBoardOpt (k_down k); bk_prev : onBoardOpt (k_prev k);
    bk_default : onBoardOpt (k_default k);
    bk_range : match k_lastRange k with None => True | Some r => onBoard (fst r) /\ onBoard (snd r) end;
    bk_one : match k_lastRange k with None => True | Some _ => k_last k = None end;
    bk_xin : onBoard (fst (k_xin k)) /\ onBoard (snd (k_xin k));
    bk_xout : onBoard (fst (k_xout k)) /\ onBoard (snd (k_xout k)) }.

  Lemma key_transform d n v : transformInt (keySpec d) n = Some v -> onBoard v.
  Proof.
    unfold transformInt, keySpec, onBoard.
    cbn [s_enforceLo s_enforceHi s_permLo s_permHi s_lo s_hi s_min s_max negb].
    intros H. destruct (Z.ltb_spec 127 n); [discriminate|].
    destruct (Z.ltb_spec n 0); [discriminate|]. injection H as <-. lia.
  Qed.
  Lemma key_read d t r : readOpt (keySpec d) t = Some r -> onBoardOpt r.
  Proof.
    unfold readOpt, readInt. intros H. destruct (readLeadingInt t) as [n|].
    - injection H as <-. destruct (transformInt (keySpec d) n) eqn:E; [|exact Logic.I].
      exact (key_transform _ _ _ E).
    - cbn [s_note keySpec] in H. destruct (readNoteValue t) as [|[n|]]; [discriminate|..].
      + injection H as <-. destruct (transformInt (keySpec d) n) eqn:E; [|exact Logic.I].
        exact (key_transform _ _ _ E).
      + injection H as <-. exact Logic.I.
  Qed.
  Lemma key_readOr d t n : onBoard d -> readIntOr (keySpec d) t = Some n -> onBoard n.
  Proof.
    intros D H. pose proof (key_read d t) as K. unfold readOpt in K. unfold readIntOr in H.
    destruct (readInt (keySpec d) t) as [|[v|]]; [discriminate|..].
    - injection H as <-. exact (K _ eq_refl).
    - injection H as <-. exact D.
  Qed.
  Lemma or_default_board r d : onBoardOpt r -> onBoard d -> onBoard (or_default r d).
  Proof. destruct r; auto. Qed.

  Lemma parseKey_good o k k' : parseKey o k = Some (Some k') -> goodKeys k -> goodKeys k'.
  Proof.
    intros P G. unfold parseKey in P.
    destruct k as [lo hi on c fs la rg up dn pv us upv df xi xo].
    destruct G as [G1 G2 G3 G4 G5 G6 G7 G8 G9 G9' [G10 G10'] [G11 G11']]. cbn in *.
    assert (D0 : onBoard 0) by (unfold onBoard; lia).
    assert (D60 : onBoard 60) by (unfold onBoard; lia).
    assert (D127 : onBoard 127) by (unfold onBoard; lia).
    repeat (match type of P with
            | (if ?c then _ else _) = _ => destruct c
            end;
            [repeat match type of P with
                    | bind ?a _ = _ =>
                        let E := fresh "E" in destruct a eqn:E; cbn [bind] in P; [|discriminate P]
                    | (if ?c then _ else _) = _ => destruct c
                    | match ?a with _ => _ end = _ => destruct a as [[? ?]|]
                    end;
             injection P as <-;
             repeat match goal with
                    | E : readOpt _ _ = Some _ |- _ => apply key_read in E
                    | E : readIntOr (keySpec _) _ = Some _ |- _ => apply key_readOr in E; [|assumption]
                    end;
             constructor; cbn; auto using or_default_board;
             destruct rg as [[? ?]|]; cbn in *; tauto
            |]).
    discriminate P.
  Qed.

  Lemma freshKeys_good : goodKeys freshKeys.
  Proof. constructor; cbn; unfold onBoard; try lia; exact Logic.I. Qed.
  Lemma parseOpcodes_good l : forall u r v r1,
    goodKeys (fst r) -> parseOpcodes l u r = Some (v, r1) -> goodKeys (fst r1).
  Proof.
    induction l as [|o l IH]; intros u r v r1 G P.
    - injection P as <- <-. exact G.
    - unfold parseOpcodes in P. cbn [LoadModel.parseOpcodes] in P.
      destruct (existsb _ u); [exact (IH _ _ _ _ G P)|]. ob P.
      refine (IH _ _ _ _ _ P). unfold LoadModel.parseOpcode in B. ob B.
      destruct o1 as [k'|].
      + injection B as <- <-. exact (parseKey_good _ _ _ B1 G).
      + destruct (parseRest o0 (snd r)). injection B as <- <-. exact G.
  Qed.

  (** Every key of a region moved by [d]; the switch range and the default switch are not. *)
  Record moved (d : Z) (a b : keys) : Prop := Moved {
    mv_range : (k_lo b, k_hi b) = moveRange d (0, 127) (k_lo a, k_hi a);
    mv_onNote : k_onNote b = k_onNote a;
    mv_center : k_center b = move d (k_center a);
    mv_sample : k_centerFromSample b = k_centerFromSample a;
    mv_last : k_last b = option_map (move d) (k_last a);
    mv_lastRange : k_lastRange b = k_lastRange a;
    mv_up : k_up b = option_map (move d) (k_up a);
    mv_down : k_down b = option_map (move d) (k_down a);
    mv_prev : k_prev b = option_map (move d) (k_prev a);
    mv_usesSw : k_usesSw b = k_usesSw a;
    mv_usesPrev : k_usesPrev b = k_usesPrev a;
    mv_default : k_default b = k_default a;
    mv_xin : k_xin b = moveRange d (0, 0) (k_xin a);
    mv_xout : k_xout b = moveRange d (127, 127) (k_xout a) }.

  Lemma move_board d z : onBoard (move d z).
  Proof. unfold move, onBoard. lia. Qed.
  Lemma move_0 z : onBoard z -> move 0 z = z.
  Proof. unfold move, onBoard. lia. Qed.
  Lemma moveRange_0 w r : onBoard (fst r) -> onBoard (snd r) -> moveRange 0 w r = r.
  Proof.
    intros A B. unfold moveRange. destruct (_ && _); [reflexivity|].
    rewrite !move_0 by assumption. destruct r; reflexivity.
  Qed.
  Lemma moveRange_board d w r : onBoard (fst r) -> onBoard (snd r) ->
    onBoard (fst (moveRange d w r)) /\ onBoard (snd (moveRange d w r)).
  Proof.
    intros A B. unfold moveRange. destruct (_ && _); [tauto|]. cbn. split; apply move_board.
  Qed.
  Lemma offsetOpt_move d r : onBoardOpt r -> int_min <= d <= int_max - 127 ->
    offsetOpt r d = Some (option_map (move d) r).
  Proof.
    destruct r as [z|]; [|reflexivity]. cbn [onBoardOpt offsetOpt]. unfold onBoard. intros H D.
    rewrite offset_move by lia. reflexivity.
  Qed.
  Lemma offsetRange_move d w r : onBoard (fst r) -> onBoard (snd r) ->
    int_min <= d <= int_max - 127 -> offsetRange r w d = Some (moveRange d w r).
  Proof.
    unfold offsetRange, moveRange, onBoard. intros A B D. destruct (_ && _); [reflexivity|].
    rewrite !offset_move by lia. reflexivity.
  Qed.
  Lemma opt_board d r : onBoardOpt r -> onBoardOpt (option_map (move d) r).
  Proof. destruct r; [|exact (fun h => h)]. intros _. apply move_board. Qed.

  Lemma offsetAll_moved d a : goodKeys a -> int_min <= d <= int_max - 127 ->
    exists b, offsetAllKeys a d = Some b /\ moved d a b.
  Proof.
    intros [G1 G2 G3 G4 G5 G6 G7 G8 G9 G9' [G10 G10'] [G11 G11']] D.
    destruct a as [lo hi on c fs la rg up dn pv us upv df xi xo].
    cbn in G1, G2, G3, G4, G5, G6, G7, G8, G9, G9', G10, G10', G11, G11'. cbn [offsetAllKeys].
    rewrite (offsetRange_move d (0, 127) (lo, hi)) by assumption. cbn [bind].
    assert (int_min <= c + d <= int_max) by (unfold onBoard in G3; lia).
    rewrite offset_move by assumption. cbn [bind].
    rewrite !offsetOpt_move by assumption. cbn [bind].
    rewrite (offsetRange_move d (0, 0) xi), (offsetRange_move d (127, 127) xo) by assumption.
    cbn [bind]. eexists. split; [reflexivity|].
    constructor; cbn; try reflexivity. destruct (moveRange d (0, 127) (lo, hi)); reflexivity.
  Qed.
  Lemma moved_good d a b : goodKeys a -> moved d a b -> goodKeys b.
  Proof.
    intros [G1 G2 G3 G4 G5 G6 G7 G8 G9 G9' [G10 G10'] [G11 G11']] M. destruct M.
    pose proof (moveRange_board d (0, 127) (k_lo a, k_hi a) G1 G2) as [R1 R2].
    rewrite <- mv_range0 in R1, R2. cbn in R1, R2.
    constructor; try assumption.
    - rewrite mv_center0. apply move_board.
    - rewrite mv_last0. apply opt_board; assumption.
    - rewrite mv_up0. apply opt_board; assumption.
    - rewrite mv_down0. apply opt_board; assumption.
    - rewrite mv_prev0. apply opt_board; assumption.
    - rewrite mv_default0. assumption.
    - rewrite mv_lastRange0. assumption.
    - rewrite mv_lastRange0, mv_last0. destruct (k_lastRange a); [|exact Logic.I].
      rewrite G9'. reflexivity.
    - rewrite mv_xin0. apply moveRange_board; assumption.
    - rewrite mv_xout0. apply moveRange_board; assumption.
  Qed.
  Lemma moved_0 a : goodKeys a -> moved 0 a a.
  Proof.
    intros [G1 G2 G3 G4 G5 G6 G7 G8 G9 G9' [G10 G10'] [G11 G11']].
    assert (Op : forall r, onBoardOpt r -> r = option_map (move 0) r).
    { intros [z|] Z1; cbn; [|reflexivity]. rewrite move_0 by exact Z1. reflexivity. }
    constructor; auto.
    - rewrite moveRange_0; auto.
    - rewrite move_0; auto.
    - rewrite moveRange_0; auto.
    - rewrite moveRange_0; auto.
  Qed.

  (** Loading a region never leaves the defined part of the lists. *)
  Lemma push_ok lists key id : onBoardOpt key -> exists b, push lists key id = Some b.
  Proof.
    destruct key as [n|]; cbn; [|eauto]. unfold onBoard. intros H.
    destruct (Z.leb_spec 0 n); [|lia]. destruct (Z.ltb_spec n 128); [|lia]. cbn [andb]. eauto.
  Qed.
  Lemma pushRange_ok lists range id :
    match range with None => True | Some r => onBoard (fst r) /\ onBoard (snd r) end ->
    exists b, pushRange lists range id = Some b.
  Proof.
    destruct range as [[lo hi]|]; cbn; [|eauto]. unfold onBoard. intros H.
    destruct (Z.ltb_spec hi lo); [eauto|].
    destruct (Z.leb_spec 0 lo); [|lia]. destruct (Z.ltb_spec hi 128); [|lia]. cbn [andb]. eauto.
  Qed.
  Definition modest (octave note : Z) : Prop :=
    Z.abs (12 * octave) <= 1000000000 /\ Z.abs note <= 1000000000.
  Lemma switch_ok n octave note : onBoard n -> modest octave note ->
    switch_of n octave note = Some ((n + 12 * octave + note) mod 256).
  Proof.
    unfold onBoard, modest, switch_of. intros N [M1 M2].
    assert (int_min = -2147483648 /\ int_max = 2147483647) as [E1 E2] by (split; reflexivity).
    rewrite !int_ok_some by lia. cbn [bind]. rewrite !int_ok_some by lia. cbn [bind].
    rewrite !int_ok_some by lia. reflexivity.
  Qed.
  Lemma handleSwitch_ok octave note m : modest octave note ->
    forall o' n' sw sw' r, handleSwitch o' n' m sw = Some r ->
    exists r', handleSwitch octave note m sw' = Some r'.
  Proof.
    intros M. induction m as [|o m IH]; intros o' n' sw sw' r H; [cbn; eauto|].
    cbn [handleSwitch] in *. ob H. cbn [bind]. destruct (is o0 "sw_default").
    - ob H. cbn [bind]. rewrite switch_ok; [|refine (key_readOr 60 _ _ _ B0); unfold onBoard; lia|exact M].
      cbn [bind]. exact (IH _ _ _ _ _ H).
    - exact (IH _ _ _ _ _ H).
  Qed.

  Record shifted (octave note : Z) (a b : state) : Prop := Shifted {
    sh_globals : st_globals X b = st_globals X a;
    sh_masters : st_masters X b = st_masters X a;
    sh_groups : st_groups X b = st_groups X a;
    sh_unknown : st_unknown X b = st_unknown X a;
    sh_sets : st_sets X b = st_sets X a;
    sh_current : st_current X b = st_current X a;
    sh_path : st_path X b = st_path X a;
    sh_note0 : st_note X a = 0;
    sh_octave0 : st_octave X a = 0;
    sh_note : st_note X b = note;
    sh_octave : st_octave X b = octave;
    sh_layers : Forall2 (fun g h => g_rest X h = g_rest X g /\ g_set X h = g_set X g /\
                           moved (12 * octave + note) (g_keys X g) (g_keys X h))
                  (st_layers X a) (st_layers X b) }.

  Lemma Forall2_len {A B} (P : A -> B -> Prop) l l' :
    Forall2 P l l' -> List.length l = List.length l'.
  Proof. induction 1; cbn; congruence. Qed.

  Lemma shifted_blocks octave note l : modest octave note -> controls l = [] ->
    forall (a b t : state), shifted octave note a b -> onBlocks a l = Some t ->
    exists t', onBlocks b l = Some t' /\ shifted octave note t t'.
  Proof.
    intros M. induction l as [|[h m] l IH]; intros C a b t Sh O.
    - injection O as <-. exists b. split; [reflexivity|exact Sh].
    - unfold onBlocks in O. cbn [LoadModel.onBlocks] in O. ob O.
      destruct Sh as [H1 H2 H3 H4 H5 H6 H7 H8 H9 H10 H11 H12].
      unfold onBlocks. cbn [LoadModel.onBlocks].
      assert (C' : h <> HControl /\ controls l = []).
      { unfold controls in C. cbn [filter fst] in C. destruct h; try discriminate C;
          (split; [discriminate|exact C]). }
      destruct C' as [NC C'].
      destruct h; cbn [LoadModel.onBlock fst snd] in *.
      + unfold newRegionSet in *. rewrite H5, H6. ob B. injection B as <-. cbn [bind] in *.
        destruct (handleSwitch_ok octave note _ M _ _ _ (st_switch X b) _ B1) as (r & R).
        rewrite H10, H11, R. cbn [bind]. eapply (IH C'); [|exact O].
        constructor; try assumption; try reflexivity; congruence.
      + congruence.
      + unfold newRegionSet in *. rewrite H5, H6. ob B. injection B as <-. cbn [bind] in *.
        destruct (handleSwitch_ok octave note _ M _ _ _ (st_switch X b) _ B1) as (r & R).
        rewrite H10, H11, R. cbn [bind]. eapply (IH C'); [|exact O].
        constructor; try assumption; try reflexivity; congruence.
      + unfold newRegionSet in *. rewrite H5, H6. ob B. injection B as <-. cbn [bind] in *.
        destruct (handleSwitch_ok octave note _ M _ _ _ (st_switch X b) _ B1) as (r & R).
        rewrite H10, H11, H2, R. cbn [bind]. eapply (IH C'); [|exact O].
        constructor; try assumption; try reflexivity; congruence.
      + rewrite build_parse in B. rewrite build_parse. unfold allOpcodes in *.
        rewrite H1, H2, H3, H4, H7, <- (Forall2_len _ _ _ H12).
        ob B. cbn [bind]. rewrite H8, H9 in B1. unfold offsetKeys in B1. cbn in B1.
        injection B1 as E1.
        assert (G : goodKeys (fst p)) .
        { refine (parseOpcodes_good _ _ _ _ _ _ B0). exact freshKeys_good. }
        assert (K : exists k', offsetKeys (st_octave X b) (st_note X b) (fst p) = Some k' /\
                      moved (12 * octave + note) k k').
        { subst k. unfold offsetKeys. rewrite H10, H11.
          destruct (Z.eqb_spec octave 0) as [Z1|Z1]; [destruct (Z.eqb_spec note 0) as [Z2|Z2]|].
          - cbn [andb]. exists (fst p). split; [reflexivity|]. rewrite Z1, Z2.
            exact (moved_0 _ G).
          - cbn [andb].
            assert (int_min = -2147483648 /\ int_max = 2147483647) as [X1 X2]
              by (split; reflexivity).
            unfold modest in M. rewrite !int_ok_some by lia. cbn [bind].
            rewrite int_ok_some by lia. cbn [bind].
            replace (octave * 12 + note) with (12 * octave + note) by ring.
            apply offsetAll_moved; [exact G|lia].
          - cbn [andb].
            assert (int_min = -2147483648 /\ int_max = 2147483647) as [X1 X2]
              by (split; reflexivity).
            unfold modest in M. rewrite !int_ok_some by lia. cbn [bind].
            rewrite int_ok_some by lia. cbn [bind].
            replace (octave * 12 + note) with (12 * octave + note) by ring.
            apply offsetAll_moved; [exact G|lia]. }
        destruct K as (k' & K1 & K2). rewrite K1. cbn [bind].
        subst k. pose proof (moved_good _ _ _ G K2) as G'.
        destruct (push_ok (st_last X b) (k_last k') (List.length (st_layers X a)) (bk_last _ G'))
          as (x1 & X1). rewrite X1. cbn [bind].
        destruct (pushRange_ok x1 (k_lastRange k') (List.length (st_layers X a)) (bk_range _ G'))
          as (x2 & X2). rewrite X2. cbn [bind].
        destruct (push_ok (st_up X b) (k_up k') (List.length (st_layers X a)) (bk_up _ G'))
          as (x3 & X3). rewrite X3. cbn [bind].
        destruct (push_ok (st_down X b) (k_down k') (List.length (st_layers X a)) (bk_down _ G'))
          as (x4 & X4). rewrite X4. cbn [bind].
        injection B as <-.
        pose proof (bk_default _ G') as Gd. destruct (k_default k') as [d|].
        * rewrite (switch_ok d) by (try exact Gd; rewrite H10, H11; exact M). cbn [bind].
          eapply (IH C'); [|exact O]. constructor; cbn; try assumption; try reflexivity.
          apply Forall2_app; [assumption|]. repeat constructor; cbn; try assumption; apply K2.
        * cbn [bind].
          eapply (IH C'); [|exact O]. constructor; cbn; try assumption; try reflexivity.
          apply Forall2_app; [assumption|]. repeat constructor; cbn; try assumption; apply K2.
      + injection B as <-. cbn [bind]. eapply (IH C'); [|exact O]. constructor; assumption.
  Qed.

  (** C66: under a control header with offsets that leave the default path alone, every key of
      every region is moved by the offset and kept on the keyboard, except the switch ranges
      and the default switch. *)
  Theorem C66_offsets c (sc : state) l (s0 : state) :
    onBlock cleared (HControl, c) = Some sc -> st_path X sc = [] ->
    modest (st_octave X sc) (st_note X sc) -> controls l = [] ->
    onBlocks cleared l = Some s0 ->
    exists s1, onBlocks cleared ((HControl, c) :: l) = Some s1 /\
      Forall2 (fun g h => g_rest X h = g_rest X g /\ g_set X h = g_set X g /\
                 moved (12 * st_octave X sc + st_note X sc) (g_keys X g) (g_keys X h))
        (st_layers X s0) (st_layers X s1).
  Proof.
    intros Oc P M C O.
    assert (Sh : shifted (st_octave X sc) (st_note X sc) cleared sc).
    { unfold onBlock in Oc. cbn [LoadModel.onBlock fst snd] in Oc. ob Oc. injection Oc as <-.
      cbn in P. constructor; cbn; try reflexivity; [exact P|constructor]. }
    destruct (shifted_blocks _ _ l M C _ _ _ Sh O) as (s1 & O1 & Sh1).
    exists s1. split; [|exact (sh_layers _ _ _ _ Sh1)].
    unfold onBlocks. cbn [LoadModel.onBlocks]. unfold onBlock in Oc. rewrite Oc. exact O1.
  Qed.

  Lemma kept_moved P (a b : state) (f g : keys -> bool) :
    Forall2 (fun x y => g_rest X y = g_rest X x /\ g_set X y = g_set X x /\
               P (g_keys X x) (g_keys X y)) (st_layers X a) (st_layers X b) ->
    (forall x y, P x y -> g y = f x) ->
    map fst (filter (fun p => g (g_keys X (snd p))) (kept X avail b)) =
    map fst (filter (fun p => f (g_keys X (snd p))) (kept X avail a)).
  Proof.
    intros F H. unfold kept. rewrite <- (Forall2_len _ _ _ F).
    remember (List.length (st_layers X a)) as n eqn:N. clear N. generalize (seq 0 n). clear n.
    induction F as [|x y la lb (R & _ & K) F IH]; intros ids; [destruct ids; reflexivity|].
    destruct ids as [|i ids]; [reflexivity|]. cbn [combine filter snd]. rewrite R.
    destruct (avail (g_rest X x)); [|apply IH].
    cbn [filter snd]. rewrite (H _ _ K). destruct (f (g_keys X x)); cbn [map fst]; rewrite IH; reflexivity.
  Qed.

  (** C66: away from the two ends of the keyboard, the note [n + d] starts what the note [n]
      starts without the offset. *)
  Theorem C66_notes c (sc : state) l (s0 s1 : state) n :
    onBlock cleared (HControl, c) = Some sc -> st_path X sc = [] ->
    modest (st_octave X sc) (st_note X sc) -> controls l = [] ->
    onBlocks cleared l = Some s0 -> onBlocks cleared ((HControl, c) :: l) = Some s1 ->
    let d := 12 * st_octave X sc + st_note X sc in
    0 <= n <= 127 -> 1 <= n + d <= 126 ->
    activationList X avail s1 (n + d) = activationList X avail s0 n.
  Proof.
    intros Oc P M C O0 O1 d Hn Hd.
    destruct (C66_offsets c sc l s0 Oc P M C O0) as (s1' & O1' & F).
    replace s1' with s1 in F by congruence. unfold activationList.
    refine (kept_moved (moved d) s0 s1
              (fun k => (k_lo k <=? n) && (n <=? k_hi k))
              (fun k => (k_lo k <=? n + d) && (n + d <=? k_hi k)) F _).
    intros x y Mv. pose proof (mv_range _ _ _ Mv) as R. unfold moveRange in R. cbn [fst snd] in R.
    destruct (Z.eqb_spec (k_lo x) 0); [destruct (Z.eqb_spec (k_hi x) 127)|]; cbn [andb] in R;
      injection R as -> ->; unfold move;
      repeat match goal with |- context [?a <=? ?b] => destruct (Z.leb_spec a b) end;
      cbn; try reflexivity; lia.
  Qed.

  (** *** The lists *)
  Definition numbered (l : list (lregion X)) : list (nat * lregion X) :=
    combine (seq 0 (List.length l)) l.
  Definition idsWith (f : keys -> bool) (l : list (lregion X)) : list nat :=
    map fst (filter (fun p => f (g_keys X (snd p))) (numbered l)).

  Lemma combine_app {A B} (a a' : list A) (b b' : list B) :
    List.length a = List.length b -> combine (a ++ a') (b ++ b') = combine a b ++ combine a' b'.
  Proof.
    revert b. induction a as [|x a IH]; intros [|y b] H; try discriminate; [reflexivity|].
    cbn. rewrite IH by (injection H as H; exact H). reflexivity.
  Qed.
  Lemma idsWith_snoc f l g :
    idsWith f (l ++ [g]) = idsWith f l ++ (if f (g_keys X g) then [List.length l] else []).
  Proof.
    unfold idsWith, numbered. rewrite app_length, seq_app, combine_app by apply seq_length.
    rewrite filter_app, map_app. f_equal. cbn. destruct (f (g_keys X g)); reflexivity.
  Qed.
  Lemma numbered_in l i g : In (i, g) (numbered l) <-> nth_error l i = Some g.
  Proof.
    unfold numbered. revert i. induction l as [|x l IH] using rev_ind; intros i.
    - destruct i; cbn; split; intros H; try contradiction; discriminate.
    - rewrite app_length, seq_app, combine_app by apply seq_length. rewrite in_app_iff, IH. cbn.
      split.
      + intros [H|[H|[]]].
        * rewrite nth_error_app1; [exact H|]. apply nth_error_Some. congruence.
        * injection H as <- <-. rewrite nth_error_app2, PeanoNat.Nat.sub_diag by lia. reflexivity.
      + intros H. destruct (Nat.ltb_spec i (List.length l)) as [L|L].
        * rewrite nth_error_app1 in H by exact L. left. exact H.
        * rewrite nth_error_app2 in H by exact L. right. left.
          destruct (i - List.length l)%nat as [|m] eqn:E; [|destruct m; discriminate H].
          injection H as <-. f_equal. lia.
  Qed.
  Lemma idsWith_in f l i : In i (idsWith f l) <->
    exists g, nth_error l i = Some g /\ f (g_keys X g) = true.
  Proof.
    unfold idsWith. rewrite in_map_iff. split.
    - intros ([j g] & E & I1). apply filter_In in I1. destruct I1 as [I1 F]. cbn in E, F. subst j.
      exists g. split; [|exact F]. apply numbered_in. exact I1.
    - intros (g & N & F). exists (i, g). split; [reflexivity|]. apply filter_In.
      split; [apply numbered_in; exact N|exact F].
  Qed.

  Lemma listAt_app a b key : listAt (a ++ b) key = listAt a key ++ listAt b key.
  Proof. unfold listAt. rewrite filter_app, map_app. reflexivity. Qed.
  Lemma push_at lists r id b key : push lists r id = Some b ->
    listAt b key = listAt lists key ++ (if isKey key r then [id] else []).
  Proof.
    destruct r as [n|]; cbn; intros H.
    - destruct (_ && _); [|discriminate]. injection H as <-. rewrite listAt_app. f_equal.
      unfold listAt. cbn. destruct (n =? key); reflexivity.
    - injection H as <-. rewrite app_nil_r. reflexivity.
  Qed.
  Lemma listAt_run lo id key n : forall start,
    listAt (map (fun i => (lo + Z.of_nat i, id)) (seq start n)) key =
    if (lo + Z.of_nat start <=? key) && (key <? lo + Z.of_nat start + Z.of_nat n)
    then [id] else [].
  Proof.
    induction n as [|n IH]; intros start.
    - cbn [seq map]. unfold listAt. cbn.
      destruct (Z.leb_spec (lo + Z.of_nat start) key), (Z.ltb_spec key (lo + Z.of_nat start + 0));
        cbn; try reflexivity; lia.
    - cbn [seq map]. unfold listAt in *. cbn [filter fst]. specialize (IH (S start)).
      destruct (Z.eqb_spec (lo + Z.of_nat start) key); cbn [map snd]; rewrite IH;
        repeat match goal with
               | |- context [?a <=? ?b] => destruct (Z.leb_spec a b)
               | |- context [?a <? ?b] => destruct (Z.ltb_spec a b)
               end; cbn [andb]; try reflexivity; lia.
  Qed.
  Lemma pushRange_at lists r id b key : pushRange lists r id = Some b ->
    listAt b key = listAt lists key ++
      (if match r with Some (lo, hi) => (lo <=? key) && (key <=? hi) | None => false end
       then [id] else []).
  Proof.
    destruct r as [[lo hi]|]; cbn [pushRange]; intros H.
    - destruct (Z.ltb_spec hi lo).
      + injection H as <-.
        destruct (Z.leb_spec lo key), (Z.leb_spec key hi); cbn [andb]; rewrite ?app_nil_r;
          try reflexivity; lia.
      + destruct (_ && _); [|discriminate]. injection H as <-. rewrite listAt_app. f_equal.
        rewrite listAt_run. rewrite Z2Nat.id by lia.
        repeat match goal with
               | |- context [?a <=? ?b] => destruct (Z.leb_spec a b)
               | |- context [?a <? ?b] => destruct (Z.ltb_spec a b)
               end; cbn [andb]; try reflexivity; lia.
    - injection H as <-. rewrite app_nil_r. reflexivity.
  Qed.

  Record listed (s : state) : Prop := Listed {
    li_good : Forall (fun g => goodKeys (g_keys X g)) (st_layers X s);
    li_last : forall key, listAt (st_last X s) key = idsWith (lastOn key) (st_layers X s);
    li_up : forall key, listAt (st_up X s) key = idsWith (fun k => isKey key (k_up k)) (st_layers X s);
    li_down : forall key,
      listAt (st_down X s) key = idsWith (fun k => isKey key (k_down k)) (st_layers X s);
    li_prev : st_prev X s = idsWith (fun k => has (k_prev k)) (st_layers X s) }.

  Lemma offsetKeys_good o n k k' : goodKeys k -> offsetKeys o n k = Some k' -> goodKeys k'.
  Proof.
    intros G E. unfold offsetKeys in E.
    destruct (_ && _); [injection E as <-; exact G|]. ob E.
    destruct k as [lo hi on c fs la rg up dn pv us upv df xi xo].
    destruct G as [G1 G2 G3 G4 G5 G6 G7 G8 G9 G9' [G10 G10'] [G11 G11']].
    cbn in G1, G2, G3, G4, G5, G6, G7, G8, G9, G9', G10, G10', G11, G11'.
    cbn [offsetAllKeys] in E. ob E. injection E as <-.
    assert (Q1 : forall a b c, offsetAndClampKey a b = Some c -> onBoard c).
    { intros a b c' H. unfold offsetAndClampKey in H.
      destruct (int_ok (a + b)) as [nn|]; cbn [bind] in H; [|discriminate]. unfold onBoard.
      destruct (255 <? nn); [injection H as <-; lia|].
      destruct (nn <? 0); injection H as <-; lia. }
    assert (Q2 : forall a b c, offsetOpt a b = Some c -> onBoardOpt c).
    { intros [a|] b c' H; cbn in H; [|injection H as <-; exact Logic.I].
      destruct (offsetAndClampKey a b) as [nn|] eqn:E; cbn [bind] in H; [|discriminate].
      injection H as <-. exact (Q1 _ _ _ E). }
    assert (Q3 : forall a w b c, onBoard (fst a) -> onBoard (snd a) ->
              offsetRange a w b = Some c -> onBoard (fst c) /\ onBoard (snd c)).
    { intros a w b c' A1 A2 H. unfold offsetRange in H.
      destruct (_ && _); [injection H as <-; tauto|]. ob H. injection H as <-. cbn. eauto. }
    destruct (Q3 (lo, hi) _ _ _ G1 G2 B1). constructor; cbn; eauto.
    destruct rg; [|exact Logic.I]. subst la. cbn in B4. injection B4 as <-. reflexivity.
  Qed.

  Lemma listed_block b (s t : state) : listed s -> onBlock s b = Some t -> listed t.
  Proof.
    intros [L1 L2 L3 L4 L5]. destruct b as [[] m]; unfold onBlock;
      cbn [LoadModel.onBlock fst snd]; intros E.
    - ob E. injection E as <-. constructor; assumption.
    - ob E. injection E as <-. constructor; assumption.
    - ob E. injection E as <-. constructor; assumption.
    - ob E. injection E as <-. constructor; assumption.
    - rewrite build_parse in E. ob E.
      assert (G : goodKeys k).
      { refine (offsetKeys_good _ _ _ _ _ B0).
        refine (parseOpcodes_good _ _ _ _ _ _ B). exact freshKeys_good. }
      injection E as <-. constructor; cbn [st_layers st_last st_up st_down st_prev].
      + apply Forall_app. split; [assumption|]. constructor; [exact G|constructor].
      + intros key. rewrite (pushRange_at _ _ _ _ key B2), (push_at _ _ _ _ key B1), L2.
        rewrite idsWith_snoc, <- app_assoc. f_equal. cbn [g_keys]. unfold lastOn, isKey.
        pose proof (bk_one _ G) as One. destruct (k_lastRange k) as [[lo hi]|].
        * rewrite One. reflexivity.
        * rewrite app_nil_r. reflexivity.
      + intros key. rewrite (push_at _ _ _ _ key B3), L3, idsWith_snoc. reflexivity.
      + intros key. rewrite (push_at _ _ _ _ key B4), L4, idsWith_snoc. reflexivity.
      + rewrite L5, idsWith_snoc. reflexivity.
    - injection E as <-. constructor; assumption.
  Qed.
  Lemma listed_blocks l : forall (s t : state), listed s -> onBlocks s l = Some t -> listed t.
  Proof.
    induction l as [|b l IH]; intros s t K O.
    - injection O as <-. exact K.
    - unfold onBlocks in O. cbn [LoadModel.onBlocks] in O. ob O.
      exact (IH _ _ (listed_block _ _ _ K B) O).
  Qed.
  Lemma listed_cleared : listed cleared.
  Proof. constructor; try reflexivity. constructor. Qed.

  (** C67: the list of a note holds the regions that are kept and have the note in their key
      range, each once and in the order of the file. *)
  Theorem C67_activation (s : state) note i :
    In i (activationList X avail s note) <->
    exists g, nth_error (st_layers X s) i = Some g /\ avail (g_rest X g) = true /\
      k_lo (g_keys X g) <= note <= k_hi (g_keys X g).
  Proof.
    unfold activationList, kept. rewrite in_map_iff. split.
    - intros ([j g] & E & I1). cbn in E. subst j. apply filter_In in I1. destruct I1 as [I1 R].
      apply filter_In in I1. destruct I1 as [I1 A]. exists g. apply numbered_in in I1.
      cbn in R, A. repeat split; try assumption; lia.
    - intros (g & N & A & R). exists (i, g). split; [reflexivity|]. apply filter_In. split.
      + apply filter_In. split; [apply numbered_in; exact N|exact A].
      + cbn. lia.
  Qed.
  Lemma sorted_filter {A} (f : nat * A -> bool) l start :
    forall d, (d <= start)%nat -> Sorted lt (map fst (filter f (combine (seq start (List.length l)) l))) /\
      Forall (fun i => d <= i)%nat (map fst (filter f (combine (seq start (List.length l)) l))).
  Proof.
    revert start. induction l as [|x l IH]; intros start d D; cbn; [repeat constructor|].
    destruct (IH (S start) (S start) ltac:(lia)) as [I1 I2].
    destruct (f (start, x)); cbn.
    - split.
      + constructor; [exact I1|]. destruct (map fst _); constructor. inversion I2; subst. lia.
      + constructor; [exact D|]. eapply Forall_impl; [|exact I2]. cbn. intros; lia.
    - split; [exact I1|]. eapply Forall_impl; [|exact I2]. cbn. intros; lia.
  Qed.
  Theorem C67_order (s : state) note : Sorted lt (activationList X avail s note).
  Proof.
    unfold activationList, kept.
    assert (E : forall (f g : nat * lregion X -> bool) l,
              filter f (filter g l) = filter (fun p => g p && f p) l).
    { intros f g l. induction l as [|x l IH]; [reflexivity|]. cbn.
      destruct (g x); cbn; rewrite IH; reflexivity. }
    rewrite E. exact (proj1 (sorted_filter _ (st_layers X s) 0%nat 0%nat (le_n 0))).
  Qed.

  (** C67: the keyswitch lists hold the regions of the file with that switch, whether they are
      kept or not. *)
  Theorem C67_switch_lists l (s : state) key i :
    onBlocks cleared l = Some s ->
    (In i (listAt (st_last X s) key) <-> exists g, nth_error (st_layers X s) i = Some g /\
       lastOn key (g_keys X g) = true) /\
    (In i (listAt (st_up X s) key) <-> exists g, nth_error (st_layers X s) i = Some g /\
       k_up (g_keys X g) = Some key) /\
    (In i (listAt (st_down X s) key) <-> exists g, nth_error (st_layers X s) i = Some g /\
       k_down (g_keys X g) = Some key) /\
    (In i (st_prev X s) <-> exists g, nth_error (st_layers X s) i = Some g /\
       k_prev (g_keys X g) <> None).
  Proof.
    intros O. destruct (listed_blocks l _ _ listed_cleared O) as [L1 L2 L3 L4 L5].
    rewrite L2, L3, L4, L5, !idsWith_in.
    assert (K : forall r, isKey key r = true <-> r = Some key).
    { intros [n|]; cbn; [|split; discriminate]. rewrite Z.eqb_eq. split; congruence. }
    assert (P : forall r, has r = true <-> r <> None) by (intros [n|]; cbn; split; congruence).
    repeat split; try tauto; intros (g & N & F); exists g;
      (split; [exact N|]); first [apply K; exact F|apply P; exact F].
  Qed.

  (** *** The switches while notes are played *)
  Lemma setSwitch_look id v : forall m, In id (map fst m) ->
    exists m', setSwitch id v m = Some m' /\ map fst m' = map fst m /\
      forall i, look i m' = if Nat.eqb id i then Some v else look i m.
  Proof.
    induction m as [|[j b] m IH]; intros D; [contradiction|].
    cbn [setSwitch]. destruct (PeanoNat.Nat.eqb_spec j id) as [->|N].
    - eexists. split; [reflexivity|]. split; [reflexivity|]. intros i. cbn [look].
      destruct (Nat.eqb id i); reflexivity.
    - destruct D as [D|D]; [cbn in D; congruence|]. destruct (IH D) as (m' & E & F & L).
      rewrite E. cbn [bind]. eexists. split; [reflexivity|]. split; [cbn; rewrite F; reflexivity|].
      intros i. cbn [look]. rewrite L. destruct (PeanoNat.Nat.eqb_spec j i) as [->|N'].
      + destruct (PeanoNat.Nat.eqb_spec id i); [congruence|reflexivity].
      + reflexivity.
  Qed.
  Lemma setSwitches_look v ids : forall m, (forall i, In i ids -> In i (map fst m)) ->
    exists m', setSwitches ids v m = Some m' /\ map fst m' = map fst m /\
      forall i, look i m' = if existsb (Nat.eqb i) ids then Some v else look i m.
  Proof.
    induction ids as [|id ids IH]; intros m D; cbn [setSwitches].
    - exists m. repeat split.
    - destruct (setSwitch_look id v m (D id (or_introl eq_refl))) as (m1 & E1 & F1 & L1).
      rewrite E1. cbn [bind].
      destruct (IH m1) as (m2 & E2 & F2 & L2).
      { intros i I1. rewrite F1. apply D. right. exact I1. }
      exists m2. split; [exact E2|]. split; [congruence|]. intros i. rewrite L2, L1. cbn [existsb].
      rewrite (PeanoNat.Nat.eqb_sym id i). destruct (Nat.eqb i id); [|reflexivity].
      destruct (existsb _ ids); reflexivity.
  Qed.

  Definition okSwitch (sw : option Z) : Prop := onBoardOpt sw.
  (** What the switch of a region without sw_up and sw_down has to be. *)
  Definition expected (sw : option Z) (k : keys) : bool :=
    match sw with
    | None => negb (k_usesSw k)
    | Some c => match k_last k, k_lastRange k with
                | None, None => negb (k_usesSw k)
                | _, _ => lastOn c k
                end
    end.
  Record playing (s : state) (sm : option Z * list (nat * bool)) : Prop := Playing {
    pl_switch : okSwitch (fst sm);
    pl_dom : forall i, In i (map fst (snd sm)) <-> (i < List.length (st_layers X s))%nat;
    pl_state : forall i g, nth_error (st_layers X s) i = Some g ->
      k_up (g_keys X g) = None -> k_down (g_keys X g) = None ->
      (k_last (g_keys X g) <> None \/ k_lastRange (g_keys X g) <> None ->
       k_usesSw (g_keys X g) = true) ->
      look i (snd sm) = Some (expected (fst sm) (g_keys X g)) }.

  Lemma arrayAt_ok lists key : onBoard key -> arrayAt lists key = Some (listAt lists key).
  Proof.
    unfold arrayAt, onBoard. intros H. destruct (Z.leb_spec 0 key); [|lia].
    destruct (Z.ltb_spec key 128); [|lia]. reflexivity.
  Qed.
  Lemma ids_dom (s : state) f i : In i (idsWith f (st_layers X s)) -> (i < List.length (st_layers X s))%nat.
  Proof. rewrite idsWith_in. intros (g & N & _). apply nth_error_Some. congruence. Qed.
  Lemma ids_exists (s : state) f i g : nth_error (st_layers X s) i = Some g ->
    existsb (Nat.eqb i) (idsWith f (st_layers X s)) = f (g_keys X g).
  Proof.
    intros N. destruct (f (g_keys X g)) eqn:F.
    - apply existsb_exists. exists i. split; [apply idsWith_in; eauto|apply PeanoNat.Nat.eqb_refl].
    - apply Bool.not_true_iff_false. intros H. apply existsb_exists in H.
      destruct H as (j & I1 & E). apply PeanoNat.Nat.eqb_eq in E. subst j.
      apply idsWith_in in I1. destruct I1 as (g' & N' & F'). congruence.
  Qed.

  Lemma noteOn_playing (s : state) note sm : listed s -> onBoard note -> playing s sm ->
    exists sm', noteOnSwitches X s note sm = Some sm' /\ playing s sm'.
  Proof.
    intros [L1 L2 L3 L4 L5] Hn [P1 P2 P3]. unfold noteOnSwitches.
    rewrite !(arrayAt_ok _ note) by exact Hn. cbn [bind]. rewrite L2, L3, L4.
    assert (D : forall f (m : list (nat * bool)), (forall i, In i (map fst m) <-> (i < List.length (st_layers X s))%nat) ->
              forall i, In i (idsWith f (st_layers X s)) -> In i (map fst m)).
    { intros f m H i I1. apply H. exact (ids_dom _ _ _ I1). }
    assert (Mid : exists sw1 m1,
      (match idsWith (lastOn note) (st_layers X s) with
       | [] => Some sm
       | _ :: _ =>
           m <- match fst sm with
                | Some c =>
                    if c =? note then Some (snd sm)
                    else old <- arrayAt (st_last X s) c ;; setSwitches old false (snd sm)
                | None => Some (snd sm)
                end ;;
           Some (Some note, m)
       end) = Some (sw1, m1) /\ okSwitch sw1 /\ map fst m1 = map fst (snd sm) /\
      (forall i g, nth_error (st_layers X s) i = Some g ->
         k_up (g_keys X g) = None -> k_down (g_keys X g) = None ->
         (k_last (g_keys X g) <> None \/ k_lastRange (g_keys X g) <> None ->
          k_usesSw (g_keys X g) = true) ->
         lastOn note (g_keys X g) = false ->
         look i m1 = Some (expected sw1 (g_keys X g))) /\
      (idsWith (lastOn note) (st_layers X s) <> [] -> sw1 = Some note)).
    { destruct (idsWith (lastOn note) (st_layers X s)) as [|x xs] eqn:Own.
      - exists (fst sm), (snd sm). destruct sm as [sw0 m0]. cbn [fst snd] in *. refine (conj eq_refl (conj _ (conj _ (conj _ _)))); auto. congruence.
      - destruct (fst sm) as [c|] eqn:Sw.
        + destruct (Z.eqb_spec c note) as [->|Nc].
          * cbn [bind]. exists (Some note), (snd sm). refine (conj eq_refl (conj _ (conj _ (conj _ _)))); auto.
          * unfold okSwitch, onBoardOpt in P1. rewrite (arrayAt_ok _ c P1). cbn [bind].
            rewrite L2.
            destruct (setSwitches_look false (idsWith (lastOn c) (st_layers X s)) (snd sm)
                        (D _ _ P2)) as (m & E & F & Lk).
            rewrite E. cbn [bind]. exists (Some note), m. refine (conj eq_refl (conj _ (conj _ (conj _ _)))); auto.
            intros i g N U Dn Us Off. rewrite Lk, (ids_exists _ _ _ _ N).
            rewrite (P3 i g N U Dn Us).
            unfold expected in *. rewrite Off.
            destruct (lastOn c (g_keys X g)) eqn:On.
            { destruct (k_last (g_keys X g)) eqn:E1; [reflexivity|].
              destruct (k_lastRange (g_keys X g)) eqn:E2; [reflexivity|].
              unfold lastOn in On. rewrite E1, E2 in On. discriminate. }
            { destruct (k_last (g_keys X g)), (k_lastRange (g_keys X g)); reflexivity. }
        + cbn [bind]. exists (Some note), (snd sm). refine (conj eq_refl (conj _ (conj _ (conj _ _)))); auto.
          intros i g N U Dn Us Off. rewrite (P3 i g N U Dn Us). unfold expected. rewrite Off.
          destruct (k_last (g_keys X g)); [rewrite Us by (left; discriminate); reflexivity|].
          destruct (k_lastRange (g_keys X g)); [rewrite Us by (right; discriminate)|]; reflexivity. }
    destruct Mid as (sw1 & m1 & E1 & Ok1 & F1 & St1 & Sw1). rewrite E1. cbn [bind].
    assert (P2' : forall i, In i (map fst m1) <-> (i < List.length (st_layers X s))%nat).
    { intros i. rewrite F1. apply P2. }
    destruct (setSwitches_look true (idsWith (lastOn note) (st_layers X s)) m1 (D _ _ P2'))
      as (m2 & E2 & F2 & Lk2). rewrite E2. cbn [bind].
    assert (P2b : forall i, In i (map fst m2) <-> (i < List.length (st_layers X s))%nat).
    { intros i. rewrite F2. apply P2'. }
    destruct (setSwitches_look false (idsWith (fun k => isKey note (k_up k)) (st_layers X s)) m2
                (D _ _ P2b)) as (m3 & E3 & F3 & Lk3). rewrite E3. cbn [bind].
    assert (P2c : forall i, In i (map fst m3) <-> (i < List.length (st_layers X s))%nat).
    { intros i. rewrite F3. apply P2b. }
    destruct (setSwitches_look true (idsWith (fun k => isKey note (k_down k)) (st_layers X s)) m3
                (D _ _ P2c)) as (m4 & E4 & F4 & Lk4). rewrite E4. cbn [bind].
    eexists. split; [reflexivity|]. constructor; cbn [fst snd].
    - exact Ok1.
    - intros i. rewrite F4. apply P2c.
    - intros i g N U Dn Us. rewrite Lk4, (ids_exists _ _ _ _ N), Dn. cbn [isKey].
      rewrite Lk3, (ids_exists _ _ _ _ N), U. cbn [isKey].
      rewrite Lk2, (ids_exists _ _ _ _ N). destruct (lastOn note (g_keys X g)) eqn:On.
      + rewrite Sw1.
        * unfold expected. rewrite On.
          destruct (k_last (g_keys X g)) eqn:X1; [reflexivity|].
          destruct (k_lastRange (g_keys X g)) eqn:X2; [reflexivity|].
          unfold lastOn in On. rewrite X1, X2 in On. discriminate.
        * intros Em. assert (I1 : In i (idsWith (lastOn note) (st_layers X s))).
          { apply idsWith_in. eauto. }
          rewrite Em in I1. contradiction.
      + exact (St1 i g N U Dn Us On).
  Qed.

  Lemma noteOff_playing (s : state) note sm : listed s -> onBoard note -> playing s sm ->
    exists sm', noteOffSwitches X s note sm = Some sm' /\ playing s sm'.
  Proof.
    intros [L1 L2 L3 L4 L5] Hn [P1 P2 P3]. unfold noteOffSwitches.
    rewrite !(arrayAt_ok _ note) by exact Hn. cbn [bind]. rewrite L3, L4.
    assert (D : forall f (m : list (nat * bool)), (forall i, In i (map fst m) <-> (i < List.length (st_layers X s))%nat) ->
              forall i, In i (idsWith f (st_layers X s)) -> In i (map fst m)).
    { intros f m H i I1. apply H. exact (ids_dom _ _ _ I1). }
    destruct (setSwitches_look true (idsWith (fun k => isKey note (k_up k)) (st_layers X s)) (snd sm)
                (D _ _ P2)) as (m3 & E3 & F3 & Lk3). rewrite E3. cbn [bind].
    assert (P2c : forall i, In i (map fst m3) <-> (i < List.length (st_layers X s))%nat).
    { intros i. rewrite F3. apply P2. }
    destruct (setSwitches_look false (idsWith (fun k => isKey note (k_down k)) (st_layers X s)) m3
                (D _ _ P2c)) as (m4 & E4 & F4 & Lk4). rewrite E4. cbn [bind].
    eexists. split; [reflexivity|]. constructor; cbn [fst snd].
    - exact P1.
    - intros i. rewrite F4. apply P2c.
    - intros i g N U Dn Us. rewrite Lk4, (ids_exists _ _ _ _ N), Dn. cbn [isKey].
      rewrite Lk3, (ids_exists _ _ _ _ N), U. cbn [isKey]. exact (P3 i g N U Dn Us).
  Qed.

  Lemma load_playing (s : state) : listed s ->
    (forall g, In g (st_layers X s) -> avail (g_rest X g) = true) -> okSwitch (st_switch X s) ->
    playing s (st_switch X s, switches X avail s).
  Proof.
    intros [L1 L2 L3 L4 L5] Av Sw.
    assert (K : kept X avail s = numbered (st_layers X s)).
    { unfold kept, numbered. rewrite <- (filter_ext_in (fun _ => true)).
      - induction (combine _ _) as [|a l IH]; [reflexivity|]. cbn. rewrite IH. reflexivity.
      - intros [i g] I1. symmetry. apply Av. apply in_combine_r in I1. exact I1. }
    constructor; cbn [fst snd].
    - exact Sw.
    - intros i. unfold switches. rewrite K, map_map. cbn [fst].
      rewrite in_map_iff. split.
      + intros ([j g] & E & I1). cbn in E. subst j. apply numbered_in in I1.
        apply nth_error_Some. congruence.
      + intros H. apply nth_error_Some in H.
        destruct (nth_error (st_layers X s) i) as [g|] eqn:N; [|congruence].
        exists (i, g). split; [reflexivity|]. apply numbered_in. exact N.
    - intros i g N U Dn Us. unfold switches. rewrite K.
      assert (Lk : look i (map (fun p => (fst p, switchedAtLoad (st_switch X s) (g_keys X (snd p))))
                        (numbered (st_layers X s))) =
                   Some (switchedAtLoad (st_switch X s) (g_keys X g))).
      { revert i g N U Dn Us. unfold numbered. generalize (st_switch X s) as sw. clear.
        induction (st_layers X s) as [|x l IH] using rev_ind; intros sw i g N U Dn Us.
        - destruct i; discriminate.
        - rewrite app_length, seq_app, combine_app by apply seq_length. rewrite map_app.
          assert (A : forall a b, look i (a ++ b) = match look i a with Some v => Some v | None => look i b end).
          { intros a b. induction a as [|[j v] a IHa]; [reflexivity|]. cbn.
            destruct (Nat.eqb j i); [reflexivity|exact IHa]. }
          rewrite A. destruct (Nat.ltb_spec i (List.length l)) as [L|L].
          + rewrite nth_error_app1 in N by exact L. rewrite (IH sw i g N U Dn Us). reflexivity.
          + rewrite nth_error_app2 in N by exact L.
            destruct (i - List.length l)%nat as [|m] eqn:E; [|destruct m; discriminate N].
            injection N as ->. assert (i = List.length l) by lia. subst i.
            assert (Z1 : look (List.length l)
              (map (fun p => (fst p, switchedAtLoad sw (g_keys X (snd p))))
                 (combine (seq 0 (List.length l)) l)) = None).
            { assert (forall n st (l' : list (lregion X)), (st + List.length l' <= n)%nat ->
                 look n (map (fun p => (fst p, switchedAtLoad sw (g_keys X (snd p))))
                   (combine (seq st (List.length l')) l')) = None) as Q.
              { intros n st l'. revert st. induction l' as [|y l' IH']; intros st Hs; [reflexivity|].
                cbn. destruct (PeanoNat.Nat.eqb_spec st n); [cbn in Hs; lia|]. apply IH'.
                cbn in Hs. lia. }
              apply Q. lia. }
            rewrite Z1. cbn. rewrite PeanoNat.Nat.eqb_refl. reflexivity. }
      rewrite Lk. f_equal. unfold switchedAtLoad, expected.
      assert (G : goodKeys (g_keys X g)).
      { rewrite Forall_forall in L1. apply L1. apply nth_error_In in N. exact N. }
      pose proof (bk_one _ G) as One. unfold lastOn.
      destruct (st_switch X s) as [c|]; [|reflexivity].
      destruct (k_lastRange (g_keys X g)) as [[lo hi]|].
      + rewrite One. reflexivity.
      + destruct (k_last (g_keys X g)) as [n|]; [|reflexivity]. apply Z.eqb_sym.
  Qed.

  (** C67: when every region is kept and the default switch is on the keyboard, no sequence of
      notes makes the keyswitch code leave its arrays or touch a missing layer; and a region
      switched by sw_last or sw_lolast and sw_hilast alone is on exactly when the last switch
      key is one of its own (before there is any, it is off). *)
  Theorem C67_switching l (s : state) evs :
    onBlocks cleared l = Some s ->
    (forall g, In g (st_layers X s) -> avail (g_rest X g) = true) ->
    match st_switch X s with Some c => 0 <= c <= 127 | None => True end ->
    Forall (fun e => 0 <= snd e <= 127) evs ->
    exists sw m, events X s evs (st_switch X s, switches X avail s) = Some (sw, m) /\
      forall i g, nth_error (st_layers X s) i = Some g ->
        k_up (g_keys X g) = None -> k_down (g_keys X g) = None ->
        k_usesSw (g_keys X g) = true ->
        (k_last (g_keys X g) <> None \/ k_lastRange (g_keys X g) <> None) ->
        look i m = Some (match sw with None => false | Some c => lastOn c (g_keys X g) end).
  Proof.
    intros O Av Sw Evs. pose proof (listed_blocks l _ _ listed_cleared O) as Li.
    pose proof (load_playing s Li Av Sw) as P.
    remember (st_switch X s, switches X avail s) as sm eqn:Esm. clear Esm Sw.
    revert sm P. induction Evs as [|[on note] evs E1 Evs IH]; intros sm P.
    - exists (fst sm), (snd sm). split; [destruct sm; reflexivity|].
      intros i g N U Dn Us H. rewrite (pl_state _ _ P i g N U Dn (fun _ => Us)).
      unfold expected. rewrite Us. destruct (fst sm) as [c|]; [|reflexivity].
      destruct (k_last (g_keys X g)); [reflexivity|].
      destruct (k_lastRange (g_keys X g)); [reflexivity|]. destruct H; congruence.
    - cbn in E1. cbn [LoadModel.events]. destruct on.
      + destruct (noteOn_playing s note sm Li E1 P) as (sm' & E & P'). rewrite E. cbn [bind].
        exact (IH sm' P').
      + destruct (noteOff_playing s note sm Li E1 P) as (sm' & E & P'). rewrite E. cbn [bind].
        exact (IH sm' P').
  Qed.

  (** Without offsets the default switch is on the keyboard. *)
  Theorem C67_default_switch l (s : state) :
    controls l = [] -> onBlocks cleared l = Some s ->
    match st_switch X s with Some c => 0 <= c <= 127 | None => True end.
  Proof.
    intros C O.
    assert (Hs : forall m sw r, okSwitch sw -> handleSwitch 0 0 m sw = Some r -> okSwitch r).
    { induction m as [|o m IH]; intros sw r K E; cbn [handleSwitch] in E.
      - injection E as <-. exact K.
      - ob E. destruct (is o0 "sw_default"); [|exact (IH _ _ K E)]. ob E.
        refine (IH _ _ _ E). cbn.
        assert (D : onBoard z) by (refine (key_readOr 60 _ _ _ B0); unfold onBoard; lia).
        rewrite switch_ok in B1 by (try exact D; unfold modest; lia). injection B1 as <-.
        unfold onBoard in *. rewrite Z.mod_small by lia. lia. }
    assert (G : forall l (a t : state), controls l = [] -> st_note X a = 0 -> st_octave X a = 0 ->
              okSwitch (st_switch X a) -> onBlocks a l = Some t -> okSwitch (st_switch X t)).
    { clear l s C O. induction l as [|[h m] l IH]; intros a t C N0 O0 K O.
      - injection O as <-. exact K.
      - unfold onBlocks in O. cbn [LoadModel.onBlocks] in O. ob O.
        assert (C' : h <> HControl /\ controls l = []).
        { unfold controls in C. cbn [filter fst] in C. destruct h; try discriminate C;
            (split; [discriminate|exact C]). }
        destruct C' as [NC C'].
        destruct h; cbn [LoadModel.onBlock fst snd] in B.
        + ob B. injection B as <-. refine (IH _ _ C' _ _ _ O); [exact N0|exact O0|]. cbn [st_switch].
          rewrite N0, O0 in B1. exact (Hs _ _ _ K B1).
        + congruence.
        + ob B. injection B as <-. refine (IH _ _ C' _ _ _ O); [exact N0|exact O0|]. cbn [st_switch].
          rewrite N0, O0 in B1. exact (Hs _ _ _ K B1).
        + ob B. injection B as <-. refine (IH _ _ C' _ _ _ O); [exact N0|exact O0|]. cbn [st_switch].
          rewrite N0, O0 in B1. exact (Hs _ _ _ K B1).
        + rewrite build_parse in B. ob B.
          assert (Gk : goodKeys k).
          { refine (offsetKeys_good _ _ _ _ _ B1).
            refine (parseOpcodes_good _ _ _ _ _ _ B0). exact freshKeys_good. }
          injection B as <-. refine (IH _ _ C' _ _ _ O); [exact N0|exact O0|]. cbn [st_switch].
          pose proof (bk_default _ Gk) as Gd. destruct (k_default k) as [d|].
          * ob B6. injection B6 as <-. rewrite N0, O0 in B.
            rewrite switch_ok in B by (try exact Gd; unfold modest; lia). injection B as <-.
            cbn in *. unfold onBoard in *. rewrite Z.mod_small by lia. lia.
          * injection B6 as <-. exact K.
        + injection B as <-. exact (IH _ _ C' N0 O0 K O). }
    exact (G l cleared s C eq_refl eq_refl Logic.I O).
  Qed.
End LoadProofs.

(** *** Concrete files *)
(** Three opcodes as in Region.cpp: sample (57-73; [true] when the sample exists, here all but
    one), lfoN_freq (1286-1313: the LFO is created) and egN_freq_lfoM (1695-1699: refused when
    the region has too few LFOs). *)
Definition rest : Type := (bool * (Z * list (Z * Z)))%type.
Definition newDemo (_ : nat) (_ : text) : rest := (true, (0, [])).
Definition parseDemo (o : opcode) (x : rest) : bool * rest :=
  let '(ok, (lfos, targets)) := x in
  if is o "sample" then (true, (negb (text_eqb (o_value o) (str "missing.wav")), (lfos, targets)))
  else if is o "lfo&_freq" then
    match o_params o with
    | p :: _ => if p =? 0 then (false, x) else (true, (ok, (Z.max lfos p, targets)))
    | [] => (false, x)
    end
  else if is o "eg&_freq_lfo&" then
    match o_params o with
    | [n; p] => if (p =? 0) || (lfos <? p - 1) then (false, x)
                else (true, (ok, (lfos, targets ++ [(n, p)])))
    | _ => (false, x)
    end
  else (false, x).
Definition op (n v : string) : opcode := mkOpcode (str n) (str v).
Definition load (l : list block) : option (state rest) :=
  onBlocks rest newDemo parseDemo (cleared rest) l.
Definition availDemo (x : rest) : bool := fst x.
(** The same, with every opcode that is refused refused by its name: no modulation of LFOs. *)
Definition parsePlain (o : opcode) (x : rest) : bool * rest :=
  if is o "sample" then (true, (negb (text_eqb (o_value o) (str "missing.wav")), snd x))
  else (false, x).

(** Two groups under a master and a global header, then a region after a new master. *)
Definition file1 : list block := [
  (HGlobal, [op "sw_default" "24"; op "lokey" "10"]);
  (HMaster, [op "hikey" "100"; op "foo" "1"]);
  (HGroup, [op "sw_last" "24"; op "lokey" "36"]);
  (HRegion, [op "key" "c4"]);
  (HRegion, [op "pitch_keycenter" "50"; op "bar" "2"]);
  (HGroup, [op "sw_last" "25"]);
  (HRegion, [op "xfin_lokey" "20"; op "xfin_hikey" "30"]);
  (HMaster, []);
  (HRegion, [])].
Definition ranges (s : state rest) : list (Z * Z * option Z * option nat) :=
  map (fun g => (k_lo (g_keys rest g), k_hi (g_keys rest g), k_last (g_keys rest g), g_set rest g))
    (st_layers rest s).
Example C64_ex :
  option_map ranges (load file1) =
    Some [(60, 60, Some 24, Some 2%nat); (36, 100, Some 24, Some 2%nat);
          (10, 100, Some 25, Some 3%nat); (10, 127, None, Some 4%nat)] /\
  option_map (st_unknown rest) (load file1) = Some [str "foo"; str "bar"] /\
  map snd (flatten [] file1) =
    [ [op "sw_default" "24"; op "lokey" "10"; op "hikey" "100"; op "foo" "1"; op "sw_last" "24";
       op "lokey" "36"; op "key" "c4"];
      [op "sw_default" "24"; op "lokey" "10"; op "hikey" "100"; op "foo" "1"; op "sw_last" "24";
       op "lokey" "36"; op "pitch_keycenter" "50"; op "bar" "2"];
      [op "sw_default" "24"; op "lokey" "10"; op "hikey" "100"; op "foo" "1"; op "sw_last" "25";
       op "xfin_lokey" "20"; op "xfin_hikey" "30"];
      [op "sw_default" "24"; op "lokey" "10"] ].
Proof. vm_compute. repeat split. Qed.

Example C64_plain_ex : refusesByName rest parsePlain /\ (forall i j p, newDemo i p = newDemo j p).
Proof.
  split; [split|reflexivity].
  - intros o o' x x' _ H. unfold parsePlain, is. rewrite H. destruct (_ =? _); reflexivity.
  - intros o x. unfold parsePlain. destruct (is o "sample"); [discriminate|reflexivity].
Qed.

(** An opcode refused in one region is not read in the later ones, even where it is valid: the
    second region loses its LFO modulation because of the first. *)
Definition file2 : list block := [
  (HRegion, [op "eg1_freq_lfo3" "2"]);
  (HRegion, [op "lfo3_freq" "5"; op "eg1_freq_lfo3" "2"])].
Theorem C64_independent_refuted :
  exists pre own s s1 g g1,
    load (pre ++ [(HRegion, own)]) = Some s /\
    load (controls pre ++ [(HRegion, effective (rev pre) own)]) = Some s1 /\
    nth_error (st_layers rest s) (regionsIn pre) = Some g /\ st_layers rest s1 = [g1] /\
    g_rest rest g = (true, (3, [])) /\ g_rest rest g1 = (true, (3, [(1, 3)])).
Proof.
  exists [(HRegion, [op "eg1_freq_lfo3" "2"])], [op "lfo3_freq" "5"; op "eg1_freq_lfo3" "2"].
  vm_compute. repeat eexists.
Qed.

Example C65_ex :
  option_map (st_sets rest) (load file1) =
    Some [(None, 1); (Some 0%nat, 3); (Some 1%nat, 4); (Some 1%nat, 4); (Some 0%nat, 3)] /\
  chainOf (rev (firstn 6 file1)) = [3; 1; 0]%nat /\ chainOf (rev (firstn 8 file1)) = [4; 0]%nat.
Proof. vm_compute. repeat split. Qed.

(** An octave up and a tone down. *)
Definition control1 : list opcode := [op "octave_offset" "1"; op "note_offset" "-2"].
Example C66_ex :
  (exists sc, onBlock rest newDemo parseDemo (cleared rest) (HControl, control1) = Some sc /\
     st_path rest sc = [] /\ st_octave rest sc = 1 /\ st_note rest sc = -2) /\
  controls file1 = [] /\
  option_map ranges (load ((HControl, control1) :: file1)) =
    Some [(70, 70, Some 34, Some 2%nat); (46, 110, Some 34, Some 2%nat);
          (20, 110, Some 35, Some 3%nat); (20, 127, None, Some 4%nat)] /\
  option_map (fun s => activationList rest availDemo s 60) (load file1) = Some [0; 1; 2; 3]%nat /\
  option_map (fun s => activationList rest availDemo s 70)
    (load ((HControl, control1) :: file1)) = Some [0; 1; 2; 3]%nat.
Proof. vm_compute. repeat split. eexists. repeat split. Qed.

(** At the ends of the keyboard the keys that would leave it pile up on the last one. *)
Theorem C66_notes_refuted : exists c sc l s0 s1,
  onBlock rest newDemo parseDemo (cleared rest) (HControl, c) = Some sc /\
  st_octave rest sc = 0 /\ st_note rest sc = 1 /\
  load l = Some s0 /\ load ((HControl, c) :: l) = Some s1 /\
  activationList rest availDemo s0 126 = [] /\ activationList rest availDemo s1 127 = [0%nat].
Proof.
  exists [op "note_offset" "1"]. eexists. exists [(HRegion, [op "key" "127"])].
  vm_compute. repeat eexists.
Qed.

(** sw_lolast and sw_hilast are not moved: a switch written as sw_last=36 and the same switch
    written as a range end up on different keys. *)
Theorem C66_switch_range_refuted : exists s1 s2,
  load [(HControl, [op "note_offset" "12"]); (HRegion, [op "sw_last" "36"])] = Some s1 /\
  load [(HControl, [op "note_offset" "12"]);
        (HRegion, [op "sw_lolast" "36"; op "sw_hilast" "36"])] = Some s2 /\
  listAt (st_last rest s1) 48 = [0%nat] /\ listAt (st_last rest s1) 36 = [] /\
  listAt (st_last rest s2) 48 = [] /\ listAt (st_last rest s2) 36 = [0%nat].
Proof. vm_compute. repeat eexists. Qed.

Example C67_ex : exists s,
  load file1 = Some s /\ st_switch rest s = Some 24 /\
  (forall g, In g (st_layers rest s) -> availDemo (g_rest rest g) = true) /\
  option_map snd (events rest s [(true, 25); (false, 25); (true, 60)]
                    (st_switch rest s, switches rest availDemo s)) =
    Some [(0%nat, false); (1%nat, false); (2%nat, true); (3%nat, true)].
Proof.
  eexists. split; [vm_compute; reflexivity|]. split; [reflexivity|]. split; [|vm_compute; reflexivity].
  intros g H. cbn in H. decompose [or] H; subst; try reflexivity; contradiction.
Qed.

(** The switch that a default switch and an offset give can lie outside the 128 lists: the next
    key switch reads beyond the array. *)
Theorem C67_default_switch_refuted : exists s,
  load [(HControl, [op "note_offset" "12"]); (HGlobal, [op "sw_default" "120"]);
        (HRegion, [op "sw_last" "36"])] = Some s /\
  st_switch rest s = Some 132 /\
  listAt (st_last rest s) 48 = [0%nat] /\
  events rest s [(true, 48)] (st_switch rest s, switches rest availDemo s) = None.
Proof. vm_compute. repeat eexists. Qed.

(** A region removed for its missing sample stays in the keyswitch lists: the switch key then
    writes to the freed layer. *)
Theorem C67_removed_refuted : exists s,
  load [(HRegion, [op "sample" "missing.wav"; op "sw_last" "36"; op "key" "60"]);
        (HRegion, [op "sample" "here.wav"; op "sw_last" "37"; op "key" "60"])] = Some s /\
  activationList rest availDemo s 60 = [1%nat] /\
  listAt (st_last rest s) 36 = [0%nat] /\
  events rest s [(true, 37)] (st_switch rest s, switches rest availDemo s) <> None /\
  events rest s [(true, 36)] (st_switch rest s, switches rest availDemo s) = None.
Proof. eexists. split; [vm_compute; reflexivity|]. vm_compute. repeat split; discriminate. Qed.

(** A sw_down that cannot be read undoes the effect of sw_last: the region sounds although its
    switch has never been pressed. *)
Theorem C67_uses_switch_refuted : exists s g,
  load [(HRegion, [op "sw_last" "36"; op "sw_down" "-1"])] = Some s /\
  st_layers rest s = [g] /\ k_last (g_keys rest g) = Some 36 /\ k_down (g_keys rest g) = None /\
  st_switch rest s = None /\ switches rest availDemo s = [(0%nat, true)].
Proof. vm_compute. repeat eexists. Qed.
