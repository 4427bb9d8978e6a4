(** Properties of wavetables and their oscillators. *)
From Coq Require Import ZArith QArith Qround Qabs List Bool Lia Lqa.
Import ListNotations.
From Verif Require Import InterpModel Interp Rounding WavetableModel.
Open Scope Q_scope.

Lemma ltb_iff a b : ltb a b = true <-> a < b.
Proof. unfold ltb. rewrite negb_true_iff. rewrite <- not_true_iff_false, Qle_bool_iff. lra. Qed.
Lemma ltb_false a b : ltb a b = false <-> b <= a.
Proof. rewrite <- not_true_iff_false, ltb_iff. lra. Qed.

(** ** The storage *)
Section Storage.
Variable ts : Z.
Hypothesis ts_pos : (0 < ts)%Z.
Definition in_row (r a : Z) : Prop := (r * (ts + 8) <= a < (r + 1) * (ts + 8))%Z.
Lemma pointer_row r : pointer ts r = (r * (ts + 8) + 4)%Z. Proof. unfold pointer, extra. lia. Qed.
Lemma row_inside r a : (0 <= r < 24)%Z -> in_row r a -> inside ts a = true.
Proof. intros R A. unfold in_row in A. unfold inside, cells, extra, numTables. apply andb_true_iff. rewrite Z.leb_le, Z.ltb_lt. nia. Qed.

Lemma mod_next j : (0 <= j)%Z -> ((j + 1) mod ts = if j mod ts + 1 =? ts then 0 else j mod ts + 1)%Z.
Proof.
  intros J. pose proof (Z.mod_pos_bound j ts ts_pos). pose proof (Z.div_mod j ts ltac:(lia)) as D. destruct (Z.eqb_spec (j mod ts + 1) ts) as [E|E].
  - symmetry. apply (Z.mod_unique_pos _ _ (j / ts + 1)); [lia|]. nia.
  - symmetry. apply (Z.mod_unique_pos _ _ (j / ts)); [lia|]. nia.
Qed.
Lemma mod_neg j : (0 <= j)%Z -> ((- 1 - j) mod ts = ts - 1 - j mod ts)%Z.
Proof.
  intros J. pose proof (Z.mod_pos_bound j ts ts_pos). pose proof (Z.div_mod j ts ltac:(lia)) as D.
  symmetry. apply (Z.mod_unique_pos _ _ (- (j / ts) - 1)); [lia|]. nia.
Qed.
Lemma fillRight_spec r n : (0 <= r < 24)%Z -> forall j m, (0 <= j)%Z -> (j + Z.of_nat n <= 4)%Z ->
  let beg := pointer ts r in
  exists m', fillRight ts n beg (beg + ts) (beg + j mod ts) (beg + ts + j) m = Some m' /\
    forall a, m' a = if ((beg + ts + j <=? a) && (a <? beg + ts + j + Z.of_nat n))%Z then m (beg + (a - beg) mod ts)%Z else m a.
Proof.
  intros Hr. cbv zeta. rewrite pointer_row. remember (r * (ts + 8) + 4)%Z as beg eqn:Eb. induction n as [|n IH]; intros j m J L.
  - exists m. split; [reflexivity|]. intros a. destruct (_ && _) eqn:E; [|reflexivity]. apply andb_true_iff in E. rewrite Z.leb_le, Z.ltb_lt in E. lia.
  - cbn [fillRight]. pose proof (Z.mod_pos_bound j ts ts_pos). unfold copy_cell.
    rewrite (row_inside r (beg + j mod ts)), (row_inside r (beg + ts + j)) by (try assumption; unfold in_row; nia). cbn [andb].
    assert ((if beg + j mod ts + 1 =? beg + ts then beg else beg + j mod ts + 1) = beg + (j + 1) mod ts)%Z as ->.
    { rewrite mod_next by lia. destruct (Z.eqb_spec (beg + j mod ts + 1) (beg + ts)), (Z.eqb_spec (j mod ts + 1) ts); lia. }
    replace (beg + ts + j + 1)%Z with (beg + ts + (j + 1))%Z by lia.
    destruct (IH (j + 1)%Z (store m (beg + ts + j) (m (beg + j mod ts)))%Z ltac:(lia) ltac:(lia)) as (m' & F & Sp). exists m'. split; [exact F|].
    intros a. rewrite Sp. unfold store.
    assert ((beg + (a - beg) mod ts =? beg + ts + j)%Z = false) as N. { apply Z.eqb_neq. pose proof (Z.mod_pos_bound (a - beg) ts ts_pos). lia. }
    rewrite N. destruct (Z.eqb_spec a (beg + ts + j)) as [->|Na].
    + replace ((beg + ts + (j + 1) <=? beg + ts + j)%Z) with false by (symmetry; apply Z.leb_gt; lia). cbn [andb].
      replace ((beg + ts + j <=? beg + ts + j) && (beg + ts + j <? beg + ts + j + Z.of_nat (S n)))%Z with true by (symmetry; apply andb_true_iff; rewrite Z.leb_le, Z.ltb_lt; lia).
      f_equal. replace (beg + ts + j - beg)%Z with (j + 1 * ts)%Z by lia. rewrite Z.mod_add by lia. reflexivity.
    + replace (((beg + ts + (j + 1) <=? a) && (a <? beg + ts + (j + 1) + Z.of_nat n))%Z) with (((beg + ts + j <=? a) && (a <? beg + ts + j + Z.of_nat (S n)))%Z); [reflexivity|].
      apply eq_true_iff_eq. rewrite !andb_true_iff, !Z.leb_le, !Z.ltb_lt. lia.
Qed.
Lemma fillLeft_spec r n : (0 <= r < 24)%Z -> forall j m, (0 <= j)%Z -> (j + Z.of_nat n <= 4)%Z ->
  let beg := pointer ts r in
  exists m', fillLeft ts n beg (beg + ts) (beg + ts - 1 - j mod ts) (beg - 1 - j) m = Some m' /\
    forall a, m' a = if ((beg - j - Z.of_nat n <=? a) && (a <? beg - j))%Z then m (beg + (a - beg) mod ts)%Z else m a.
Proof.
  intros Hr. cbv zeta. rewrite pointer_row. remember (r * (ts + 8) + 4)%Z as beg eqn:Eb. induction n as [|n IH]; intros j m J L.
  - exists m. split; [reflexivity|]. intros a. destruct (_ && _) eqn:E; [|reflexivity]. apply andb_true_iff in E. rewrite Z.leb_le, Z.ltb_lt in E. lia.
  - cbn [fillLeft]. pose proof (Z.mod_pos_bound j ts ts_pos). unfold copy_cell.
    rewrite (row_inside r (beg + ts - 1 - j mod ts)), (row_inside r (beg - 1 - j)) by (try assumption; unfold in_row; nia). cbn [andb].
    assert ((if beg + ts - 1 - j mod ts =? beg then beg + ts - 1 else beg + ts - 1 - j mod ts - 1) = beg + ts - 1 - (j + 1) mod ts)%Z as ->.
    { rewrite mod_next by lia. destruct (Z.eqb_spec (beg + ts - 1 - j mod ts) beg), (Z.eqb_spec (j mod ts + 1) ts); lia. }
    replace (beg - 1 - j - 1)%Z with (beg - 1 - (j + 1))%Z by lia.
    destruct (IH (j + 1)%Z (store m (beg - 1 - j) (m (beg + ts - 1 - j mod ts)))%Z ltac:(lia) ltac:(lia)) as (m' & F & Sp). exists m'. split; [exact F|].
    intros a. rewrite Sp. unfold store.
    assert ((beg + (a - beg) mod ts =? beg - 1 - j)%Z = false) as N. { apply Z.eqb_neq. pose proof (Z.mod_pos_bound (a - beg) ts ts_pos). lia. }
    rewrite N. destruct (Z.eqb_spec a (beg - 1 - j)) as [->|Na].
    + replace ((beg - 1 - j <? beg - (j + 1))%Z) with false by (symmetry; apply Z.ltb_ge; lia). rewrite andb_false_r.
      replace ((beg - j - Z.of_nat (S n) <=? beg - 1 - j) && (beg - 1 - j <? beg - j))%Z with true by (symmetry; apply andb_true_iff; rewrite Z.leb_le, Z.ltb_lt; lia).
      f_equal. replace (beg - 1 - j - beg)%Z with (- 1 - j)%Z by lia. rewrite mod_neg by lia. lia.
    + replace (((beg - (j + 1) - Z.of_nat n <=? a) && (a <? beg - (j + 1)))%Z) with (((beg - j - Z.of_nat (S n) <=? a) && (a <? beg - j))%Z); [reflexivity|].
      apply eq_true_iff_eq. rewrite !andb_true_iff, !Z.leb_le, !Z.ltb_lt. lia.
Qed.
Lemma fillRow_spec r m : (0 <= r < 24)%Z -> exists m', fillRow ts r m = Some m' /\
  (forall a, in_row r a -> m' a = m (pointer ts r + (a - pointer ts r) mod ts)%Z) /\ (forall a, ~ in_row r a -> m' a = m a).
Proof.
  intros Hr. unfold fillRow. destruct (fillRight_spec r 4 Hr 0 m ltac:(lia) ltac:(lia)) as (m1 & F1 & S1). rewrite Z.mod_0_l in F1 by lia.
  rewrite !Z.add_0_r in F1. rewrite F1. destruct (fillLeft_spec r 4 Hr 0 m1 ltac:(lia) ltac:(lia)) as (m2 & F2 & S2). rewrite Z.mod_0_l in F2 by lia.
  rewrite !Z.sub_0_r in F2. rewrite F2. exists m2. split; [reflexivity|]. rewrite pointer_row in *. remember (r * (ts + 8) + 4)%Z as beg eqn:Eb.
  assert (forall i, m1 (beg + i mod ts)%Z = m (beg + i mod ts)%Z) as B.
  { intros i. rewrite S1. pose proof (Z.mod_pos_bound i ts ts_pos). replace ((beg + ts + 0 <=? beg + i mod ts)%Z) with false by (symmetry; apply Z.leb_gt; lia). reflexivity. }
  split; intros a A; unfold in_row in A; rewrite S2.
  - match goal with |- (if ?b then _ else _) = _ => destruct b eqn:E2 end; [apply B|]. rewrite S1.
    match goal with |- (if ?b then _ else _) = _ => destruct b eqn:E1 end; [reflexivity|].
    apply andb_false_iff in E1, E2. rewrite Z.leb_gt, Z.ltb_ge in E1, E2. rewrite Z.mod_small by lia. f_equal. lia.
  - match goal with |- (if ?b then _ else _) = _ => destruct b eqn:E2 end; [exfalso; apply andb_true_iff in E2; rewrite Z.leb_le, Z.ltb_lt in E2; lia|]. rewrite S1.
    match goal with |- (if ?b then _ else _) = _ => destruct b eqn:E1 end; [exfalso; apply andb_true_iff in E1; rewrite Z.leb_le, Z.ltb_lt in E1; lia|]. reflexivity.
Qed.
Lemma in_row_unique r r' a : in_row r a -> in_row r' a -> r = r'.
Proof. unfold in_row. intros. nia. Qed.
Lemma fillRows_spec rows : Forall (fun r => 0 <= r < 24)%Z rows -> forall m, exists m', fillRows ts rows m = Some m' /\
  (forall r a, In r rows -> in_row r a -> m' a = m (pointer ts r + (a - pointer ts r) mod ts)%Z) /\
  (forall a, (forall r, In r rows -> ~ in_row r a) -> m' a = m a).
Proof.
  induction rows as [|r rows IH]; intros F m; [exists m; split; [reflexivity|]; split; [intros ? ? []|reflexivity]|].
  inversion F as [|? ? F1 F2]; subst. cbn [fillRows]. destruct (fillRow_spec r m F1) as (m1 & E1 & A1 & B1). rewrite E1.
  destruct (IH F2 m1) as (m2 & E2 & A2 & B2). exists m2. split; [exact E2|].
  assert (forall r' i, m1 (pointer ts r' + i mod ts)%Z = m (pointer ts r' + i mod ts)%Z) as Base.
  { intros r' i. pose proof (Z.mod_pos_bound i ts ts_pos) as Mb.
    assert (in_row r' (pointer ts r' + i mod ts)) as Ir. { rewrite pointer_row. unfold in_row. lia. }
    destruct (Z.eq_dec r r') as [->|N].
    - rewrite (A1 _ Ir). f_equal. replace (pointer ts r' + i mod ts - pointer ts r')%Z with (i mod ts)%Z by lia. rewrite Z.mod_mod by lia. reflexivity.
    - apply B1. intros H. apply N. exact (in_row_unique _ _ _ H Ir). }
  split.
  - intros r' a [<-|I] Ra.
    + destruct (in_dec Z.eq_dec r rows) as [I|N]; [rewrite (A2 r a I Ra); apply Base|]. rewrite B2; [now apply A1|].
      intros r' I Ra'. apply N. now rewrite (in_row_unique _ _ _ Ra Ra').
    + rewrite (A2 r' a I Ra). apply Base.
  - intros a N. rewrite B2 by (intros r' I; apply N; now right). apply B1. apply N. now left.
Qed.
(** C97: filling the extra cells stays inside the storage, keeps every table, and continues each of them periodically on
    both sides, also tables that are shorter than the extra part. *)
Theorem C97_periodic m : exists m', fillExtra ts m = Some m' /\
  forall r i, (0 <= r < 24)%Z -> (- 4 <= i < ts + 4)%Z -> m' (pointer ts r + i)%Z = m (pointer ts r + i mod ts)%Z.
Proof.
  destruct (fillRows_spec (map Z.of_nat (seq 0 24))) with (m := m) as (m' & E & A & _).
  { apply Forall_forall. intros r I. apply in_map_iff in I. destruct I as (n & <- & I). apply in_seq in I. lia. }
  exists m'. split; [exact E|]. intros r i R I.
  rewrite (A r); [f_equal; f_equal; f_equal; lia| |rewrite pointer_row; unfold in_row; lia].
  apply in_map_iff. exists (Z.to_nat r). split; [lia|]. apply in_seq. lia.
Qed.
End Storage.

(** ** Oscillators *)
Lemma clampQ_range x lo hi : lo <= hi -> lo <= clampQ x lo hi <= hi.
Proof.
  intros L. unfold clampQ. destruct (ltb x lo) eqn:E1; [lra|]. apply ltb_false in E1. destruct (ltb hi x) eqn:E2; [lra|]. apply ltb_false in E2. lra.
Qed.
Lemma truncate_pos x : 0 <= x -> inject_Z (truncate x) <= x < inject_Z (truncate x) + 1 /\ (0 <= truncate x)%Z.
Proof.
  intros H. unfold truncate. assert (Qle_bool 0 x = true) as -> by now apply Qle_bool_iff. pose proof (Qfloor_le x). pose proof (Qlt_floor x) as L.
  rewrite inject_Z_plus in L. change (inject_Z 1) with 1 in L. split; [lra|]. change 0%Z with (Qfloor 0). now apply Qfloor_resp_le.
Qed.
Lemma truncate_neg x : x < 0 -> inject_Z (truncate x) - 1 < x <= inject_Z (truncate x) /\ (truncate x <= 0)%Z.
Proof.
  intros H. unfold truncate. destruct (Qle_bool 0 x) eqn:E; [apply Qle_bool_iff in E; lra|]. pose proof (Qfloor_le (- x)). pose proof (Qlt_floor (- x)) as L.
  rewrite inject_Z_plus in L. change (inject_Z 1) with 1 in L. rewrite inject_Z_opp. split; [lra|].
  assert (Qfloor 0 <= Qfloor (- x))%Z as P by (apply Qfloor_resp_le; lra). change (Qfloor 0) with 0%Z in P. lia.
Qed.
Lemma inject_lt a b : inject_Z a < inject_Z b <-> (a < b)%Z. Proof. now rewrite <- Zlt_Qlt. Qed.
Lemma inject_le a b : inject_Z a <= inject_Z b <-> (a <= b)%Z. Proof. now rewrite <- Zle_Qle. Qed.

Section Oscillator.
Variable rnd : Q -> Q.
Hypothesis rnd_mono : forall x y, x <= y -> rnd x <= rnd y.
Hypothesis rnd_Z : forall n, (Z.abs n < 2 ^ 24)%Z -> rnd (inject_Z n) == inject_Z n.
(** A small relative error; that of binary32 is far smaller, see [C97_float]. *)
Hypothesis rnd_err : forall x, Qabs (rnd x - x) <= Qabs x * (1 # 1000).
Variable logIndex : Z -> Q.
Variable ts : Z.
Hypothesis ts_ok : (0 < ts < 2 ^ 24)%Z.

Lemma rnd_between a b x : (Z.abs a < 2 ^ 24)%Z -> (Z.abs b < 2 ^ 24)%Z -> inject_Z a <= x <= inject_Z b -> inject_Z a <= rnd x <= inject_Z b.
Proof. intros A B [H1 H2]. rewrite <- (rnd_Z a A), <- (rnd_Z b B). split; now apply rnd_mono. Qed.
Lemma rnd_unit x : 0 <= x <= 1 -> 0 <= rnd x <= 1.
Proof. apply (rnd_between 0 1); cbn; lia. Qed.
Lemma rnd_above x : 0 <= x -> 0 <= rnd x <= x * (1001 # 1000).
Proof.
  intros H. split; [change 0 with (inject_Z 0); rewrite <- (rnd_Z 0) by (cbn; lia); now apply rnd_mono|].
  pose proof (rnd_err x) as E. apply Qabs_Qle_condition in E. rewrite Qabs_pos in E by assumption. lra.
Qed.
Lemma table_index_range f : 0 <= getIndexForFrequency rnd logIndex f /\ getIndexForFrequency rnd logIndex f < 24.
Proof.
  unfold getIndexForFrequency. remember (clampQ _ 0 1023) as pos eqn:Ep.
  assert (0 <= pos <= 1023) as P by (subst pos; apply clampQ_range; lra). clear Ep.
  assert (forall i, 0 <= frequencyToIndex logIndex i <= 23) as T. { intros i. unfold frequencyToIndex. destruct (i =? 1023)%Z; [lra|apply clampQ_range; lra]. }
  remember (Qfloor pos) as i1 eqn:Ei. pose proof (Qfloor_le pos). pose proof (Qlt_floor pos) as L. rewrite inject_Z_plus in L. change (inject_Z 1) with 1 in L. rewrite <- Ei in *.
  assert (0 <= rnd (pos - inject_Z i1) <= 1) as F by (apply rnd_unit; lra). remember (rnd (pos - inject_Z i1)) as fr eqn:Ef. clear Ef Ei.
  pose proof (T i1) as T1. pose proof (T (Z.min (i1 + 1) 1023)) as T2. remember (frequencyToIndex logIndex i1) as t1. remember (frequencyToIndex logIndex (Z.min (i1 + 1) 1023)) as t2.
  pose proof (rnd_above (1 - fr) ltac:(lra)) as G. remember (rnd (1 - fr)) as g eqn:Eg. clear Eg.
  pose proof (rnd_above (g * t1) ltac:(nra)) as A. remember (rnd (g * t1)) as a eqn:Ea. clear Ea.
  pose proof (rnd_above (fr * t2) ltac:(nra)) as B. remember (rnd (fr * t2)) as b eqn:Eb. clear Eb.
  pose proof (rnd_above (a + b) ltac:(lra)) as C. split; [lra|].
  assert (g * t1 <= (1 - fr) * (1001 # 1000) * 23) as X by nra. assert (fr * t2 <= fr * 23) as Y by nra. lra.
Qed.
Lemma to_unsigned x n : 0 <= x -> x < inject_Z n -> (n <= 2 ^ 32)%Z -> exists z, toUnsigned x = Some z /\ (0 <= z < n)%Z /\ inject_Z z <= x < inject_Z z + 1.
Proof.
  intros H0 H1 Hn. destruct (truncate_pos x H0) as [T P]. exists (truncate x). assert (truncate x < n)%Z as B by (apply inject_lt; lra).
  unfold toUnsigned. replace ((0 <=? truncate x) && (truncate x <? 2 ^ 32))%Z with true by (symmetry; apply andb_true_iff; rewrite Z.leb_le, Z.ltb_lt; lia).
  split; [reflexivity|]. split; [lia|exact T].
Qed.

(** The phase stays between 0 and 1. *)
Lemma wrap_range phase inc : 0 <= phase <= 1 -> Qabs inc <= inject_Z (2 ^ 30) ->
  exists p, incrementAndWrap rnd phase inc = Some p /\ 0 <= p <= 1.
Proof.
  intros Hp Hi. apply Qabs_Qle_condition in Hi. unfold incrementAndWrap. remember (rnd (phase + inc)) as p eqn:Ep.
  assert (- inject_Z (2 ^ 31) < p < inject_Z (2 ^ 31)) as Bp.
  { pose proof (rnd_err (phase + inc)) as E. rewrite <- Ep in E. apply Qabs_Qle_condition in E.
    assert (Qabs (phase + inc) <= inject_Z (2 ^ 30) + 1) as A by (apply Qabs_Qle_condition; lra).
    change (inject_Z (2 ^ 31)) with 2147483648 in *. change (inject_Z (2 ^ 30)) with 1073741824 in *. lra. }
  assert (exists z, toInt p = Some z /\ (0 <= p -> inject_Z z <= p < inject_Z z + 1) /\ (p < 0 -> inject_Z z - 1 < p <= inject_Z z)) as (z & Ez & Z1 & Z2).
  { exists (truncate p). unfold toInt. split; [|split; intros H; [apply truncate_pos in H; tauto|apply truncate_neg in H; tauto]].
    replace ((- 2 ^ 31 <=? truncate p) && (truncate p <? 2 ^ 31))%Z with true; [reflexivity|]. symmetry. apply andb_true_iff. rewrite Z.leb_le, Z.ltb_lt.
    destruct (Qlt_le_dec p 0) as [L|L]; [destruct (truncate_neg p L) as [T P]|destruct (truncate_pos p L) as [T P]].
    - split; [|lia]. apply inject_le. rewrite inject_Z_opp. lra.
    - split; [lia|]. apply inject_lt. lra. }
  rewrite Ez. eexists. split; [reflexivity|]. clear Ep Bp Ez.
  assert (- (1) <= rnd (p - inject_Z z) <= 1 /\ (0 <= p -> 0 <= rnd (p - inject_Z z))) as [R R'].
  { destruct (Qlt_le_dec p 0) as [L|L].
    - specialize (Z2 L). assert (inject_Z (- 1) <= rnd (p - inject_Z z) <= inject_Z 0) as H by (apply rnd_between; try (cbn; lia); change (inject_Z (- 1)) with (- (1)); change (inject_Z 0) with 0; lra).
      change (inject_Z (- 1)) with (- (1)) in H. change (inject_Z 0) with 0 in H. split; [lra|intros; lra].
    - specialize (Z1 L). assert (0 <= rnd (p - inject_Z z) <= 1) as H by (apply rnd_unit; lra). split; [lra|intros; lra]. }
  remember (rnd (p - inject_Z z)) as q eqn:Eq. clear Eq. apply rnd_unit. destruct (ltb q 0) eqn:E; [apply ltb_iff in E; lra|apply ltb_false in E; lra].
Qed.

(** The wave of a row, continued periodically. *)
Variable m0 m : mem.
Hypothesis filled : fillExtra ts m0 = Some m.
Definition wave (r i : Z) : Q := m0 (pointer ts r + i mod ts)%Z.
Lemma interp_ext M (v w : Z -> Q) c : (forall i, (-1 <= i <= 2)%Z -> v i = w i) -> interp M v c = interp M w c.
Proof.
  intros H. destruct M; cbn [interp].
  - unfold InterpModel.nearest. destruct (ltb (1 # 2) c); apply H; lia.
  - unfold linear. rewrite !H by lia. reflexivity.
  - unfold lanes. rewrite !H by lia. reflexivity.
Qed.
Lemma lookup_wave M r index frac : (0 <= r < 24)%Z -> (0 <= index <= ts)%Z ->
  lookup ts m M r index frac = Some (interp M (fun i => wave r (index + i)) frac).
Proof.
  intros R I. unfold lookup. destruct (C97_periodic ts ltac:(lia) m0) as (m' & E & W). rewrite filled in E. injection E as <-.
  assert (forallb (fun i => inside ts (pointer ts r + index + i)) (reads M frac) = true) as ->.
  { apply forallb_forall. intros i Hi. apply (row_inside ts ltac:(lia) r); [exact R|]. rewrite pointer_row by lia. unfold in_row.
    assert (-1 <= i <= 2)%Z; [|lia]. destruct M; cbn [reads In] in Hi; [destruct (ltb (1 # 2) frac)|..]; repeat destruct Hi as [Hi|Hi]; try (destruct Hi; fail); lia. }
  f_equal. apply interp_ext. intros i Hi. unfold wave. rewrite <- Z.add_assoc. apply W; [exact R|lia].
Qed.
(** What an oscillator gives at an index and a fraction: one row, or two rows that are mixed. *)
Definition heard (quality : Z) (index : Z) (frac y : Q) : Prop :=
  exists M r1 r2 d, (0 <= r1 < 24)%Z /\ (0 <= r2 < 24)%Z /\ 0 <= d <= 1 /\ (r1 <= r2 <= r1 + 1)%Z /\
    M = (if (quality <=? 0)%Z then Nearest else if (quality =? 1)%Z then Linear else Hermite3) /\ ((quality < 3)%Z -> d = 0) /\
    y == (1 - d) * interp M (fun i => wave r1 (index + i)) frac + d * interp M (fun i => wave r2 (index + i)) frac.
Lemma value_heard quality f index frac : (0 <= index <= ts)%Z ->
  exists y, value rnd logIndex ts m quality f index frac = Some y /\ heard quality index frac y.
Proof.
  intros I. destruct (table_index_range f) as [G1 G2].
  assert (forall M, exists r, (0 <= r < 24)%Z /\ single rnd logIndex ts m M f index frac = Some (interp M (fun i => wave r (index + i)) frac)) as Sg.
  { intros M. unfold single. destruct (to_unsigned _ 24 G1 G2 ltac:(lia)) as (r & -> & R & _). exists r. split; [exact R|]. now apply lookup_wave. }
  unfold value.
  assert (forall r1 M y, y = interp M (fun i => wave r1 (index + i)) frac -> (0 <= r1 < 24)%Z -> M = (if (quality <=? 0)%Z then Nearest else if (quality =? 1)%Z then Linear else Hermite3) -> heard quality index frac y) as One.
  { intros r1 M y -> R EM. exists M, r1, r1, 0. repeat split; try lia; try lra; try exact EM. }
  destruct (Z.eqb_spec (Z.max 0 (Z.min quality 3)) 0) as [Q0|Q0].
  { destruct (Sg Nearest) as (r & R & ->). eexists. split; [reflexivity|]. apply (One r Nearest); auto. destruct (Z.leb_spec quality 0); [reflexivity|lia]. }
  destruct (Z.eqb_spec (Z.max 0 (Z.min quality 3)) 1) as [Q1|Q1].
  { destruct (Sg Linear) as (r & R & ->). eexists. split; [reflexivity|]. apply (One r Linear); auto. destruct (Z.leb_spec quality 0); [lia|]. destruct (Z.eqb_spec quality 1); [reflexivity|lia]. }
  assert (Hermite3 = (if (quality <=? 0)%Z then Nearest else if (quality =? 1)%Z then Linear else Hermite3)) as EM.
  { destruct (Z.leb_spec quality 0); [lia|]. destruct (Z.eqb_spec quality 1); [lia|reflexivity]. }
  destruct (Z.eqb_spec (Z.max 0 (Z.min quality 3)) 2) as [Q2|Q2].
  { destruct (Sg Hermite3) as (r & R & ->). eexists. split; [reflexivity|]. apply (One r Hermite3); auto. }
  unfold dual. remember (getIndexForFrequency rnd logIndex f) as pos eqn:Ep. clear Ep.
  destruct (truncate_pos pos G1) as [T P]. assert (truncate pos < 24)%Z as T24. { apply inject_lt. change (inject_Z 24) with 24. lra. }
  unfold toInt. replace ((- 2 ^ 31 <=? truncate pos) && (truncate pos <? 2 ^ 31))%Z with true by (symmetry; apply andb_true_iff; rewrite Z.leb_le, Z.ltb_lt; lia).
  rewrite !lookup_wave by lia. eexists. split; [reflexivity|].
  exists Hermite3, (Z.max 0 (Z.min (truncate pos) 23)), (Z.max 0 (Z.min (truncate pos + 1) 23)), (rnd (pos - inject_Z (truncate pos))).
  repeat split; try lia; try (apply rnd_unit; lra); exact EM.
Qed.
Definition gentle (interval : Q) (b : Q * Q) : Prop := Qabs (increment rnd interval (fst b) (snd b)) <= inject_Z (2 ^ 30).
Lemma frame_heard quality interval f ratio phase : 0 <= phase <= 1 -> gentle interval (f, ratio) ->
  exists y p index frac, frame rnd logIndex ts m quality interval f ratio phase = Some (y, p) /\ 0 <= p <= 1 /\
    (0 <= index <= ts)%Z /\ 0 <= frac <= 1 /\ frac = rnd (rnd (phase * inject_Z ts) - inject_Z index) /\ heard quality index frac y /\
    inject_Z index <= rnd (phase * inject_Z ts) < inject_Z index + 1 /\ incrementAndWrap rnd phase (increment rnd interval f ratio) = Some p.
Proof.
  intros P G. unfold frame. assert (0 < inject_Z ts) as T0 by (change 0 with (inject_Z 0); apply inject_lt; lia).
  assert (inject_Z 0 <= rnd (phase * inject_Z ts) <= inject_Z ts) as R by (apply rnd_between; [cbn; lia|lia|change (inject_Z 0) with 0; nra]). change (inject_Z 0) with 0 in R.
  destruct (to_unsigned (rnd (phase * inject_Z ts)) (ts + 1)) as (index & Ei & Bi & Fi); [lra|rewrite inject_Z_plus; change (inject_Z 1) with 1; lra|lia|].
  rewrite Ei. remember (rnd (rnd (phase * inject_Z ts) - inject_Z index)) as frac eqn:Ef.
  destruct (value_heard quality f index frac ltac:(lia)) as (y & Ev & H). rewrite Ev.
  destruct (wrap_range phase (increment rnd interval f ratio) P G) as (p & Ew & Pp). rewrite Ew.
  exists y, p, index, frac. split; [reflexivity|]. split; [exact Pp|]. split; [lia|]. split; [subst frac; apply rnd_unit; lra|]. split; [exact Ef|]. split; [exact H|]. split; [exact Fi|reflexivity].
Qed.
(** C97: an oscillator whose phase is between 0 and 1 reads inside its storage at any frequency and quality, and what it
    reads is the periodic wave; its phase is between 0 and 1 again, for the next block. *)
Theorem C97_safe quality interval block : Forall (gentle interval) block -> forall phase, 0 <= phase <= 1 ->
  exists ys p, processModulated rnd logIndex ts m quality interval block phase = Some (ys, p) /\ 0 <= p <= 1 /\
    length ys = length block /\
    Forall (fun y => exists index frac, (0 <= index <= ts)%Z /\ 0 <= frac <= 1 /\ heard quality index frac y) ys.
Proof.
  induction block as [|[f ratio] block IH]; intros G phase P; [exists [], phase; repeat split; try lra; constructor|].
  inversion G as [|? ? G1 G2]; subst. cbn [processModulated].
  destruct (frame_heard quality interval f ratio phase P G1) as (y & p & index & frac & -> & Pp & Bi & Bf & _ & H & _).
  destruct (IH G2 p Pp) as (ys & p' & -> & P' & L & F). exists (y :: ys), p'. split; [reflexivity|]. split; [exact P'|]. split; [cbn [length]; congruence|].
  constructor; [exists index, frac; auto|exact F].
Qed.
End Oscillator.

(** ** With exact arithmetic: the position *)
Definition exactly (x : Q) : Q := x.
Lemma exactly_ok : (forall x y, x <= y -> exactly x <= exactly y) /\ (forall n, (Z.abs n < 2 ^ 24)%Z -> exactly (inject_Z n) == inject_Z n) /\
  (forall x, Qabs (exactly x - x) <= Qabs x * (1 # 1000)).
Proof.
  unfold exactly. split; [auto|]. split; [reflexivity|]. intros x. assert (x - x == 0) as -> by ring. change (Qabs 0) with 0. pose proof (Qabs_nonneg x). lra.
Qed.
Lemma wrap_exact phase inc p : incrementAndWrap exactly phase inc = Some p -> 0 <= p < 1 /\ exists z, p == phase + inc - inject_Z z.
Proof.
  unfold incrementAndWrap, exactly. remember (phase + inc) as x eqn:Ex. clear Ex. unfold toInt. destruct (_ && _); [|discriminate]. intros H. injection H as <-.
  destruct (Qlt_le_dec x 0) as [L|L]; [destruct (truncate_neg x L) as [T _]|destruct (truncate_pos x L) as [T _]];
    (destruct (ltb (x - inject_Z (truncate x)) 0) eqn:E; [apply ltb_iff in E|apply ltb_false in E]).
  - split; [lra|]. exists (truncate x - 1)%Z. unfold Z.sub. rewrite inject_Z_plus. change (inject_Z (- (1))) with (- (1)). ring.
  - split; [lra|]. exists (truncate x). ring.
  - lra.
  - split; [lra|]. exists (truncate x). ring.
Qed.
Fixpoint travelled (interval : Q) (block : list (Q * Q)) : Q :=
  match block with [] => 0 | (f, ratio) :: block => f * (ratio * interval) + travelled interval block end.
(** C97: frame k of a block sounds at the phase of the start plus what was travelled since, modulo one period. *)
Theorem C97_position logIndex ts m0 m quality interval : (0 < ts < 2 ^ 24)%Z -> fillExtra ts m0 = Some m ->
  forall block phase, Forall (gentle exactly interval) block -> 0 <= phase < 1 ->
  exists ys p, processModulated exactly logIndex ts m quality interval block phase = Some (ys, p) /\ 0 <= p < 1 /\
    (exists z, p == phase + travelled interval block - inject_Z z) /\
    forall k, (k < length block)%nat -> exists index frac z,
      0 <= phase + travelled interval (firstn k block) - inject_Z z < 1 /\ 0 <= frac < 1 /\
      inject_Z index + frac == (phase + travelled interval (firstn k block) - inject_Z z) * inject_Z ts /\
      heard ts m0 quality index frac (nth k ys 0).
Proof.
  intros Ts F. destruct exactly_ok as (X1 & X2 & X3). induction block as [|[f ratio] block IH]; intros phase G P.
  - exists [], phase. split; [reflexivity|]. split; [exact P|]. split; [exists 0%Z; cbn [travelled]; change (inject_Z 0) with 0; ring|]. cbn [length]. intros k K. inversion K.
  - inversion G as [|? ? G1 G2]; subst. cbn [processModulated].
    destruct (frame_heard exactly X1 X2 X3 logIndex ts Ts m0 m F quality interval f ratio phase ltac:(lra) G1) as (y & p & index & frac & E & _ & Bi & Bf & Ef & H & Fl & W).
    change (exactly (phase * inject_Z ts)) with (phase * inject_Z ts) in Fl, Ef. change (increment exactly interval f ratio) with (f * (ratio * interval)) in W.
    destruct (wrap_exact _ _ _ W) as [Pp (z & Ez)]. rewrite E.
    destruct (IH p G2 Pp) as (ys & p' & E' & P' & (z' & Ez') & K). rewrite E'. exists (y :: ys), p'. split; [reflexivity|]. split; [exact P'|].
    split; [exists (z + z')%Z; cbn [travelled]; rewrite inject_Z_plus, Ez', Ez; ring|].
    intros [|k] Hk; cbn [firstn travelled nth].
    + exists index, frac, 0%Z. change (inject_Z 0) with 0. unfold exactly in Ef. split; [lra|]. split; [subst frac; lra|]. split; [subst frac; ring|exact H].
    + cbn [length] in Hk. destruct (K k ltac:(lia)) as (i & fr & z2 & A & B & C & D). exists i, fr, (z + z2)%Z. rewrite inject_Z_plus.
      assert (phase + (f * (ratio * interval) + travelled interval (firstn k block)) - (inject_Z z + inject_Z z2) == p + travelled interval (firstn k block) - inject_Z z2) as -> by (rewrite Ez; ring).
      auto.
Qed.

(** ** binary32 *)
Lemma float_error x : Qabs (float24 x - x) <= Qabs x * (1 # 1000).
Proof.
  destruct (Qeq_dec x 0) as [E|E].
  - assert (rep24 x) as R by (apply (rep24_wd 0); [now rewrite E|apply rep24_0]). pose proof (float24_of_rep x R) as F. rewrite F.
    assert (x - x == 0) as -> by ring. change (Qabs 0) with 0. pose proof (Qabs_nonneg x). lra.
  - pose proof (ulp_spec x E) as [U1 U2]. remember (Qpower 2 (ulpExp x)) as u eqn:Eu. assert (0 < u) as Pu by (subst u; apply p2_pos).
    assert (Qabs x == Qabs x / u * u) as Ex by (field; lra). remember (Qabs x / u) as q eqn:Eq. clear Eq.
    pose proof (Qfloor_le q) as F1. pose proof (Qlt_floor q) as F2. rewrite inject_Z_plus in F2. change (inject_Z 1) with 1 in F2.
    change (Qpower 2 23) with 8388608 in U1. change (Qpower 2 24) with 16777216 in U2.
    assert (0 <= Qfloor q)%Z as Fp. { change 0%Z with (Qfloor 0). apply Qfloor_resp_le. lra. }
    assert (Qfloor q < 2 ^ 24)%Z as Fm. { rewrite Zlt_Qlt. change (inject_Z (2 ^ 24)) with 16777216. lra. }
    assert (exists y, rep24 y /\ Qabs (y - x) <= u) as (y & Ry & Dy).
    { destruct (Qlt_le_dec x 0) as [L|L].
      - exists (- (inject_Z (Qfloor q) * u)). split; [apply rep24_opp; exists (Qfloor q), (ulpExp x); subst u; split; [lia|reflexivity]|].
        rewrite Qabs_neg in Ex by lra. apply Qabs_Qle_condition. split; nra.
      - exists (inject_Z (Qfloor q) * u). split; [exists (Qfloor q), (ulpExp x); subst u; split; [lia|reflexivity]|].
        rewrite Qabs_pos in Ex by lra. apply Qabs_Qle_condition. split; nra. }
    pose proof (float24_nearest x y Ry) as N. assert (u * 8388608 <= Qabs x) by nra. lra.
Qed.
(** C97: the rounding of binary32 is one of those that the theorems allow. *)
Theorem C97_float : (forall x y, x <= y -> float24 x <= float24 y) /\ (forall n, (Z.abs n < 2 ^ 24)%Z -> float24 (inject_Z n) == inject_Z n) /\
  (forall x, Qabs (float24 x - x) <= Qabs x * (1 # 1000)).
Proof. split; [apply float24_mono|]. split; [intros n H; apply float24_of_rep, rep24_Z, H|apply float_error]. Qed.
(** C97: the phase can become 1, which setPhase excludes: a small step back from 0. *)
Theorem C97_phase_one_refuted : exists p, incrementAndWrap float24 0 (- (1 # 1073741824)) = Some p /\ p == 1.
Proof. eexists. split; [vm_compute; reflexivity|]. vm_compute. reflexivity. Qed.

(** ** Where the phase comes from *)
(** C97: the opcode gives a phase that an oscillator may start from. *)
Theorem C97_opcode_phase x u : 0 < u < 1 -> 0 <= getPhase (opcodePhase x) u < 1.
Proof.
  intros U. unfold getPhase, opcodePhase, wrapPhase. destruct (Qle_bool 0 x) eqn:E.
  - apply Qle_bool_iff in E. destruct (truncate_pos x E) as [T _]. destruct (ltb _ 0) eqn:L; [apply ltb_iff in L; lra|].
    destruct (Qle_bool 0 _) eqn:E2; [lra|]. rewrite <- not_true_iff_false, Qle_bool_iff in E2. lra.
  - cbn. lra.
Qed.
(** C97: the message that sets the phase does not bring it into the period: with 25 and more, the first frame of an
    oscillator is read outside of the storage, whatever the wave, the frequency and the quality. *)
Theorem C97_message_refuted logIndex m quality interval f ratio x u : 25 <= x ->
  frame exactly logIndex 1024 m quality interval f ratio (getPhase (messagePhase x) u) = None.
Proof.
  intros H. unfold getPhase, messagePhase. assert (Qle_bool 0 x = true) as -> by (apply Qle_bool_iff; lra).
  unfold frame. change (exactly (x * inject_Z 1024)) with (x * inject_Z 1024).
  destruct (toUnsigned (x * inject_Z 1024)) as [index|] eqn:Ei; [|reflexivity].
  assert (25600 <= index)%Z as Bi.
  { unfold toUnsigned in Ei. destruct (_ && _) in Ei; [|discriminate]. injection Ei as <-. change (inject_Z 1024) with 1024.
    destruct (truncate_pos (x * 1024) ltac:(lra)) as [T _]. assert (25599 < truncate (x * 1024))%Z; [|lia]. apply inject_lt. change (inject_Z 25599) with 25599. lra. }
  remember (exactly (x * inject_Z 1024 - inject_Z index)) as frac eqn:Ef. clear Ef.
  assert (forall M r, (0 <= r)%Z -> lookup 1024 m M r index frac = None) as L.
  { intros M r R. unfold lookup. assert (forall i, (-1 <= i <= 2)%Z -> inside 1024 (pointer 1024 r + index + i) = false) as O.
    { intros i Hi. unfold inside, cells, pointer, extra, numTables. apply andb_false_iff. right. apply Z.ltb_ge. lia. }
    destruct M; cbn [reads forallb].
    - rewrite O; [reflexivity|destruct (ltb _ _); lia].
    - rewrite O by lia. reflexivity.
    - rewrite O by lia. reflexivity. }
  assert (value exactly logIndex 1024 m quality f index frac = None) as ->; [|reflexivity].
  assert (forall M, single exactly logIndex 1024 m M f index frac = None) as Sg.
  { intros M. unfold single. destruct (toUnsigned (getIndexForFrequency _ _ _)) as [r|] eqn:Er; [|reflexivity]. apply L. unfold toUnsigned in Er. destruct (_ && _) eqn:B in Er; [|discriminate]. injection Er as <-.
    apply andb_true_iff in B. destruct B as [B _]. now apply Z.leb_le in B. }
  unfold value. rewrite !Sg. destruct (_ =? 0)%Z; [reflexivity|]. destruct (_ =? 1)%Z; [reflexivity|]. destruct (_ =? 2)%Z; [reflexivity|].
  unfold dual. destruct (toInt _); [|reflexivity]. rewrite !L by lia. reflexivity.
Qed.

(** ** Unison *)
(** C97: in unison every oscillator has its gains, from full right to full left in equal parts that sum to 1, and
    the detunes come in opposite pairs, none larger than the one that was asked for. *)
Theorem C97_unison m d i : (3 <= m <= 9)%Z -> (0 <= i < m)%Z ->
  (exists l r, fst (gains m) i = Some l /\ snd (gains m) i = Some r /\ l == inject_Z i / inject_Z (m - 1) /\ l + r == 1) /\
  Qabs (detune d i) <= Qabs d /\ detune d 0 == 0 /\ (i mod 2 = 1 -> detune d (i + 1) == - detune d i)%Z.
Proof.
  intros M I. assert (m = 3 \/ m = 4 \/ m = 5 \/ m = 6 \/ m = 7 \/ m = 8 \/ m = 9)%Z as Cm by lia.
  assert (i = 0 \/ i = 1 \/ i = 2 \/ i = 3 \/ i = 4 \/ i = 5 \/ i = 6 \/ i = 7 \/ i = 8)%Z as Ci by lia.
  split.
  - clear d. destruct Cm as [->|[->|[->|[->|[->|[->| ->]]]]]]; destruct Ci as [->|[->|[->|[->|[->|[->|[->|[->| ->]]]]]]]]; try (exfalso; lia);
      eexists; eexists; (split; [vm_compute; reflexivity|]); (split; [vm_compute; reflexivity|]); split; vm_compute; reflexivity.
  - clear Cm M I. split; [|split; [reflexivity|]].
    + assert (forall c, Qabs c <= 1 -> Qabs (d * c) <= Qabs d) as Sc.
      { intros c C. rewrite Qabs_Qmult. pose proof (Qabs_nonneg d). pose proof (Qabs_nonneg c). nra. }
      assert (exists c, detune d i == d * c /\ Qabs c <= 1) as (c & -> & C); [|now apply Sc].
      destruct Ci as [->|[->|[->|[->|[->|[->|[->|[->| ->]]]]]]]]; unfold detune; cbn -[Qmult Qopp inject_Z].
      * exists 0. split; [ring|cbn; discriminate].
      * exists (- (1)). split; [ring|cbn; discriminate].
      * exists 1. split; [ring|cbn; discriminate].
      * exists (- (1 # 4)). split; [change (inject_Z _) with 1; ring|cbn; discriminate].
      * exists (1 # 4). split; [change (inject_Z _) with 1; ring|cbn; discriminate].
      * exists (- (1 # 2)). split; [change (inject_Z _) with 2; field|cbn; discriminate].
      * exists (1 # 2). split; [change (inject_Z _) with 2; field|cbn; discriminate].
      * exists (- (3 # 4)). split; [change (inject_Z _) with 3; field|cbn; discriminate].
      * exists (3 # 4). split; [change (inject_Z _) with 3; field|cbn; discriminate].
    + destruct Ci as [->|[->|[->|[->|[->|[->|[->|[->| ->]]]]]]]]; intros Odd; try discriminate Odd; unfold detune; cbn -[Qmult Qopp inject_Z]; ring.
Qed.

(** ** A case *)
(** Rows of 8 cells that hold a ramp; the third quarter of the period at 1000 Hz. *)
Definition ramp : mem := fun a => inject_Z ((a - 4) mod 16).
Example C97_ex :
  exists m, fillExtra 8 ramp = Some m /\ map (fun i => m (pointer 8 2 + i)%Z) [-4; -1; 0; 7; 8; 11]%Z = [4; 7; 0; 7; 0; 3] /\
  gentle exactly (1 # 8000) (1000, 1) /\
  option_map (fun r => (map Qred (fst r), Qred (snd r))) (processModulated exactly (fun i => inject_Z i) 8 m 1 (1 # 8000) [(1000, 1); (500, 1); (500, 1); (- (500), 3)] (27 # 32))
    = Some ([27 # 4; 7 # 4; 1 # 4; 3 # 4], 29 # 32).
Proof. eexists. split; [vm_compute; reflexivity|]. split; [vm_compute; reflexivity|]. split; [vm_compute; discriminate|]. vm_compute. reflexivity. Qed.
Example C97_silence_ex : exists m, fillExtra 1 (fun _ => 0) = Some m /\
  processModulated float24 (fun _ => 0) 1 m 3 (1 # 44100) [(440, 1); (440, 1)] 0 <> None.
Proof. eexists. split; [vm_compute; reflexivity|]. vm_compute. discriminate. Qed.
