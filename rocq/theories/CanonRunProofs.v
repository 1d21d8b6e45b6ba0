(** The sweeps of canonicalize. *)
From Coq Require Import List Arith Bool Lia String ZArith Permutation.
From Verif Require Import Base Sums NdModel NdProofs HeapModel FuncsModel FuncsProofs TensorModel TensorSpec TensorProofs
  ContractModel NetSpec NetProofs GroupSpec GroupProofs FtnNetSpec SvdModel SvdSpec SchmidtSpec MergeSvdProofs SchmidtProofs
  MpsModel MpsSpec MpsPairProofs MpsProofs MpsSwapProofs MpsMoveProofs CanonSpec CanonProofs CanonStepProofs CanonChainProofs.
Import ListNotations.
Local Open Scope list_scope.
Local Open Scope nat_scope.

Section Inv.
Context {A : Type} {HA : SR A}.
Notation heap := (heap A).

Lemma sumlegs_ext (d d' : lid -> nat) : forall L (f g : assignment -> A) s, (forall l, In l L -> d l = d' l) -> (forall a, f a = g a) -> sumlegs d L f s = sumlegs d' L g s.
Proof.
  induction L as [|l L IH]; intros f g s HD HF; cbn [sumlegs]; auto. rewrite (HD l) by (simpl; auto). apply sumN_ext. intros i _. apply IH; auto.
  intros l' Hl. apply HD. simpl; auto.
Qed.
Lemma isometry_kept cj (h h' : heap) t x : In x (legs_of h t) -> tens h' t = tens h t -> (forall l, In l (legs_of h t) -> dim_of h' l = dim_of h l) ->
  isometry cj h t x -> isometry cj h' t x.
Proof.
  intros HX ET HD I p q s Hp Hq. rewrite HD in Hp, Hq by auto. rewrite <- (I p q s Hp Hq). unfold legs_of at 1. rewrite ET. apply sumlegs_ext.
  - intros l Hl. apply filter_In in Hl. apply HD, Hl.
  - intros a. unfold entry. now rewrite ET.
Qed.

(** the tensors outside lo .. hi are untouched *)
Definition outside (h : heap) (ts : list tid) (h' : heap) (ts' : list tid) (lo hi : nat) : Prop :=
  forall j, j < List.length ts -> j < lo \/ hi < j ->
    nth j ts' 0 = nth j ts 0 /\ tens h' (nth j ts 0) = tens h (nth j ts 0) /\ forall l, In l (legs_of h (nth j ts 0)) -> dim_of h' l = dim_of h l.
Lemma away_outside (h h' : heap) ts ts' i : away h ts h' ts' i -> outside h ts h' ts' i (S i).
Proof. intros H j Hj R. apply H; auto; lia. Qed.
Lemma outside_refl (h : heap) ts lo hi : outside h ts h ts lo hi.
Proof. intros j Hj R. auto. Qed.
Lemma outside_trans (h h1 h2 : heap) ts ts1 ts2 a b c d e f : List.length ts1 = List.length ts -> outside h ts h1 ts1 a b -> outside h1 ts1 h2 ts2 c d -> e <= a -> e <= c -> b <= f -> d <= f ->
  outside h ts h2 ts2 e f.
Proof.
  intros L H1 H2 ? ? ? ? j Hj R. destruct (H1 j Hj) as (E1 & E2 & E3); [lia|]. destruct (H2 j) as (F1 & F2 & F3); [lia|lia|].
  rewrite E1 in *. split; auto. split; [congruence|]. intros l Hl. rewrite F3, E3; auto. unfold legs_of in *. now rewrite E2.
Qed.
Lemma outside_isometry cj (h h' : heap) ts ts' lo hi j x : outside h ts h' ts' lo hi -> j < List.length ts -> j < lo \/ hi < j -> In x (legs_of h (nth j ts 0)) ->
  isometry cj h (nth j ts 0) x -> isometry cj h' (nth j ts' 0) x.
Proof. intros O Hj R HX I. destruct (O j Hj R) as (-> & E & D). now apply (isometry_kept cj h). Qed.
End Inv.

Section Run.
Context {A : Type} {HA : SR A}.
Notation heap := (heap A).
Variable lib : linalg A.
Hypothesis ST : svd_total lib.

Definition sideDims (right : bool) (h : heap) (n : nat) (os : list lid) (lf rt : nat -> lid) (i : nat) : nat := if right then leftDims h os lf i else rightDims h n os rt (S i).

Lemma one_canon right (h : heap) ts os env lf rt i chi act : chain h ts os env lf rt -> S i < List.length ts ->
  let (a, b) := stepat right i in
  ((chi < 0)%Z -> exists h', canonStep lib a b (mkMps ts chi act) h = (h', Err ValueError)) /\
  ((0 <= chi)%Z -> exists h' ts' lf' rt', canonStep lib a b (mkMps ts chi act) h = (h', Ok (mkMps ts' chi act)) /\
    moved h ts os env lf rt i (S i) chi h' ts' os lf' rt' /\ outside h ts h' ts' i (S i) /\ dim_of h' (rt' i) <= sideDims right h (List.length ts) os lf rt i /\
    (forall cj, svd_orthonormal cj lib -> isometry cj h' (nth (if right then i else S i) ts' 0) (if right then rt' i else lf' (S i))) /\
    (nothing_cut lib h (site (mkMps ts chi act) a) (site (mkMps ts chi act) b) chi -> same_value h (ts ++ env) h' (ts' ++ env)) /\
    (svd_faithful lib -> Z.le (Z.of_nat (sideDims right h (List.length ts) os lf rt i)) chi ->
       nothing_cut lib h (site (mkMps ts chi act) a) (site (mkMps ts chi act) b) chi)).
Proof.
  intros CH Hi. assert (Hi' : S i < List.length os) by (rewrite (ch_len _ _ _ _ _ _ CH); auto).
  destruct (split_two ts i Hi) as (P & t1 & t2 & Q & -> & L). destruct (split_two os i Hi') as (Po & o1 & o2 & Qo & -> & Lo).
  destruct right; cbn [stepat].
  - replace (Z.of_nat i + 1)%Z with (Z.of_nat (S i)) by lia. unfold site. cbn [m_ts]. rewrite !Nat2Z.id.
    destruct (canon_right lib ST h P Q t1 t2 Po Qo o1 o2 env lf rt i chi L Lo CH act) as [S1 S2]. split; auto. intros HC.
    destruct (S2 HC) as (h' & ts' & lf' & rt' & E & EX & AW & R). exists h', ts', lf', rt'. split; auto. split; [now apply exchanged_moved|]. split; [now apply away_outside|]. exact R.
  - replace (Z.of_nat i + 1 - 1)%Z with (Z.of_nat i) by lia. replace (Z.of_nat i + 1)%Z with (Z.of_nat (S i)) by lia. unfold site. cbn [m_ts]. rewrite !Nat2Z.id.
    destruct (canon_left lib ST h P Q t1 t2 Po Qo o1 o2 env lf rt i chi L Lo CH act) as [S1 S2]. split; auto. intros HC.
    destruct (S2 HC) as (h' & ts' & lf' & rt' & E & EX & AW & R). exists h', ts', lf', rt'. split; auto. split; [now apply exchanged_moved|]. split; [now apply away_outside|]. exact R.
Qed.

Definition lbound (h : heap) (os : list lid) (lf : nat -> lid) (i : nat) : Prop :=
  prodn (map (dim_of h) (opt (Nat.ltb 0 i) (lf i))) <= prodn (map (dim_of h) (firstn i os)).
Definition rbound (h : heap) (n : nat) (os : list lid) (rt : nat -> lid) (i : nat) : Prop :=
  prodn (map (dim_of h) (opt (Nat.ltb (S i) n) (rt i))) <= prodn (map (dim_of h) (skipn (S i) os)).
Lemma prodn_cons a l : prodn (a :: l) = a * prodn l.
Proof. reflexivity. Qed.
Lemma prodn_firstn (h : heap) os i : i < List.length os -> prodn (map (dim_of h) (firstn (S i) os)) = dim_of h (nth i os 0) * prodn (map (dim_of h) (firstn i os)).
Proof.
  revert os. induction i as [|i IH]; intros [|o os] H; cbn [List.length] in H; try lia.
  - reflexivity.
  - change (firstn (S (S i)) (o :: os)) with (o :: firstn (S i) os). change (firstn (S i) (o :: os)) with (o :: firstn i os). cbn [map nth].
    rewrite !prodn_cons, IH by lia. lia.
Qed.
Lemma prodn_skipn (h : heap) os i : i < List.length os -> prodn (map (dim_of h) (skipn i os)) = dim_of h (nth i os 0) * prodn (map (dim_of h) (skipn (S i) os)).
Proof.
  revert os. induction i as [|i IH]; intros [|o os] H; cbn [List.length] in H; try lia.
  - cbn [skipn map nth]. now rewrite prodn_cons.
  - change (skipn (S (S i)) (o :: os)) with (skipn (S i) os). change (skipn (S i) (o :: os)) with (skipn i os). cbn [nth]. rewrite IH by lia. lia.
Qed.
Lemma leftDims_le (h : heap) os lf i : i < List.length os -> lbound h os lf i -> leftDims h os lf i <= prodn (map (dim_of h) (firstn (S i) os)).
Proof. intros H B. unfold leftDims. cbn [map]. rewrite prodn_cons, prodn_firstn by auto. apply Nat.mul_le_mono_l, B. Qed.
Lemma rightDims_le (h : heap) n os rt i : i < List.length os -> rbound h n os rt i -> rightDims h n os rt i <= prodn (map (dim_of h) (skipn i os)).
Proof. intros H B. unfold rightDims. cbn [map]. rewrite prodn_cons, (prodn_skipn h os i) by auto. apply Nat.mul_le_mono_l, B. Qed.
Lemma dims_kept (h h' : heap) os L : (forall l, In l os -> dim_of h' l = dim_of h l) -> incl L os -> map (dim_of h') L = map (dim_of h) L.
Proof. intros D I. apply map_ext_in. intros l Hl. apply D, I, Hl. Qed.
Lemma firstn_incl (os : list lid) k : incl (firstn k os) os.
Proof. intros l Hl. rewrite <- (firstn_skipn k os). apply in_app_iff; auto. Qed.
Lemma skipn_incl (os : list lid) k : incl (skipn k os) os.
Proof. intros l Hl. rewrite <- (firstn_skipn k os). apply in_app_iff; auto. Qed.

Lemma sweep_up n : forall (h : heap) ts os env lf rt i chi act, chain h ts os env lf rt -> i + n < List.length ts -> (0 <= chi)%Z ->
  let ps := map (fun k => (k, k + 1)%Z) (rangeUp (Z.of_nat i) (Z.of_nat (i + n))) in
  exists h' ts' lf' rt', canonSteps lib ps (mkMps ts chi act) h = (h', Ok (mkMps ts' chi act)) /\
    moved h ts os env lf rt i (i + n) chi h' ts' os lf' rt' /\ outside h ts h' ts' i (i + n) /\
    (lbound h os lf i -> forall k, i <= k < i + n -> dim_of h' (rt' k) <= prodn (map (dim_of h) (firstn (S k) os))) /\
    (forall cj, svd_orthonormal cj lib -> forall k, i <= k < i + n -> isometry cj h' (nth k ts' 0) (rt' k)) /\
    (uncut_run lib ps (mkMps ts chi act) h -> same_value h (ts ++ env) h' (ts' ++ env)) /\
    (svd_faithful lib -> lbound h os lf i -> (forall k, i < k <= i + n -> Z.le (Z.of_nat (prodn (map (dim_of h) (firstn k os)))) chi) ->
      uncut_run lib ps (mkMps ts chi act) h).
Proof.
  induction n as [|n IH]; intros h ts os env lf rt i chi act CH Hi HC ps.
  - unfold ps. rewrite ups_nil, Nat.add_0_r. exists h, ts, lf, rt. split; [reflexivity|]. split; [now apply moved_refl|]. split; [apply outside_refl|].
    split; [intros; lia|]. split; [intros; lia|]. split; [intros _ s Hs; reflexivity|]. intros _ _ _. exact I.
  - unfold ps. rewrite ups_cons. assert (Hi' : S i < List.length ts) by lia.
    pose proof (one_canon true h ts os env lf rt i chi act CH Hi') as ST1. cbn [stepat] in ST1. destruct ST1 as [_ ST1].
    destruct (ST1 HC) as (h1 & ts1 & lf1 & rt1 & E1 & M1 & O1 & B1 & I1 & V1 & W1). cbn [sideDims] in B1, W1.
    assert (CH1 := mv_chain _ _ _ _ _ _ _ _ _ _ _ _ _ _ M1). assert (L1 := mv_len _ _ _ _ _ _ _ _ _ _ _ _ _ _ M1). assert (D1 := mv_dims _ _ _ _ _ _ _ _ _ _ _ _ _ _ M1).
    assert (Lo : S i < List.length os) by (rewrite (ch_len _ _ _ _ _ _ CH); auto).
    assert (PF : forall k, prodn (map (dim_of h1) (firstn k os)) = prodn (map (dim_of h) (firstn k os))).
    { intros k. f_equal. apply (dims_kept h h1 os); auto. apply firstn_incl. }
    assert (LB : lbound h os lf i -> dim_of h1 (rt1 i) <= prodn (map (dim_of h) (firstn (S i) os))).
    { intros B. etransitivity; [exact B1|]. apply leftDims_le; [lia|auto]. }
    assert (LB1 : lbound h os lf i -> lbound h1 os lf1 (S i)).
    { intros B. unfold lbound. cbn [Nat.ltb Nat.leb opt map]. rewrite PF, prodn_cons. change (prodn []) with 1. rewrite Nat.mul_1_r.
      rewrite (chain_dims _ _ _ _ _ _ _ CH1) by lia. auto. }
    destruct (IH h1 ts1 os env lf1 rt1 (S i) chi act CH1) as (h2 & ts2 & lf2 & rt2 & E2 & M2 & O2 & B2 & I2 & V2 & W2); [lia|auto|].
    destruct (mv_bonds _ _ _ _ _ _ _ _ _ _ _ _ _ _ M2 i) as (RE & _ & RD); [lia|]. destruct RD as [RD _]; [lia|].
    exists h2, ts2, lf2, rt2. cbn [stepat canonSteps uncut_run]. split; [|split; [|split; [|split; [|split; [|split]]]]].
    + rewrite (bind_ok _ _ _ _ _ E1). exact E2.
    + replace (i + S n) with (S i + n) by lia. eapply moved_trans; [exact M1|exact M2|reflexivity|]. intros k. lia.
    + eapply outside_trans; [exact L1|exact O1|exact O2|lia..].
    + intros B k Hk. destruct (Nat.eq_dec k i) as [->|NE].
      * rewrite RE, RD. auto.
      * rewrite <- PF. apply B2; auto. lia.
    + intros cj OR k Hk. destruct (Nat.eq_dec k i) as [->|NE]; [|apply I2; auto; lia].
      rewrite RE. eapply outside_isometry; [exact O2|lia|lia|apply (ch_in_r _ _ _ _ _ _ CH1); lia|]. now apply I1.
    + intros [N1 N2]. eapply same_value_trans; [apply M1|apply V1, N1|]. apply V2. now apply N2.
    + intros SF B DK. split.
      * apply W1; auto. pose proof (leftDims_le h os lf i ltac:(lia) B). specialize (DK (S i) ltac:(lia)). lia.
      * intros h1' m' E1'. rewrite E1 in E1'. injection E1' as <- <-. apply W2; auto. intros k Hk. rewrite PF. apply DK. lia.
Qed.

Lemma sweep_down n : forall (h : heap) ts os env lf rt j chi act, chain h ts os env lf rt -> j + n < List.length ts -> (0 <= chi)%Z ->
  let ps := map (fun k => (k, k - 1)%Z) (rangeDown (Z.of_nat (j + n)) (Z.of_nat j)) in
  exists h' ts' lf' rt', canonSteps lib ps (mkMps ts chi act) h = (h', Ok (mkMps ts' chi act)) /\
    moved h ts os env lf rt j (j + n) chi h' ts' os lf' rt' /\ outside h ts h' ts' j (j + n) /\
    (rbound h (List.length ts) os rt (j + n) -> forall k, j <= k < j + n -> dim_of h' (rt' k) <= prodn (map (dim_of h) (skipn (S k) os))) /\
    (forall cj, svd_orthonormal cj lib -> forall k, j < k <= j + n -> isometry cj h' (nth k ts' 0) (lf' k)) /\
    (uncut_run lib ps (mkMps ts chi act) h -> same_value h (ts ++ env) h' (ts' ++ env)) /\
    (svd_faithful lib -> rbound h (List.length ts) os rt (j + n) -> (forall k, j < k <= j + n -> Z.le (Z.of_nat (prodn (map (dim_of h) (skipn k os)))) chi) ->
      uncut_run lib ps (mkMps ts chi act) h).
Proof.
  induction n as [|n IH]; intros h ts os env lf rt j chi act CH Hi HC ps.
  - unfold ps. rewrite downs_nil, Nat.add_0_r. exists h, ts, lf, rt. split; [reflexivity|]. split; [now apply moved_refl|]. split; [apply outside_refl|].
    split; [intros; lia|]. split; [intros; lia|]. split; [intros _ s Hs; reflexivity|]. intros _ _ _. exact I.
  - unfold ps. rewrite downs_cons. replace (j + S n) with (S (j + n)) in * by lia.
    pose proof (one_canon false h ts os env lf rt (j + n) chi act CH Hi) as ST1. cbn [stepat] in ST1. destruct ST1 as [_ ST1].
    destruct (ST1 HC) as (h1 & ts1 & lf1 & rt1 & E1 & M1 & O1 & B1 & I1 & V1 & W1). cbn [sideDims] in B1, W1.
    assert (CH1 := mv_chain _ _ _ _ _ _ _ _ _ _ _ _ _ _ M1). assert (L1 := mv_len _ _ _ _ _ _ _ _ _ _ _ _ _ _ M1). assert (D1 := mv_dims _ _ _ _ _ _ _ _ _ _ _ _ _ _ M1).
    assert (Lo : S (j + n) < List.length os) by (rewrite (ch_len _ _ _ _ _ _ CH); auto).
    assert (PF : forall k, prodn (map (dim_of h1) (skipn k os)) = prodn (map (dim_of h) (skipn k os))).
    { intros k. f_equal. apply (dims_kept h h1 os); auto. apply skipn_incl. }
    assert (RB : rbound h (List.length ts) os rt (S (j + n)) -> dim_of h1 (rt1 (j + n)) <= prodn (map (dim_of h) (skipn (S (j + n)) os))).
    { intros B. etransitivity; [exact B1|]. apply rightDims_le; auto. }
    assert (RB1 : rbound h (List.length ts) os rt (S (j + n)) -> rbound h1 (List.length ts1) os rt1 (j + n)).
    { intros B. unfold rbound. rewrite PF, L1. destruct (Nat.ltb_spec (S (j + n)) (List.length ts)); [|lia]. cbn [opt map]. rewrite prodn_cons. change (prodn []) with 1. rewrite Nat.mul_1_r. auto. }
    destruct (IH h1 ts1 os env lf1 rt1 j chi act CH1) as (h2 & ts2 & lf2 & rt2 & E2 & M2 & O2 & B2 & I2 & V2 & W2); [lia|auto|].
    destruct (mv_bonds _ _ _ _ _ _ _ _ _ _ _ _ _ _ M2 (j + n)) as (RE & RE' & RD); [lia|]. destruct RD as [RD _]; [lia|].
    exists h2, ts2, lf2, rt2. cbn [stepat canonSteps uncut_run]. split; [|split; [|split; [|split; [|split; [|split]]]]].
    + rewrite (bind_ok _ _ _ _ _ E1). exact E2.
    + eapply moved_trans; [exact M1|exact M2|reflexivity|]. intros k. lia.
    + eapply outside_trans; [exact L1|exact O1|exact O2|lia..].
    + intros B k Hk. destruct (Nat.eq_dec k (j + n)) as [->|NE].
      * rewrite RE, RD. auto.
      * rewrite <- PF. apply B2; auto. lia.
    + intros cj OR k Hk. destruct (Nat.eq_dec k (S (j + n))) as [->|NE]; [|apply I2; auto; lia].
      rewrite RE'. eapply outside_isometry; [exact O2|lia|lia|apply (ch_in_l _ _ _ _ _ _ CH1); lia|]. now apply I1.
    + intros [N1 N2]. eapply same_value_trans; [apply M1|apply V1, N1|]. apply V2. now apply N2.
    + intros SF B DK. split.
      * apply W1; auto. pose proof (rightDims_le h (List.length ts) os rt (S (j + n)) Lo B). specialize (DK (S (j + n)) ltac:(lia)). lia.
      * intros h1' m' E1'. rewrite E1 in E1'. injection E1' as <- <-. apply W2; auto. intros k Hk. rewrite PF. apply DK. lia.
Qed.

Lemma uncut_app ps qs : forall m (h : heap), uncut_run lib (ps ++ qs) m h <-> uncut_run lib ps m h /\ (forall h' m', canonSteps lib ps m h = (h', Ok m') -> uncut_run lib qs m' h').
Proof.
  induction ps as [|[a b] ps IH]; intros m h; cbn [app uncut_run canonSteps].
  - split; [intros H; split; auto; intros h' m' E; injection E as <- <-; auto|intros [_ H]; apply H; reflexivity].
  - split.
    + intros [H1 H2]. split; [split; auto; intros h' m' E; apply (IH m' h'), H2, E|].
      intros h' m' E. unfold bind in E. destruct (canonStep lib a b m h) as [h1 [m1|e]] eqn:E1; [|discriminate]. apply (IH m1 h1) in E; auto.
    + intros [[H1 H2] H3]. split; auto. intros h' m' E. apply IH. split; auto. intros h2 m2 E2. apply H3. unfold bind. now rewrite E.
Qed.

Lemma canonicalize_ok (h : heap) ts os env lf rt i chi act : chain h ts os env lf rt -> i < List.length ts -> (0 <= chi)%Z ->
  exists h' ts' lf' rt', canonicalize lib (Z.of_nat i) (mkMps ts chi act) h = (h', Ok (mkMps ts' chi (Some (Z.of_nat i)))) /\
    moved h ts os env lf rt 0 (List.length ts - 1) chi h' ts' os lf' rt' /\
    (forall k, S k < List.length ts -> dim_of h' (rt' k) <= prodn (map (dim_of h) (if Nat.ltb k i then firstn (S k) os else skipn (S k) os))) /\
    (forall cj, svd_orthonormal cj lib -> canonical cj h' ts' lf' rt' i) /\
    (uncut_run lib (sweeps (List.length ts) i) (mkMps ts chi act) h \/ svd_faithful lib /\ chi_suffices h os i chi -> same_value h (ts ++ env) h' (ts' ++ env)).
Proof.
  intros CH Hi HC. destruct (sweep_up i h ts os env lf rt 0 chi act CH) as (h1 & ts1 & lf1 & rt1 & E1 & M1 & O1 & B1 & I1 & V1 & W1); [lia|auto|].
  cbn [Nat.add] in *.
  assert (CH1 := mv_chain _ _ _ _ _ _ _ _ _ _ _ _ _ _ M1). assert (L1 := mv_len _ _ _ _ _ _ _ _ _ _ _ _ _ _ M1). assert (D1 := mv_dims _ _ _ _ _ _ _ _ _ _ _ _ _ _ M1).
  pose (d := List.length ts - 1 - i). assert (ED : i + d = List.length ts - 1) by (unfold d; lia). clearbody d.
  destruct (sweep_down d h1 ts1 os env lf1 rt1 i chi act CH1) as (h2 & ts2 & lf2 & rt2 & E2 & M2 & O2 & B2 & I2 & V2 & W2); [lia|auto|].
  assert (PF : forall k, prodn (map (dim_of h1) (skipn k os)) = prodn (map (dim_of h) (skipn k os))).
  { intros k. f_equal. apply (dims_kept h h1 os); auto. apply skipn_incl. }
  assert (LB : lbound h os lf 0) by (unfold lbound; simpl; lia).
  assert (RB : rbound h1 (List.length ts1) os rt1 (i + d)).
  { unfold rbound. destruct (Nat.ltb_spec (S (i + d)) (List.length ts1)); [lia|]. cbn [opt map]. rewrite skipn_all2; [reflexivity|]. rewrite (ch_len _ _ _ _ _ _ CH). lia. }
  assert (ZE : (mlen (mkMps ts chi act) - 1)%Z = Z.of_nat (i + d)) by (unfold mlen; cbn [m_ts]; lia).
  assert (LO : List.length os = List.length ts) by apply (ch_len _ _ _ _ _ _ CH).
  exists h2, ts2, lf2, rt2. split; [|split; [|split; [|split]]].
  - unfold canonicalize. assert (isIndex (mkMps ts chi act) (Z.of_nat i) = true) as -> by (apply index_spec; lia).
    erewrite bind_ok by reflexivity. change 0%Z with (Z.of_nat 0). rewrite (bind_ok _ _ _ _ _ E1), ZE, (bind_ok _ _ _ _ _ E2). reflexivity.
  - eapply moved_trans; [exact M1|exact M2|reflexivity|]. intros k. lia.
  - intros k Hk. destruct (Nat.ltb_spec k i) as [H|H].
    + destruct (mv_bonds _ _ _ _ _ _ _ _ _ _ _ _ _ _ M2 k) as (RE & _ & RD); [lia|]. destruct RD as [RD _]; [lia|]. rewrite RE, RD. apply B1; auto; lia.
    + rewrite <- PF. apply B2; auto; lia.
  - intros cj OR. split.
    + intros k Hk. destruct (mv_bonds _ _ _ _ _ _ _ _ _ _ _ _ _ _ M2 k) as (RE & _ & _); [lia|]. rewrite RE.
      eapply outside_isometry; [exact O2|lia|lia|apply (ch_in_r _ _ _ _ _ _ CH1); lia|]. apply I1; auto; lia.
    + intros k Hk Hn. apply I2; auto. rewrite (mv_len _ _ _ _ _ _ _ _ _ _ _ _ _ _ M2) in Hn. lia.
  - intros H. assert (uncut_run lib (sweeps (List.length ts) i) (mkMps ts chi act) h) as U.
    { destruct H as [H|[SF [K1 K2]]]; auto. unfold sweeps. replace (Z.of_nat (List.length ts) - 1)%Z with (Z.of_nat (i + d)) by lia. apply uncut_app. split.
      - change 0%Z with (Z.of_nat 0). apply W1; auto. intros k Hk. apply K1. lia.
      - intros h1' m' E. change 0%Z with (Z.of_nat 0) in E. rewrite E1 in E. injection E as <- <-. apply W2; auto. intros k Hk. rewrite PF. apply K2. lia. }
    unfold sweeps in U. replace (Z.of_nat (List.length ts) - 1)%Z with (Z.of_nat (i + d)) in U by lia. apply uncut_app in U. destruct U as [U1 U2].
    change 0%Z with (Z.of_nat 0) in U1, U2. eapply same_value_trans; [apply M1|apply V1, U1|]. apply V2, U2, E1.
Qed.

Lemma canonSteps_err a b ps m (h h' : heap) : canonStep lib a b m h = (h', Err ValueError) -> canonSteps lib ((a, b) :: ps) m h = (h', Err ValueError).
Proof. intros E. cbn [canonSteps]. unfold bind. now rewrite E. Qed.
Lemma canonicalize_negative (h : heap) ts os env lf rt i chi act : chain h ts os env lf rt -> i < List.length ts -> 1 < List.length ts -> (chi < 0)%Z ->
  exists h', canonicalize lib (Z.of_nat i) (mkMps ts chi act) h = (h', Err ValueError).
Proof.
  intros CH Hi HN HC. unfold canonicalize. assert (isIndex (mkMps ts chi act) (Z.of_nat i) = true) as -> by (apply index_spec; lia).
  erewrite bind_ok by reflexivity. destruct i as [|i].
  - change (rangeUp 0 (Z.of_nat 0)) with (@nil Z). cbn [map canonSteps]. erewrite bind_ok by reflexivity.
    pose proof (one_canon false h ts os env lf rt (List.length ts - 2) chi act CH ltac:(lia)) as ST1. cbn [stepat] in ST1. destruct ST1 as [ST1 _]. destruct (ST1 HC) as (h' & E).
    exists h'. unfold mlen. cbn [m_ts]. replace (Z.of_nat (List.length ts) - 1)%Z with (Z.of_nat (0 + S (List.length ts - 2))) by lia. rewrite downs_cons. cbn [stepat Nat.add].
    unfold bind at 1. erewrite canonSteps_err by exact E. reflexivity.
  - pose proof (one_canon true h ts os env lf rt 0 chi act CH ltac:(lia)) as ST1. cbn [stepat] in ST1. destruct ST1 as [ST1 _]. destruct (ST1 HC) as (h' & E).
    exists h'. change 0%Z with (Z.of_nat 0) at 1. change (Z.of_nat (S i)) with (Z.of_nat (0 + S i)) at 1. rewrite ups_cons. cbn [stepat].
    unfold bind at 1. erewrite canonSteps_err by exact E. reflexivity.
Qed.
Lemma canonicalize_rejected (h : heap) ts chi act i : ~ (0 <= i < Z.of_nat (List.length ts))%Z -> canonicalize lib i (mkMps ts chi act) h = (h, Err AssertionError).
Proof. intros N. unfold canonicalize. destruct (isIndex (mkMps ts chi act) i) eqn:E; [|reflexivity]. now apply index_spec in E. Qed.
Lemma canonicalize_single (h : heap) t chi act : canonicalize lib 0 (mkMps [t] chi act) h = (h, Ok (mkMps [t] chi (Some 0%Z))).
Proof. reflexivity. Qed.
End Run.
