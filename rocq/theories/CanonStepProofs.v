(** canonStep on two neighbours of a chain. *)
From Coq Require Import List Arith Bool Lia String ZArith Permutation.
From Verif Require Import Base Sums NdModel NdProofs HeapModel FuncsModel FuncsProofs TensorModel TensorSpec TensorProofs
  ContractModel NetSpec ShareProofs LinkProofs SumpairsProofs ContractProofs OuterProofs NetProofs MergeLinkProofs GroupSpec GroupProofs NetSameProofs
  FtnNetSpec FtnMainProofs SvdModel SvdSpec SchmidtSpec MergeSvdProofs SchmidtProofs TripleSpec TripleProofs TripleSvdProofs
  MpsModel MpsSpec MpsPairProofs MpsProofs MpsSwapProofs MpsMoveProofs CanonSpec CanonProofs.
Import ListNotations.
Local Open Scope list_scope.
Local Open Scope nat_scope.

Section Mp.
Context {A : Type} {HA : SR A}.
Notation heap := (heap A).
Add Ring CsRing : (SR_theory (A := A)).
Variable lib : linalg A.

(** sums over legs *)
Lemma sumlegs_indices d : forall L (f : assignment -> A) s, NoDup L -> (forall s s', (forall l, s l = s' l) -> f s = f s') ->
  sumlegs d L f s = sumL (indices (map d L)) (fun idx => f (put L idx s)).
Proof.
  induction L as [|l L IH]; intros f s ND RF; cbn [sumlegs map indices].
  - cbn. ring.
  - apply NoDup_cons_iff in ND. destruct ND as [NI ND]. rewrite sumL_flat_map. unfold sumN. apply sumL_ext. intros i Hi.
    rewrite sumL_map. rewrite IH by auto. apply sumL_ext. intros idx Hidx. cbn [put]. apply RF. intros z.
    clear - NI. unfold upd at 2. destruct (Nat.eqb_spec z l) as [->|N].
    + revert idx. induction L as [|a L IH]; intros [|j idx]; cbn [put]; try (now rewrite upd_same). rewrite upd_other by (intros ->; apply NI; simpl; auto). apply IH. intros H; apply NI; simpl; auto.
    + revert idx. induction L as [|a L IH]; intros [|j idx]; cbn [put]; try (now rewrite upd_other). destruct (Nat.eq_dec z a) as [->|N2]; [now rewrite !upd_same|].
      rewrite !(upd_other _ a) by auto. apply IH. intros H; apply NI; simpl; auto.
Qed.
Lemma put_map L : forall idx (s : assignment), NoDup L -> List.length idx = List.length L -> map (put L idx s) L = idx.
Proof.
  induction L as [|l L IH]; intros [|i idx] s ND E; try discriminate; auto. apply NoDup_cons_iff in ND. destruct ND as [NI ND]. cbn [map put]. rewrite upd_same. f_equal.
  rewrite <- (IH idx s ND) at 2 by (simpl in E; lia). apply map_ext_in. intros x Hx. apply upd_other. intros ->. auto.
Qed.
Lemma put_out L : forall idx (s : assignment) x, ~ In x L -> put L idx s x = s x.
Proof. induction L as [|l L IH]; intros [|i idx] s x N; cbn [put]; auto. rewrite upd_other by (intros ->; apply N; simpl; auto). apply IH. intros H; apply N; simpl; auto. Qed.

(** a tensor whose entries are columns of a matrix with orthonormal columns is an isometry *)
Lemma isometry_of (cj : A -> A) (h : heap) t La x (U : nat -> nat -> A) k : NoDup (La ++ [x]) -> legs_of h t = La ++ [x] -> dim_of h x = k ->
  (forall a, in_bounds h La a -> a x < k -> entry h t a = U (ravel (map (dim_of h) La) (map a La)) (a x)) ->
  (forall p q, p < k -> q < k -> sumN (prodn (map (dim_of h) La)) (fun i => rmul (U i p) (cj (U i q))) = if Nat.eqb p q then r1 else r0) ->
  isometry cj h t x.
Proof.
  intros ND LT DX EU OU p q s Hp Hq. rewrite LT. rewrite DX in Hp, Hq.
  assert (NI : ~ In x La) by (intros H; apply (NoDup_app_disj _ _ x ND H); simpl; auto).
  assert (ND' : NoDup La) by (apply NoDup_app_inv in ND; tauto).
  rewrite others_last by auto. rewrite <- (OU p q Hp Hq).
  rewrite sumlegs_indices; auto.
  - rewrite sumN_indices. apply sumL_ext. intros idx Hidx. apply indices_In in Hidx.
    assert (LI : List.length idx = List.length La) by (rewrite (inrange_length _ _ Hidx); apply map_length).
    assert (EM : forall p, map (upd (put La idx s) x p) La = idx).
    { intros p'. rewrite <- (put_map La idx s ND' LI) at 2. apply map_ext_in. intros l Hl. apply upd_other. intros ->. auto. }
    assert (IB : forall p, in_bounds h La (upd (put La idx s) x p)).
    { intros p' l Hl. rewrite upd_other by (intros ->; auto). clear - Hidx LI ND' Hl.
      apply (inrange_map_inv (dim_of h) (put La idx s) La); auto. now rewrite (put_map La idx s ND' LI). }
    rewrite !EU by (auto; now rewrite upd_same). rewrite !EM, !upd_same. reflexivity.
  - intros s1 s2 E. f_equal; [|f_equal]; apply entry_ext; intros l Hl; unfold upd; destruct (Nat.eqb l x); auto.
Qed.

Lemma canon_same_free (h h' : heap) ta tb rest La Lb u w x y k na nb : wf_open h (ta :: tb :: rest) ->
  canon_pair h h' ta tb rest La Lb u w x y k na nb -> same_free h (ta :: tb :: rest) h' (u :: w :: rest).
Proof.
  intros W SP. split; [apply SP|]. intros l Hl. pose proof (free_alloc h _ l W Hl) as LT.
  apply (Permutation_in _ (Permutation_sym (cp_free _ _ _ _ _ _ _ _ _ _ _ _ _ _ SP))) in Hl. unfold free_legs in Hl. apply others_In in Hl. destruct Hl as [Hl _].
  pose proof (cp_u _ _ _ _ _ _ _ _ _ _ _ _ _ _ SP) as LU. pose proof (cp_w _ _ _ _ _ _ _ _ _ _ _ _ _ _ SP) as LW. pose proof (cp_new _ _ _ _ _ _ _ _ _ _ _ _ _ _ SP) as NW.
  unfold all_legs in Hl. cbn [flat_map] in Hl. rewrite !in_app_iff in Hl. rewrite LU, LW in Hl. rewrite !in_app_iff in Hl. simpl in Hl.
  destruct Hl as [[Hl|[<-|[]]]|[[Hl|[<-|[]]]|Hl]]; try lia.
  - apply (cp_legs _ _ _ _ _ _ _ _ _ _ _ _ _ _ SP). apply in_app_iff; auto.
  - apply (cp_legs _ _ _ _ _ _ _ _ _ _ _ _ _ _ SP). apply in_app_iff; auto.
  - unfold dim_of. rewrite (cp_restlegs _ _ _ _ _ _ _ _ _ _ _ _ _ _ SP); auto. unfold all_legs. apply in_flat_map in Hl. destruct Hl as (t & Ht & Hl).
    apply in_flat_map. exists t. split; auto. unfold legs_of in *. now rewrite (cp_rest _ _ _ _ _ _ _ _ _ _ _ _ _ _ SP) in Hl.
Qed.

Lemma triple_dims (h h' : heap) ta tb rest La Lb u s v x0 x1 x2 x3 k na nb : wf_open h (ta :: tb :: rest) ->
  split_triple h h' ta tb rest La Lb u s v x0 x1 x2 x3 k na nb -> forall l, In l (free_legs h (ta :: tb :: rest)) -> dim_of h' l = dim_of h l.
Proof.
  intros W TR l Hl. pose proof (free_alloc h _ l W Hl) as LT.
  apply (Permutation_in _ (Permutation_sym (s3_free _ _ _ _ _ _ _ _ _ _ _ _ _ _ _ _ _ TR))) in Hl. unfold free_legs in Hl. apply others_In in Hl. destruct Hl as [Hl _].
  pose proof (s3_u _ _ _ _ _ _ _ _ _ _ _ _ _ _ _ _ _ TR) as LU. pose proof (s3_s _ _ _ _ _ _ _ _ _ _ _ _ _ _ _ _ _ TR) as LS.
  pose proof (s3_v _ _ _ _ _ _ _ _ _ _ _ _ _ _ _ _ _ TR) as LV.
  assert (NW : forall x, In x [x0; x1; x2; x3] -> l <> x).
  { intros x Hx ->. apply (s3_new _ _ _ _ _ _ _ _ _ _ _ _ _ _ _ _ _ TR) in Hx. lia. }
  unfold all_legs in Hl. cbn [flat_map] in Hl. rewrite !in_app_iff in Hl. rewrite LU, LS, LV in Hl. rewrite !in_app_iff in Hl. cbn [In] in Hl, NW.
  assert (OR : In l (La ++ Lb) \/ In l (flat_map (legs_of h') rest)).
  { rewrite in_app_iff. destruct Hl as [[Hl|[Hl|[]]]|[[Hl|[Hl|[]]]|[[Hl|Hl]|Hl]]]; auto; exfalso; eapply NW; try (symmetry; exact Hl); auto. }
  destruct OR as [H|H].
  - now apply (s3_legs _ _ _ _ _ _ _ _ _ _ _ _ _ _ _ _ _ TR).
  - unfold dim_of. rewrite (s3_restlegs _ _ _ _ _ _ _ _ _ _ _ _ _ _ _ _ _ TR); auto. unfold all_legs. apply in_flat_map in H. destruct H as (t & Ht & H).
    apply in_flat_map. exists t. split; auto. unfold legs_of in *. now rewrite (s3_rest _ _ _ _ _ _ _ _ _ _ _ _ _ _ _ _ _ TR) in H.
Qed.

(** ** two neighbours *)
Section Two.
Variables (h : heap) (ta tb : tid) (rest : list tid) (outA outB : list lid) (oa ob xa xb : lid) (pa pb : string).
Hypothesis WO : wf_open h (ta :: tb :: rest).
Hypothesis PA : Permutation (legs_of h ta) ((outA ++ [oa]) ++ [xa]).
Hypothesis PB : Permutation (legs_of h tb) ((outB ++ [ob]) ++ [xb]).
Hypothesis LK : linked h xa xb.
Hypothesis NLK : forall l l', In l ((outA ++ [oa]) ++ outB ++ [ob]) -> In l' ((outA ++ [oa]) ++ outB ++ [ob]) -> ~ linked h l l'.
Hypothesis HOA : outA = [] \/ exists l, outA = [l] /\ l_name (legs h l) = NStr pa.
Hypothesis HOB : outB = [] \/ exists l, outB = [l] /\ l_name (legs h l) = NStr pb.
Hypothesis NO : l_name (legs h oa) = NStr "o" /\ l_name (legs h ob) = NStr "o".
Hypothesis NX : l_name (legs h xa) = NStr pb /\ l_name (legs h xb) = NStr pa.
Hypothesis DN : pa <> pb /\ pa <> "o"%string /\ pb <> "o"%string /\ after_dash pa = None /\ after_dash pb = None.
Hypothesis KND : t_like (tens h ta) = false /\ t_like (tens h tb) = false /\ t_diag (tens h ta) = false /\ t_diag (tens h tb) = false.
Let WP : wf_pair h ta tb := open_pair h ta tb rest WO.

Lemma two_restA : Permutation (restA h ta tb) (outA ++ [oa]). Proof. exact (pair_restA h ta tb outA outB oa ob xa xb WP PA PB LK NLK). Qed.
Lemma two_restB : Permutation (restB h ta tb) (outB ++ [ob]). Proof. exact (pair_restB h ta tb outA outB oa ob xa xb WP PA PB LK NLK). Qed.
Lemma two_separable : separable h ta tb [] [].
Proof.
  pose proof (pair_separable h ta tb outA outB oa ob xa xb pa pb WP PA PB LK NLK HOA HOB NO NX DN) as SP.
  destruct (side_nil h ta tb) as [EA EB]. constructor.
  - apply SP.
  - apply SP.
  - apply SP.
  - reflexivity.
  - intros s [].
  - intros s [].
  - rewrite EA. split.
    + eapply Permutation_NoDup; [apply Permutation_map; symmetry; apply two_restA|].
      pose proof (Permutation_NoDup (Permutation_map (fun l => l_name (legs h l)) PA) (sb_namesA _ _ _ _ _ SP)) as N. rewrite map_app in N. now apply NoDup_app_inv in N.
    + intros E. pose proof two_restA as P. rewrite E in P. apply Permutation_nil in P. now destruct outA.
  - rewrite EB. split.
    + eapply Permutation_NoDup; [apply Permutation_map; symmetry; apply two_restB|].
      pose proof (Permutation_NoDup (Permutation_map (fun l => l_name (legs h l)) PB) (sb_namesB _ _ _ _ _ SP)) as N. rewrite map_app in N. now apply NoDup_app_inv in N.
    + intros E. pose proof two_restB as P. rewrite E in P. apply Permutation_nil in P. now destruct outB.
  - apply SP.
Qed.

Hypothesis ST : svd_total lib.
Notation r := (prodn (map (dim_of h) (restA h ta tb))).
Notation c := (prodn (map (dim_of h) (restB h ta tb))).

Lemma two_run chi :
  ((chi < 0)%Z -> exists h', schimdt lib ta tb chi false [] [] h = (h', Err ValueError)) /\
  ((0 <= chi)%Z -> exists h1 h2 u s v w x y k, schimdt lib ta tb chi false [] [] h = (h1, Ok (u, Some s, v)) /\ contractTwoTensors s v h1 = (h2, Ok w) /\
    canon_pair h h2 ta tb rest (restA h ta tb) (restB h ta tb) u w x y k (l_name (legs h xa)) (l_name (legs h xb)) /\
    (Z.of_nat k <= chi)%Z /\ k <= r /\ k <= c /\
    (forall cj, svd_orthonormal cj lib -> isometry cj h2 u x) /\
    (nothing_cut lib h ta tb chi -> same_value h (ta :: tb :: rest) h2 (u :: w :: rest)) /\
    (svd_faithful lib -> Z.le (Z.of_nat r) chi \/ Z.le (Z.of_nat c) chi -> nothing_cut lib h ta tb chi)).
Proof.
  destruct KND as (KA & KB & DA & DB). assert (SHR := pair_shared h ta tb outA outB oa ob xa xb WP PA PB LK NLK).
  destruct (schimdt_usv lib h ta tb rest xa xb [] [] [] WO KA KB DA DB SHR two_separable) as (m & MO & RUN).
  destruct (side_nil h ta tb) as [EA EB]. rewrite EA, EB in MO, RUN. cbv zeta in RUN.
  destruct (RUN chi) as [R1 R2]; [apply ST; [apply MO|apply (mo_shape _ _ _ _ _ MO)]|]. split; auto.
  intros HC. destruct (R2 HC) as (KC & h1 & u & s & v & x0 & x1 & x2 & x3 & E & TR & SE & VAL).
  destruct (canon_contract h h1 ta tb rest _ _ u s v x0 x1 x2 x3 _ _ _ TR) as (h2 & w & E2 & CP & EU & V2).
  set (k := Z.to_nat (kept lib m r c chi)) in *.
  assert (KK : (Z.of_nat k <= chi)%Z /\ k <= r /\ k <= c) by (unfold k, kept; lia). destruct KK as (K0 & K1 & K2).
  exists h1, h2, u, s, v, w, x0, x1, k. split; auto. split; auto. split; auto. split; auto. split; auto. split; auto. split; [|split].
  - intros cj ON. pose proof (cp_u _ _ _ _ _ _ _ _ _ _ _ _ _ _ CP) as LU.
    assert (DL : map (dim_of h2) (restA h ta tb) = map (dim_of h) (restA h ta tb)).
    { apply map_ext_in. intros l Hl. apply (cp_legs _ _ _ _ _ _ _ _ _ _ _ _ _ _ CP). apply in_app_iff; auto. }
    apply (isometry_of cj h2 u (restA h ta tb) x0 (fun i j => aget (svd_u lib m) [i; j]) k); auto.
    + rewrite <- LU. apply (wt_nodup h2 u). apply (wn_wf _ _ (wo_net _ _ (cp_wf _ _ _ _ _ _ _ _ _ _ _ _ _ _ CP))). simpl; auto.
    + apply CP.
    + intros a Ha Hx. rewrite EU, DL. apply (se_u _ _ _ _ _ _ _ _ _ _ _ _ _ _ SE); auto. intros l Hl.
      destruct (cp_legs _ _ _ _ _ _ _ _ _ _ _ _ _ _ CP l) as [<- _]; [apply in_app_iff; auto|]. now apply Ha.
    + intros p q Hp Hq. rewrite DL. apply (ON m r c); [apply MO|apply (mo_shape _ _ _ _ _ MO)| |]; lia.
  - intros NC a Ha. destruct (NC m MO) as [N1 N2]. fold k in N2. rewrite V2; [now apply VAL|]. intros l Hl.
    apply (Permutation_in _ (s3_free _ _ _ _ _ _ _ _ _ _ _ _ _ _ _ _ _ TR)) in Hl. rewrite (triple_dims _ _ _ _ _ _ _ _ _ _ _ _ _ _ _ _ _ WO TR l Hl). now apply Ha.
  - intros SF BIG m' MO'. destruct (SF m' r c (mo_wf _ _ _ _ _ MO') (mo_shape _ _ _ _ _ MO')) as [S1 S2]. split; auto.
    intros j H1 H2. apply S2; auto. destruct (ss_s _ _ _ _ (ST m' r c (mo_wf _ _ _ _ _ MO') (mo_shape _ _ _ _ _ MO'))) as [W SS]. unfold wfa in W. rewrite SS in W. cbn in W. unfold kept in H1. lia.
Qed.
End Two.
End Mp.
