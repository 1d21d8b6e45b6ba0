(** When the decompositions of createMPSFromTensor lose nothing and keep something. *)
From Coq Require Import List Arith Bool Lia String ZArith Permutation.
From Verif Require Import Base Sums NdModel NdProofs HeapModel FuncsModel FuncsProofs TensorModel TensorSpec TensorProofs
  ContractModel NetSpec ShareProofs LinkProofs SumpairsProofs ContractProofs NetProofs PairProofs GroupSpec SvdModel SvdSpec SvdProofs MpsModel MpsSpec MpsCreateModel MpsCreateSpec MatrixSchmidtProofs SchmidtProofs MpsPreProofs NetSameProofs MpsCreateProofs MpsCreateMainProofs MpsContractModel MpsContractSpec.
Import ListNotations.
Local Open Scope list_scope.
Local Open Scope nat_scope.

Section Cr.
Context {A : Type} {HA : SR A}.
Add Ring CrRing : (@SR_theory A HA).
Notation heap := (heap A).
Variable lib : linalg A.

Lemma flat_wf (data : list A) r c : List.length data = r * c -> wfa (mkArr [r; c] data).
Proof. intros E. unfold wfa, prodn. cbn [ashape adata fold_right]. lia. Qed.
Lemma remainder_length (m : arr A) k c : List.length (remainder lib m k c) = k * c.
Proof. pose proof (remainder_wf lib m k c) as W. unfold wfa, prodn in W. cbn [ashape adata fold_right] in W. lia. Qed.
Lemma prodn_app1 xs x : prodn (xs ++ [x]) = prodn xs * x.
Proof. induction xs as [|y xs IH]; [unfold prodn; cbn; lia|]. change (y * prodn (xs ++ [x]) = y * prodn xs * x). rewrite IH. ring. Qed.

Lemma perfect_exact chi : svd_perfect lib -> forall dims pre d data, d <= prodn pre -> room_for chi (pre ++ dims) -> List.length data = d * prodn dims -> splits_exact lib chi d dims data.
Proof.
  intros SP. induction dims as [|x dims IH]; intros pre d data Hd RF HL; [exact I|]. destruct dims as [|y dims]; [exact I|].
  unfold splits_exact. cbn [each_split]. set (rest := y :: dims) in *. set (c := prodn rest). set (m := mkArr [d * x; c] data). set (k := rank lib chi m (d * x) c).
  assert (Wm : wfa m) by (apply flat_wf; rewrite HL; change (d * (x * c) = d * x * c); ring).
  destruct (SP m (d * x) c Wm eq_refl) as (S1 & S2). 
  assert (Hr : d * x <= prodn (pre ++ [x])) by (rewrite prodn_app1; apply Nat.mul_le_mono_r; exact Hd).
  split.
  - split; auto. intros i H1 H2. apply S2; auto. destruct (ss_s _ _ _ _ (sx_shape _ _ _ _ S1)) as (W & E). unfold wfa in W. rewrite E in W. unfold prodn in W. cbn [fold_right] in W.
    rewrite W in H2. assert (M : Nat.min (d * x) c <= Nat.min (prodn (pre ++ [x])) c) by lia.
    unfold k, rank in H1. destruct chi as [n|]; [|lia]. cbn in RF. specialize (RF (pre ++ [x]) rest). rewrite <- app_assoc in RF. specialize (RF eq_refl). fold c in RF. lia.
  - apply (IH (pre ++ [x])).
    + pose proof (rank_le lib chi m (d * x) c). fold k in H. lia.
    + rewrite <- app_assoc. exact RF.
    + apply remainder_length.
Qed.

Lemma above_zero (m : arr A) r c k : svd_exact lib m r c -> lossless lib m k -> k <= Nat.min r c -> (forall p j, p < k -> j < c -> aget (mkArr [k; c] (remainder lib m k c)) [p; j] = r0) ->
  forall i j, i < r -> j < c -> aget m [i; j] = r0.
Proof.
  intros SX LL K Z i j Hi Hj. rewrite <- (uv_exact lib m r c k i j SX K LL Hi Hj). rewrite (sumN_ext _ _ (fun _ => r0)).
  - apply sumL_0.
  - intros p Hp. rewrite Z by auto. ring.
Qed.
(** an entry that is not 0 survives every exact split *)
Lemma exact_positive chi : forall dims d data, (forall x, In x dims -> 0 < x) -> 0 < d -> List.length data = d * prodn dims ->
  splits_exact lib chi d dims data -> ~ (forall i, i < List.length data -> nth i data r0 = r0) -> ranks_positive lib chi d dims data.
Proof.
  induction dims as [|x dims IH]; intros d data PD Hd HL SX NZ; [exact I|]. destruct dims as [|y dims]; [exact I|].
  unfold splits_exact in SX. unfold ranks_positive. cbn [each_split] in SX |- *. set (rest := y :: dims) in *. set (c := prodn rest) in *. set (m := mkArr [d * x; c] data) in *. set (k := rank lib chi m (d * x) c) in *.
  destruct SX as ((S1 & S2) & S3).
  assert (HL' : List.length data = d * x * c) by (rewrite HL; change (d * (x * c) = d * x * c); ring).
  assert (PD' : forall z, In z rest -> 0 < z) by (intros z Hz; apply PD; simpl; auto).
  assert (GET : forall i j, i < d * x -> j < c -> aget m [i; j] = nth (i * c + j) data r0).
  { intros i j Hi Hj. unfold aget, m. cbn [adata ashape ravel]. f_equal. unfold prodn. cbn [fold_right]. lia. }
  assert (NN : ~ (forall p j, p < k -> j < c -> aget (mkArr [k; c] (remainder lib m k c)) [p; j] = r0)).
  { intros Z. apply NZ. intros i Hi. rewrite HL' in Hi. assert (C0 : c <> 0) by (intros E; rewrite E in Hi; lia). rewrite (Nat.div_mod i c C0).
    rewrite (Nat.mul_comm c). assert (M1 : i mod c < c) by (apply Nat.mod_upper_bound; lia). assert (M2 : i / c < d * x) by (apply Nat.div_lt_upper_bound; lia).
    rewrite <- GET by auto. apply (above_zero m (d * x) c k); auto. apply rank_le. }
  assert (K0 : 0 < k). { destruct (Nat.eq_dec k 0) as [E|]; [|lia]. exfalso. apply NN. intros p j Hp. lia. }
  split; auto. apply (IH k (remainder lib m k c)); auto; [apply remainder_length|]. intros Q. apply NN. intros p j Hp Hj. unfold aget. cbn [adata ashape ravel]. apply Q. rewrite remainder_length. unfold prodn. cbn [fold_right]. nia.
Qed.

Lemma zero_data (h : heap) t data : row_major h t data -> ~ (forall s, in_bounds h (legs_of h t) s -> entry h t s = r0) -> ~ (forall i, i < List.length data -> nth i data r0 = r0).
Proof.
  intros (L & R) NZ Z. apply NZ. intros s B. rewrite <- R by auto. apply Z. rewrite L. apply ravel_lt, inrange_map. auto.
Qed.

(** an exact library, room and an entry that is not 0 *)
Theorem create_exact (h : heap) t env chi : svd_perfect lib -> wf_open h (t :: env) -> t_like (tens h t) = false ->
  (forall l l', In l (legs_of h t) -> In l' (legs_of h t) -> ~ linked h l l') -> 2 <= List.length (legs_of h t) ->
  (forall l, In l (legs_of h t) -> 0 < dim_of h l) -> ~ (forall s, in_bounds h (legs_of h t) s -> entry h t s = r0) -> room_for chi (map (dim_of h) (legs_of h t)) ->
  exists h' m lf rt, createMPSFromTensor lib t chi h = (h', Ok (m, false)) /\ m_chi m = (match chi with None => -1 | Some c => Z.of_nat c end)%Z /\ chain h' (m_ts m) (legs_of h t) env lf rt /\
    slim h' (dim_of h) (legs_of h t) rt /\ untouched h env h' /\ kept_legs h h' (legs_of h t) /\
    same_free h (t :: env) h' (m_ts m ++ env) /\ same_value h (t :: env) h' (m_ts m ++ env).
Proof.
  intros SP WO NLK NL L2 PD NZ RF. assert (ST : svd_total lib) by (intros m r c W E; apply (SP m r c W E)).
  assert (WT : wf_tensor h t) by (apply (wo_net _ _ WO); simpl; auto).
  destruct (toTensor_data h t WT NLK) as (a & _ & _ & _ & RM); [intros E; rewrite E in L2; cbn in L2; lia|].
  assert (EX : splits_exact lib chi 1 (map (dim_of h) (legs_of h t)) (adata a)).
  { apply (perfect_exact chi SP _ []); auto; [destruct RM as (-> & _); lia]. }
  destruct (create_ok lib ST h t env chi (adata a) WO NLK NL L2 PD RM) as (P & _). destruct P as (h' & ts & lf & rt & E & CH & _ & SL & UT & KL & SF & SV).
  { apply exact_positive; auto; [|destruct RM as (-> & _); lia|now apply (zero_data h t)].
    intros x Hx. apply in_map_iff in Hx as (l & <- & Hl). auto. }
  exists h', (mkMps ts (match chi with None => -1 | Some c => Z.of_nat c end)%Z None), lf, rt. cbn [m_ts m_chi]. auto 12.
Qed.
Theorem create_lossless (h : heap) t env chi : svd_perfect lib -> wf_open h (t :: env) -> t_like (tens h t) = false ->
  (forall l l', In l (legs_of h t) -> In l' (legs_of h t) -> ~ linked h l l') -> 2 <= List.length (legs_of h t) ->
  (forall l, In l (legs_of h t) -> 0 < dim_of h l) -> nonzero h t -> room_for chi (map (dim_of h) (legs_of h t)) ->
  exists h' m lf rt, createMPSFromTensor lib t chi h = (h', Ok (m, false)) /\ chain h' (m_ts m) (legs_of h t) env lf rt /\
    same_free h (t :: env) h' (m_ts m ++ env) /\ same_value h (t :: env) h' (m_ts m ++ env).
Proof.
  intros SP WO NLK NL L2 PD NZ RF. assert (NZ' : ~ (forall s, in_bounds h (legs_of h t) s -> entry h t s = r0)) by (intros Z; destruct NZ as (s & B & X); now apply X, Z).
  destruct (create_exact h t env chi SP WO NLK NL L2 PD NZ' RF) as (h' & m & lf & rt & E & _ & CH & _ & _ & _ & SF & SV).
  exists h', m, lf, rt. auto.
Qed.

(** a tensor of zeros with three legs or more fails *)
Theorem create_zero (h : heap) t env chi : svd_total lib -> zero_small lib -> wf_open h (t :: env) -> t_like (tens h t) = false ->
  (forall l l', In l (legs_of h t) -> In l' (legs_of h t) -> ~ linked h l l') -> 3 <= List.length (legs_of h t) ->
  (forall l, In l (legs_of h t) -> 0 < dim_of h l) -> (forall s, entry h t s = r0) ->
  exists h', createMPSFromTensor lib t chi h = (h', Err ValueError).
Proof.
  intros ST ZS WO NLK NL L3 PD Z. assert (WT : wf_tensor h t) by (apply (wo_net _ _ WO); simpl; auto).
  destruct (toTensor_data h t WT NLK) as (a & _ & _ & _ & RM); [intros E; rewrite E in L3; cbn in L3; lia|].
  destruct (create_ok lib ST h t env chi (adata a) WO NLK NL) as (_ & P); auto; [lia|]. apply P. clear P.
  assert (AZ : forall i, nth i (adata a) r0 = r0).
  { intros i. destruct (le_lt_dec (List.length (adata a)) i) as [G|G]; [now apply nth_overflow|]. destruct RM as (L & R). rewrite L in G.
    destruct (ravel_onto _ _ G) as (idx & I1 & <-). destruct (choose_assign (legs_of h t) idx (wt_nodup _ _ WT)) as (s & <-); [apply Forall2_length in I1; now rewrite map_length in I1|].
    rewrite R; auto. exact (inrange_map_inv (dim_of h) s _ I1). }
  destruct RM as (L & _). destruct (legs_of h t) as [|l1 [|l2 [|l3 ls]]]; [cbn in L3; lia..|].
  unfold ranks_positive. cbn [map each_split]. intros (H & _). assert (H' : 0 < rank lib chi (mkArr [1 * dim_of h l1; prodn (dim_of h l2 :: dim_of h l3 :: map (dim_of h) ls)] (adata a)) (1 * dim_of h l1) (prodn (dim_of h l2 :: dim_of h l3 :: map (dim_of h) ls))).
  { apply H. cbn. lia. }
  unfold rank in H'. rewrite (ZS _ _ _ (flat_wf _ (1 * dim_of h l1) (prodn (dim_of h l2 :: dim_of h l3 :: map (dim_of h) ls)) ltac:(rewrite L, Nat.mul_1_l; reflexivity)) eq_refl AZ) in H'. destruct chi; lia.
Qed.

(** the other cases *)
Theorem create_none (h : heap) t chi : legs_of h t = [] -> createMPSFromTensor lib t chi h = (h, Err AssertionError).
Proof. intros E. unfold createMPSFromTensor, bind, reads. change (tlegs h t) with (legs_of h t). now rewrite E. Qed.
Theorem create_like (h : heap) t chi : 2 <= List.length (legs_of h t) -> t_like (tens h t) = true -> createMPSFromTensor lib t chi h = (h, Err AssertionError).
Proof.
  intros L K. unfold createMPSFromTensor, bind, reads. change (tlegs h t) with (legs_of h t). destruct (legs_of h t) as [|l [|l' ls]]; [cbn in L; lia..|].
  unfold toTensor, bind, reads, assert. rewrite K. reflexivity.
Qed.
Theorem create_one_exact (h : heap) t env l chi : wf_open h (t :: env) -> t_like (tens h t) = false -> t_diag (tens h t) = false -> legs_of h t = [l] -> ~ linked h l l ->
  exists h', createMPSFromTensor lib t chi h = (h', Ok (mkMps [t] (match chi with None => -1 | Some c => Z.of_nat c end)%Z None, false)) /\ net_same h h' /\
    chain h' [t] [l] env (fun _ => 0) (fun _ => 0) /\ same_free h (t :: env) h' ([t] ++ env) /\ same_value h (t :: env) h' ([t] ++ env) /\
    untouched h env h' /\ kept_legs h h' [l].
Proof.
  intros WO K D E NL.
  assert (PC : prechain h [t] [l] env (fun _ => 0) (fun _ => 0)).
  { constructor; auto.
    - intros t' [<-|[]]; auto.
    - intros i Hi. assert (i = 0) as -> by (cbn in Hi; lia). cbn. now rewrite E.
    - cbn. intros i Hi. lia.
    - intros z z' [<-|[]] Hz'. unfold all_legs in Hz'. cbn [flat_map] in Hz'. rewrite E in Hz'. destruct Hz' as [<-|[]]. exact NL. }
  destruct (pc_new h [t] [l] env _ _ PC (option_map Z.of_nat chi)) as (h' & EN & NS & CH & NM); [discriminate|].
  exists h'. split.
  { unfold createMPSFromTensor. erewrite bind_ok by reflexivity. change (tlegs h t) with (legs_of h t). rewrite E. rewrite EN.
    destruct chi as [n|]; cbn; auto. destruct (Z.ltb_spec (Z.of_nat n) (-1)); auto; lia. }
  assert (NZ : forall z, In z (all_legs h env) -> z <> l).
  { intros z Hz ->. apply (NoDup_app_disj (all_legs h [t]) (all_legs h env) l); auto; [rewrite <- all_legs_app; apply WO|]. unfold all_legs. cbn [flat_map]. rewrite E. simpl; auto. }
  split; auto. split; auto. split; [|split; [|split]].
  - split; [now rewrite (ns_free _ _ NS)|]. intros z _. apply (ns_dim _ _ NS).
  - intros s _. apply (ns_netval _ _ NS).
  - constructor.
    + intros t' _. now rewrite (ns_tens _ _ NS).
    + intros z Hz. assert (E4 : l_name (legs h' z) = l_name (legs h z)).
      { apply NM. unfold all_legs. cbn [flat_map]. rewrite E. intros [<-|[]]. exact (NZ l Hz eq_refl). }
      destruct (ns_leg _ _ NS z) as (Q1 & Q2 & Q3). destruct (legs h' z), (legs h z). cbn in *. congruence.
    + intros z z' _. apply (ns_linked _ _ NS).
  - intros z _. split; [apply (ns_dim _ _ NS)|]. split; [apply (ns_leg _ _ NS z)|]. intros z'. apply (ns_linked _ _ NS).
Qed.
Theorem create_one (h : heap) t env l chi : wf_open h (t :: env) -> t_like (tens h t) = false -> t_diag (tens h t) = false -> legs_of h t = [l] -> ~ linked h l l ->
  exists h', createMPSFromTensor lib t chi h = (h', Ok (mkMps [t] (match chi with None => -1 | Some c => Z.of_nat c end)%Z None, false)) /\ net_same h h' /\
    chain h' [t] [l] env (fun _ => 0) (fun _ => 0) /\ same_free h (t :: env) h' ([t] ++ env) /\ same_value h (t :: env) h' ([t] ++ env).
Proof.
  intros WO K D E NL. destruct (create_one_exact h t env l chi WO K D E NL) as (h' & P1 & P2 & P3 & P4 & P5 & _). exists h'. auto 10.
Qed.
End Cr.
