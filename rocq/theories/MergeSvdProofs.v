(** Correctness of merge (contract.py 181-274). *)
From Coq Require Import List Arith Bool Lia String ZArith Permutation.
From Verif Require Import Base Sums NdModel NdProofs HeapModel FuncsModel FuncsSpec FuncsProofs TensorModel TensorSpec TensorProofs MatrixProofs
  ContractModel NetSpec ShareProofs LinkProofs SumpairsProofs ContractProofs NetProofs MergeLinkSpec MergeLinkProofs GroupSpec GroupProofs
  SeqProofs SplitProofs PairProofs NetSameProofs SvdModel SvdSpec SvdProofs.
Import ListNotations.
Local Open Scope list_scope.
Local Open Scope nat_scope.

Section Ms.
Context {A : Type} {HA : SR A}.
Notation heap := (heap A).
Variable lib : linalg A.

(** ** the matrix of a pair *)
Lemma matmul_einsum (h : heap) ta tb : wf_pair h ta tb -> t_like (tens h ta) = false -> t_like (tens h tb) = false ->
  shared h ta tb <> [] ->
  exists mA mB m, toMatrix h ta None (Some (map RLeg (map fst (shared h ta tb)))) = Ok mA /\
    toMatrix h tb (Some (map RLeg (map snd (shared h ta tb)))) None = Ok mB /\ np_matmul mA mB = Ok m /\
    nth 0 (ashape mA) 0 = prodn (map (dim_of h) (restA h ta tb)) /\ nth 1 (ashape mB) 0 = prodn (map (dim_of h) (restB h ta tb)) /\
    matrix_of h (einsum h ta tb) (restA h ta tb) (restB h ta tb) m.
Proof.
  intros W La Lb NE. set (P := shared h ta tb) in *.
  assert (RA : refs_are h ta (map RLeg (map fst P)) (map fst P)).
  { split; auto. destruct P; [congruence|discriminate]. }
  assert (RB : refs_are h tb (map RLeg (map snd P)) (map snd P)).
  { split; auto. destruct P; [congruence|discriminate]. }
  assert (SA : split_of h ta None (Some (map RLeg (map fst P))) (restA h ta tb) (map fst P)).
  { unfold restA. constructor; auto; [apply shared_fst_NoDup; auto|apply shared_fst]. }
  assert (SB : split_of h tb (Some (map RLeg (map snd P))) None (map snd P) (restB h ta tb)).
  { unfold restB. constructor; auto; [apply shared_snd_NoDup; auto|apply shared_snd]. }
  destruct (toMatrix_split _ _ _ _ _ _ (wp_a _ _ _ W) La SA) as (mA & EA & WA & ShA & GA).
  destruct (toMatrix_split _ _ _ _ _ _ (wp_b _ _ _ W) Lb SB) as (mB & EB & WB & ShB & GB).
  unfold P in ShB. rewrite <- (shared_dims h ta tb W) in ShB. fold P in ShB.
  destruct (matmul_spec _ _ _ _ _ ShA ShB) as (m & Em & Wm & Sm & Gm).
  exists mA, mB, m. split; [exact EA|]. split; [exact EB|]. split; [exact Em|]. split; [now rewrite ShA|]. split; [now rewrite ShB|].
  constructor; auto. intros s Hs. unfold einsum. fold P. rewrite sumpairs_indices.
  rewrite Gm.
  2:{ apply ravel_lt, inrange_map. intros l Hl. apply Hs. apply in_app_iff; auto. }
  2:{ apply ravel_lt, inrange_map. intros l Hl. apply Hs. apply in_app_iff; auto. }
  rewrite sumN_indices. rewrite (map_map fst (dim_of h)). apply sumL_ext. intros idx Hi. apply indices_In in Hi.
  destruct (shared_bounds h ta tb idx s W Hs Hi) as [BA BB].
  destruct (assign_rest h ta tb idx s W) as [RA' RB']. fold P in BA, BB, RA', RB'.
  destruct (assign_fst P idx s (shared_NoDup _ _ _ W)) as [AF AS].
  { apply inrange_length in Hi. now rewrite map_length in Hi. }
  specialize (GA _ BA). specialize (GB _ BB).
  rewrite RA', AF in GA. rewrite RB', AS in GB. unfold P in GB. rewrite <- (shared_dims h ta tb W) in GB. fold P in GB.
  rewrite <- GA, <- GB. rewrite !(map_map fst (dim_of h)). reflexivity.
Qed.

Lemma netval_pair (h : heap) ta tb s : netval h [ta; tb] s = einsum h ta tb s.
Proof.
  unfold netval, einsum. cbn [inner]. unfold all_legs. cbn [flat_map]. rewrite !app_nil_r.
  assert (forall L, pairs_between h L [] = []) as ->.
  { induction L as [|l L IH]; auto. unfold pairs_between in *. cbn [flat_map]. rewrite IH. destruct (partner h l); auto. }
  rewrite app_nil_r. apply sumpairs_ext. intros u. cbn [prod_entries]. now rewrite (rmul_comm _ r1), rmul_1_l.
Qed.
Lemma free_pair (h : heap) ta tb : wf_pair h ta tb -> Permutation (restA h ta tb ++ restB h ta tb) (free_legs h [ta; tb]).
Proof.
  intros W. apply Permutation_sym. unfold free_legs. cbn [inner]. unfold all_legs. cbn [flat_map]. rewrite !app_nil_r.
  assert (forall L, pairs_between h L [] = []) as ->.
  { induction L as [|l L IH]; auto. unfold pairs_between in *. cbn [flat_map]. rewrite IH. destruct (partner h l); auto. }
  rewrite app_nil_r. fold (shared h ta tb). destruct (rest_alloc h ta tb W) as (ND & _).
  apply NoDup_Permutation; auto.
  - unfold others. apply NoDup_filter, W.
  - intros l. rewrite others_In, !in_app_iff. unfold restA, restB. rewrite !others_In.
    pose proof (shared_fst h ta tb l). pose proof (shared_snd h ta tb l). pose proof (wp_disj h ta tb l W). tauto.
Qed.

(** ** the code after mergeLink *)
Definition mergeTail (ta tb : tid) (like : bool) (chi : Z) : @M A (tid * tid) :=
    sb <- shareBonds ta tb ;;
    match sb with
    | [] => ret (ta, tb)
    | [b] =>
      legA <- readsR (fun h => sideLeg h b ta) ;;
      legB <- readsR (fun h => sideLeg h b tb) ;;
      nameA <- reads (fun h => legname h legA) ;;
      nameB <- reads (fun h => legname h legB) ;;
      ra <- readsR (fun h => complementLegs h ta [legA]) ;;
      rb <- readsR (fun h => complementLegs h tb [legB]) ;;
      if like then
        da <- reads (fun h => legdim h legA) ;;
        db <- reads (fun h => legdim h legB) ;;
        na <- readsR (fun h => floorDiv (totalSize h ta) da) ;;
        nb <- readsR (fun h => floorDiv (totalSize h tb) db) ;;
        k <- liftR (likeDim chi [da; na; nb]) ;;
        uOut <- newLeg None k nameA ;;
        vOut <- newLeg None k nameB ;;
        u <- mkDense None None None None (Some (ra ++ [uOut])) true ;;
        v <- mkDense None None None None (Some (vOut :: rb)) true ;;
        makeLink [RLeg uOut] [RLeg vOut] None None ;;;
        ret (u, v)
      else
        matA <- readsR (fun h => toMatrix h ta None (Some [RLeg legA])) ;;
        matB <- readsR (fun h => toMatrix h tb (Some [RLeg legB]) None) ;;
        mat <- liftR (np_matmul matA matB) ;;
        let '(mu, ms, mv) := np_svd lib mat in
        k <- liftR (denseDim chi [nonZeroElementN lib ms; nth 0 (ashape matA) 0%nat; nth 1 (ashape matB) 0%nat]) ;;
        uOut <- newLeg None k nameA ;;
        vOut <- newLeg None k nameB ;;
        let sq := np_sqrts lib (firstEntries ms k) in
        uS <- liftR (rightDiagonalProduct (firstCols mu k) sq) ;;
        vS <- liftR (leftDiagonalProduct (firstRows mv k) sq) ;;
        u <- mkDense None None (Some uS) None (Some (ra ++ [uOut])) false ;;
        v <- mkDense None None (Some vS) None (Some (vOut :: rb)) false ;;
        makeLink [RLeg uOut] [RLeg vOut] None None ;;;
        ret (u, v)
    | _ => raise AssertionError
    end.

Lemma merge_steps (h h1 : heap) ta tb chi bn : t_like (tens h ta) = t_like (tens h tb) -> mergeLink ta tb bn h = (h1, Ok tt) ->
  merge lib ta tb chi bn h = match chi with None => (h1, Ok (ta, tb)) | Some c => mergeTail ta tb (t_like (tens h ta)) c h1 end.
Proof.
  intros EL EM. unfold merge. unfold bind at 1, reads at 1. unfold bind at 1, reads at 1. rewrite <- EL, eqb_reflx.
  unfold bind at 1, assert, ret. unfold bind at 1. rewrite EM. destruct chi as [c|]; [|reflexivity]. unfold mergeTail. reflexivity.
Qed.

Section Tail.
Variables (h : heap) (ta tb : tid) (la lb : lid).
Hypothesis WP : wf_pair h ta tb.
Hypothesis SH : shared h ta tb = [(la, lb)].

Lemma tail_share : exists h1 b, shareBonds ta tb h = (h1, Ok [b]) /\ only_bonds h h1 /\ bonds h1 b = mkBond la lb.
Proof.
  destruct (shareBonds_ok h ta tb) as (h1 & bs & E & OB & E0 & E1 & EL).
  - apply WP.
  - intros l Hl. now apply (wp_disj h ta tb l WP).
  - apply (links_ok_incl h (legs_of h ta ++ legs_of h tb)); [apply incl_appl, incl_refl|apply WP].
  - rewrite SH in *. destruct bs as [|b [|? ?]]; try discriminate. simpl in E0, E1. exists h1, b. split; auto. split; auto.
    destruct (bonds h1 b) as [p q]. simpl in *. congruence.
Qed.
Lemma tail_in : In la (legs_of h ta) /\ In lb (legs_of h tb) /\ ~ In la (legs_of h tb).
Proof.
  assert (In (la, lb) (shared h ta tb)) as H by (rewrite SH; simpl; auto). unfold shared in H. apply pairs_In in H.
  destruct H as (H1 & H2 & _). split; auto. split; auto. now apply (wp_disj h ta tb la WP).
Qed.
Lemma tail_rest (h1 : heap) : only_bonds h h1 -> complementLegs h1 ta [la] = Ok (restA h ta tb) /\ complementLegs h1 tb [lb] = Ok (restB h ta tb).
Proof.
  intros OB. destruct tail_in as (IA & IB & _). unfold complementLegs, tlegs. rewrite (ob_tens _ _ OB). split.
  - rewrite listDifference_NoDup.
    + unfold restA. rewrite SH. reflexivity.
    + apply WP.
    + repeat constructor; auto.
    + intros l [<-|[]]. auto.
  - rewrite listDifference_NoDup.
    + unfold restB. rewrite SH. reflexivity.
    + apply WP.
    + repeat constructor; auto.
    + intros l [<-|[]]. auto.
Qed.
Lemma tail_side (h1 : heap) b : only_bonds h h1 -> bonds h1 b = mkBond la lb -> sideLeg h1 b ta = Ok la /\ sideLeg h1 b tb = Ok lb.
Proof.
  intros OB EB. destruct tail_in as (IA & IB & NA). unfold sideLeg, tlegs. rewrite EB, (ob_tens _ _ OB). cbn [b0 b1].
  change (t_legs (tens h ta)) with (legs_of h ta). change (t_legs (tens h tb)) with (legs_of h tb).
  assert (inb la (legs_of h ta) = true) as -> by now apply inb_true.
  assert (inb la (legs_of h tb) = false) as -> by now apply inb_false.
  assert (inb lb (legs_of h tb) = true) as -> by now apply inb_true. auto.
Qed.

Lemma minDim3 chi a b c : minDim chi [a; b; c] = Z.min chi (Z.of_nat (Nat.min a (Nat.min b c))).
Proof. unfold minDim. cbn [fold_left]. lia. Qed.

(** what the two new tensors are *)
Definition replaced_by (h' : heap) (k : nat) (like : bool) : Prop :=
  exists h1, only_bonds h h1 /\
    pair_made h1 h' (restA h ta tb) (restB h ta tb) k (l_name (legs h la)) (l_name (legs h lb)) (fun l => l_name (legs h l)) /\
    t_diag (tens h' (ntens h)) = false /\ t_like (tens h' (ntens h)) = like /\
    t_diag (tens h' (S (ntens h))) = false /\ t_like (tens h' (S (ntens h))) = like.

Lemma tail_dense : t_like (tens h ta) = false -> t_like (tens h tb) = false ->
  exists m, matrix_of h (einsum h ta tb) (restA h ta tb) (restB h ta tb) m /\
  forall chi, let r := prodn (map (dim_of h) (restA h ta tb)) in let c := prodn (map (dim_of h) (restB h ta tb)) in
    let k := kept lib m r c chi in svd_shape lib m r c -> 
    ((k < 0)%Z -> exists h1, mergeTail ta tb false chi h = (h1, Err ValueError)) /\
    ((0 <= k)%Z -> exists h', mergeTail ta tb false chi h = (h', Ok (ntens h, S (ntens h))) /\ replaced_by h' (Z.to_nat k) false /\
      (svd_exact lib m r c -> lossless lib m (Z.to_nat k) -> 
       forall s, in_bounds h (restA h ta tb ++ restB h ta tb) s -> 
        sumN (Z.to_nat k) (fun i => rmul (entry h' (ntens h) (upd (upd s (nleg h) i) (S (nleg h)) i)) 
                                         (entry h' (S (ntens h)) (upd (upd s (nleg h) i) (S (nleg h)) i))) = einsum h ta tb s)).
Proof.
  intros La Lb. destruct tail_share as (h1 & b & ES & OB & EB).
  pose proof (ns_ob _ _ OB) as NS. pose proof (ns_wf_pair _ _ NS _ _ WP) as WP1.
  destruct (matmul_einsum h1 ta tb WP1) as (mA & mB & m & EA & EBm & EM & NA & NB & MO).
  { now rewrite (ob_tens _ _ OB). }
  { now rewrite (ob_tens _ _ OB). }
  { rewrite (ns_shared _ _ NS), SH. discriminate. }
  rewrite (ns_shared _ _ NS), SH in EA, EBm. cbn [map fst snd] in EA, EBm. rewrite (ns_restA _ _ NS), (ns_dims _ _ NS) in NA. rewrite (ns_restB _ _ NS), (ns_dims _ _ NS) in NB.
  exists m. split.
  { destruct MO as [M1 M2 M3]. rewrite (ns_restA _ _ NS), (ns_restB _ _ NS), !(ns_dims _ _ NS) in *. constructor; auto.
    intros s Hs. rewrite M3 by now apply (ns_inb _ _ NS). apply (ns_einsum _ _ NS). }
  intros chi r c k SS. destruct (tail_side h1 b OB EB) as (S1 & S2). destruct (tail_rest h1 OB) as (R1 & R2).
  assert (EK : minDim chi [nonZeroElementN lib (svd_s lib m); r; c] = k) by (rewrite minDim3; reflexivity).
  assert (PRE : mergeTail ta tb false chi h = 
    (k' <- liftR (denseDim chi [nonZeroElementN lib (svd_s lib m); r; c]) ;;
     uOut <- newLeg None k' (l_name (legs h la)) ;;
     vOut <- newLeg None k' (l_name (legs h lb)) ;;
     uS <- liftR (rightDiagonalProduct (firstCols (svd_u lib m) k') (np_sqrts lib (firstEntries (svd_s lib m) k'))) ;;
     vS <- liftR (leftDiagonalProduct (firstRows (svd_v lib m) k') (np_sqrts lib (firstEntries (svd_s lib m) k'))) ;;
     u <- mkDense None None (Some uS) None (Some (restA h ta tb ++ [uOut])) false ;;
     v <- mkDense None None (Some vS) None (Some (vOut :: restB h ta tb)) false ;;
     makeLink [RLeg uOut] [RLeg vOut] None None ;;;
     ret (u, v)) h1).
  { unfold mergeTail. unfold bind at 1. rewrite ES.
    unfold bind at 1, readsR at 1. rewrite S1. unfold bind at 1, readsR at 1. rewrite S2.
    unfold bind at 1, reads at 1. unfold bind at 1, reads at 1.
    unfold bind at 1, readsR at 1. rewrite R1. unfold bind at 1, readsR at 1. rewrite R2.
    unfold bind at 1, readsR at 1. rewrite EA. unfold bind at 1, readsR at 1. rewrite EBm.
    unfold bind at 1, liftR at 1. rewrite EM. rewrite svd_split. rewrite NA, NB. unfold legname. rewrite (ob_legs _ _ OB). reflexivity. }
  rewrite PRE. clear PRE.
  unfold denseDim. rewrite EK. split.
  { intros Kn. unfold bind at 1, liftR at 1. destruct (Z.ltb_spec k 0); [|lia]. eauto. }
  intros Kp. destruct (Z.ltb_spec k 0); [lia|]. unfold bind at 1, liftR at 1. cbv beta iota. rewrite newLegs. set (k0 := Z.to_nat k).
  assert (K0 : k0 <= Nat.min r c).
  { unfold k0, k, kept. lia. }
  destruct (uS_spec lib m r c k0 SS K0) as (uS & EU & WU & SU & GU). destruct (vS_spec lib m r c k0 SS K0) as (vS & EV & WV & SV & GV).
  unfold bind at 1, liftR at 1. rewrite EU. unfold bind at 1, liftR at 1. rewrite EV.
  destruct (rest_alloc h ta tb WP) as [RN RL].
  destruct (dense_pair h1 (restA h ta tb) (restB h ta tb) k0 (l_name (legs h la)) (l_name (legs h lb)) uS vS None None) as (h2 & h3 & E2 & E3 & TM & F1 & F2 & F3 & F4 & V1 & V2); auto.
  { rewrite (ob_nleg _ _ OB). auto. }
  { rewrite (ns_dims _ _ NS). exact SU. }
  { rewrite (ns_dims _ _ NS). exact SV. }
  unfold bind at 1. rewrite E2. unfold bind at 1. rewrite E3.
  destruct (link_made h1 h3 h3 (restA h ta tb) (restB h ta tb) k0 (l_name (legs h la)) (l_name (legs h lb)) (fun l => l_name (legs h3 l))) as (E4 & PM & T4); auto using only_names_refl.
  { rewrite (ob_nleg _ _ OB). auto. }
  unfold bind at 1. rewrite E4. set (h4 := linked_heap h3 (nleg h1) (S (nleg h1))) in *. rewrite <- (ob_ntens _ _ OB), <- (ob_nleg _ _ OB).
  exists h4. split; [reflexivity|]. split.
  - exists h1. split; auto. rewrite T4, <- (ob_ntens _ _ OB). split; auto.
    destruct PM as [p1 p2 p3 p4 p5 p6 p7 p8 p9 p10 p11 p12 p13 p14 p15]. constructor; auto.
    + intros l Hl. rewrite p8 by auto. f_equal. rewrite (tm_A _ _ _ _ _ _ _ TM) by auto. simpl. now rewrite (ob_legs _ _ OB).
    + intros l Hl. rewrite p9 by auto. f_equal. rewrite (tm_B _ _ _ _ _ _ _ TM) by auto. simpl. now rewrite (ob_legs _ _ OB).
  - intros SX LS s B. rewrite (ob_ntens _ _ OB), (ob_nleg _ _ OB).
    assert (MOE : aget m [ravel (map (dim_of h) (restA h ta tb)) (map s (restA h ta tb)); ravel (map (dim_of h) (restB h ta tb)) (map s (restB h ta tb))] = einsum h ta tb s).
    { destruct MO as [M1 M2 M3]. rewrite (ns_restA _ _ NS), (ns_restB _ _ NS), !(ns_dims _ _ NS) in M3. rewrite M3 by now apply (ns_inb _ _ NS). apply (ns_einsum _ _ NS). }
    rewrite <- MOE.
    rewrite <- (truncated lib m r c k0); auto.
    2:{ apply ravel_lt, inrange_map. intros l Hl. apply B. apply in_app_iff; auto. }
    2:{ apply ravel_lt, inrange_map. intros l Hl. apply B. apply in_app_iff; auto. }
    apply sumN_ext. intros i Hi. set (s' := upd (upd s (nleg h) i) (S (nleg h)) i).
    assert (SX' : s' (nleg h) = i) by (unfold s'; rewrite upd_other by lia; apply upd_same).
    assert (SY' : s' (S (nleg h)) = i) by (unfold s'; apply upd_same).
    assert (SO : forall l, In l (restA h ta tb ++ restB h ta tb) -> s' l = s l).
    { intros l Hl. apply RL in Hl. unfold s'. rewrite !upd_other by lia. reflexivity. }
    assert (MA : map s' (restA h ta tb) = map s (restA h ta tb)) by (apply map_ext_in; intros; apply SO, in_app_iff; auto).
    assert (MB : map s' (restB h ta tb) = map s (restB h ta tb)) by (apply map_ext_in; intros; apply SO, in_app_iff; auto).
    assert (B1 : in_bounds h1 (restA h ta tb) s').
    { intros l Hl. rewrite (ns_dim _ _ NS). rewrite SO by (apply in_app_iff; auto). apply B, in_app_iff; auto. }
    assert (B2 : in_bounds h1 (restB h ta tb) s').
    { intros l Hl. rewrite (ns_dim _ _ NS). rewrite SO by (apply in_app_iff; auto). apply B, in_app_iff; auto. }
    rewrite (ob_nleg _ _ OB), (ob_ntens _ _ OB) in V1, V2.
    specialize (V1 s'). specialize (V2 s'). rewrite SX' in V1. rewrite SY' in V2. specialize (V1 Hi B1). specialize (V2 Hi B2).
    rewrite !(ns_dims _ _ NS), ?MA, ?MB in V1, V2.
    assert (entry h4 (ntens h) s' = entry h3 (ntens h) s') as -> by (unfold entry; now rewrite T4).
    assert (entry h4 (S (ntens h)) s' = entry h3 (S (ntens h)) s') as -> by (unfold entry; now rewrite T4).
    rewrite V1, V2. rewrite GU, GV; auto.
    + rewrite MA, MB. reflexivity.
    + apply ravel_lt, inrange_map. intros l Hl. rewrite SO by (apply in_app_iff; auto). apply B. apply in_app_iff; auto.
    + apply ravel_lt, inrange_map. intros l Hl. rewrite SO by (apply in_app_iff; auto). apply B. apply in_app_iff; auto.
Qed.

Lemma tail_like : exists h1, only_bonds h h1 /\ forall chi, mergeTail ta tb true chi h =
    (na <- readsR (fun g => floorDiv (totalSize g ta) (dim_of h la)) ;;
     nb <- readsR (fun g => floorDiv (totalSize g tb) (dim_of h lb)) ;;
     k <- liftR (likeDim chi [dim_of h la; na; nb]) ;;
     uOut <- newLeg None k (l_name (legs h la)) ;;
     vOut <- newLeg None k (l_name (legs h lb)) ;;
     u <- mkDense None None None None (Some (restA h ta tb ++ [uOut])) true ;;
     v <- mkDense None None None None (Some (vOut :: restB h ta tb)) true ;;
     makeLink [RLeg uOut] [RLeg vOut] None None ;;;
     ret (u, v)) h1.
Proof.
  destruct tail_share as (h1 & b & ES & OB & EB). destruct (tail_side h1 b OB EB) as (S1 & S2). destruct (tail_rest h1 OB) as (R1 & R2).
  exists h1. split; auto. intros chi. unfold mergeTail. unfold bind at 1. rewrite ES.
  unfold bind at 1, readsR at 1. rewrite S1. unfold bind at 1, readsR at 1. rewrite S2.
  unfold bind at 1, reads at 1. unfold bind at 1, reads at 1.
  unfold bind at 1, readsR at 1. rewrite R1. unfold bind at 1, readsR at 1. rewrite R2. cbv iota.
  unfold bind at 1, reads at 1. unfold bind at 1, reads at 1. unfold legname, legdim, dim_of. rewrite (ob_legs _ _ OB). reflexivity.
Qed.
End Tail.

Lemma wf_list_pair (h : heap) ta tb rest : wf_list h (ta :: tb :: rest) -> wf_list h [ta; tb].
Proof.
  intros [W1 W2 W3 W4]. pose proof (wf_net_app_l h [ta; tb] rest W1) as WN.
  assert (I : forall l, In l (all_legs h [ta; tb]) -> In l (all_legs h (ta :: tb :: rest))).
  { intros l. unfold all_legs. cbn [flat_map]. rewrite !in_app_iff. simpl. tauto. }
  constructor; auto.
  - intros l b Hl. apply W2; auto.
  - intros l l' Hl. apply W3; auto.
  - intros l l' t' Hl Lk E Ht. apply (W4 l l' t'); auto. simpl in *. tauto.
Qed.
Lemma open_pair (h : heap) ta tb rest : wf_open h (ta :: tb :: rest) -> wf_pair h ta tb.
Proof. intros W. apply (wf_net_pair h ta tb rest). apply W. Qed.

Lemma rest_unlinked (h : heap) ta tb l l' : wf_pair h ta tb -> In l (restA h ta tb) -> In l' (restB h ta tb) -> ~ linked h l l' /\ ~ linked h l' l.
Proof.
  intros W HA' HB'. unfold restA, restB in *. rewrite others_In in *. destruct HA' as [HA1 HA2], HB' as [HB1 HB2].
  assert (~ linked h l l').
  { intros Lk. apply HA2. apply in_map_iff. exists (l, l'). split; auto. unfold shared. apply pairs_In. auto. }
  split; auto. intros Lk. apply H. apply (links_sym h (legs_of h ta ++ legs_of h tb)); auto.
  - apply W.
  - apply in_app_iff; auto.
  - apply in_app_iff; auto.
Qed.

Lemma rest_lt (h : heap) ta tb rest l : wf_open h (ta :: tb :: rest) -> In l (all_legs h rest) -> l < nleg h.
Proof.
  intros W Hl. unfold all_legs in Hl. apply in_flat_map in Hl. destruct Hl as (t & Ht & Hl). apply (wt_alloc h t); auto.
  apply (wn_wf _ _ (wo_net _ _ W)). simpl; auto.
Qed.
Lemma rest_apart (h : heap) ta tb rest l : wf_open h (ta :: tb :: rest) -> In l (legs_of h ta ++ legs_of h tb) -> In l (all_legs h rest) -> False.
Proof.
  intros W H1 H2. pose proof (wn_nodup _ _ (wo_net _ _ W)) as ND. unfold all_legs in ND. cbn [flat_map] in ND. rewrite app_assoc in ND.
  apply (NoDup_app_disj _ _ l ND); auto.
Qed.
Lemma replaced_split (h h' : heap) ta tb la lb rest k like : wf_open h (ta :: tb :: rest) -> shared h ta tb = [(la, lb)] ->
  replaced_by h ta tb la lb h' k like ->
  split_pair h h' ta tb rest (restA h ta tb) (restB h ta tb) (ntens h) (S (ntens h)) k (l_name (legs h la)) (l_name (legs h lb)) like /\
  ((forall s, in_bounds h (restA h ta tb ++ restB h ta tb) s -> 
        sumN k (fun i => rmul (entry h' (ntens h) (upd (upd s (nleg h) i) (S (nleg h)) i)) 
                              (entry h' (S (ntens h)) (upd (upd s (nleg h) i) (S (nleg h)) i))) = einsum h ta tb s) ->
   forall s, in_bounds h (free_legs h (ta :: tb :: rest)) s -> netval h' (ntens h :: S (ntens h) :: rest) s = netval h (ta :: tb :: rest) s).
Proof.
  intros WO SH (h1 & OB & PM & F1 & F2 & F3 & F4). pose proof (ns_ob _ _ OB) as NS.
  pose proof (open_pair _ _ _ _ WO) as WP. pose proof (ns_wf_open _ _ NS _ WO) as WO1. change (ta :: tb :: rest) with ([ta; tb] ++ rest) in WO1.
  assert (HP : Permutation (restA h ta tb ++ restB h ta tb) (free_legs h1 [ta; tb])).
  { rewrite (ns_free _ _ NS). now apply free_pair. }
  assert (NL : forall l l', In l (restA h ta tb) -> In l' (restB h ta tb) -> ~ linked h1 l l' /\ ~ linked h1 l' l).
  { intros l l' H1 H2. rewrite !(ns_linked _ _ NS). now apply (rest_unlinked h ta tb). }
  pose proof (pm_replaced _ _ _ _ _ _ _ _ _ _ PM WO1 HP NL) as RP.
  pose proof (rp_wf _ _ _ _ _ WO1 RP) as WF. pose proof (rp_free _ _ _ _ _ WO1 RP) as FR.
  pose proof (rp_value _ _ _ _ _ WO1 RP) as RV.
  pose proof (pm_shared _ _ _ _ _ _ _ _ _ _ PM WO1 HP NL) as PS.
  pose proof (pm_value _ _ _ _ _ _ _ _ _ _ PM WO1 HP NL) as PV.
  rewrite !(ob_ntens _ _ OB), ?(ob_nleg _ _ OB) in *. cbn [app] in *.
  destruct (rest_alloc h ta tb WP) as [RN RL].
  split.
  - constructor.
    + exists (nleg h), (S (nleg h)). split; [exact PS|]. unfold dim_of.
      pose proof (pm_x _ _ _ _ _ _ _ _ PM) as PX. pose proof (pm_y _ _ _ _ _ _ _ _ PM) as PY.
      pose proof (pm_u _ _ _ _ _ _ _ _ PM) as PU. pose proof (pm_v _ _ _ _ _ _ _ _ PM) as PV'.
      rewrite ?(ob_ntens _ _ OB), ?(ob_nleg _ _ OB) in *. rewrite PX, PY, PU, PV'. cbn. auto 10.
    + split; [|split; [|lia]]; intros Hi; apply (wn_wf _ _ (wo_net _ _ WO)) in Hi; apply wt_id in Hi; lia.
    + auto.
    + intros l Hl. rewrite in_app_iff in Hl. destruct Hl as [Hl|Hl].
      * unfold dim_of. rewrite (pm_A _ _ _ _ _ _ _ _ PM l Hl). cbn. rewrite (ob_legs _ _ OB). auto.
      * unfold dim_of. rewrite (pm_B _ _ _ _ _ _ _ _ PM l Hl). cbn. rewrite (ob_legs _ _ OB). auto.
    + intros t Ht. rewrite (pm_tens _ _ _ _ _ _ _ _ PM).
      * now rewrite (ob_tens _ _ OB).
      * rewrite (ob_ntens _ _ OB). apply (wt_id h). apply (wn_wf _ _ (wo_net _ _ WO)). simpl; auto.
    + intros l Hl. rewrite (pm_o _ _ _ _ _ _ _ _ PM).
      * now rewrite (ob_legs _ _ OB).
      * rewrite (ob_nleg _ _ OB). apply (rest_lt h ta tb rest); auto.
      * intros Hi. apply (rest_apart h ta tb rest l); auto. unfold restA, restB in Hi. rewrite in_app_iff, !others_In in Hi. apply in_app_iff. tauto.
    + intros l l' Hl. rewrite app_assoc, in_app_iff in Hl. rewrite (rp_linked h1 h' [ta; tb] _ rest WO1 RP); [apply (ns_linked _ _ NS)|].
      rewrite in_app_iff. destruct Hl as [Hl|Hl]; [left; eapply Permutation_in; [exact HP|exact Hl]|].
      right. unfold all_legs in *. apply in_flat_map in Hl. destruct Hl as (t & Ht & Hl). apply in_flat_map. exists t. now rewrite (ns_legs_of _ _ NS).
    + exact WF.
    + rewrite FR, (ns_free _ _ NS). reflexivity.
  - intros HV s Hs. rewrite <- (ns_netval _ _ NS). apply RV.
    + intros s' Hs'. rewrite PV, (ns_netval _ _ NS), netval_pair. apply HV. intros l Hl. rewrite <- (ns_dim _ _ NS). apply Hs'.
      eapply Permutation_in; [exact HP|auto].
    + rewrite (ns_free _ _ NS). now apply (ns_inb _ _ NS).
Qed.

Lemma others_head (x : nat) L : ~ In x L -> others (x :: L) [x] = L.
Proof.
  intros H. unfold others. cbn [filter]. assert (inb x [x] = true) as -> by (apply inb_true; simpl; auto). cbn [negb].
  induction L as [|y L IH]; auto. cbn [filter]. assert (inb y [x] = false) as ->.
  { apply inb_false. simpl. intros [->|[]]. apply H. simpl; auto. }
  cbn [negb]. f_equal. apply IH. intros Hi. apply H. simpl; auto.
Qed.
Lemma free_alloc (h : heap) ts l : wf_open h ts -> In l (free_legs h ts) -> l < nleg h.
Proof.
  intros W Hl. unfold free_legs in Hl. apply others_In in Hl. destruct Hl as [Hl _]. unfold all_legs in Hl. apply in_flat_map in Hl.
  destruct Hl as (t & Ht & Hl). apply (wt_alloc h t); auto. now apply (wn_wf _ _ (wo_net _ _ W)).
Qed.

(** ** after mergeLink *)
(** the state in which mergeLink leaves the two tensors *)
Record linked_once (h h1 : heap) (ta tb : tid) (rest : list tid) (na nb : pname) : Prop := {
  lo_one : exists la lb, shared h1 ta tb = [(la, lb)] /\ l_name (legs h1 la) = na /\ l_name (legs h1 lb) = nb /\
    dim_of h1 la = prodn (map (fun p => dim_of h (fst p)) (shared h ta tb)) /\ dim_of h1 lb = dim_of h1 la;
  lo_wf : wf_open h1 (ta :: tb :: rest);
  lo_rest : restA h1 ta tb = restA h ta tb /\ restB h1 ta tb = restB h ta tb;
  lo_ids : nleg h <= nleg h1;
  lo_flags : forall t, t_diag (tens h1 t) = t_diag (tens h t) /\ t_like (tens h1 t) = t_like (tens h t);
  lo_legs : forall l, In l (restA h ta tb ++ restB h ta tb) -> legs h1 l = legs h l;
  lo_tens : forall t, In t rest -> tens h1 t = tens h t;
  lo_restlegs : forall l, In l (all_legs h rest) -> legs h1 l = legs h l;
  lo_links : forall l l', In l (restA h ta tb ++ restB h ta tb ++ all_legs h rest) -> linked h1 l l' <-> linked h l l';
  lo_free : Permutation (free_legs h1 (ta :: tb :: rest)) (free_legs h (ta :: tb :: rest));
  lo_dims : forall l, In l (free_legs h (ta :: tb :: rest)) -> dim_of h1 l = dim_of h l;
  lo_eins : forall s, in_bounds h (restA h ta tb ++ restB h ta tb) s -> einsum h1 ta tb s = einsum h ta tb s;
  lo_value : forall s, in_bounds h (free_legs h (ta :: tb :: rest)) s -> netval h1 (ta :: tb :: rest) s = netval h (ta :: tb :: rest) s }.

Lemma linked_once_ok (h : heap) ta tb rest bn na nb : wf_list h (ta :: tb :: rest) ->
  (2 <= List.length (shared h ta tb) -> t_diag (tens h ta) = false /\ t_diag (tens h tb) = false /\
    (t_like (tens h ta) = false -> forall l, In l (restA h ta tb) -> 0 < dim_of h l) /\
    (t_like (tens h tb) = false -> forall l, In l (restB h ta tb) -> 0 < dim_of h l)) ->
  merge_names h (shared h ta tb) bn na nb ->
  exists h1, mergeLink ta tb bn h = (h1, Ok tt) /\ linked_once h h1 ta tb rest na nb.
Proof.
  intros WL ND MN. pose proof (wf_list_open _ _ WL) as WO. pose proof (open_pair _ _ _ _ WO) as WP.
  remember (shared h ta tb) as P eqn:EP. symmetry in EP. destruct MN as [la lb|la lb n|P bn na nb LP BN].
  - destruct (mergeLink_one h (ta :: tb :: rest) ta tb la lb WL) as [E _]; simpl; auto; try apply WP.
    exists h. split; auto. constructor; auto; [|intros l l' _; reflexivity].
    exists la, lb. rewrite EP. cbn. split; auto. split; auto. split; auto. split; [lia|].
    symmetry. pose proof (shared_dims h ta tb WP) as SD. rewrite EP in SD. simpl in SD. congruence.
  - destruct (mergeLink_one h (ta :: tb :: rest) ta tb la lb WL) as [_ E]; simpl; auto; try apply WP.
    destruct (E n) as (h1 & E1 & ON). pose proof (ns_names _ _ _ _ ON) as NS. exists h1. split; auto.
    assert (IA : In (la, lb) (shared h ta tb)) by (rewrite EP; simpl; auto).
    constructor.
    + exists la, lb. rewrite (ns_shared _ _ NS), !(ns_dim _ _ NS). split; auto. rewrite !(on_in _ _ _ _ ON) by (simpl; auto). cbn. split; auto. split; auto.
      rewrite EP. cbn. split; [lia|].
      symmetry. pose proof (shared_dims h ta tb WP) as SD. rewrite EP in SD. simpl in SD. congruence.
    + now apply (ns_wf_open _ _ NS).
    + now rewrite (ns_restA _ _ NS), (ns_restB _ _ NS).
    + rewrite (ns_nleg _ _ NS). lia.
    + intros t. now rewrite (ns_tens _ _ NS).
    + intros l Hl. apply (on_out _ _ _ _ ON). intros Hi. unfold restA, restB in Hl. rewrite in_app_iff, !others_In, EP in Hl. cbn in Hl.
      unfold shared in IA. apply pairs_In in IA. destruct IA as (IA & IB & _). pose proof (wp_disj h ta tb la WP IA).
      simpl in Hi. destruct Hi as [<-|[<-|[]]]; [tauto|]. destruct Hl as [[Hl _]|[_ Hl]]; [|tauto]. now apply (wp_disj h ta tb lb WP) in Hl.
    + intros t _. now rewrite (ns_tens _ _ NS).
    + intros l Hl. apply (on_out _ _ _ _ ON). intros Hi. unfold shared in IA. apply pairs_In in IA. destruct IA as (IA & IB & _).
      apply (rest_apart h ta tb rest l); auto. apply in_app_iff. simpl in Hi. destruct Hi as [<-|[<-|[]]]; auto.
    + intros l l' _. apply (ns_linked _ _ NS).
    + now rewrite (ns_free _ _ NS).
    + intros. apply (ns_dim _ _ NS).
    + intros. apply (ns_einsum _ _ NS).
    + intros. apply (ns_netval _ _ NS).
  - subst P. destruct (ND LP) as (DA & DB & ZA & ZB).
    destruct (mergeLink_ok h (ta :: tb :: rest) ta tb rest bn na nb WL (Permutation_refl _) DA DB ZA ZB LP BN) as (h1 & la & lb & E & LM & WL1 & FP & VP).
    destruct (mergeLink_ok h [ta; tb] ta tb [] bn na nb (wf_list_pair _ _ _ _ WL) (Permutation_refl _) DA DB ZA ZB LP BN) as (h2 & la2 & lb2 & E2 & _ & _ & _ & VP2).
    rewrite E in E2. injection E2 as <-. exists h1. split; auto.
    destruct LM as [k1 k2 k3 k4 k5 k6 kb k7 k8]. destruct k5 as [LA LB]. destruct (rest_alloc h ta tb WP) as [RN RL].
    assert (RA : restA h1 ta tb = restA h ta tb).
    { unfold restA at 1. rewrite k1, LA. cbn [map fst]. apply others_head. intros Hi. assert (la < nleg h); [apply RL, in_app_iff; auto|lia]. }
    assert (RB : restB h1 ta tb = restB h ta tb).
    { unfold restB at 1. rewrite k1, LB. cbn [map snd]. apply others_head. intros Hi. assert (lb < nleg h); [apply RL, in_app_iff; auto|lia]. }
    constructor; auto.
    + exists la, lb. tauto.
    + now apply wf_list_open.
    + destruct k2 as [k2 _]. assert (la < nleg h1); [|lia]. apply (wt_alloc h1 ta); [apply (wn_wf _ _ (wl_net _ _ WL1)); simpl; auto|]. rewrite LA. simpl; auto.
    + intros t Ht. pose proof (wn_ids _ _ (wo_net _ _ WO)) as NI. inversion NI as [|? ? N1 N2]; subst. inversion N2 as [|? ? N3 N4]; subst.
      apply k7; intros ->; simpl in *; tauto.
    + intros l Hl. apply k6. now apply (rest_lt h ta tb rest).
    + intros l l' Hl. assert (HA' : l < nleg h /\ In l (all_legs h (ta :: tb :: rest))).
      { rewrite app_assoc, in_app_iff in Hl. unfold all_legs. cbn [flat_map]. destruct Hl as [Hl|Hl].
        - split; [now apply RL|]. unfold restA, restB in Hl. rewrite in_app_iff, !others_In in Hl. rewrite !in_app_iff. tauto.
        - split; [now apply (rest_lt h ta tb rest)|]. rewrite !in_app_iff. auto. }
      destruct HA' as [HL HI]. unfold linked. rewrite k6 by auto. split; intros (b & Eb & En); exists b; (split; [auto|]);
        pose proof (wo_bonds _ _ WO l b HI Eb) as Hb; unfold ends in *; rewrite kb in * by auto; auto.
    + intros l Hl. unfold dim_of. rewrite k6; auto. apply (free_alloc h _ l WO Hl).
    + intros s Hs. rewrite <- !netval_pair. apply VP2. intros l Hl. apply Hs. eapply Permutation_in; [|exact Hl]. apply Permutation_sym. now apply free_pair.
Qed.

Lemma split_trans (h h1 h' : heap) ta tb rest na nb u v k like : linked_once h h1 ta tb rest na nb ->
  split_pair h1 h' ta tb rest (restA h1 ta tb) (restB h1 ta tb) u v k na nb like -> split_pair h h' ta tb rest (restA h ta tb) (restB h ta tb) u v k na nb like.
Proof.
  intros LO [s1 s2 s3 s4 s5 s5' s8 s6 s7]. destruct (lo_rest _ _ _ _ _ _ _ LO) as [RA RB]. rewrite RA, RB in *. constructor; auto.
  - destruct s1 as (x & y & H). exists x, y. pose proof (lo_ids _ _ _ _ _ _ _ LO). intuition lia.
  - intros l Hl. destruct (s4 l Hl) as (H1 & H2 & H3). unfold dim_of in *. rewrite H1, H2, H3, (lo_legs _ _ _ _ _ _ _ LO) by auto. auto.
  - intros t Ht. rewrite s5 by auto. now apply (lo_tens _ _ _ _ _ _ _ LO).
  - intros l Hl. rewrite s5'.
    + now apply (lo_restlegs _ _ _ _ _ _ _ LO).
    + unfold all_legs in *. apply in_flat_map in Hl. destruct Hl as (t & Ht & Hl). apply in_flat_map. exists t. split; auto. unfold legs_of.
      now rewrite (lo_tens _ _ _ _ _ _ _ LO).
  - intros l l' Hl. rewrite s8; [now apply (lo_links _ _ _ _ _ _ _ LO)|].
    rewrite app_assoc, in_app_iff in *. destruct Hl as [Hl|Hl]; auto. right.
    unfold all_legs in *. apply in_flat_map in Hl. destruct Hl as (t & Ht & Hl). apply in_flat_map. exists t. split; auto. unfold legs_of.
    now rewrite (lo_tens _ _ _ _ _ _ _ LO).
  - rewrite s7. apply (lo_free _ _ _ _ _ _ _ LO).
Qed.

Theorem merge_dense (h : heap) ta tb rest bn na nb : wf_list h (ta :: tb :: rest) ->
  t_like (tens h ta) = false -> t_like (tens h tb) = false ->
  (2 <= List.length (shared h ta tb) -> t_diag (tens h ta) = false /\ t_diag (tens h tb) = false /\
    forall l, In l (restA h ta tb ++ restB h ta tb) -> 0 < dim_of h l) ->
  merge_names h (shared h ta tb) bn na nb ->
  exists m, matrix_of h (einsum h ta tb) (restA h ta tb) (restB h ta tb) m /\
  forall chi, let r := prodn (map (dim_of h) (restA h ta tb)) in let c := prodn (map (dim_of h) (restB h ta tb)) in
    let k := kept lib m r c chi in svd_shape lib m r c ->
    ((chi < 0)%Z -> exists h', merge lib ta tb (Some chi) bn h = (h', Err ValueError)) /\
    ((0 <= chi)%Z -> (0 <= k <= chi)%Z /\
     exists h' u v, merge lib ta tb (Some chi) bn h = (h', Ok (u, v)) /\ split_pair h h' ta tb rest (restA h ta tb) (restB h ta tb) u v (Z.to_nat k) na nb false /\
      (svd_exact lib m r c -> lossless lib m (Z.to_nat k) ->
       forall s, in_bounds h (free_legs h (ta :: tb :: rest)) s -> netval h' (u :: v :: rest) s = netval h (ta :: tb :: rest) s)).
Proof.
  intros WL KA KB ND MN.
  destruct (linked_once_ok h ta tb rest bn na nb WL) as (h1 & E & LO); auto.
  { intros H. destruct (ND H) as (DA & DB & Z). split; [auto|]. split; [auto|]. split; intros; apply Z, in_app_iff; auto. }
  pose proof LO as LO'. destruct LO' as [(la & lb & SH & EA & EB & _) WO [RA RB] _ FL LG _ _ _ _ FD EI EV].
  pose proof (open_pair _ _ _ _ WO) as WP.
  destruct (tail_dense h1 ta tb la lb WP SH) as (m & MO & TD).
  { destruct (FL ta) as [_ ->]. auto. }
  { destruct (FL tb) as [_ ->]. auto. }
  assert (DE : forall L, incl L (restA h ta tb ++ restB h ta tb) -> map (dim_of h1) L = map (dim_of h) L).
  { intros L HL. apply map_ext_in. intros l Hl. unfold dim_of. now rewrite LG by (apply HL; auto). }
  rewrite RA, RB in *. rewrite !DE in TD by (first [apply incl_appl, incl_refl|apply incl_appr, incl_refl]).
  exists m. split.
  { destruct MO as [M1 M2 M3]. rewrite !DE in * by (first [apply incl_appl, incl_refl|apply incl_appr, incl_refl]). constructor; auto.
    intros s Hs. rewrite M3; [now apply EI|]. intros l Hl. unfold dim_of. rewrite LG by auto. now apply Hs. }
  intros chi r c k SS. destruct (TD chi SS) as [T1 T2]. fold r c k in T1, T2.
  assert (EM : merge lib ta tb (Some chi) bn h = mergeTail ta tb false chi h1).
  { rewrite (merge_steps h h1 ta tb (Some chi) bn) by (auto; congruence). now rewrite KA. }
  rewrite EM. split.
  - intros Hc. apply T1. unfold k, kept. lia.
  - intros Hc. assert (K : (0 <= k <= chi)%Z) by (unfold k, kept; lia). split; auto.
    destruct T2 as (h' & ET & RP & VAL); [lia|]. destruct (replaced_split h1 h' ta tb la lb rest _ _ WO SH RP) as [SP VL].
    rewrite RA, RB in VL.
    exists h', (ntens h1), (S (ntens h1)). split; auto. split.
    + rewrite EA, EB in SP. exact (split_trans _ _ _ _ _ _ _ _ _ _ _ _ LO SP).
    + intros SX LS s Hs. rewrite VL.
      * now apply EV.
      * auto.
      * intros l Hl. assert (In l (free_legs h (ta :: tb :: rest))) as Hf by (eapply Permutation_in; [apply (lo_free _ _ _ _ _ _ _ LO)|exact Hl]).
        rewrite FD by auto. now apply Hs.
Qed.

(** ** TensorLike *)
Lemma others_size (h : heap) (ls : list lid) l : NoDup ls -> In l ls -> 
  prodn (map (dim_of h) ls) = prodn (map (dim_of h) (others ls [l])) * dim_of h l.
Proof.
  intros ND Hi. assert (Permutation ls (l :: others ls [l])) as P.
  { apply NoDup_Permutation; auto.
    - constructor; [rewrite others_In; simpl; tauto|]. unfold others. now apply NoDup_filter.
    - intros x. simpl. rewrite others_In. simpl. destruct (Nat.eq_dec l x); [subst; tauto|]. split; [tauto|]. intros [|[]]; tauto. }
  rewrite (prodn_perm _ _ (Permutation_map (dim_of h) P)). cbn [map prodn fold_right]. unfold prodn. lia.
Qed.
Lemma totalSize_dims (h : heap) t : wf_tensor h t -> t_like (tens h t) = true -> totalSize h t = prodn (map (dim_of h) (legs_of h t)).
Proof.
  intros W K. unfold totalSize, shape. destruct (t_diag (tens h t)) eqn:D.
  - destruct (wt_diag _ _ W D) as [_ DD]. f_equal. unfold legs_of in *. clear - DD. revert DD. generalize (t_len (tens h t)) as n. induction (t_legs (tens h t)) as [|l ls IH]; intros n DD; auto.
    cbn [List.length repeat map]. rewrite (DD l) by (simpl; auto). f_equal. apply IH. intros; apply DD. simpl; auto.
  - pose proof (wt_data _ _ W) as WD. unfold data_ok in WD. rewrite K in WD. destruct (t_arr (tens h t)); [tauto|]. reflexivity.
Qed.

Theorem merge_like (h : heap) ta tb rest bn na nb chi : wf_list h (ta :: tb :: rest) ->
  t_like (tens h ta) = true -> t_like (tens h tb) = true ->
  (2 <= List.length (shared h ta tb) -> t_diag (tens h ta) = false /\ t_diag (tens h tb) = false) ->
  merge_names h (shared h ta tb) bn na nb ->
  let d := prodn (map (fun p => dim_of h (fst p)) (shared h ta tb)) in
  (d = 0 -> exists h', merge lib ta tb (Some chi) bn h = (h', Err ZeroDivisionError)) /\
  (0 < d -> (0 <= chi)%Z ->
   exists h' u v, merge lib ta tb (Some chi) bn h = (h', Ok (u, v)) /\
    split_pair h h' ta tb rest (restA h ta tb) (restB h ta tb) u v
     (Nat.min (Z.to_nat chi) (Nat.min d (Nat.min (prodn (map (dim_of h) (restA h ta tb))) (prodn (map (dim_of h) (restB h ta tb)))))) na nb true).
Proof.
  intros WL KA KB ND MN d.
  destruct (linked_once_ok h ta tb rest bn na nb WL) as (h1 & E & LO); auto.
  { intros H. destruct (ND H) as (DA & DB). split; [auto|]. split; [auto|]. split; congruence. }
  pose proof LO as LO'. destruct LO' as [(la & lb & SH & EA & EB & E1 & E2) WO [RA RB] _ FL LG _ _ _ _ FD EI EV].
  pose proof (open_pair _ _ _ _ WO) as WP. fold d in E1. rewrite E1 in E2.
  destruct (tail_like h1 ta tb la lb WP SH) as (h2 & OB & TL).
  assert (EM : merge lib ta tb (Some chi) bn h = mergeTail ta tb true chi h1).
  { rewrite (merge_steps h h1 ta tb (Some chi) bn) by (auto; congruence). now rewrite KA. }
  rewrite EM, TL, E1, E2. unfold floorDiv.
  assert (DE : forall L, incl L (restA h ta tb ++ restB h ta tb) -> map (dim_of h1) L = map (dim_of h) L).
  { intros L HL. apply map_ext_in. intros l Hl. unfold dim_of. now rewrite LG by (apply HL; auto). }
  split.
  { intros D0. unfold bind at 1, readsR at 1. rewrite D0. cbn [Nat.eqb]. eauto. }
  intros Dp Cp. destruct (Nat.eqb_spec d 0) as [|_]; [lia|].
  pose proof (ns_ob _ _ OB) as NS. destruct (tail_in h1 ta tb la lb WP SH) as (IA & IB & _).
  assert (TA : totalSize h2 ta / d = prodn (map (dim_of h) (restA h ta tb))).
  { rewrite totalSize_dims; [|apply (ns_wf _ _ NS), WP|rewrite (ob_tens _ _ OB); destruct (FL ta); congruence].
    rewrite (ns_legs_of _ _ NS), (ns_dims _ _ NS), (others_size h1 _ la); [|apply WP|auto]. rewrite E1.
    rewrite Nat.div_mul by lia. rewrite <- RA. unfold restA. rewrite SH. cbn [map fst]. fold (restA h1 ta tb).
    rewrite <- DE; [reflexivity|]. rewrite <- RA, <- RB. unfold restA. rewrite SH. apply incl_appl, incl_refl. }
  assert (TB : totalSize h2 tb / d = prodn (map (dim_of h) (restB h ta tb))).
  { rewrite totalSize_dims; [|apply (ns_wf _ _ NS), WP|rewrite (ob_tens _ _ OB); destruct (FL tb); congruence].
    rewrite (ns_legs_of _ _ NS), (ns_dims _ _ NS), (others_size h1 _ lb); [|apply WP|auto]. rewrite E2.
    rewrite Nat.div_mul by lia. rewrite <- RB. unfold restB. rewrite SH. cbn [map snd].
    rewrite <- DE; [reflexivity|]. rewrite <- RA, <- RB. unfold restB. rewrite SH. apply incl_appr, incl_refl. }
  unfold bind at 1, readsR at 1. unfold bind at 1, readsR at 1. rewrite TA, TB.
  unfold bind at 1, liftR at 1, likeDim. rewrite minDim3.
  set (k := Nat.min (Z.to_nat chi) _).
  destruct (Z.ltb_spec (Z.min chi (Z.of_nat (Nat.min d (Nat.min (prodn (map (dim_of h) (restA h ta tb))) (prodn (map (dim_of h) (restB h ta tb))))))) 0); [lia|].
  match goal with |- context [newLeg None (Z.to_nat ?z)] => replace (Z.to_nat z) with k in |- * by (unfold k; lia) end.
  cbv beta iota. rewrite newLegs. rewrite RA, RB, EA, EB.
  destruct (rest_alloc h1 ta tb WP) as [RN RL]. rewrite RA, RB in RN, RL. rewrite <- (ob_nleg _ _ OB) in RL.
  destruct (like_pair h2 (restA h ta tb) (restB h ta tb) k na nb None None) as (h3 & h4 & EU & EV' & TM & F1 & F2 & F3 & F4); auto.
  unfold bind at 1. rewrite EU. unfold bind at 1. rewrite EV'.
  destruct (link_made h2 h4 h4 (restA h ta tb) (restB h ta tb) k na nb (fun l => l_name (legs h4 l))) as (E4 & PM & T4); auto using only_names_refl.
  unfold bind at 1. rewrite E4. set (h5 := linked_heap h4 (nleg h2) (S (nleg h2))) in *.
  exists h5, (ntens h2), (S (ntens h2)). split; [reflexivity|].
  assert (RP : replaced_by h1 ta tb la lb h5 k true).
  { exists h2. split; auto. rewrite T4, <- (ob_ntens _ _ OB), RA, RB, EA, EB. split; auto.
    destruct PM as [p1 p2 p3 p4 p5 p6 p7 p8 p9 p10 p11 p12 p13 p14 p15]. constructor; auto.
    + intros l Hl. rewrite p8 by auto. f_equal. rewrite (tm_A _ _ _ _ _ _ _ TM) by auto. simpl. now rewrite (ob_legs _ _ OB).
    + intros l Hl. rewrite p9 by auto. f_equal. rewrite (tm_B _ _ _ _ _ _ _ TM) by auto. simpl. now rewrite (ob_legs _ _ OB). }
  destruct (replaced_split h1 h5 ta tb la lb rest _ _ WO SH RP) as [SP _]. rewrite (ob_ntens _ _ OB). rewrite EA, EB in SP.
  exact (split_trans _ _ _ _ _ _ _ _ _ _ _ _ LO SP).
Qed.

(** ** the other cases *)
Theorem merge_flags (h : heap) ta tb chi bn : t_like (tens h ta) <> t_like (tens h tb) -> merge lib ta tb chi bn h = (h, Err AssertionError).
Proof.
  intros H. unfold merge. unfold bind at 1, reads at 1. unfold bind at 1, reads at 1.
  destruct (t_like (tens h ta)), (t_like (tens h tb)); try congruence; reflexivity.
Qed.
Theorem merge_untruncated (h : heap) ta tb bn : t_like (tens h ta) = t_like (tens h tb) ->
  merge lib ta tb None bn h = (fst (mergeLink ta tb bn h), match snd (mergeLink ta tb bn h) with Ok _ => Ok (ta, tb) | Err e => Err e end).
Proof.
  intros H. unfold merge. unfold bind at 1, reads at 1. unfold bind at 1, reads at 1. rewrite <- H, eqb_reflx.
  unfold bind at 1, assert, ret. unfold bind at 1. destruct (mergeLink ta tb bn h) as [h1 [[]|e]]; reflexivity.
Qed.
Theorem merge_unshared (h : heap) ts ta tb chi bn : wf_list h ts -> In ta ts -> In tb ts -> ta <> tb -> t_like (tens h ta) = t_like (tens h tb) ->
  shared h ta tb = [] -> exists h', merge lib ta tb chi bn h = (h', Ok (ta, tb)) /\ only_bonds h h'.
Proof.
  intros WL IA IB NE H SH. rewrite (merge_steps h h ta tb chi bn) by (auto; apply (mergeLink_none h ts); auto).
  destruct chi as [c|]; [|exists h; split; [reflexivity|constructor; auto; intros b; now left]].
  destruct (shareBonds_ok h ta tb) as (h1 & bs & E & OB & E0 & E1 & EL).
  - apply (wn_wf _ _ (wl_net _ _ WL)); auto.
  - intros l Hl Hl'. apply NE. apply (one_owner h ts ta tb l); auto. apply (wl_net _ _ WL).
  - apply (links_ok_incl h (all_legs h ts)); [|apply WL]. intros l Hl. unfold all_legs. apply in_flat_map. eauto.
  - exists h1. split; auto. unfold mergeTail. unfold bind at 1. rewrite E. rewrite SH in EL. destruct bs; [reflexivity|discriminate].
Qed.
End Ms.
