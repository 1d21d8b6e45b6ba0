(** createMPSFromTensor (examples/MPS.py 487-544): the chain that replaces the tensor. *)
From Coq Require Import List Arith Bool Lia String ZArith Permutation.
From Verif Require Import Base Sums NdModel NdProofs HeapModel FuncsModel FuncsProofs TensorModel TensorSpec TensorProofs
  ContractModel NetSpec ShareProofs LinkProofs SumpairsProofs ContractProofs NetProofs PairProofs GroupSpec GroupProofs GroupMadeProofs NetSameProofs
  SvdModel SvdSpec SvdProofs MpsModel MpsSpec MpsPairProofs MpsCreateModel MpsCreateSpec MatrixSchmidtProofs MpsCreateStepProofs SchmidtProofs MpsPreProofs MpsCreateProofs MpsContractModel MpsContractSpec.
Import ListNotations.
Local Open Scope list_scope.
Local Open Scope nat_scope.

Lemma ravel_onto sh k : k < prodn sh -> exists idx, inrange sh idx /\ ravel sh idx = k.
Proof.
  revert k. induction sh as [|s sh IH]; intros k Hk.
  - exists []. split; [constructor|]. unfold prodn in Hk. simpl in Hk. simpl. lia.
  - change (prodn (s :: sh)) with (s * prodn sh) in Hk. assert (NZ : prodn sh <> 0) by (intros E; rewrite E in Hk; lia).
    destruct (IH (k mod prodn sh)) as (idx & H1 & H2); [now apply Nat.mod_upper_bound|].
    exists (k / prodn sh :: idx). split.
    + constructor; auto. apply Nat.div_lt_upper_bound; lia.
    + cbn [ravel]. rewrite H2. pose proof (Nat.div_mod k (prodn sh) NZ). lia.
Qed.
Lemma choose_assign (L : list nat) idx : NoDup L -> List.length idx = List.length L -> exists s : nat -> nat, map s L = idx.
Proof.
  revert idx. induction L as [|l L IH]; intros [|i idx] ND E; try discriminate; [exists (fun _ => 0); reflexivity|].
  inversion ND as [|? ? N1 N2]; subst. destruct (IH idx N2) as (s & <-); [now injection E|].
  exists (upd s l i). cbn [map]. rewrite upd_same. f_equal. apply map_ext_in. intros z Hz. apply upd_other. intros ->. contradiction.
Qed.

Lemma firstn_incl {X} (l : list X) k : incl (firstn k l) l.
Proof. intros x H. rewrite <- (firstn_skipn k l). apply in_app_iff. auto. Qed.
Lemma skipn_incl {X} (l : list X) k : incl (skipn k l) l.
Proof. intros x H. rewrite <- (firstn_skipn k l). apply in_app_iff. auto. Qed.

Section Cm.
Context {A : Type} {HA : SR A}.
Notation heap := (heap A).
Variable lib : linalg A.
Hypothesis ST : svd_total lib.

Lemma row_major_unique (h : heap) t d1 d2 : NoDup (legs_of h t) -> row_major h t d1 -> row_major h t d2 -> d1 = d2.
Proof.
  intros ND (L1 & H1) (L2 & H2). apply (nth_ext _ _ r0 r0); [congruence|]. intros k Hk. rewrite L1 in Hk.
  destruct (ravel_onto _ _ Hk) as (idx & I1 & <-).
  destruct (choose_assign (legs_of h t) idx ND) as (s & <-); [apply Forall2_length in I1; now rewrite map_length in I1|].
  assert (B : in_bounds h (legs_of h t) s) by exact (inrange_map_inv (dim_of h) s _ I1).
  now rewrite H1, H2.
Qed.

Lemma up_funs (h : heap) chi : forall ls ts x, links_up h chi x ls ts -> List.length ts = List.length ls /\ exists lf rt, lf 0 = x /\
  (forall i, i < List.length ls -> Permutation (legs_of h (nth i ts 0)) (lf i :: opt (Nat.ltb (S i) (List.length ls)) (rt i) ++ [nth i ls 0])) /\
  forall i, S i < List.length ls -> linked h (rt i) (lf (S i)) /\ (bounded chi (dim_of h (rt i)) /\ dim_of h (rt i) <= prodn (map (dim_of h) (x :: firstn (S i) ls)) /\ dim_of h (rt i) <= prodn (map (dim_of h) (skipn (S i) ls))).
Proof.
  induction ls as [|l ls IH]; intros [|t ts] x LU; try now destruct LU. destruct ls as [|l2 ls].
  - destruct LU as (-> & E). split; auto. exists (fun _ => x), (fun _ => 0). split; auto. split.
    + intros i Hi. assert (i = 0) as -> by (cbn in Hi; lia). cbn. now rewrite E.
    + cbn. intros i Hi. lia.
  - destruct LU as (r & x' & E & LK & B & LU). destruct (IH ts x' LU) as (EL & lf & rt & E0 & P & Q). split; [cbn; now rewrite EL|].
    exists (fun i => match i with 0 => x | S j => lf j end), (fun i => match i with 0 => r | S j => rt j end). split; auto. split.
    + intros [|i] Hi; [cbn; rewrite E; apply perm_skip, perm_swap|]. apply P. cbn in Hi. cbn. lia.
    + intros [|i] Hi; [rewrite E0; split; auto|].
      { destruct B as (B1 & B2 & B3 & B4). split; auto. split; [|exact B3]. unfold prodn. cbn [firstn map fold_right]. lia. }
      destruct (Q i ltac:(cbn in Hi; cbn; lia)) as (Q1 & Q2 & Q3 & Q4). split; auto. split; auto. split; [|exact Q4].
      destruct B as (B1 & B2 & B3 & B4). unfold prodn in *. cbn [firstn map fold_right] in *. rewrite B4 in Q3. rewrite Nat.mul_assoc.
      etransitivity; [exact Q3|]. now apply Nat.mul_le_mono_r.
Qed.

Theorem create_ok (h : heap) t env chi data : wf_open h (t :: env) -> t_like (tens h t) = false ->
  (forall l l', In l (legs_of h t) -> In l' (legs_of h t) -> ~ linked h l l') -> 2 <= List.length (legs_of h t) ->
  (forall l, In l (legs_of h t) -> 0 < dim_of h l) -> row_major h t data ->
  let dims := map (dim_of h) (legs_of h t) in
  (ranks_positive lib chi 1 dims data -> exists h' ts lf rt,
     createMPSFromTensor lib t chi h = (h', Ok (mkMps ts (match chi with None => -1 | Some c => Z.of_nat c end)%Z None, false)) /\
     chain h' ts (legs_of h t) env lf rt /\
     (forall i, S i < List.length ts -> bounded chi (dim_of h' (rt i))) /\
     slim h' (dim_of h) (legs_of h t) rt /\ untouched h env h' /\ kept_legs h h' (legs_of h t) /\
     same_free h (t :: env) h' (ts ++ env) /\
     (splits_exact lib chi 1 dims data -> same_value h (t :: env) h' (ts ++ env))) /\
  (~ ranks_positive lib chi 1 dims data -> exists h', createMPSFromTensor lib t chi h = (h', Err ValueError)).
Proof.
  intros WO NLK NL L2 PD RM dims. pose proof (wo_net _ _ WO) as W.
  assert (WT : wf_tensor h t) by (apply W; simpl; auto).
  assert (ALLL : forall z, In z (legs_of h t) -> In z (all_legs h (t :: env))) by (intros z Hz; apply all_legs_In; exists t; simpl; auto).
  destruct (legs_of h t) as [|l ls] eqn:EL; [cbn in L2; lia|]. destruct ls as [|l2 ls2]; [cbn in L2; lia|].
  set (ls := l2 :: ls2) in *. assert (NEL : legs_of h t <> []) by (rewrite EL; discriminate).
  destruct (toTensor_data h t WT NLK NEL) as (a0 & ET & Wa & Sa & RM0).
  assert (ED : adata a0 = data) by exact (row_major_unique h t _ _ (wt_nodup _ _ WT) RM0 RM); subst data.
  rewrite EL in Sa. fold dims in Sa.
  pose proof (wt_nodup _ _ WT) as ND. rewrite EL in ND. assert (Nl : ~ In l ls) by now inversion ND. assert (ND' : NoDup ls) by now inversion ND.
  assert (AL : forall z, In z (l :: ls) -> z < nleg h) by (intros z Hz; apply (wt_alloc _ _ WT); now rewrite EL).
  set (dl := dim_of h l) in *. set (c := prodn (map (dim_of h) ls)).
  assert (Pl : 0 < dl) by (apply PD; simpl; auto).
  assert (HL : List.length (adata a0) = dl * c) by (destruct RM0 as (X & _); rewrite X, EL; reflexivity).
  set (data := adata a0) in *. set (m := mkArr [dl; c] data). 
  assert (Wm : wfa m) by (unfold wfa, m, prodn; cbn [ashape adata fold_right]; lia).
  destruct (flat_schimdt lib data dl c chi Pl HL (ST m dl c Wm eq_refl)) as (u & EU & Wu & Su & Gu). fold m in EU, Su, Gu.
  set (k := rank lib chi m dl c) in *.
  assert (RP : ranks_positive lib chi 1 dims data <-> ((1 < List.length ls -> 0 < k) /\ ranks_positive lib chi k (map (dim_of h) ls) (remainder lib m k c))).
  { rewrite <- (map_length (dim_of h) ls). unfold dims. cbn [map each_split ranks_positive]. unfold ranks_positive. cbn [each_split map]. fold dl. rewrite Nat.mul_1_l. reflexivity. }
  assert (SX : splits_exact lib chi 1 dims data <-> ((svd_exact lib m dl c /\ lossless lib m k) /\ splits_exact lib chi k (map (dim_of h) ls) (remainder lib m k c))).
  { unfold splits_exact, dims. cbn [map each_split]. fold dl. rewrite Nat.mul_1_l. reflexivity. }
  set (h1 := one_leg h k (NStr "r")). set (r := nleg h) in *.
  assert (O1 : forall z, z < r -> legs h1 z = legs h z) by (intros z Hz; now apply one_old).
  assert (DR : dim_of h1 r = k) by (unfold dim_of, h1, r; now rewrite one_new).
  assert (DL : dim_of h1 l = dl) by (unfold dim_of; rewrite O1; auto; apply AL; simpl; auto).
  assert (LR : l < r) by (apply AL; simpl; auto).
  destruct (mkDense_legs h1 [l; r] u None (Some [dl; k])) as (h2 & tc & E2 & NT & W2 & OW2 & LL2 & D2 & K2 & _ & V2); auto.
  { constructor; [simpl; lia|]. repeat constructor; auto. }
  { intros z [<-|[<-|[]]]; cbn; fold r; lia. }
  { rewrite Su. cbn [map]. now rewrite DL, DR. }
  { cbn [map]. now rewrite DL, DR. }
  assert (EQ : createMPSFromTensor lib t chi h = (ts <- splitLegs lib chi (mkArr [k; c] (remainder lib m k c)) k r ls ;; newMps (tc :: ts) (option_map Z.of_nat chi)) h2).
  { unfold createMPSFromTensor. erewrite bind_ok by reflexivity. change (tlegs h t) with (legs_of h t). rewrite EL. unfold ls.
    rewrite (bind_ok _ _ _ _ _ ET). assert (ER : np_reshape a0 [prodn (ashape a0)] = Ok (mkArr [dl * c] data)).
    { unfold np_reshape. unfold wfa in Wa. rewrite Wa. unfold prodn at 1. cbn [fold_right]. rewrite Nat.mul_1_r, Nat.eqb_refl.
      do 2 f_equal. rewrite <- HL. unfold data. now rewrite Wa. }
    rewrite ER. erewrite bind_ok by reflexivity. erewrite bind_ok by reflexivity. change (legdim h l) with dl. rewrite EU.
    erewrite bind_ok by reflexivity. cbv zeta beta iota. rewrite Su. cbn [nth]. rewrite newLeg1. fold r h1. rewrite (bind_ok _ _ _ _ _ E2). reflexivity. }
  rewrite EQ. clear EQ.
  assert (ETC : tc = ntens h) by apply (nt_id _ _ _ _ NT). subst tc. destruct (nt_legs _ _ _ _ NT) as (IN2 & OUT2).
  assert (N2 : nleg h2 = S r) by (rewrite (nt_nleg _ _ _ _ NT); cbn; fold r; lia).
  assert (B2 : nbond h2 = nbond h) by apply (nt_nbond _ _ _ _ NT). assert (T2 : ntens h2 = S (ntens h)) by apply (nt_ntens _ _ _ _ NT).
  assert (O2 : forall z, z < r -> z <> l -> legs h2 z = legs h z).
  { intros z Hz N. rewrite OUT2; [now apply O1|]. intros [E|[E|[]]]; congruence || lia. }
  assert (L2' : legs h2 l = mkLeg (Some (ntens h)) (l_dim (legs h l)) (l_name (legs h l)) (l_bond (legs h l))).
  { rewrite IN2 by (simpl; auto). rewrite O1 by auto. reflexivity. }
  assert (R2 : legs h2 r = mkLeg (Some (ntens h)) k (NStr "r") None).
  { rewrite IN2 by (simpl; auto). unfold h1, r. rewrite one_new. reflexivity. }
  assert (OL : forall z, In z ls -> legs h2 z = legs h z).
  { intros z Hz. apply O2; [apply AL; simpl; auto|]. intros ->. auto. }
  assert (EB2 : bonds h2 = bonds h) by apply (nt_bonds _ _ _ _ NT).
  assert (D3 : map (dim_of h2) ls = map (dim_of h) ls) by (apply map_ext_in; intros z Hz; unfold dim_of; now rewrite OL).
  destruct (split_ok lib ST chi ls h2 (remainder lib m k c) k r) as (P1 & P2); auto.
  { discriminate. }
  { intros z Hz. rewrite N2. unfold dim_of. rewrite OL by auto. split; [assert (z < r) by (apply AL; simpl; auto); lia|]. apply PD. simpl; auto. }
  { lia. }
  { intros H. assert (r < r) by (apply AL; simpl; auto). lia. }
  { unfold dim_of. now rewrite R2. }
  { intros z b Hz. rewrite OL by auto. intros E. rewrite B2. apply (wo_bonds _ _ WO z b); auto. apply ALLL. simpl; auto. }
  { intros z z' Hz (b & E1 & E3). rewrite OL in E1 by auto. unfold ends in E3. rewrite EB2 in E3.
    assert (LZ : linked h z z') by (exists b; auto). split.
    - rewrite N2. assert (z' < r); [|lia]. apply (wo_alloc _ _ WO z z'); auto. apply ALLL. simpl; auto.
    - intros Y. apply (NL z z'); simpl; auto. }
  { rewrite D3. fold c. pose proof (remainder_wf lib m k c) as RW. unfold wfa, prodn in RW. cbn [ashape adata fold_right] in RW. lia. }
  rewrite D3 in P1, P2. fold c in P1, P2. split.
  2:{ intros X. destruct P2 as (h' & E'). { intros (Y1 & Y2). apply X, RP. auto. } exists h'. unfold bind. now rewrite E'. }
  intros R0. apply RP in R0. destruct R0 as (RA & RB). destruct P1 as (h3 & ts & x & N & E3 & MD & LU & VV); [auto|]. clear P2.
  rewrite (bind_ok _ _ _ _ _ E3).
  destruct (md_b _ _ _ _ _ _ _ MD) as (b & Hb & Rb & Xb & Eb). assert (R3 : legs h3 r = mkLeg (Some (ntens h)) k (NStr "r") (Some b)) by (rewrite Rb, R2; reflexivity).
  assert (L3 : legs h3 l = mkLeg (Some (ntens h)) (l_dim (legs h l)) (l_name (legs h l)) (l_bond (legs h l))).
  { rewrite (md_o _ _ _ _ _ _ _ MD); [exact L2'|lia|auto|lia]. }
  assert (T3 : tens h3 (ntens h) = tens h2 (ntens h)) by (apply (md_tens _ _ _ _ _ _ _ MD); lia).
  assert (LG3 : legs_of h3 (ntens h) = [l; r]) by (unfold legs_of; rewrite T3; exact LL2).
  assert (XN : S r <= x < nleg h3) by (pose proof (md_new _ _ _ _ _ _ _ MD x (or_introl eq_refl)); lia).
  assert (XO : exists t', l_tensor (legs h3 x) = Some t' /\ ntens h < t').
  { assert (In x (all_legs h3 ts)) as H by (eapply Permutation_in; [symmetry; apply MD|]; apply in_app_iff; simpl; auto).
    apply all_legs_In in H as (t' & Ht & Hx). exists t'. split; [now apply (md_own _ _ _ _ _ _ _ MD t' Ht)|].
    pose proof (md_ids _ _ _ _ _ _ _ MD t' Ht). lia. }
  destruct XO as (tx & Tx1 & Tx2).
  assert (XD : dim_of h3 x = k) by (rewrite (md_dim _ _ _ _ _ _ _ MD); unfold dim_of; now rewrite R2).
  assert (Eb' : ends h3 b r x) by (destruct Eb as [Eb|Eb]; [right|left]; exact Eb).
  pose proof (md_new _ _ _ _ _ _ _ MD) as MN. pose proof (md_nleg _ _ _ _ _ _ _ MD) as M1. pose proof (md_nbond _ _ _ _ _ _ _ MD) as M2. pose proof (md_ntens _ _ _ _ _ _ _ MD) as M3.
  assert (GM : group_made h h3 (l :: ls) (ntens h :: ts) (r :: x :: N)).
  { constructor.
    - intros t' [<-|Ht]; [|now apply MD]. apply (wf_same h2); auto; try lia. intros z Hz. rewrite LL2 in Hz. unfold dim_of.
      destruct Hz as [<-|[<-|[]]]; [now rewrite L3, L2'|now rewrite R3, R2].
    - intros t' [<-|Ht]; [|now apply (md_own _ _ _ _ _ _ _ MD)]. intros z Hz. rewrite LG3 in Hz. destruct Hz as [<-|[<-|[]]]; [now rewrite L3|now rewrite R3].
    - constructor; [|apply MD]. intros H. apply (md_ids _ _ _ _ _ _ _ MD) in H. lia.
    - intros t' [<-|Ht]; [lia|]. apply (md_ids _ _ _ _ _ _ _ MD) in Ht. lia.
    - unfold all_legs. cbn [flat_map]. fold (all_legs h3 ts). rewrite LG3, (md_legs _ _ _ _ _ _ _ MD). cbn [app]. apply perm_skip.
      change (r :: ls ++ x :: N) with ([r] ++ (ls ++ x :: N)). change (ls ++ r :: x :: N) with (ls ++ [r] ++ x :: N). rewrite !app_assoc.
      apply Permutation_app_tail, Permutation_app_comm.
    - constructor; [|apply MD]. intros H. apply MN in H. lia.
    - intros z [<-|H]; [fold r; lia|]. apply MN in H. fold r. lia.
    - intros z [<-|[<-|H]].
      + exists x, b. rewrite R3. cbn. split; [auto|]. split; auto. split; auto. split; [lia|]. split; [auto|]. split; [unfold dim_of at 1; rewrite R3; auto|].
        rewrite Tx1. intros E. injection E. lia.
      + exists r, b. rewrite R3. cbn. split; [auto|]. split; auto. split; auto. split; [lia|]. split; [auto|]. split; [unfold dim_of at 2; rewrite R3; auto|].
        rewrite Tx1. intros E. injection E. lia.
      + destruct (md_link _ _ _ _ _ _ _ MD z H) as (z' & b' & I' & R'). exists z', b'. split; [simpl; auto|exact R'].
    - intros z [<-|Hz]; [unfold dim_of; rewrite L3; auto|]. destruct (md_F _ _ _ _ _ _ _ MD z Hz) as (F1 & F2). rewrite F1, F2. unfold dim_of. now rewrite OL.
    - intros z Hz Nz. fold r in Hz. simpl in Nz. rewrite (md_o _ _ _ _ _ _ _ MD); [|lia|tauto|lia]. apply O2; auto.
    - intros b' Hb'. rewrite (md_bonds _ _ _ _ _ _ _ MD) by lia. now rewrite EB2.
    - intros t' Ht. rewrite (md_tens _ _ _ _ _ _ _ MD) by lia. apply (nt_tens _ _ _ _ NT). exact Ht.
    - fold r. lia.
    - lia.
    - lia. }
  assert (HP : Permutation (l :: ls) (free_legs h [t])) by (rewrite free_single, EL; reflexivity).
  pose proof (gm_replaced h h3 (l :: ls) (r :: x :: N) [t] (ntens h :: ts) env GM WO HP NL) as GR.
  assert (FR : free_legs h [t] = l :: ls) by (rewrite free_single; exact EL).
  assert (LKS : forall z z', In z (l :: ls) -> linked h3 z z' <-> linked h z z').
  { intros z z' Hz. apply (rp_linked h h3 [t] (ntens h :: ts) env WO GR). apply in_app_iff. left. now rewrite FR. }
  destruct (up_funs h3 chi ls ts x LU) as (LT & lf & rt & LF0 & LP & LQ).
  set (LF := fun i => match i with 0 => 0 | S j => lf j end). set (RT := fun i => match i with 0 => r | S j => rt j end).
  set (T := ntens h :: ts) in *.
  assert (PC : prechain h3 T (l :: ls) env LF RT).
  { constructor.
    - cbn. now rewrite LT.
    - apply (rp_wf h h3 [t] T env WO GR).
    - intros t' [<-|Ht]; [rewrite T3; auto|]. now apply (md_kind _ _ _ _ _ _ _ MD).
    - intros [|i] Hi; cbn [T nth List.length LF RT].
      + rewrite LG3. cbn [opt app Nat.ltb Nat.leb]. destruct ts as [|t1 ts1]; [cbn in LT; discriminate|]. cbn. apply perm_swap.
      + cbn in Hi. rewrite LP by lia. rewrite <- LT. reflexivity.
    - intros [|i] Hi; cbn [LF RT].
      + rewrite LF0. exists b. rewrite R3. auto.
      + apply LQ. cbn in Hi. lia.
    - intros z z' Hz Hz' LK. apply LKS in LK; auto. 
      apply (Permutation_in _ (gm_legs _ _ _ _ _ GM)) in Hz'. apply in_app_iff in Hz'. destruct Hz' as [Hz'|Hz']; [now apply (NL z z')|].
      apply (gm_new _ _ _ _ _ GM) in Hz'. assert (z' < nleg h); [|lia]. apply (wo_alloc _ _ WO z z'); auto. }
  destruct (pc_new h3 T (l :: ls) env LF RT PC (option_map Z.of_nat chi)) as (h' & EN & NS & CH & NM); [discriminate|].
  exists h', T, LF, RT. split.
  { rewrite EN. do 3 f_equal; [|destruct chi as [n|]; cbn; auto; destruct (Z.ltb_spec (Z.of_nat n) (-1)); auto; lia].
    destruct chi as [n|]; cbn; auto. destruct (Z.ltb_spec (Z.of_nat n) (-1)); auto; lia. }
  split; [exact CH|]. split.
  { intros [|i] Hi; rewrite (ns_dim _ _ NS); cbn [RT].
    - unfold dim_of. rewrite R3. cbn. apply rank_bounded.
    - apply LQ. cbn in Hi. lia. }
  assert (DF : forall z, In z (l :: ls) -> dim_of h3 z = dim_of h z) by (intros z Hz; apply (gm_F _ _ _ _ _ GM z Hz)).
  assert (MF : forall L, incl L (l :: ls) -> map (dim_of h3) L = map (dim_of h) L) by (intros L HI; apply map_ext_in; intros z Hz; apply DF, HI, Hz).
  split.
  { intros [|i] Hi; rewrite (ns_dim _ _ NS); cbn [RT].
    - assert (EK : dim_of h3 r = k) by (unfold dim_of; now rewrite R3). rewrite EK. cbn [firstn skipn]. pose proof (rank_le lib chi m dl c) as RK. fold k in RK.
      change (prodn (map (dim_of h) ls)) with c. change (prodn (map (dim_of h) [l])) with (dl * 1). rewrite Nat.mul_1_r.
      split; (eapply Nat.le_trans; [exact RK|]); [apply Nat.le_min_l|apply Nat.le_min_r].
    - destruct (LQ i) as (_ & _ & Q3 & Q4); [exact (proj2 (Nat.succ_lt_mono _ _) Hi)|]. cbn [firstn skipn].
      rewrite MF in Q4 by (intros z Hz; right; revert Hz; apply skipn_incl). split; [|exact Q4].
      etransitivity; [exact Q3|]. unfold prodn. cbn [map fold_right]. rewrite XD. apply Nat.mul_le_mono; [fold dl; pose proof (rank_le lib chi m dl c) as RK; fold k in RK; eapply Nat.le_trans; [exact RK|apply Nat.le_min_l]|].
      fold (prodn (map (dim_of h3) (firstn (S i) ls))). rewrite MF by (intros z Hz; right; revert Hz; apply firstn_incl). reflexivity. }
  assert (EVL : forall z, In z (all_legs h env) -> z < nleg h /\ ~ In z (l :: ls)).
  { intros z Hz. split; [apply (rp_alloc h [t] env WO); rewrite all_legs_app; apply in_app_iff; auto|]. intros H. 
    apply (NoDup_app_disj (all_legs h [t]) (all_legs h env) z); auto; [rewrite <- all_legs_app; apply W|]. unfold all_legs. cbn [flat_map]. rewrite EL, app_nil_r. exact H. }
  split.
  { constructor.
    { intros t' Ht. rewrite (ns_tens _ _ NS). apply (gm_tens _ _ _ _ _ GM). apply (wt_id _ _ (wn_wf _ _ W t' (or_intror Ht))). }
    { intros z Hz. destruct (EVL z Hz) as (Z1 & Z2). assert (E1 : legs h3 z = legs h z) by (apply (gm_o _ _ _ _ _ GM); auto).
    assert (E4 : l_name (legs h' z) = l_name (legs h3 z)).
    { apply NM. intros H. apply (Permutation_in _ (gm_legs _ _ _ _ _ GM)) in H. apply in_app_iff in H. destruct H as [H|H]; [contradiction|]. apply (gm_new _ _ _ _ _ GM) in H. lia. }
    destruct (ns_leg _ _ NS z) as (Q1 & Q2 & Q3). rewrite <- E1. destruct (legs h' z), (legs h3 z). cbn in *. congruence. }
    { intros z z' Hz. rewrite (ns_linked _ _ NS). apply (rp_linked h h3 [t] T env WO GR). apply in_app_iff. auto. } }
  split.
  { intros z Hz. split; [rewrite (ns_dim _ _ NS); apply (gm_F _ _ _ _ _ GM z Hz)|].
    split; [destruct (ns_leg _ _ NS z) as (_ & _ & ->) || destruct (ns_leg _ _ NS z) as (_ & -> & _) || destruct (ns_leg _ _ NS z) as (-> & _ & _); apply (gm_F _ _ _ _ _ GM z Hz)|]. intros z'. rewrite (ns_linked _ _ NS). now apply LKS. }
  split.
  { split.
    - rewrite (ns_free _ _ NS). apply (rp_free h h3 [t] T env WO GR).
    - intros z Hz. rewrite (ns_dim _ _ NS). apply (gr_old _ _ _ _ _ GR). apply in_app_iff.
      change (t :: env) with ([t] ++ env) in Hz. apply free_In in Hz; [|apply W|apply W]. destruct Hz as (Hz & _). rewrite all_legs_app in Hz. apply in_app_iff in Hz.
      destruct Hz as [Hz|Hz]; [left|right; auto]. rewrite FR. unfold all_legs in Hz. cbn [flat_map] in Hz. rewrite EL, app_nil_r in Hz. exact Hz. }
  intros S0. apply SX in S0. destruct S0 as ((SX1 & SX2) & SX3). intros s Hs. rewrite (ns_netval _ _ NS).
  apply (rp_value h h3 [t] T env WO GR); auto. clear s Hs. intros s Hs. rewrite FR in Hs. rewrite netval_single.
  assert (MALL : forall z, In z (all_legs h3 ts) -> In z ls \/ S r <= z).
  { intros z H. apply (Permutation_in _ (md_legs _ _ _ _ _ _ _ MD)) in H. apply in_app_iff in H. destruct H as [H|H]; auto. right. apply MN in H. lia. }
  unfold T. rewrite (netval_cons1 h3 (ntens h) ts r x); [|apply MD| |].
  2:{ rewrite LG3. apply pairs_one.
      - constructor; [simpl; lia|]. repeat constructor; auto.
      - simpl; auto.
      - exists b. rewrite R3. auto.
      - eapply Permutation_in; [symmetry; apply MD|]. apply in_app_iff. simpl; auto.
      - intros z w [<-|[<-|[]]] NE LK Hw; [|congruence]. apply LKS in LK; [|simpl; auto]. apply MALL in Hw. destruct Hw as [Hw|Hw].
        + apply (NL l w); simpl; auto.
        + assert (w < r); [|lia]. apply (wo_alloc _ _ WO l w); auto. apply ALLL. simpl; auto. }
  2:{ intros z Hz Hw. rewrite LG3 in Hz. apply MALL in Hw. destruct Hz as [<-|[<-|[]]], Hw as [Hw|Hw]; try lia; [contradiction|]. assert (r < r) by (apply AL; simpl; auto). lia. }
  unfold dim_of at 1. rewrite R3. cbn [l_dim].
  assert (Hl : s l < dl) by (apply Hs; simpl; auto).
  assert (Hc : ravel (map (dim_of h) ls) (map s ls) < c) by (apply ravel_lt, inrange_map; intros z Hz; apply Hs; simpl; auto).
  assert (U : forall p z, z < r -> upd (upd s r p) x p z = s z) by (intros p z Hz; now rewrite !upd_other by lia).
  transitivity (aget m [s l; ravel (map (dim_of h) ls) (map s ls)]).
  2:{ destruct RM0 as (_ & RM1). rewrite <- RM1 by (rewrite EL; exact Hs). rewrite EL. unfold aget. cbn [adata m ashape]. f_equal. unfold c. cbn [map ravel prodn fold_right]. fold dl.
      change (fold_right Nat.mul 1 (map (dim_of h) ls)) with c. lia. }
  rewrite <- (uv_exact lib m dl c k _ _ SX1 (rank_le _ _ _ _ _) SX2 Hl Hc).
  apply sumN_ext. intros p Hp. f_equal.
  - unfold entry. rewrite T3. pose proof (V2 (upd (upd s r p) x p)) as V. unfold entry in V. rewrite V. cbn [map]. rewrite U by lia. rewrite (upd_other _ x) by lia. rewrite upd_same.
    rewrite DL, DR. rewrite <- Gu by auto. unfold aget. now rewrite Su.
  - rewrite (VV SX3).
    + rewrite upd_same. assert (EM : map (upd (upd s r p) x p) ls = map s ls) by (apply map_ext_in; intros z Hz; apply U; apply AL; simpl; auto).
      rewrite EM. unfold aget. cbn [adata ashape]. f_equal. cbn [ravel prodn fold_right]. change (fold_right Nat.mul 1 (map (dim_of h) ls)) with c. lia.
    + now rewrite upd_same.
    + intros z Hz. rewrite U by (apply AL; simpl; auto). unfold dim_of. rewrite OL by auto. apply Hs. simpl; auto.
Qed.
End Cm.
