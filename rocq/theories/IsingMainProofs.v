(** The partition function: enumeration, the network, its contraction; isolated vertices and self-loops. *)
From Coq Require Import List Arith Bool String Ascii ZArith Permutation Lia Reals Lra.
From Verif Require Import Base Sums NdModel NdProofs HeapModel FuncsModel FuncsProofs TensorModel ContractModel SearchModel GraphModel GraphSpec GraphProofs
  TensorSpec NetSpec FtnNetSpec SumpairsProofs NetProofs CtorProofs LinkProofs FreshNetProofs RealSR IsingModel IsingSpec IsingAlgebra IsingProofs IsingNetProofs SeqProofs.
Import ListNotations.
Local Open Scope nat_scope.

(** ** enumeration *)
Lemma bits_01 : forall m z x, In x (intToBitList z m) -> x = 0%Z \/ x = 1%Z.
Proof. induction m as [|m IH]; intros z x Hx; [destruct Hx|]. cbn [intToBitList] in Hx. destruct Hx as [<-|Hx]; [pose proof (Z.mod_pos_bound z 2); lia|eauto]. Qed.
Lemma bits_len : forall m z, List.length (intToBitList z m) = m.
Proof. induction m; intros z; simpl; auto. Qed.
Lemma exp_sumL {X} (l : list X) (f : X -> R) : exp (sumL l f) = prodL l (fun x => exp (f x)).
Proof. induction l as [|x l IH]; cbn [sumL prodL]; [apply exp_0|]. change (radd (f x) (sumL l f)) with (f x + sumL l f)%R. rewrite exp_plus, IH. reflexivity. Qed.
Lemma prodL_seq_nth {X} (F : X -> R) (d : X) : forall l, prodL (seq 0 (List.length l)) (fun e => F (nth e l d)) = prodL l F.
Proof.
  intros l. transitivity (prodL (map (fun e => nth e l d) (seq 0 (List.length l))) F); [now rewrite prodL_map|]. f_equal.
  apply (nth_ext _ _ d d); [now rewrite map_length, seq_length|]. intros k Hk. rewrite map_length, seq_length in Hk. rewrite (nth_indep _ d (nth 0 l d)) by (now rewrite map_length, seq_length).
  rewrite (map_nth (fun e => nth e l d)). now rewrite seq_nth.
Qed.
Definition b2n (b : bool) : nat := if b then 1 else 0.
Lemma indices_configs : forall n, indices (repeat 2 n) = map (map b2n) (configs n).
Proof.
  induction n as [|n IH]; cbn [repeat indices configs map]; [reflexivity|]. cbn [seq flat_map]. rewrite IH, app_nil_r, map_app, !map_map. reflexivity.
Qed.
Lemma Rsum_sumL {X} (l : list X) (f : X -> R) : Rsum (map f l) = sumL l f.
Proof. induction l as [|x l IH]; cbn [map Rsum fold_right sumL]; [reflexivity|]. unfold Rsum in IH. now rewrite IH. Qed.
Lemma spin_weight_config EE c : spin_weight EE (map b2n c) = exp (Rsum (map (bond_energy c) EE)).
Proof.
  rewrite Rsum_sumL, exp_sumL. rewrite <- (prodL_seq_nth (fun e => exp (bond_energy c e)) (0, 0, 0%R)). unfold spin_weight. apply prodL_ext. intros e _. unfold ea, eb, ew, bond_energy.
  destruct (nth e EE (0, 0, 0%R)) as [[a b] w]. cbn [fst snd]. change 0 with (b2n false). rewrite !map_nth. destruct (nth a c false), (nth b c false); reflexivity.
Qed.
Lemma sum_partition n EE : sumL (indices (repeat 2 n)) (spin_weight EE) = partition n EE.
Proof. unfold partition. rewrite Rsum_sumL, indices_configs, sumL_map. apply sumL_ext. intros c _. apply spin_weight_config. Qed.

Section Exact.
Variable n : nat.
Variable EE : list (nat * nat * R).
Variable g : graph R.
Hypothesis GI : ginv n (map bond_edge EE) g.
Hypothesis Ends : forall a b w, In (a, b, w) EE -> a < n /\ b < n.
Hypothesis ES : Permutation (snd (getEdges g)) (seq 0 (List.length EE)).
Lemma weight_ok z : getIsingWeight g z = Ok (spin_weight EE (map Z.to_nat (intToBitList z n))).
Proof.
  unfold getIsingWeight. rewrite (gi_n _ _ _ GI). set (spin := intToBitList z n).
  set (f := fun e => if Nat.eqb (nth (ea EE e) (map Z.to_nat spin) 0) (nth (eb EE e) (map Z.to_nat spin) 0) then ew EE e else Ropp (ew EE e)).
  assert (G : forall l E0, (forall e, In e l -> e < List.length EE) -> rfold (fun E e => letr x := edgeOf g e in match e_b x with
    | None => Err AttributeError | Some v2 => match nth_error spin (e_a x), nth_error spin v2 with
                 | Some s1, Some s2 => Ok (if Z.eqb s1 s2 then (E - e_w x)%R else (E + e_w x)%R) | _, _ => Err IndexError end end) l E0 = Ok (E0 - sumL l f)%R).
  { induction l as [|e l IH]; intros E0 H; cbn [rfold sumL]; [f_equal; unfold r0; cbn; lra|]. assert (He : e < List.length EE) by (apply H; simpl; auto).
    rewrite (edgeOf_ok n EE g GI e He). cbn [rbind e_a e_b e_w]. destruct (Ends _ _ _ (edge_In EE e He)) as (La & Lb).
    assert (N : forall v, v < n -> nth_error spin v = Some (nth v spin 0%Z)) by (intros v Hv; apply nth_error_nth'; unfold spin; now rewrite bits_len).
    rewrite (N _ La), (N _ Lb). cbn [rbind]. rewrite IH by (intros; apply H; simpl; auto). f_equal. unfold f at 2. change (radd ?a ?b) with (a + b)%R.
    assert (MN : forall v, nth v (map Z.to_nat spin) 0 = Z.to_nat (nth v spin 0%Z)) by (intros v; apply (map_nth Z.to_nat spin 0%Z v)). rewrite !MN.
    assert (B : forall v, v < n -> nth v spin 0%Z = 0%Z \/ nth v spin 0%Z = 1%Z) by (intros v Hv; apply (bits_01 n z); apply nth_In; unfold spin; now rewrite bits_len).
    generalize (sumL l f). intros q. generalize (ew EE e). intros y. destruct (B _ La) as [->| ->], (B _ Lb) as [->| ->]; change (Z.to_nat 1) with 1; change (Z.to_nat 0) with 0; cbn [Z.eqb Pos.eqb Nat.eqb]; lra. }
  rewrite G by (intros e He; apply (es_In EE _ ES) in He; exact He). cbn [rbind]. f_equal. rewrite (sumL_perm _ _ f ES).
  replace (- (0 - sumL (seq 0 (List.length EE)) f))%R with (sumL (seq 0 (List.length EE)) f) by lra. rewrite exp_sumL. unfold spin_weight. apply prodL_ext. intros e _. unfold f. now destruct (Nat.eqb _ _).
Qed.
Lemma exact_ok : exactZFromGraphIsing g = Ok (partition n EE).
Proof.
  unfold exactZFromGraphIsing. rewrite (gi_n _ _ _ GI). assert (G : forall l, rmapM (getIsingWeight g) l = Ok (map (fun z => spin_weight EE (map Z.to_nat (intToBitList z n))) l)).
  { induction l as [|z l IH]; cbn [rmapM map]; [reflexivity|]. rewrite weight_ok. cbn [rbind]. rewrite IH. reflexivity. }
  rewrite G. cbn [rbind]. f_equal. unfold np_sum. cbn [adata]. rewrite !sumL_map. rewrite <- sum_partition. rewrite <- (sum_bits n (spin_weight EE)). reflexivity.
Qed.
End Exact.

(** ** graphs made by calls *)
Lemma run_refreshed n (ops : list (op R)) EE : added n ops = map bond_edge EE -> refreshed n ops.
Proof.
  intros E pre i w post Eo Hi _. exfalso. assert (In (i, None, w) (added n ops)) as X.
  { unfold added. apply in_flat_map. exists (OFree i w). split; [rewrite Eo, in_app_iff; simpl; auto|]. cbn [adds]. apply Nat.ltb_lt in Hi. rewrite Hi. simpl; auto. }
  rewrite E in X. apply in_map_iff in X as ([[a b] w'] & Y & _). discriminate.
Qed.
Lemma run_ends n (ops : list (op R)) EE : added n ops = map bond_edge EE -> forall a b w, In (a, b, w) EE -> a < n /\ b < n.
Proof.
  intros E a b w H. assert (In (a, Some b, w) (added n ops)) as X by (rewrite E; apply in_map_iff; exists (a, b, w); auto).
  apply in_flat_map in X as (o & _ & Ho). destruct o as [i j w'|i w'| |]; cbn [adds] in Ho; try contradiction.
  - destruct (i <? n) eqn:E1; [|destruct Ho]. destruct (j <? n) eqn:E2; cbn [andb] in Ho; [|destruct Ho]. destruct Ho as [Ho|[]]. injection Ho as <- <- <-. apply Nat.ltb_lt in E1, E2. auto.
  - destruct (i <? n); [|destruct Ho]. destruct Ho as [Ho|[]]. discriminate.
Qed.
Theorem ising_exact n (ops : list (op R)) EE : added n ops = map bond_edge EE -> exactZFromGraphIsing (run n ops) = Ok (partition n EE).
Proof.
  intros E. apply exact_ok.
  - rewrite <- E. apply run_inv.
  - apply (run_ends n ops EE E).
  - destruct (getEdges_complete n ops (run_refreshed n ops EE E)) as (P & _). rewrite E, map_length in P. exact P.
Qed.
Lemma getEdges_twice (g : graph R) : snd (getEdges (fst (getEdges g))) = snd (getEdges g).
Proof. destruct (getEdges_spec (fst (getEdges g))) as (A & _ & _). destruct (getEdges_spec g) as (_ & B & C). rewrite A, B, C. reflexivity. Qed.
Lemma network n (ops : list (op R)) EE (h : heap) : added n ops = map bond_edge EE -> ising_graph n EE ->
  exists h' ts g', IsingTNFromUndirectedGraph (run n ops) h = (h', Ok (ts, g')) /\ List.length ts = n /\ wf_net h' ts /\ free_legs h' ts = [] /\
    (forall t, In t ts -> ntens h <= t /\ t_diag (tens h' t) = false /\ t_like (tens h' t) = false) /\
    (forall l, In l (all_legs h' ts) -> nleg h <= l /\ dim_of h' l = 2) /\
    (forall s, netval h' ts s = partition n EE).
Proof.
  intros E IG. set (g := run n ops). pose proof (run_inv n ops) as GI. fold g in GI. rewrite E in GI.
  destruct (getEdges_complete n ops (run_refreshed n ops EE E)) as (ES & _). fold g in ES. rewrite E, map_length in ES. unfold IsingTNFromUndirectedGraph.
  pose proof (ginv_get _ _ _ GI) as GI1. pose proof (getEdges_twice g) as Tw. destruct (getEdges g) as (g1, es). cbn [fst snd] in *. pose proof (ginv_get _ _ _ GI1) as GI2. destruct (getEdges g1) as (g2, es2). cbn [fst snd] in *. subst es2.
  rewrite (gi_n _ _ _ GI1). destruct (sites_ok n EE g1 GI1 es ES (seq 0 n) h) as (h1 & ts & E1 & Gr & F & N1 & N2 & B1 & B2).
  { intros v Hv. apply in_seq in Hv. apply (inc_ne n EE IG). lia. }
  destruct (links_ok_es n EE g2 GI2 es ES IG h1 ts F N1 N2) as (h2 & E2 & LA). exists h2, ts, g2. split.
  - unfold bind at 1. rewrite E1. cbv iota beta. unfold bind at 1. rewrite E2. reflexivity.
  - split; [apply (ts_len n EE es h1 ts F)|]. split; [exact (net_wf n EE es ES IG h1 ts F N1 N2 h2 LA)|]. split; [exact (net_closed n EE es ES IG h1 ts F N1 N2 h2 LA)|].
    split; [|split].
    + intros t Ht. split; [now apply B1|]. rewrite (la_tens _ _ _ LA). destruct (ts_tv n EE es h1 ts F t Ht) as (v & Hv & ->). pose proof (tv_so n EE es h1 ts F v Hv) as S0. split; apply S0.
    + intros l Hl. rewrite (F_all h1 h2 (ps EE h1 ts es) LA) in Hl. split; [now apply B2|]. rewrite (F_dim h1 h2 _ LA). apply all_legs_In in Hl as (t & Ht & Hl).
      destruct (ts_tv n EE es h1 ts F t Ht) as (v & Hv & ->). apply (so_dims _ _ _ _ _ (tv_so n EE es h1 ts F v Hv)), Hl.
    + intros s. rewrite (net_value n EE es ES IG h1 ts F N1 N2 h2 LA s). apply sum_partition.
Qed.
Theorem ising_network n (ops : list (op R)) EE (h : heap) : added n ops = map bond_edge EE -> ising_graph n EE ->
  exists h' ts g', IsingTNFromUndirectedGraph (run n ops) h = (h', Ok (ts, g')) /\ List.length ts = n /\ wf_net h' ts /\ free_legs h' ts = [] /\
    forall s, exactZFromGraphIsing (run n ops) = Ok (netval h' ts s).
Proof.
  intros E IG. destruct (network n ops EE h E IG) as (h' & ts & g' & A & B & C & D & _ & _ & V). exists h', ts, g'. split; [exact A|]. split; [exact B|]. split; [exact C|]. split; [exact D|]. intros s. rewrite V. now apply ising_exact.
Qed.
Theorem ising_contract n (ops : list (op R)) EE (h : heap) : added n ops = map bond_edge EE -> ising_graph n EE ->
  exists h' ts g', IsingTNFromUndirectedGraph (run n ops) h = (h', Ok (ts, g')) /\
    forall sq c, complete (fun _ _ => True) (group_cost h') (singles ts) sq c ->
    exists h2 t cur, contractWithSeq ts sq true h' = (h2, Ok (t, c, cur)) /\ legs_of h2 t = [] /\ forall s, exactZFromGraphIsing (run n ops) = Ok (entry h2 t s).
Proof.
  intros E IG. destruct (network n ops EE h E IG) as (h' & ts & g' & A & B & C & D & T & L & V). exists h', ts, g'. split; [exact A|]. intros sq c Cm.
  destruct (contractWithSeq_inplace h' ts sq c C) as (h2 & t & cur & E2 & W & _ & _ & P & _ & En).
  - intros t Ht. apply T, Ht.
  - intros p Hp. assert (In (fst p) (all_legs h' ts)) as X by (apply (inner_legs h' ts (wn_ids _ _ C)), plegs_In; left; exists (snd p); now destruct p). apply L in X as (_ & ->). lia.
  - apply complete_dense; auto. intros t Ht. apply T, Ht.
  - exists h2, t, cur. split; [exact E2|]. rewrite D in P. split; [apply Permutation_nil; now symmetry|]. intros s. rewrite En by (rewrite D; intros l []). rewrite V. now apply ising_exact.
Qed.

(** ** isolated vertices *)
Theorem ising_isolated n (ops : list (op R)) EE (h : heap) v : added n ops = map bond_edge EE -> v < n -> (forall a b w, In (a, b, w) EE -> v <> a /\ v <> b) ->
  snd (IsingTNFromUndirectedGraph (run n ops) h) = Err ValueError.
Proof.
  intros E Hv Iso. set (g := run n ops). pose proof (run_inv n ops) as GI. fold g in GI. rewrite E in GI.
  destruct (getEdges_complete n ops (run_refreshed n ops EE E)) as (ES & _). fold g in ES. rewrite E, map_length in ES. unfold IsingTNFromUndirectedGraph.
  pose proof (ginv_get _ _ _ GI) as GI1. destruct (getEdges g) as (g1, es). cbn [fst snd] in *. rewrite (gi_n _ _ _ GI1).
  assert (G : forall vs (h : heap), In v vs -> exists h', mapM (siteTensor g1 es) vs h = (h', Err ValueError)).
  { induction vs as [|u vs IH]; intros h0 Hu; [destruct Hu|]. cbn [mapM]. destruct (incident u 0 (map bond_edge EE)) as [|e l] eqn:Eu.
    - assert (siteTensor g1 es u h0 = (h0, Err ValueError)) as X; [|unfold bind at 1; rewrite X; eauto].
      unfold siteTensor. unfold bind at 1, liftR at 1. rewrite (getWeights_ok n EE g1 GI1 u). unfold bind at 1, liftR at 1. rewrite (getLabels_ok n EE g1 GI1 es ES u).
      unfold IsingSiteTensor, degree. rewrite (gi_v _ _ _ GI1), Eu. reflexivity.
    - destruct (siteTensor_ok n EE g1 GI1 es ES h0 u) as (h1 & t & E1 & _); [congruence|]. destruct Hu as [->|Hu].
      + exfalso. assert (In e (incident v 0 (map bond_edge EE))) as X by (rewrite Eu; simpl; auto). apply inc_In in X as (Le & K). destruct (Iso _ _ _ (edge_In EE e Le)) as (I1 & I2). destruct K; congruence.
      + destruct (IH h1 Hu) as (h2 & E2). unfold bind at 1. rewrite E1. unfold bind at 1. rewrite E2. eauto. }
  destruct (G (seq 0 n) h) as (h' & E'); [apply in_seq; lia|]. unfold bind at 1. rewrite E'. reflexivity.
Qed.

(** ** a self-loop: both legs of the site have the same name, and the first is linked to itself *)
Theorem ising_loop (w : R) (h : heap) :
  exists h' ts g', IsingTNFromUndirectedGraph (run 1 [OEdge 0 0 w]) h = (h', Ok (ts, g')) /\ List.length (free_legs h' ts) = 2.
Proof.
  set (EE := [(0, 0, w)]). assert (E : added 1 [OEdge 0 0 w] = map bond_edge EE) by reflexivity. set (g := run 1 [OEdge 0 0 w]). pose proof (run_inv 1 [OEdge 0 0 w]) as GI. fold g in GI. rewrite E in GI.
  destruct (getEdges_complete 1 _ (run_refreshed 1 _ EE E)) as (ES & _). fold g in ES. rewrite E, map_length in ES. unfold IsingTNFromUndirectedGraph.
  pose proof (ginv_get _ _ _ GI) as GI1. pose proof (getEdges_twice g) as Tw. destruct (getEdges g) as (g1, es). cbn [fst snd] in *. pose proof (ginv_get _ _ _ GI1) as GI2. destruct (getEdges g1) as (g2, es2). cbn [fst snd] in *. subst es2.
  rewrite (gi_n _ _ _ GI1). assert (es = [0]) as -> by (apply Permutation_length_1_inv; symmetry; exact ES).
  destruct (siteTensor_ok 1 EE g1 GI1 [0] ES h 0 ltac:(discriminate)) as (h1 & t & E1 & NT & [W O Dg Lk Ln Nm Dm Fr _]).
  destruct (legs_of h1 t) as [|l1 [|l2 [|]]] eqn:EL; try discriminate. 
  assert (FN : first_named h1 t (NStr "0-0") l1).
  { exists [], [l2]. rewrite EL. split; [reflexivity|]. split; [|intros l' []]. unfold names_of in Nm. rewrite EL in Nm. cbn in Nm. injection Nm as Nm _. exact Nm. }
  exists (linked_heap h1 l1 l1), [t], g2. split.
  - assert (Y : mapM (siteTensor g1 [0]) (seq 0 1) h = (h1, Ok [t])) by (cbn [seq mapM]; unfold bind at 1; rewrite E1; reflexivity). unfold bind at 1. rewrite Y. cbv iota beta.
    assert (X : linkEdge g2 [0] [t] 0 h1 = (linked_heap h1 l1 l1, Ok tt)); [|cbn [iterM]; unfold bind; rewrite X; reflexivity].
    unfold linkEdge. unfold bind at 1, liftR at 1. rewrite (edgeOf_ok 1 EE g2 GI2 0) by (cbn; lia).
    change (mkEdge (ea EE 0) (Some (eb EE 0)) (ew EE 0)) with (mkEdge 0 (Some 0) w). cbn [e_a e_b]. unfold bind at 1, liftR at 1. change (getLegName [0] 0 (Some 0)) with (Ok "0-0"%string). cbv iota beta.
    unfold bind at 1, liftR at 1. cbv iota beta. cbn [nth_error]. unfold bind at 1, liftR at 1. cbv iota beta. unfold bind at 1, liftR at 1. cbv iota beta.
    assert (D1 : Forall2 (denotes h1 (Some t)) [RStr "0-0"] [Some l1]) by (constructor; [apply dn_name; exact FN|constructor]).
    unfold bind at 1. rewrite (makeLink_read h1 _ _ _ _ _ _ D1 D1 eq_refl). cbn [combine mapM]. unfold bind at 1. rewrite linkPair_ok by auto. reflexivity.
  - assert (LL : legs_of (linked_heap h1 l1 l1) t = [l1; l2]) by exact EL. unfold free_legs, all_legs. cbn [flat_map inner]. rewrite LL. cbn [app all_legs flat_map].
    assert (PB : pairs_between (linked_heap h1 l1 l1) [l1; l2] [] = []).
    { unfold pairs_between. cbn [flat_map]. destruct (partner (linked_heap h1 l1 l1) l1); destruct (partner (linked_heap h1 l1 l1) l2); reflexivity. }
    rewrite PB. reflexivity.
Qed.
