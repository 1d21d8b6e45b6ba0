(** Proofs about contractTwoTensors. *)
From Coq Require Import List Arith Bool Lia Permutation.
From Verif Require Import Base Sums NdModel HeapModel FuncsModel TensorModel TensorSpec ContractModel NetSpec
  FuncsProofs NdProofs TensorProofs LabelProofs MatrixProofs MergeProofs CtorProofs DiagCtorProofs
  ShareProofs SumpairsProofs.
Import ListNotations.
Local Open Scope nat_scope.

Section Ct.
Context {A : Type} {HA : SR A}.
Add Ring CtRing : (SR_theory (A := A)).
Notation heap := (heap A).

(** ** frames *)
Lemma wf_ob (h h' : heap) t : only_bonds h h' -> wf_tensor h t -> wf_tensor h' t.
Proof.
  intros O [a b c d e]. destruct O as [O1 O2 O3 O4 O5 O6 O7 O8].
  constructor; unfold legs_of, data_ok, dim_of in *; rewrite ?O1, ?O2, ?O3, ?O5; auto.
Qed.
Lemma wp_disj (h : heap) ta tb l : wf_pair h ta tb -> In l (legs_of h ta) -> ~ In l (legs_of h tb).
Proof. intros W H1 H2. exact (NoDup_app_disj _ _ l (wp_nodup _ _ _ W) H1 H2). Qed.
Lemma shared_fst (h : heap) ta tb : incl (map fst (shared h ta tb)) (legs_of h ta).
Proof. apply pairs_fst_incl. Qed.
Lemma shared_snd (h : heap) ta tb : incl (map snd (shared h ta tb)) (legs_of h tb).
Proof. apply pairs_snd_incl. Qed.
Lemma shared_fst_NoDup (h : heap) ta tb : wf_pair h ta tb -> NoDup (map fst (shared h ta tb)).
Proof. intros W. apply pairs_fst_NoDup. apply wt_nodup. apply W. Qed.
Lemma shared_snd_NoDup (h : heap) ta tb : wf_pair h ta tb -> NoDup (map snd (shared h ta tb)).
Proof. intros W. apply pairs_snd_NoDup; [apply wt_nodup|]; apply W. Qed.
Lemma shared_NoDup (h : heap) ta tb : wf_pair h ta tb -> NoDup (map fst (shared h ta tb) ++ map snd (shared h ta tb)).
Proof.
  intros W. apply NoDup_app_intro; auto using shared_fst_NoDup, shared_snd_NoDup.
  intros x H1 H2. apply (wp_disj _ _ _ x W); [now apply shared_fst in H1|now apply shared_snd in H2].
Qed.
Lemma shared_dim (h : heap) ta tb p : wf_pair h ta tb -> In p (shared h ta tb) -> dim_of h (fst p) = dim_of h (snd p).
Proof. intros W. apply pairs_dim. apply W. Qed.
Lemma shared_dims (h : heap) ta tb : wf_pair h ta tb -> 
  map (dim_of h) (map fst (shared h ta tb)) = map (dim_of h) (map snd (shared h ta tb)).
Proof. intros W. rewrite !map_map. apply map_ext_in. intros p Hp. now apply shared_dim with ta tb. Qed.
Lemma shared_ob (h h' : heap) ta tb : only_bonds h h' -> shared h' ta tb = shared h ta tb.
Proof.
  intros O. unfold shared, legs_of. rewrite (ob_tens _ _ O). apply pairs_kept. intros. now apply partner_ob.
Qed.
Lemma wf_pair_ob (h h' : heap) ta tb : only_bonds h h' -> wf_pair h ta tb -> wf_pair h' ta tb.
Proof.
  intros O [a b c d e]. constructor; eauto using wf_ob; unfold legs_of; rewrite (ob_tens _ _ O); auto.
  eapply links_ok_kept; [apply O| |exact e]. intros l _. unfold dim_of. rewrite (ob_legs _ _ O). auto.
Qed.
Lemma others_perm (cur ls : list lid) : NoDup cur -> NoDup ls -> incl ls cur -> Permutation (others cur ls ++ ls) cur.
Proof.
  intros H1 H2 H3. etransitivity; [apply Permutation_app_comm|]. apply rest_perm; auto.
Qed.
Lemma others_In (cur ls : list lid) l : In l (others cur ls) <-> In l cur /\ ~ In l ls.
Proof. unfold others. rewrite filter_In, negb_true_iff, inb_false. tauto. Qed.
Lemma NoDup_filter {X} (f : X -> bool) l : NoDup l -> NoDup (filter f l).
Proof.
  induction 1; simpl; [constructor|]. destruct (f x); auto. constructor; auto. rewrite filter_In. tauto.
Qed.
Lemma others_NoDup (cur ls : list lid) : NoDup cur -> NoDup (others cur ls).
Proof. apply NoDup_filter. Qed.

Lemma reordered_refl (h h' : heap) t : wf_tensor h' t -> tens h' t = tens h t -> reordered h h' t.
Proof.
  intros W E. constructor; unfold legs_of, entry; rewrite ?E; auto.
Qed.
Lemma wf_new (h h' : heap) tc L t : new_tensor h h' tc (Some L) -> wf_tensor h t -> wf_tensor h' t.
Proof.
  intros [a1 a2 a3 a4 a5 a6 a7 [a8 a9]] [b1 b2 b3 b4 b5].
  assert (forall l, dim_of h' l = dim_of h l) as Ed.
  { intros l. unfold dim_of. destruct (in_dec Nat.eq_dec l L) as [i|i]; [rewrite a8 by auto|rewrite a9 by auto]; reflexivity. }
  constructor; unfold legs_of in *; rewrite ?a5 by auto; auto; try lia.
  - intros l Hl. apply b3 in Hl. lia.
  - unfold data_ok in *. destruct (t_like (tens h t)), (t_arr (tens h t)); auto. destruct b4 as [c1 c2]. split; auto.
    rewrite c2. destruct (t_diag (tens h t)); auto. apply map_ext. auto.
  - intros D. destruct (b5 D) as [c1 c2]. split; auto. intros l Hl. rewrite Ed. auto.
Qed.
Lemma wf_new0 (h h' : heap) tc t : new_tensor h h' tc None -> wf_tensor h t -> wf_tensor h' t.
Proof.
  intros [a1 a2 a3 a4 a5 a6 a7 (a8 & a9 & a10)] [b1 b2 b3 b4 b5].
  assert (forall l, In l (t_legs (tens h t)) -> dim_of h' l = dim_of h l) as Ed.
  { intros l Hl. unfold dim_of. rewrite a8; auto. }
  constructor; unfold legs_of in *; rewrite ?a5 by auto; auto; try lia.
  - intros l Hl. apply b3 in Hl. lia.
  - unfold data_ok in *. destruct (t_like (tens h t)), (t_arr (tens h t)); auto. destruct b4 as [c1 c2]. split; auto.
    rewrite c2. destruct (t_diag (tens h t)); auto. apply map_ext_in. intros. symmetry. auto.
  - intros D. destruct (b5 D) as [c1 c2]. split; auto. intros l Hl. rewrite Ed; auto.
Qed.

Lemma reordered_ot (h h' : heap) t : only_tensor h h' t -> wf_tensor h' t ->
  Permutation (legs_of h' t) (legs_of h t) -> t_diag (tens h' t) = t_diag (tens h t) -> t_like (tens h' t) = t_like (tens h t) ->
  t_len (tens h' t) = t_len (tens h t) -> t_name (tens h' t) = t_name (tens h t) ->
  (forall s, in_bounds h (legs_of h t) s -> entry h' t s = entry h t s) -> reordered h h' t.
Proof. intros. constructor; auto. Qed.

(** the shape of every contraction: swap bond ends (h -> h1), maybe reorder tb (h1 -> h2), make the tensor *)
Lemma contracted_intro (h h1 h2 h' : heap) ta tb tc L : wf_pair h ta tb -> only_bonds h h1 ->
  only_tensor h1 h2 tb -> reordered h1 h2 tb -> 
  new_tensor h2 h' tc (Some L) -> wf_tensor h' tc -> owned h' tc -> legs_of h' tc = L -> 
  contracted h h' ta tb tc L.
Proof.
  intros [wa wb ne nd lk] [o1 o2 o3 o4 o5 o6 o7 o8] [p1 p2 p3 p4 p5 p6 p7 p8] R NT W O EL.
  assert (W2 : wf_tensor h2 tb) by apply R.
  pose proof NT as [a1 a2 a3 a4 a5 a6 a7 [a8 a9]].
  assert (T : forall t, t < ntens h -> t <> tb -> tens h' t = tens h t).
  { intros t Ht N. rewrite a5 by congruence. rewrite p3 by auto. congruence. }
  assert (Eb : tens h' tb = tens h2 tb) by (apply a5; rewrite p6, o5; apply wb).
  assert (wa1 : wf_tensor h1 ta) by (eapply wf_ob; [constructor; eauto|auto]).
  assert (wa2 : wf_tensor h2 ta).
  { destruct wa1 as [b1 b2 b3 b4 b5]. constructor; unfold legs_of, data_ok, dim_of in *; rewrite ?p3 by auto; rewrite ?p1, ?p4, ?p6; auto. }
  constructor; auto; try congruence.
  - rewrite a7, p4, o3. simpl. lia.
  - apply bonds_kept_trans with h1; auto. apply bonds_kept_eq. congruence.
  - intros l Hl. rewrite a8 by auto. rewrite p1, o1. reflexivity.
  - intros l _ Hl. rewrite a9 by auto. rewrite p1, o1. reflexivity.
  - apply reordered_refl; [eapply wf_new; eauto|]. apply T; auto. apply wa.
  - destruct R as [r1 r2 r3 r4 r5 r6 r7]. constructor; unfold legs_of, entry in *; rewrite ?Eb; try congruence.
    + eapply wf_new; eauto.
    + intros s Hs. rewrite r7; [unfold entry; now rewrite o2|]. unfold in_bounds, dim_of in *. now rewrite o1, o2.
Qed.

(** ** dense times dense *)
Lemma wf_arr_dense (h : heap) t : wf_tensor h t -> t_like (tens h t) = false -> t_diag (tens h t) = false ->
  exists a, t_arr (tens h t) = Some a /\ wfa a /\ ashape a = map (dim_of h) (legs_of h t).
Proof. intros W L D. destruct (wf_arr h t W L) as (a & H1 & H2 & H3). rewrite D in H3. eauto. Qed.
Lemma wf_arr_diag (h : heap) t : wf_tensor h t -> t_like (tens h t) = false -> t_diag (tens h t) = true -> legs_of h t <> [] ->
  exists a, t_arr (tens h t) = Some a /\ wfa a /\ ashape a = [t_len (tens h t)].
Proof. intros W L D N. destruct (wf_arr h t W L) as (a & H1 & H2 & H3). rewrite D in H3. destruct (legs_of h t); [congruence|eauto]. Qed.

Lemma toMatrix_split (h : heap) t rows cols rl cl : wf_tensor h t -> t_like (tens h t) = false ->
  split_of h t rows cols rl cl ->
  exists m, toMatrix h t rows cols = Ok m /\ wfa m /\
      ashape m = [prodn (map (dim_of h) rl); prodn (map (dim_of h) cl)] /\
      forall s, in_bounds h (legs_of h t) s ->
        aget m [ravel (map (dim_of h) rl) (map s rl); ravel (map (dim_of h) cl) (map s cl)] = entry h t s.
Proof.
  intros W L S. pose proof (toMatrix_spec h t rows cols W L) as T. destruct (toMatrix h t rows cols) as [m|e].
  - destruct T as (rl' & cl' & S' & H). destruct (split_unique _ _ _ _ _ _ _ _ S S') as [<- <-]. eauto.
  - now apply T in S.
Qed.

(** the new dense tensor and its entries *)
Lemma mkDense_legs (h : heap) L (a : arr A) labs sh : NoDup L -> (forall l, In l L -> l < nleg h) -> wfa a -> 
  prodn (ashape a) = prodn (map (dim_of h) L) ->
  match sh with Some s => s = map (dim_of h) L | None => True end ->
  match labs with Some n => n = map (fun x => l_name (legs h x)) L | None => True end ->
  exists h' tc, mkDense sh labs (Some a) None (Some L) false h = (h', Ok tc) /\
    new_tensor h h' tc (Some L) /\ wf_tensor h' tc /\ owned h' tc /\ legs_of h' tc = L /\
    t_diag (tens h' tc) = false /\ t_like (tens h' tc) = false /\ t_name (tens h' tc) = None /\
    forall s, entry h' tc s = nth (ravel (map (dim_of h) L) (map s L)) (adata a) r0.
Proof.
  intros HN HA' Wa Es Hs Hl.
  pose proof (mkDense_spec h sh labs (Some a) None (Some L) false) as M.
  assert (AW : args_wf h (Some a) (Some L)) by (constructor; auto).
  specialize (M AW). destruct (mkDense sh labs (Some a) None (Some L) false h) as [h' [tc|e]].
  - destruct M as (_ & NT & W & O & D & K & N & EL & _ & Esh & _ & Ed). exists h', tc.
    specialize (EL L eq_refl). repeat (split; [now auto|]).
    destruct (Ed a eq_refl eq_refl) as (a' & Ea' & Ed').
    intros s. unfold entry, entry_of. rewrite Ea', D.
    destruct (wf_arr_dense _ _ W K D) as (a2 & Ea2 & _ & Sa2). rewrite Ea' in Ea2. injection Ea2 as <-.
    unfold aget. rewrite Sa2, Ed'. fold (legs_of h' tc). rewrite EL. f_equal. f_equal.
    apply map_ext_in. intros l Hl'. unfold dim_of. destruct NT as [_ _ _ _ _ _ _ [n1 _]]. rewrite n1 by auto. reflexivity.
  - exfalso. destruct M as (_ & M & _). apply M. simpl. auto.
Qed.
Lemma mkDense_legs_like (h : heap) L labs sh : NoDup L -> (forall l, In l L -> l < nleg h) -> 
  match sh with Some s => s = map (dim_of h) L | None => True end ->
  match labs with Some n => n = map (fun x => l_name (legs h x)) L | None => True end ->
  exists h' tc, mkDense sh labs None None (Some L) true h = (h', Ok tc) /\
    new_tensor h h' tc (Some L) /\ wf_tensor h' tc /\ owned h' tc /\ legs_of h' tc = L /\
    t_diag (tens h' tc) = false /\ t_like (tens h' tc) = true /\ t_name (tens h' tc) = None.
Proof.
  intros HN HA' Hs Hl.
  pose proof (mkDense_spec h sh labs None None (Some L) true) as M.
  assert (AW : args_wf h None (Some L)) by (constructor; simpl; auto).
  specialize (M AW). destruct (mkDense sh labs None None (Some L) true h) as [h' [tc|e]].
  - destruct M as (_ & NT & W & O & D & K & N & EL & _ & Esh & _ & Ed). exists h', tc.
    specialize (EL L eq_refl). repeat (split; [now auto|]). auto.
  - exfalso. destruct M as (_ & M & _). apply M. simpl. auto.
Qed.

Lemma rest_alloc (h : heap) ta tb : wf_pair h ta tb -> 
  NoDup (restA h ta tb ++ restB h ta tb) /\ (forall l, In l (restA h ta tb ++ restB h ta tb) -> l < nleg h).
Proof.
  intros W. split.
  - apply NoDup_app_intro; try (apply others_NoDup, wt_nodup, W).
    intros x H1 H2. apply others_In in H1. apply others_In in H2. apply (wp_disj _ _ _ x W); tauto.
  - intros l Hl. apply in_app_iff in Hl. destruct Hl as [Hl|Hl]; apply others_In in Hl; destruct Hl as [Hl _].
    + exact (wt_alloc _ _ (wp_a _ _ _ W) l Hl).
    + exact (wt_alloc _ _ (wp_b _ _ _ W) l Hl).
Qed.

(** the assignment used in the sum is in range on all legs of both tensors *)
Lemma shared_bounds (h : heap) ta tb idx s : wf_pair h ta tb ->
  in_bounds h (restA h ta tb ++ restB h ta tb) s -> inrange (map (fun p => dim_of h (fst p)) (shared h ta tb)) idx ->
  in_bounds h (legs_of h ta) (assign (shared h ta tb) idx s) /\ in_bounds h (legs_of h tb) (assign (shared h ta tb) idx s).
Proof.
  intros W Hs Hi.
  assert (G : forall L, (forall l, In l L -> In l (legs_of h ta) \/ In l (legs_of h tb)) ->
            in_bounds h L (assign (shared h ta tb) idx s)).
  { intros L HL l Hl. apply (assign_in_bounds (shared h ta tb) idx s (dim_of h) L); auto using shared_NoDup.
    - intros p Hp. now apply shared_dim with ta tb.
    - intros x Hx N1 N2. apply Hs. apply in_app_iff. destruct (HL x Hx); [left|right]; apply others_In; auto. }
  split; apply G; auto.
Qed.
Lemma assign_rest (h : heap) ta tb idx s : wf_pair h ta tb -> 
  map (assign (shared h ta tb) idx s) (restA h ta tb) = map s (restA h ta tb) /\
  map (assign (shared h ta tb) idx s) (restB h ta tb) = map s (restB h ta tb).
Proof.
  intros W. split; apply map_ext_in; intros l Hl; apply others_In in Hl; destruct Hl as [H1 H2]; apply assign_notin; auto.
  - intros C. apply shared_snd in C. now apply (wp_disj _ _ _ l W) in C.
  - intros C. apply shared_fst in C. now apply (wp_disj _ _ _ l W) in C.
Qed.

Lemma contractBonds_dense (h h1 : heap) ta tb bs : wf_pair h ta tb -> only_bonds h h1 ->
  t_like (tens h ta) = false -> t_like (tens h tb) = false -> t_diag (tens h ta) = false -> t_diag (tens h tb) = false ->
  map (fun b => b0 (bonds h1 b)) bs = map fst (shared h ta tb) ->
  map (fun b => b1 (bonds h1 b)) bs = map snd (shared h ta tb) -> shared h ta tb <> [] ->
  exists h' tc, contractBonds ta tb false bs h1 = (h', Ok tc) /\
    contracted h h' ta tb tc (restA h ta tb ++ restB h ta tb) /\ 
    t_diag (tens h' tc) = false /\ t_like (tens h' tc) = false /\
    forall s, in_bounds h (restA h ta tb ++ restB h ta tb) s -> entry h' tc s = einsum h ta tb s.
Proof.
  intros W O La Lb Da Db E0 E1 NE.
  pose proof (wf_pair_ob _ _ _ _ O W) as W1. pose proof (shared_ob _ _ ta tb O) as ES.
  assert (ET : tens h1 = tens h) by apply O.
  set (P := shared h ta tb) in *.
  unfold contractBonds. unfold bind at 1, reads at 1. unfold bind at 1, reads at 1. rewrite E0, E1.
  unfold bind at 1, readsR at 1. unfold complementLegs at 1.
  change (tlegs h1 ta) with (legs_of h1 ta).
  assert (F1 : listDifference (legs_of h1 ta) (map fst P) = Ok (restA h ta tb)).
  { rewrite listDifference_NoDup; [unfold restA, legs_of; now rewrite ET|apply wt_nodup, W1|apply shared_fst_NoDup; auto|].
    unfold legs_of. rewrite ET. apply shared_fst. }
  assert (F2 : listDifference (legs_of h1 tb) (map snd P) = Ok (restB h ta tb)).
  { rewrite listDifference_NoDup; [unfold restB, legs_of; now rewrite ET|apply wt_nodup, W1|apply shared_snd_NoDup; auto|].
    unfold legs_of. rewrite ET. apply shared_snd. }
  rewrite F1. unfold bind at 1, readsR at 1. unfold complementLegs at 1.
  change (tlegs h1 tb) with (legs_of h1 tb). rewrite F2.
  unfold bind at 1, reads at 1. unfold bind at 1, reads at 1. unfold bind at 1, reads at 1. rewrite ET, Da, Db. cbn [andb].
  assert (RA : refs_are h1 ta (map RLeg (map fst P)) (map fst P)).
  { split; auto. destruct P; [congruence|discriminate]. }
  assert (RB : refs_are h1 tb (map RLeg (map snd P)) (map snd P)).
  { split; auto. destruct P; [congruence|discriminate]. }
  assert (SA : split_of h1 ta None (Some (map RLeg (map fst P))) (restA h ta tb) (map fst P)).
  { replace (restA h ta tb) with (others (legs_of h1 ta) (map fst P)) by (unfold restA, legs_of; now rewrite ET).
    constructor; auto; [apply shared_fst_NoDup; auto|unfold legs_of; rewrite ET; apply shared_fst]. }
  assert (SB : split_of h1 tb (Some (map RLeg (map snd P))) None (map snd P) (restB h ta tb)).
  { replace (restB h ta tb) with (others (legs_of h1 tb) (map snd P)) by (unfold restB, legs_of; now rewrite ET).
    constructor; auto; [apply shared_snd_NoDup; auto|unfold legs_of; rewrite ET; apply shared_snd]. }
  destruct (toMatrix_split _ _ _ _ _ _ (wp_a _ _ _ W1) ltac:(now rewrite ET) SA) as (mA & EA & WA & ShA & GA).
  destruct (toMatrix_split _ _ _ _ _ _ (wp_b _ _ _ W1) ltac:(now rewrite ET) SB) as (mB & EB & WB & ShB & GB).
  unfold bind at 1, readsR at 1. rewrite EA. unfold bind at 1, readsR at 1. rewrite EB.
  assert (Edim : forall l, dim_of h1 l = dim_of h l) by (intros; unfold dim_of; now rewrite (ob_legs _ _ O)).
  assert (EdimM : forall L, map (dim_of h1) L = map (dim_of h) L) by (intros; apply map_ext; auto).
  assert (EdimL : forall L, map (legdim h1) L = map (dim_of h) L) by (intros; apply map_ext; intros; apply Edim).
  rewrite EdimM in *. rewrite EdimM in *. unfold P in ShB. rewrite <- (shared_dims h ta tb W) in ShB. fold P in ShB.
  destruct (matmul_spec _ _ _ _ _ ShA ShB) as (m & Em & Wm & Sm & Gm).
  unfold bind at 1, liftR at 1. rewrite Em. unfold bind at 1, liftR at 1. rewrite ?EdimL.
  unfold np_reshape. rewrite Wm, Sm. rewrite map_app, prodn_app. cbn [prodn fold_right]. rewrite Nat.mul_1_r, Nat.eqb_refl.
  destruct (rest_alloc h ta tb W) as [RN RL].
  destruct (mkDense_legs h1 (restA h ta tb ++ restB h ta tb) 
     (mkArr (map (dim_of h) (restA h ta tb) ++ map (dim_of h) (restB h ta tb)) (adata m)) None
     (Some (map (dim_of h) (restA h ta tb) ++ map (dim_of h) (restB h ta tb)))) as (h' & tc & Ec & NT & Wc & Oc & Lc & Dc & Kc & _ & Hc); auto.
  { intros l Hl. rewrite (ob_nleg _ _ O). auto. }
  { unfold wfa. simpl. rewrite Wm, Sm, prodn_app. simpl. lia. }
  { simpl. rewrite map_app, !EdimM. auto. }
  { rewrite map_app, !EdimM. auto. }
  exists h', tc. split; [exact Ec|]. split; [|split; [auto|split; [auto|]]].
  - eapply contracted_intro; eauto using only_tensor_refl. apply reordered_refl; [apply W1|auto].
  - intros s Hs. rewrite Hc. cbn [adata]. unfold einsum. fold P.
    rewrite sumpairs_indices.
    transitivity (aget m [ravel (map (dim_of h) (restA h ta tb)) (map s (restA h ta tb));
                          ravel (map (dim_of h) (restB h ta tb)) (map s (restB h ta tb))]).
    { unfold aget. rewrite Sm. f_equal. rewrite !map_app, !EdimM. rewrite ravel_app by now rewrite !map_length.
      cbn [ravel prodn fold_right]. lia. }
    rewrite Gm.
    2:{ apply ravel_lt, inrange_map. intros l Hl. apply Hs. apply in_app_iff; auto. }
    2:{ apply ravel_lt, inrange_map. intros l Hl. apply Hs. apply in_app_iff; auto. }
    rewrite sumN_indices. rewrite (map_map fst (dim_of h)). apply sumL_ext. intros idx Hi. apply indices_In in Hi.
    destruct (shared_bounds h ta tb idx s W Hs Hi) as [BA BB].
    destruct (assign_rest h ta tb idx s W) as [RA' RB']. fold P in BA, BB, RA', RB'.
    destruct (assign_fst P idx s (shared_NoDup _ _ _ W)) as [AF AS].
    { apply inrange_length in Hi. now rewrite map_length in Hi. }
    unfold in_bounds in GA, GB.
    assert (BA' : in_bounds h1 (legs_of h1 ta) (assign P idx s)).
    { unfold in_bounds, legs_of. rewrite ET. intros l Hl. rewrite Edim. now apply BA. }
    assert (BB' : in_bounds h1 (legs_of h1 tb) (assign P idx s)).
    { unfold in_bounds, legs_of. rewrite ET. intros l Hl. rewrite Edim. now apply BB. }
    specialize (GA _ BA'). specialize (GB _ BB'). rewrite ?EdimM in GA, GB.
    rewrite RA', AF in GA. rewrite RB', AS in GB. unfold P in GB. rewrite <- (shared_dims h ta tb W) in GB. fold P in GB.
    unfold entry in GA, GB |- *. rewrite ET in GA, GB. rewrite <- GA, <- GB.
    rewrite !(map_map fst (dim_of h)). reflexivity.
Qed.
End Ct.
