(** Proofs about contraction costs and contraction sequences. *)
From Coq Require Import List Arith Bool Lia Permutation ZArith.
From Verif Require Import Base Sums NdModel HeapModel FuncsModel TensorModel TensorSpec ContractModel NetSpec
  FuncsProofs NdProofs TensorProofs MatrixProofs MergeProofs ShareProofs SumpairsProofs ContractProofs DiagContractProofs OneDiagProofs OuterProofs NetProofs.
Import ListNotations.
Local Open Scope nat_scope.

Lemma prodn_perm l l' : Permutation l l' -> prodn l = prodn l'.
Proof. induction 1; simpl; lia. Qed.
Lemma Forall2_perm {X Y} (R : X -> Y -> Prop) l l' : Permutation l l' -> forall m, Forall2 R l m -> exists m', Permutation m m' /\ Forall2 R l' m'.
Proof.
  induction 1; intros m F.
  - inversion F; subst. exists []. auto.
  - inversion F; subst. destruct (IHPermutation _ H4) as (m' & P & F'). exists (y :: m'). auto.
  - inversion F; subst. inversion H3; subst. exists (y1 :: y0 :: l'0). split; auto. constructor.
  - destruct (IHPermutation1 _ F) as (m1 & P1 & F1). destruct (IHPermutation2 _ F1) as (m2 & P2 & F2). exists m2. split; auto. now transitivity m1.
Qed.
Lemma nth_set_nth {X} k (v : X) : forall l i, i < List.length l -> nth_error (set_nth k v l) i = if Nat.eqb i k then Some v else nth_error l i.
Proof.
  induction k as [|k IH]; intros [|x l] [|i] H; simpl in *; try lia; auto.
  - destruct (Nat.eqb_spec i k); rewrite IH by lia; destruct (Nat.eqb_spec i k); auto; contradiction.
Qed.

Section Sq.
Context {A : Type} {HA : SR A}.
Add Ring SqRing : (SR_theory (A := A)).
Notation heap := (heap A).

Lemma contract_any (h : heap) ta tb : wf_pair h ta tb -> t_like (tens h ta) = false -> t_like (tens h tb) = false ->
  contractible h ta tb -> exists L, Permutation L (restA h ta tb ++ restB h ta tb) /\
    contracts_to h (contractTwoTensors ta tb h) ta tb L (t_diag (tens h ta) && t_diag (tens h tb)).
Proof.
  intros W La Lb (C1 & C2 & C3). destruct (t_diag (tens h ta)) eqn:Da, (t_diag (tens h tb)) eqn:Db; cbn [andb].
  - eexists. split; [reflexivity|]. apply contract_diag2; auto.
  - eexists. split; [|apply contract_diag_left; auto].
    destruct (shared h ta tb) eqn:ES; [|apply Permutation_app_comm].
    destruct (shared_nil_rest h ta tb ES) as [-> ->]. reflexivity.
  - eexists. split; [|apply contract_diag_right; auto].
    destruct (shared h ta tb) eqn:ES; [|reflexivity].
    destruct (shared_nil_rest h ta tb ES) as [-> ->]. apply Permutation_app_comm.
  - eexists. split; [reflexivity|]. apply contract_dense; auto.
Qed.

(** exactly one TensorLike *)
Lemma contract_mixed (h : heap) ta tb : wf_pair h ta tb -> t_like (tens h ta) <> t_like (tens h tb) ->
  exists h', contractTwoTensors ta tb h = (h', Err TypeError) /\ only_bonds h h'.
Proof.
  intros W N.
  assert (G : forall x y, wf_pair h x y -> t_like (tens h x) <> t_like (tens h y) -> exists h', contractOrdered x y h = (h', Err TypeError) /\ only_bonds h h').
  { clear. intros x y W N. destruct (shareBonds_pair h x y W) as (h1 & bs & E & O & _). exists h1. split; auto.
    unfold contractOrdered, bind at 1. rewrite E. unfold bind at 1, reads at 1. unfold bind at 1, reads at 1.
    rewrite (ob_tens _ _ O). destruct (t_like (tens h x)), (t_like (tens h y)); try congruence; reflexivity. }
  unfold contractTwoTensors, bind, reads. destruct (negb _ && _); apply G; auto. now apply wf_pair_sym.
Qed.

(** ** cost *)
Lemma size_split (h : heap) ta tb : wf_pair h ta tb ->
  prodn (dims_of h ta) = prodn (map (dim_of h) (restA h ta tb)) * prodn (map (dim_of h) (map fst (shared h ta tb))) /\
  prodn (dims_of h tb) = prodn (map (dim_of h) (restB h ta tb)) * prodn (map (dim_of h) (map fst (shared h ta tb))).
Proof.
  intros W. unfold dims_of. split.
  - rewrite <- prodn_app, <- map_app. apply prodn_perm, Permutation_map. symmetry. apply others_perm.
    + apply W. + now apply shared_fst_NoDup. + apply shared_fst.
  - rewrite shared_dims by auto. rewrite <- prodn_app, <- map_app. apply prodn_perm, Permutation_map. symmetry. apply others_perm.
    + apply wt_nodup, W. + now apply shared_snd_NoDup. + apply shared_snd.
Qed.
Lemma len_split (h : heap) ta tb : wf_pair h ta tb ->
  List.length (legs_of h ta) = List.length (restA h ta tb) + List.length (shared h ta tb) /\
  List.length (legs_of h tb) = List.length (restB h ta tb) + List.length (shared h ta tb).
Proof.
  intros W. split.
  - rewrite <- (map_length fst (shared h ta tb)), <- app_length. apply Permutation_length. symmetry. apply others_perm.
    + apply W. + now apply shared_fst_NoDup. + apply shared_fst.
  - rewrite <- (map_length snd (shared h ta tb)), <- app_length. apply Permutation_length. symmetry. apply others_perm.
    + apply wt_nodup, W. + now apply shared_snd_NoDup. + apply shared_snd.
Qed.

Definition pair_cost (h : heap) (ta tb : tid) : nat :=
  let size L := prodn (map (dim_of h) L) in
  match t_diag (tens h ta), t_diag (tens h tb) with
  | true, true => t_len (tens h ta)
  | false, false => size (restA h ta tb ++ map fst (shared h ta tb) ++ restB h ta tb)
  | _, _ => size (restA h ta tb ++ restB h ta tb)
  end.
Definition pair_level (h : heap) (ta tb : tid) : nat :=
  match t_diag (tens h ta), t_diag (tens h tb) with
  | true, true => 1
  | false, false => List.length (restA h ta tb ++ map fst (shared h ta tb) ++ restB h ta tb)
  | _, _ => List.length (restA h ta tb ++ restB h ta tb)
  end.

Lemma contractCost_ok (h : heap) ta tb : wf_pair h ta tb -> 
  (forall p, In p (shared h ta tb) -> 0 < dim_of h (fst p)) ->
  exists h', contractCost ta tb h = (h', Ok (pair_cost h ta tb, Z.of_nat (pair_level h ta tb))) /\ only_bonds h h'.
Proof.
  intros W Pos. unfold contractCost, pair_cost, pair_level. unfold bind at 1, reads at 1. unfold bind at 1, reads at 1.
  destruct (t_diag (tens h ta)) eqn:Da, (t_diag (tens h tb)) eqn:Db; cbn [andb orb negb].
  1:{ unfold bind, readsR, bondDimension. rewrite Da. exists h. split; [reflexivity|apply only_bonds_refl]. }
  all: destruct (shareBonds_pair h ta tb W) as (h1 & bs & E & O & E0 & E1 & EN); exists h1; split; auto;
    unfold bind at 1; rewrite E; unfold bind at 1, reads at 1; unfold bind at 1, reads at 1; unfold bind at 1, reads at 1;
    rewrite <- (map_map (fun b => b0 (bonds h1 b)) (legdim h1)), E0, !(shape_ob h h1) by (auto; apply W);
    assert (ED : map (legdim h1) (map fst (shared h ta tb)) = map (dim_of h) (map fst (shared h ta tb))) by (unfold legdim, dim_of; now rewrite (ob_legs _ _ O));
    rewrite ED; set (k := prodn (map (dim_of h) (map fst (shared h ta tb)))); 
    assert (Pk : 0 < k) by (apply prodn_pos; intros x Hx; rewrite map_map in Hx; apply in_map_iff in Hx; destruct Hx as (p & <- & Hp); auto);
    destruct (size_split h ta tb W) as [S1 S2]; unfold dims_of in S1, S2; fold k in S1, S2; rewrite S1, S2;
    destruct (len_split h ta tb W) as [L1 L2]; rewrite !map_length, L1, L2; 
    rewrite ?Nat.pow_1_r, ?Nat.pow_2_r;
    set (x := prodn (map (dim_of h) (restA h ta tb))); set (y := prodn (map (dim_of h) (restB h ta tb))).
  - destruct (Nat.eqb_spec (k * k) 0) as [Z|_]; [destruct k; simpl in Z; lia|]. unfold ret. f_equal. f_equal. f_equal.
    + rewrite map_app, prodn_app. fold x y. replace (x * k * (y * k)) with (x * y * (k * k)) by ring. apply Nat.div_mul. destruct k; simpl; lia.
    + rewrite app_length. lia.
  - destruct (Nat.eqb_spec (k * k) 0) as [Z|_]; [destruct k; simpl in Z; lia|]. unfold ret. f_equal. f_equal. f_equal.
    + rewrite map_app, prodn_app. fold x y. replace (x * k * (y * k)) with (x * y * (k * k)) by ring. apply Nat.div_mul. destruct k; simpl; lia.
    + rewrite app_length. lia.
  - destruct (Nat.eqb_spec k 0) as [Z|_]; [lia|]. unfold ret. f_equal. f_equal. f_equal.
    + rewrite !map_app, !prodn_app. fold x y k. replace (x * k * (y * k)) with (x * (k * y) * k) by ring. apply Nat.div_mul. lia.
    + rewrite !app_length, map_length. lia.
Qed.
(** a shared bond of dimension 0 *)
Lemma contractCost_zero (h : heap) ta tb : wf_pair h ta tb -> t_diag (tens h ta) && t_diag (tens h tb) = false ->
  (exists p, In p (shared h ta tb) /\ dim_of h (fst p) = 0) ->
  exists h', contractCost ta tb h = (h', Err ZeroDivisionError) /\ only_bonds h h'.
Proof.
  intros W D (p & Hp & Zp). unfold contractCost. unfold bind at 1, reads at 1. unfold bind at 1, reads at 1. rewrite D.
  destruct (shareBonds_pair h ta tb W) as (h1 & bs & E & O & E0 & E1 & EN); exists h1; split; auto.
  unfold bind at 1. rewrite E. unfold bind at 1, reads at 1. unfold bind at 1, reads at 1. unfold bind at 1, reads at 1.
  rewrite <- (map_map (fun b => b0 (bonds h1 b)) (legdim h1)), E0.
  assert (prodn (map (legdim h1) (map fst (shared h ta tb))) = 0) as ->.
  { assert (In 0 (map (legdim h1) (map fst (shared h ta tb)))) as I.
    { rewrite <- Zp. rewrite map_map. apply in_map_iff. exists p. split; auto. unfold legdim, dim_of. now rewrite (ob_legs _ _ O). }
    clear - I. induction (map (legdim h1) (map fst (shared h ta tb))) as [|a l IH]; [destruct I|]. simpl. destruct I as [->|I]; auto. rewrite IH by auto. lia. }
  destruct (negb _); reflexivity.
Qed.

(** ** networks and only_bonds *)
Lemma wf_net_ob (h h' : heap) ts : only_bonds h h' -> wf_net h ts -> wf_net h' ts.
Proof.
  intros O [W1 W2 W3 W4 W5]. assert (EL : forall t, legs_of h' t = legs_of h t) by (intros; unfold legs_of; now rewrite (ob_tens _ _ O)).
  assert (EA : all_legs h' ts = all_legs h ts) by (unfold all_legs; apply flat_map_ext; auto).
  constructor; auto.
  - intros t Ht. eapply wf_ob; eauto.
  - intros t Ht l Hl. rewrite (ob_legs _ _ O). apply W2; auto. now rewrite EL in Hl.
  - now rewrite EA.
  - rewrite EA. apply (links_ok_kept h h'); auto; [apply O|]. intros l _. unfold dim_of. rewrite (ob_legs _ _ O). auto.
Qed.
Lemma inner_ob (h h' : heap) ts : only_bonds h h' -> inner h' ts = inner h ts.
Proof.
  intros O. assert (EL : forall t, legs_of h' t = legs_of h t) by (intros; unfold legs_of; now rewrite (ob_tens _ _ O)).
  assert (EA : forall ts, all_legs h' ts = all_legs h ts) by (intros; unfold all_legs; apply flat_map_ext; auto).
  induction ts as [|t ts IH]; simpl; auto. rewrite IH, EL, EA. f_equal. apply pairs_kept. intros; now apply partner_ob.
Qed.
Lemma free_ob (h h' : heap) ts : only_bonds h h' -> free_legs h' ts = free_legs h ts.
Proof.
  intros O. assert (EL : forall t, legs_of h' t = legs_of h t) by (intros; unfold legs_of; now rewrite (ob_tens _ _ O)).
  assert (EA : forall ts, all_legs h' ts = all_legs h ts) by (intros; unfold all_legs; apply flat_map_ext; auto).
  unfold free_legs. now rewrite EA, (inner_ob h h' ts O).
Qed.
Lemma netval_ob (h h' : heap) ts s : only_bonds h h' -> netval h' ts s = netval h ts s.
Proof.
  intros O. unfold netval. rewrite (inner_ob h h' ts O). unfold dim_of. rewrite (ob_legs _ _ O).
  apply sumpairs_ext. intros s'. induction ts as [|t ts IH]; simpl; auto. rewrite IH. unfold entry. now rewrite (ob_tens _ _ O).
Qed.
Lemma linked_ob (h h' : heap) l l' : only_bonds h h' -> linked h' l l' <-> linked h l l'.
Proof. intros O. rewrite <- !partner_Some. now rewrite (partner_ob h h' l O). Qed.

Lemma wf_net_sub (h : heap) G R ts : Permutation (G ++ R) ts -> wf_net h ts -> wf_net h G.
Proof.
  intros P W. symmetry in P. pose proof (wf_net_perm h _ _ P W) as [W1 W2 W3 W4 W5]. rewrite all_legs_app in W4, W5. constructor.
  - intros t Ht. apply W1. apply in_app_iff; auto.
  - intros t Ht. apply W2. apply in_app_iff; auto.
  - now apply NoDup_app_l in W3.
  - now apply NoDup_app_l in W4.
  - eapply links_ok_incl; [|exact W5]. apply incl_appl, incl_refl.
Qed.
Lemma inner_link_mono (h : heap) ts ts' l l' : incl ts ts' -> inner_link h ts l l' -> inner_link h ts' l l'.
Proof. intros I (t & t' & H & H' & R). exists t, t'. auto. Qed.

(** ** the invariant *)
Definition grp_is (lk : bool) (h hc : heap) (G : list tid) (c : tid) : Prop :=
  t_like (tens hc c) = lk /\ t_diag (tens hc c) = all_diag h G /\ Permutation (legs_of hc c) (free_legs h G).
(** [lk]: the tensors are TensorLikes; [vok]: the value is tracked as well *)
Record seq_inv (lk : bool) (vok : Prop) (h : heap) (ts : list tid) (hc : heap) (cur : list tid) (gs : list (nat * list tid)) (cs : list tid) : Prop := {
  si_pos : Forall2 (fun g c => nth_error cur (fst g) = Some c) gs cs;
  si_grp : Forall2 (fun g c => grp_is lk h hc (snd g) c) gs cs;
  si_nodup : NoDup (map fst gs);
  si_part : Permutation (List.concat (map snd gs)) ts;
  si_wf : wf_net hc cs;
  si_free : Permutation (free_legs hc cs) (free_legs h ts);
  si_val : vok -> forall s, in_bounds h (free_legs h ts) s -> netval hc cs s = netval h ts s;
  si_legs : forall l, l < nleg h -> l_bond (legs hc l) = l_bond (legs h l) /\ dim_of hc l = dim_of h l /\ l_name (legs hc l) = l_name (legs h l);
  si_bonds : bonds_kept h hc;
  si_nleg : nleg hc = nleg h }.

Lemma inv_linked lk vok (h hc : heap) ts cur gs cs l l' : seq_inv lk vok h ts hc cur gs cs -> l < nleg h -> linked hc l l' <-> linked h l l'.
Proof.
  intros I Hl. rewrite <- !partner_Some. now rewrite (partner_kept h hc l (si_bonds _ _ _ _ _ _ _ _ I) (proj1 (si_legs _ _ _ _ _ _ _ _ I l Hl))).
Qed.

Lemma inv_ob lk vok (h hc hc' : heap) ts cur gs cs : only_bonds hc hc' -> seq_inv lk vok h ts hc cur gs cs -> seq_inv lk vok h ts hc' cur gs cs.
Proof.
  intros O [I1 I2 I3 I4 I5 I6 I7 I8 I9 I10]. constructor; auto.
  - clear - I2 O. induction I2; constructor; auto. unfold grp_is, legs_of in *. now rewrite (ob_tens _ _ O).
  - eapply wf_net_ob; eauto.
  - now rewrite (free_ob hc hc' cs O).
  - intros V s Hs. rewrite (netval_ob hc hc' cs s O). auto.
  - intros l Hl. unfold dim_of. rewrite (ob_legs _ _ O). apply I8; auto.
  - eapply bonds_kept_trans; eauto. apply O.
  - rewrite (ob_nleg _ _ O). auto.
Qed.

(** groups inside a well-formed network *)
Section Groups.
Variables (h : heap) (ts G1 G2 R : list tid).
Hypothesis W : wf_net h ts.
Hypothesis P : Permutation (G1 ++ G2 ++ R) ts.
Lemma grp12_wf : wf_net h (G1 ++ G2).
Proof. apply (wf_net_sub h (G1 ++ G2) R ts); auto. now rewrite <- app_assoc. Qed.
Lemma grp1_wf : wf_net h G1.
Proof. apply (wf_net_sub h G1 (G2 ++ R) ts); auto. Qed.
Lemma grp2_wf : wf_net h G2.
Proof. apply (wf_net_sub h G2 (G1 ++ R) ts); auto. rewrite <- P. rewrite !app_assoc. apply Permutation_app_tail, Permutation_app_comm. Qed.
Lemma grp_disj l : In l (all_legs h G1) -> In l (all_legs h G2) -> False.
Proof. pose proof (wn_nodup _ _ grp12_wf) as N. rewrite all_legs_app in N. apply NoDup_app_disj. auto. Qed.
Lemma grp_link_sym l l' : In l (all_legs h (G1 ++ G2)) -> In l' (all_legs h (G1 ++ G2)) -> linked h l l' -> linked h l' l.
Proof. intros. apply (links_sym h (all_legs h (G1 ++ G2)) l l'); auto. apply grp12_wf. Qed.

Lemma link_free1 l l' : In l (all_legs h G1) -> In l' (all_legs h G2) -> linked h l l' -> In l (free_legs h G1).
Proof.
  intros Hl Hl' LK. apply free_In; try apply grp1_wf. split; auto. intros x (t & t' & Ht & Ht' & N & Lt & Lt' & LX).
  assert (x = l') as -> by (eapply linked_fun; eauto). apply (grp_disj l'); auto. apply all_legs_In; eauto.
Qed.
Lemma link_free2 l l' : In l (all_legs h G1) -> In l' (all_legs h G2) -> linked h l l' -> In l' (free_legs h G2).
Proof.
  intros Hl Hl' LK. apply free_In; try apply grp2_wf. split; auto. intros x (t & t' & Ht & Ht' & N & Lt & Lt' & LX).
  assert (linked h l' l) as LK' by (apply grp_link_sym; auto; rewrite all_legs_app; apply in_app_iff; auto).
  assert (x = l) as -> by (eapply linked_fun; eauto). apply (grp_disj l); auto. apply all_legs_In; eauto.
Qed.
Lemma free_all G l : In l (free_legs h G) -> In l (all_legs h G).
Proof. unfold free_legs. rewrite others_In. tauto. Qed.
Lemma free_union l : In l (free_legs h (G1 ++ G2)) <-> 
  (In l (free_legs h G1) \/ In l (free_legs h G2)) /\
  ~ (exists l', (In l (free_legs h G1) /\ In l' (free_legs h G2) \/ In l' (free_legs h G1) /\ In l (free_legs h G2)) /\ linked h l l').
Proof.
  pose proof grp12_wf as W12. pose proof grp1_wf as W1. pose proof grp2_wf as W2.
  rewrite (free_In h (G1 ++ G2)) by apply W12. split.
  - intros [Hl NI]. split.
    + rewrite all_legs_app in Hl. apply in_app_iff in Hl. destruct Hl as [Hl|Hl]; [left|right]; apply free_In; try apply W1; try apply W2; split; auto;
        intros l' I; apply (NI l'); eapply inner_link_mono; eauto; [apply incl_appl|apply incl_appr]; apply incl_refl.
    + intros (l' & [[H1 H2]|[H1 H2]] & LK); apply (NI l'); apply free_all in H1; apply free_all in H2; apply all_legs_In in H1; apply all_legs_In in H2;
        destruct H1 as (t1 & T1 & X1), H2 as (t2 & T2 & X2).
      * exists t1, t2. repeat split; auto; try (apply in_app_iff; auto). intros ->. apply (grp_disj l); apply all_legs_In; eauto.
      * exists t2, t1. repeat split; auto; try (apply in_app_iff; auto). intros ->. apply (grp_disj l); apply all_legs_In; eauto.
  - intros [Hf NS]. split.
    + rewrite all_legs_app. apply in_app_iff. destruct Hf as [Hf|Hf]; apply free_all in Hf; auto.
    + intros l' (t & t' & Ht & Ht' & N & Lt & Lt' & LK). apply in_app_iff in Ht. apply in_app_iff in Ht'.
      assert (Al : forall u x G, In u G -> In x (legs_of h u) -> In x (all_legs h G)) by (intros; apply all_legs_In; eauto).
      destruct Ht as [Ht|Ht], Ht' as [Ht'|Ht'].
      * destruct Hf as [Hf|Hf]; [|apply free_all in Hf; apply (grp_disj l); eauto].
        apply free_In in Hf; try apply W1. destruct Hf as [_ Hf]. apply (Hf l'). exists t, t'. auto 8.
      * apply NS. exists l'. split; auto. left. split; [eapply link_free1; eauto|eapply link_free2; eauto].
      * assert (linked h l' l) as LK' by (apply grp_link_sym; auto; rewrite all_legs_app; apply in_app_iff; eauto).
        apply NS. exists l'. split; auto. right. split; [eapply link_free1; eauto|eapply link_free2; eauto].
      * destruct Hf as [Hf|Hf]; [apply free_all in Hf; apply (grp_disj l); eauto|].
        apply free_In in Hf; try apply W2. destruct Hf as [_ Hf]. apply (Hf l'). exists t, t'. auto 8.
Qed.
End Groups.

Lemma concat_perm {X} (l l' : list (list X)) : Permutation l l' -> Permutation (List.concat l) (List.concat l').
Proof.
  induction 1; simpl; auto.
  - now apply Permutation_app_head.
  - rewrite !app_assoc. apply Permutation_app_tail, Permutation_app_comm.
  - etransitivity; eauto.
Qed.
Lemma Forall2_both {X Y} (R S : X -> Y -> Prop) l m : Forall2 R l m -> Forall2 S l m -> Forall2 (fun x y => R x y /\ S x y) l m.
Proof. induction 1; intros F; inversion F; subst; constructor; auto. Qed.
Lemma Forall2_imp {X Y} (R S : X -> Y -> Prop) l m : (forall x y, In x l -> In y m -> R x y -> S x y) -> Forall2 R l m -> Forall2 S l m.
Proof. intros H F. revert H. induction F; intros H'; constructor; [apply H'; simpl; auto|apply IHF; intros; apply H'; simpl; auto]. Qed.

Lemma inv_perm lk vok (h hc : heap) ts cur gs gs' cs : Permutation gs gs' -> seq_inv lk vok h ts hc cur gs cs ->
  exists cs', Permutation cs cs' /\ seq_inv lk vok h ts hc cur gs' cs'.
Proof.
  intros P [I1 I2 I3 I4 I5 I6 I7 I8 I9 I10]. destruct (Forall2_perm _ _ _ P _ (Forall2_both _ _ _ _ I1 I2)) as (cs' & PC & F).
  exists cs'. split; auto. constructor; auto.
  - eapply Forall2_imp; [|exact F]. intros x y _ _ Hx. exact (proj1 Hx).
  - eapply Forall2_imp; [|exact F]. intros x y _ _ Hx. exact (proj2 Hx).
  - eapply Permutation_NoDup; [|exact I3]. now apply Permutation_map.
  - rewrite <- I4. apply concat_perm. apply Permutation_map. now symmetry.
  - eapply wf_net_perm; eauto.
  - rewrite <- I6. symmetry. apply free_perm; auto.
  - intros V s Hs. rewrite <- (netval_perm hc cs cs' s PC I5). auto.
Qed.

Lemma perm_rest (h hc : heap) c1 c2 F1 F2 F12 : wf_pair hc c1 c2 -> NoDup F12 ->
  Permutation (legs_of hc c1) F1 -> Permutation (legs_of hc c2) F2 ->
  (forall l, In l F12 <-> (In l F1 \/ In l F2) /\ ~ (exists l', (In l F1 /\ In l' F2 \/ In l' F1 /\ In l F2) /\ linked hc l l')) ->
  Permutation (restA hc c1 c2 ++ restB hc c1 c2) F12.
Proof.
  intros W ND P1 P2 H. apply NoDup_Permutation; auto; [apply rest_alloc, W|].
  assert (E1 : forall l, In l F1 <-> In l (legs_of hc c1)) by (intros; split; apply Permutation_in; auto; now symmetry).
  assert (E2 : forall l, In l F2 <-> In l (legs_of hc c2)) by (intros; split; apply Permutation_in; auto; now symmetry).
  intros l. rewrite H. unfold restA, restB. rewrite in_app_iff, !others_In. rewrite (E1 l), (E2 l).
  pose proof (wp_disj hc c1 c2 l W) as D.
  assert (S1 : In l (map fst (shared hc c1 c2)) <-> In l (legs_of hc c1) /\ exists l', In l' (legs_of hc c2) /\ linked hc l l').
  { rewrite in_map_iff. split.
    - intros ([x y] & <- & Hp). apply pairs_In in Hp. simpl. destruct Hp as (? & ? & ?). eauto.
    - intros (Hl & l' & Hl' & LK). exists (l, l'). split; auto. apply pairs_In. auto. }
  assert (S2 : In l (map snd (shared hc c1 c2)) <-> In l (legs_of hc c2) /\ exists l', In l' (legs_of hc c1) /\ linked hc l l').
  { rewrite in_map_iff. split.
    - intros ([x y] & <- & Hp). apply pairs_In in Hp. simpl. destruct Hp as (? & ? & ?). split; auto. exists x. split; auto.
      apply (links_sym hc _ x y (wp_links _ _ _ W)); auto; apply in_app_iff; auto.
    - intros (Hl & l' & Hl' & LK). exists (l', l). split; auto. apply pairs_In. repeat split; auto.
      apply (links_sym hc _ l l' (wp_links _ _ _ W)); auto; apply in_app_iff; auto. }
  rewrite S1, S2. split.
  - intros [[L1 N1]|[L2 N2]].
    + split; auto. intros (l' & [[X Y]|[X Y]] & LK); [|try apply E2 in Y; tauto]. apply N1. split; auto. exists l'. split; auto. now apply E2.
    + split; auto. intros (l' & [[X Y]|[X Y]] & LK); [try apply E1 in X; tauto|]. apply N2. split; auto. exists l'. split; auto. now apply E1.
  - intros [[L1|L2] N].
    + left. split; auto. intros (_ & l' & Hl' & LK). apply N. exists l'. split; [left; split; [try apply E1; auto|now apply E2]|auto].
    + right. split; auto. intros (_ & l' & Hl' & LK). apply N. exists l'. split; [right; split; [now apply E1|try apply E2; auto]|auto].
Qed.

Lemma all_diag_app (h : heap) G1 G2 : all_diag h (G1 ++ G2) = all_diag h G1 && all_diag h G2.
Proof. apply forallb_app. Qed.

Lemma inv_pair lk vok (h : heap) ts hc cur s t G1 G2 rest cs : wf_net h ts ->
  seq_inv lk vok h ts hc cur ((s, G1) :: (t, G2) :: rest) cs ->
  exists c1 c2 crest, cs = c1 :: c2 :: crest /\ wf_net hc (c1 :: c2 :: crest) /\
    nth_error cur s = Some c1 /\ nth_error cur t = Some c2 /\ grp_is lk h hc G1 c1 /\ grp_is lk h hc G2 c2 /\
    Permutation (G1 ++ G2 ++ List.concat (map snd rest)) ts /\
    (forall l l', In (l, l') (shared hc c1 c2) <-> In l (free_legs h G1) /\ In l' (free_legs h G2) /\ linked h l l') /\
    Permutation (restA hc c1 c2 ++ restB hc c1 c2) (free_legs h (G1 ++ G2)) /\
    (forall l, In l (free_legs h G1) \/ In l (free_legs h G2) -> dim_of hc l = dim_of h l) /\
    ((all_diag h G1 = true -> all_diag h G2 = true -> free_legs h G1 <> []) -> pair_cost hc c1 c2 = group_cost h G1 G2).
Proof.
  intros W0 I.
  assert (exists c1 c2 crest, cs = c1 :: c2 :: crest) as (c1 & c2 & crest & ->).
  { pose proof (si_pos _ _ _ _ _ _ _ _ I) as F. inversion F; subst. inversion H3; subst. eauto. }
  exists c1, c2, crest. split; auto.
  pose proof (si_wf _ _ _ _ _ _ _ _ I) as Wc. pose proof (wf_net_pair _ _ _ _ Wc) as WP.
  assert (Hp1 : nth_error cur s = Some c1). { pose proof (si_pos _ _ _ _ _ _ _ _ I) as F. now inversion F. }
  assert (Hp2 : nth_error cur t = Some c2). { pose proof (si_pos _ _ _ _ _ _ _ _ I) as F. inversion F; subst. now inversion H4. }
  assert (PR : Permutation (G1 ++ G2 ++ List.concat (map snd rest)) ts) by apply (si_part _ _ _ _ _ _ _ _ I).
  assert (Hg1 : grp_is lk h hc G1 c1). { pose proof (si_grp _ _ _ _ _ _ _ _ I) as F. now inversion F. }
  assert (Hg2 : grp_is lk h hc G2 c2). { pose proof (si_grp _ _ _ _ _ _ _ _ I) as F. inversion F; subst. now inversion H4. }
  split; [exact Wc|]. split; [exact Hp1|]. split; [exact Hp2|]. split; [exact Hg1|]. split; [exact Hg2|]. split; [exact PR|].
  destruct Hg1 as (K1 & D1 & PL1), Hg2 as (K2 & D2 & PL2).
  pose proof (grp12_wf h ts G1 G2 _ W0 PR) as W12.
  assert (AL : forall G l, incl G ts -> In l (all_legs h G) -> l < nleg h).
  { intros G l Hi Hl. apply all_legs_In in Hl. destruct Hl as (u & Hu & Hl). eapply wt_alloc; eauto. now apply W0, Hi. }
  assert (HI1 : incl G1 ts) by (intros x Hx; eapply Permutation_in; [exact PR|]; apply in_app_iff; auto).
  assert (HI2 : incl G2 ts) by (intros x Hx; eapply Permutation_in; [exact PR|]; rewrite !in_app_iff; auto).
  assert (AL1 : forall l, In l (free_legs h G1) -> l < nleg h) by (intros l Hl; apply free_all in Hl; eauto).
  assert (AL2 : forall l, In l (free_legs h G2) -> l < nleg h) by (intros l Hl; apply free_all in Hl; eauto).
  assert (LK : forall l l', l < nleg h -> linked hc l l' <-> linked h l l') by (intros; eapply inv_linked; eauto).
  assert (DM : forall l, l < nleg h -> dim_of hc l = dim_of h l) by (intros l Hl; apply (si_legs _ _ _ _ _ _ _ _ I l Hl)).
  assert (SH : forall l l', In (l, l') (shared hc c1 c2) <-> In l (free_legs h G1) /\ In l' (free_legs h G2) /\ linked h l l').
  { intros l l'. unfold shared. rewrite pairs_In. split; intros (X & Y & Z).
    - assert (In l (free_legs h G1)) by (eapply Permutation_in; eauto). repeat split; auto; [eapply Permutation_in; eauto|]. apply LK; auto.
    - repeat split; [eapply Permutation_in; [symmetry|]; eauto|eapply Permutation_in; [symmetry|]; eauto|apply LK; auto]. }
  assert (PF : Permutation (restA hc c1 c2 ++ restB hc c1 c2) (free_legs h (G1 ++ G2))).
  { apply (perm_rest h hc c1 c2 (free_legs h G1) (free_legs h G2)); auto.
    - apply free_NoDup, W12.
    - intros l. rewrite (free_union h ts G1 G2 _ W0 PR). split; intros [X Y]; split; auto; intros (l' & Z & L'); apply Y; exists l'; split; auto.
      + apply (LK l l'); auto. destruct Z as [[? ?]|[? ?]]; auto.
      + apply (LK l l'); auto. destruct Z as [[? ?]|[? ?]]; auto. }
  split; [exact SH|]. split; [exact PF|]. split; [intros l [Hl|Hl]; auto|].
  intros OK1. assert (EF : map (dim_of hc) (free_legs h (G1 ++ G2)) = map (dim_of h) (free_legs h (G1 ++ G2))).
    { apply map_ext_in. intros l Hl. apply DM. apply free_all in Hl. eapply (AL (G1 ++ G2)); eauto. now apply incl_app. }
    unfold pair_cost, group_cost. rewrite D1, D2. destruct (all_diag h G1) eqn:A1, (all_diag h G2) eqn:A2.
    - destruct (free_legs h G1) as [|x F1] eqn:EF1; [now destruct (OK1 eq_refl eq_refl)|].
      rewrite <- (DM x) by (apply AL1; simpl; auto). symmetry. apply diag_dim; [apply WP|congruence|].
      eapply Permutation_in; [symmetry; exact PL1|]. simpl; auto.
    - rewrite <- EF. apply prodn_perm, Permutation_map. auto.
    - rewrite <- EF. apply prodn_perm, Permutation_map. auto.
    - rewrite !map_app, !prodn_app. rewrite <- EF.
      replace (prodn (map (dim_of h) (map fst (pairs_between h (free_legs h G1) (free_legs h G2))))) with (prodn (map (dim_of hc) (map fst (shared hc c1 c2)))).
      + rewrite <- (prodn_perm _ _ (Permutation_map (dim_of hc) PF)), map_app, prodn_app. ring.
      + transitivity (prodn (map (dim_of h) (map fst (shared hc c1 c2)))).
        * f_equal. apply map_ext_in. intros l Hl. apply DM. apply AL1. apply in_map_iff in Hl. destruct Hl as ([x y] & <- & Hx). now apply SH in Hx.
        * apply prodn_perm, Permutation_map. apply NoDup_Permutation.
          -- apply shared_fst_NoDup; auto.
          -- apply pairs_fst_NoDup. apply free_NoDup. apply (grp1_wf h ts G1 G2 _ W0 PR).
          -- intros l. rewrite !in_map_iff. split; intros ([x y] & <- & Hx); exists (x, y); split; auto; [apply pairs_In; now apply SH|apply SH; now apply pairs_In in Hx].
Qed.

(** one contraction of two groups keeps the invariant *)
Lemma inv_join lk vok (h : heap) ts h1 h2 cur s t G1 G2 rest c1 c2 crest tc L : wf_net h ts ->
  seq_inv lk vok h ts h1 cur ((s, G1) :: (t, G2) :: rest) (c1 :: c2 :: crest) ->
  contracted h1 h2 c1 c2 tc L -> Permutation L (restA h1 c1 c2 ++ restB h1 c1 c2) ->
  t_diag (tens h2 tc) = t_diag (tens h1 c1) && t_diag (tens h1 c2) -> t_like (tens h2 tc) = lk ->
  (vok -> forall s, in_bounds h1 (restA h1 c1 c2 ++ restB h1 c1 c2) s -> entry h2 tc s = einsum h1 c1 c2 s) ->
  seq_inv lk vok h ts h2 (set_nth (Nat.min s t) tc cur) ((Nat.min s t, G1 ++ G2) :: rest) (tc :: crest).
Proof.
  intros W0 I1 CT PL DG LI V.
  destruct (inv_pair lk vok h ts h1 cur s t G1 G2 rest _ W0 I1) as (c1' & c2' & crest' & E & Wc1 & Hp1 & Hp2 & (K1 & D1 & PL1) & (K2 & D2 & PL2) & PR & SH & PF & DM & EPC).
  injection E as <- <- <-.
  assert (AL : forall G l, incl G ts -> In l (all_legs h G) -> l < nleg h).
  { intros G l Hi Hl. apply all_legs_In in Hl. destruct Hl as (u & Hu & Hl). eapply wt_alloc; eauto. now apply W0, Hi. }
  pose proof (si_nodup _ _ _ _ _ _ _ _ I1) as NDP. simpl in NDP. inversion NDP as [|? ? NS1 NS2]; subst. inversion NS2 as [|? ? NS3 NS4]; subst.
  assert (Bs : s < List.length cur) by (apply nth_error_Some; congruence).
  assert (Bt : t < List.length cur) by (apply nth_error_Some; congruence).
  assert (Hmin : ~ In (Nat.min s t) (map fst rest)).
  { destruct (Nat.min_spec s t) as [[_ ->]|[_ ->]]; auto. intros C. apply NS1. simpl. auto. }
  constructor.
  - constructor.
    + simpl. rewrite nth_set_nth by lia. now rewrite Nat.eqb_refl.
    + pose proof (si_pos _ _ _ _ _ _ _ _ I1) as F. inversion F as [|? ? ? ? _ F']; subst. inversion F' as [|? ? ? ? _ F'']; subst.
      eapply Forall2_imp; [|exact F'']. intros [i G] c Hi Hc E. simpl in *.
      rewrite nth_set_nth by (apply nth_error_Some; congruence).
      destruct (Nat.eqb_spec i (Nat.min s t)) as [->|]; auto. exfalso. apply Hmin. apply in_map_iff. exists (Nat.min s t, G). auto.
  - constructor.
    + simpl. split; auto. split; [rewrite DG, D1, D2; symmetry; apply all_diag_app|].
      rewrite (ct_legs _ _ _ _ _ _ CT). rewrite PL. exact PF.
    + pose proof (si_grp _ _ _ _ _ _ _ _ I1) as F. inversion F as [|? ? ? ? _ F']; subst. inversion F' as [|? ? ? ? _ F'']; subst.
      eapply Forall2_imp; [|exact F'']. intros [i G] c Hi Hc E. simpl in *. unfold grp_is, legs_of in *.
      destruct (step_rest h1 h2 c1 c2 tc L crest Wc1 CT c Hc) as (_ & _ & _ & ->). exact E.
  - simpl. constructor; auto.
  - simpl. rewrite <- app_assoc. apply (si_part _ _ _ _ _ _ _ _ I1).
  - exact (step_wf h1 h2 c1 c2 tc L crest Wc1 CT PL).
  - rewrite (step_free h1 h2 c1 c2 tc L crest Wc1 CT PL). apply I1.
  - intros VK s0 Hs. rewrite (step_value h1 h2 c1 c2 tc L crest Wc1 CT PL (V VK)).
    + now apply I1.
    + intros l Hl. assert (In l (free_legs h ts)) as Hf by (eapply Permutation_in; [apply (si_free _ _ _ _ _ _ _ _ I1)|auto]).
      destruct (si_legs _ _ _ _ _ _ _ _ I1 l) as (_ & -> & _); [|now apply Hs]. apply free_all in Hf. eapply (AL ts); eauto. apply incl_refl.
  - intros l Hl. pose proof (si_nleg _ _ _ _ _ _ _ _ I1) as EN. destruct (si_legs _ _ _ _ _ _ _ _ I1 l Hl) as (X & Y & Z).
    assert (Hl1 : l < nleg h1) by (rewrite EN; exact Hl).
    destruct (step_leg h1 h2 c1 c2 tc L CT l Hl1) as (X' & Y' & Z'). repeat split; congruence.
  - eapply bonds_kept_trans; [apply (si_bonds _ _ _ _ _ _ _ _ I1)|]. apply CT.
  - rewrite (ct_nleg _ _ _ _ _ _ CT). apply I1.
Qed.

Lemma inv_step (h : heap) ts hc cur s t G1 G2 rest cs cost : wf_net h ts ->
  (forall p, In p (inner h ts) -> 0 < dim_of h (fst p)) ->
  seq_inv false True h ts hc cur ((s, G1) :: (t, G2) :: rest) cs -> group_ok h G1 G2 ->
  exists hc' cur' cs', seqStep (cur, cost) (s, t) hc = (hc', Ok (cur', cost + group_cost h G1 G2)) /\
    seq_inv false True h ts hc' cur' ((Nat.min s t, G1 ++ G2) :: rest) cs'.
Proof.
  intros W0 Pos I (OK1 & OK2 & OK3).
  destruct (inv_pair false True h ts hc cur s t G1 G2 rest _ W0 I) as (c1 & c2 & crest & -> & Wc & Hp1 & Hp2 & (K1 & D1 & PL1) & (K2 & D2 & PL2) & PR & SH & PF & DM & EPC).
  pose proof (wf_net_pair _ _ _ _ Wc) as WP.
  assert (HI1 : incl G1 ts) by (intros x Hx; eapply Permutation_in; [exact PR|]; apply in_app_iff; auto).
  assert (HI2 : incl G2 ts) by (intros x Hx; eapply Permutation_in; [exact PR|]; rewrite !in_app_iff; auto).
  assert (PosS : forall p, In p (shared hc c1 c2) -> 0 < dim_of hc (fst p)).
  { intros [l l'] Hp. apply SH in Hp. destruct Hp as (X & Y & Z). simpl. rewrite DM by auto.
    apply free_all in X. apply free_all in Y. apply all_legs_In in X. apply all_legs_In in Y. destruct X as (u & U1 & U2), Y as (v & V1 & V2).
    assert (inner_link h ts l l') as IL.
    { exists u, v. repeat split; auto. intros ->. eapply (grp_disj h ts G1 G2 _ W0 PR l); apply all_legs_In; eauto. }
    destruct (inner_complete h ts l l' (wn_links _ _ W0) IL) as [Q|Q].
    - apply (Pos _ Q).
    - rewrite <- (inner_dim h ts l' l); auto; try apply W0. apply (Pos _ Q). }
  destruct (contractCost_ok hc c1 c2 WP PosS) as (h1 & EC & O1).
  pose proof (inv_ob false True h hc h1 ts cur _ _ O1 I) as I1. pose proof (si_wf _ _ _ _ _ _ _ _ I1) as Wc1. pose proof (wf_net_pair _ _ _ _ Wc1) as WP1.
  assert (Et : tens h1 = tens hc) by apply O1.
  assert (ESH : shared h1 c1 c2 = shared hc c1 c2) by (apply shared_ob; auto).
  assert (ERA : restA h1 c1 c2 = restA hc c1 c2) by (unfold restA, legs_of; now rewrite ESH, Et).
  assert (ERB : restB h1 c1 c2 = restB hc c1 c2) by (unfold restB, legs_of; now rewrite ESH, Et).
  destruct (contract_any h1 c1 c2 WP1) as (L & PL & h2 & tc & E2 & CT & DG & LI & V).
  { now rewrite Et. } { now rewrite Et. }
  { unfold contractible, legs_of. rewrite ESH, Et, D1, D2. split; [|split].
    - intros X Y. destruct (OK1 X Y) as (l & l' & Hl & Hl' & Z). intros EE.
      assert (In (l, l') (shared hc c1 c2)) as II; [|rewrite EE in II; destruct II]. apply SH. repeat split; auto.
      + eapply (link_free1 h ts G1 G2 _ W0 PR); eauto.
      + eapply (link_free2 h ts G1 G2 _ W0 PR); eauto.
    - intros X Y EE. apply (OK2 X Y). apply Permutation_nil. rewrite <- PL1. unfold legs_of. now rewrite EE.
    - intros X Y EE. apply (OK3 X Y). apply Permutation_nil. rewrite <- PL2. unfold legs_of. now rewrite EE. }

  rewrite EPC in EC.
  2:{ intros X Y. destruct (OK1 X Y) as (l & l' & Hl & Hl' & Z). intros EE.
      assert (In l (free_legs h G1)) as HF by (eapply (link_free1 h ts G1 G2 _ W0 PR); eauto). rewrite EE in HF. destruct HF. }
  exists h2, (set_nth (Nat.min s t) tc cur), (tc :: crest). split.
  { unfold seqStep. rewrite Hp1, Hp2. unfold bind at 1. rewrite EC. unfold bind at 1. rewrite E2. reflexivity. }
  apply (inv_join false True h ts h1 h2 cur s t G1 G2 rest c1 c2 crest tc L); auto.
Qed.

Lemma seq_run (h : heap) ts gs sq n : wf_net h ts -> (forall p, In p (inner h ts) -> 0 < dim_of h (fst p)) ->
  complete (group_ok h) (group_cost h) gs sq n -> forall hc cur cs cost, seq_inv false True h ts hc cur gs cs ->
  exists hc' cur' c G, foldM seqStep sq (cur, cost) hc = (hc', Ok (cur', cost + n)) /\ seq_inv false True h ts hc' cur' [(0, G)] [c].
Proof.
  intros W Pos. induction 1 as [G|gs rest s t G1 G2 sq n N P OK CP IH]; intros hc cur cs cost I.
  - pose proof (si_pos _ _ _ _ _ _ _ _ I) as F. inversion F as [|? ? ? ? _ F']; subst. inversion F'; subst.
    exists hc, cur, y, G. split; auto. simpl. now rewrite Nat.add_0_r.
  - destruct (inv_perm false True h hc ts cur gs _ cs P I) as (cs1 & PC & I1).
    destruct (inv_step h ts hc cur s t G1 G2 rest cs1 cost W Pos I1 OK) as (h1 & cur1 & cs2 & E1 & I2).
    destruct (IH h1 cur1 cs2 (cost + group_cost h G1 G2) I2) as (h2 & cur2 & c & G & E2 & I3).
    exists h2, cur2, c, G. split; auto. cbn [foldM]. unfold bind. rewrite E1, E2. now rewrite Nat.add_assoc.
Qed.

Lemma free_one (h : heap) t : NoDup (legs_of h t) -> free_legs h [t] = legs_of h t.
Proof.
  intros ND. unfold free_legs. simpl. rewrite app_nil_r.
  assert (pairs_between h (legs_of h t) [] = []) as ->.
  { destruct (pairs_between h (legs_of h t) []) as [|[x y] Q] eqn:E; auto. exfalso.
    assert (In (x, y) (pairs_between h (legs_of h t) [])) as H by (rewrite E; simpl; auto). apply pairs_In in H. destruct H as (_ & [] & _). }
  simpl. unfold others. induction (legs_of h t) as [|l L IH]; simpl; auto. f_equal. inversion ND; auto.
Qed.
Lemma netval_one (h : heap) t s : netval h [t] s = entry h t s.
Proof.
  unfold netval. simpl. rewrite app_nil_r.
  assert (pairs_between h (legs_of h t) [] = []) as ->.
  { destruct (pairs_between h (legs_of h t) []) as [|[x y] Q] eqn:E; auto. exfalso.
    assert (In (x, y) (pairs_between h (legs_of h t) [])) as H by (rewrite E; simpl; auto). apply pairs_In in H. destruct H as (_ & [] & _). }
  simpl. ring.
Qed.

Lemma singles_concat (ts : list tid) : List.concat (map snd (singles ts)) = ts.
Proof.
  unfold singles. generalize 0. induction ts as [|t ts IH]; intros k; simpl; auto. f_equal. apply IH.
Qed.
Lemma singles_fst (ts : list tid) : map fst (singles ts) = seq 0 (List.length ts).
Proof.
  unfold singles. generalize 0. induction ts as [|t ts IH]; intros k; simpl; auto. f_equal. apply IH.
Qed.
Lemma inv_init lk vok (h : heap) ts : wf_net h ts -> (forall t, In t ts -> t_like (tens h t) = lk) -> seq_inv lk vok h ts h ts (singles ts) ts.
Proof.
  intros W LI. constructor; auto.
  - unfold singles. enough (forall pre, Forall2 (fun (g : nat * list nat) c => nth_error (pre ++ ts) (fst g) = Some c) (combine (seq (List.length pre) (List.length ts)) (map (fun t => [t]) ts)) ts) as X by (apply (X [])).
    clear. induction ts as [|t ts IH]; intros pre; simpl; constructor.
    + simpl. rewrite nth_error_app2, Nat.sub_diag by lia. auto.
    + specialize (IH (pre ++ [t])). rewrite app_length, <- app_assoc in IH. simpl in IH. now rewrite Nat.add_1_r in IH.
  - unfold singles. generalize 0. assert (forall t, In t ts -> grp_is lk h h [t] t) as G.
    { intros t Ht. split; auto. split; [simpl; now rewrite andb_true_r|]. rewrite free_one; auto. apply wt_nodup, W, Ht. }
    clear - G. induction ts as [|t ts IH]; intros k; simpl; constructor; [apply G; simpl; auto|]. apply IH. intros; apply G; simpl; auto.
  - rewrite singles_fst. apply seq_NoDup.
  - now rewrite singles_concat.
  - apply bonds_kept_refl.
Qed.

Lemma contractWithSeq_inplace (h : heap) ts sq n : wf_net h ts -> (forall t, In t ts -> t_like (tens h t) = false) ->
  (forall p, In p (inner h ts) -> 0 < dim_of h (fst p)) -> 
  complete (group_ok h) (group_cost h) (singles ts) sq n ->
  exists h' t0 cur, contractWithSeq ts sq true h = (h', Ok (t0, n, cur)) /\
    wf_tensor h' t0 /\ t_like (tens h' t0) = false /\ t_diag (tens h' t0) = all_diag h ts /\
    Permutation (legs_of h' t0) (free_legs h ts) /\
    (forall l, In l (free_legs h ts) -> l_name (legs h' l) = l_name (legs h l) /\ dim_of h' l = dim_of h l) /\
    forall s, in_bounds h (free_legs h ts) s -> entry h' t0 s = netval h ts s.
Proof.
  intros W LI Pos CP. destruct (seq_run h ts _ sq n W Pos CP h ts ts 0 (inv_init false True h ts W LI)) as (h' & cur & c & G & E & I).
  exists h', c, cur. split.
  - unfold contractWithSeq, bind, ret. rewrite E.
    pose proof (si_pos _ _ _ _ _ _ _ _ I) as F. inversion F as [|? ? ? ? F0 _]; subst. simpl in F0. destruct cur; [discriminate|]. simpl in F0. now injection F0 as ->.
  - pose proof (si_grp _ _ _ _ _ _ _ _ I) as F. inversion F as [|? ? ? ? (K & D & P) _]; subst. simpl in *.
    pose proof (si_part _ _ _ _ _ _ _ _ I) as PP. simpl in PP. rewrite app_nil_r in PP.
    assert (WG : wf_net h G) by (apply (wf_net_sub h G [] ts); auto; now rewrite app_nil_r).
    split; [apply I; simpl; auto|]. split; auto. split.
    { rewrite D. unfold all_diag. clear - PP. induction PP; simpl; try congruence. rewrite !andb_assoc. f_equal. apply andb_comm. }
    split; [rewrite P; apply free_perm; auto|]. split.
    + intros l Hl. destruct (si_legs _ _ _ _ _ _ _ _ I l) as (X & Y & Z); auto. apply free_all in Hl. apply all_legs_In in Hl.
      destruct Hl as (u & Hu & Hl). eapply wt_alloc; eauto. now apply W.
    + intros s Hs. rewrite <- (si_val _ _ _ _ _ _ _ _ I Logic.I s Hs). now rewrite netval_one.
Qed.

Lemma contract_mixed_frame (h : heap) ta tb : wf_pair h ta tb -> t_like (tens h ta) <> t_like (tens h tb) ->
  exists h', contractTwoTensors ta tb h = (h', Err TypeError) /\
    legs h' = legs h /\ tens h' = tens h /\ nleg h' = nleg h /\ nbond h' = nbond h /\ ntens h' = ntens h /\
    forall l, partner h' l = partner h l.
Proof.
  intros W N. destruct (contract_mixed h ta tb W N) as (h' & E & O). exists h'. split; auto.
  repeat (split; [apply O|]). intros l. now apply partner_ob.
Qed.
Lemma net_step (h : heap) ta tb rest : wf_net h (ta :: tb :: rest) ->
  t_like (tens h ta) = false -> t_like (tens h tb) = false -> contractible h ta tb ->
  exists h' tc, contractTwoTensors ta tb h = (h', Ok tc) /\
    wf_net h' (tc :: rest) /\
    Permutation (free_legs h' (tc :: rest)) (free_legs h (ta :: tb :: rest)) /\
    (forall l, In l (free_legs h (ta :: tb :: rest)) -> dim_of h' l = dim_of h l /\ l_name (legs h' l) = l_name (legs h l)) /\
    (forall s, in_bounds h (free_legs h (ta :: tb :: rest)) s -> netval h' (tc :: rest) s = netval h (ta :: tb :: rest) s).
Proof.
  intros W La Lb C. destruct (contract_any h ta tb (wf_net_pair _ _ _ _ W) La Lb C) as (L & PL & h' & tc & E & CT & _ & _ & V).
  exists h', tc. split; auto. split; [eapply step_wf; eauto|]. split; [eapply step_free; eauto|]. split.
  - intros l Hl. assert (l < nleg h) as Hb. { apply (net_alloc h ta tb rest W). now apply free_all in Hl. }
    destruct (step_leg h h' ta tb tc L CT l Hb) as (_ & X & Y). auto.
  - intros s Hs. eapply step_value; eauto.
Qed.
Lemma complete_mono (ok ok' : list tid -> list tid -> Prop) cost gs sq n : complete ok cost gs sq n -> 
  forall (P : list tid -> Prop), (forall g, In g gs -> P (snd g)) -> (forall G1 G2, P G1 -> P G2 -> ok G1 G2 -> ok' G1 G2) ->
  (forall G1 G2, P G1 -> P G2 -> P (G1 ++ G2)) -> complete ok' cost gs sq n.
Proof.
  induction 1 as [G|gs rest s t G1 G2 sq n N PP OK CP IH]; intros P HP HI HA'; [constructor|].
  assert (HP' : forall g, In g ((s, G1) :: (t, G2) :: rest) -> P (snd g)) by (intros g Hg; apply HP; eapply Permutation_in; [symmetry|]; eauto).
  assert (P G1) by (apply (HP' (s, G1)); simpl; auto). assert (P G2) by (apply (HP' (t, G2)); simpl; auto).
  eapply complete_step; eauto. eapply IH; eauto. intros g [<-|Hg]; simpl; auto. apply HP'. simpl; auto.
Qed.
Lemma complete_dense (h : heap) ts sq n : (forall t, In t ts -> t_diag (tens h t) = false) ->
  complete (fun _ _ => True) (group_cost h) (singles ts) sq n -> complete (group_ok h) (group_cost h) (singles ts) sq n.
Proof.
  intros D C. apply (complete_mono _ _ _ _ _ _ C (fun G => all_diag h G = false)).
  - intros [i G] Hg. unfold singles in Hg. apply in_combine_r in Hg. simpl. apply in_map_iff in Hg. destruct Hg as (t & <- & Ht). simpl. now rewrite D.
  - intros G1 G2 F1 F2 _. unfold group_ok. rewrite F1, F2. repeat split; discriminate.
  - intros G1 G2 F1 F2. rewrite all_diag_app, F1. reflexivity.
Qed.
Lemma seq_order_independent (h : heap) ts sq sq' n n' : wf_net h ts -> (forall t, In t ts -> t_like (tens h t) = false) ->
  (forall p, In p (inner h ts) -> 0 < dim_of h (fst p)) ->
  complete (group_ok h) (group_cost h) (singles ts) sq n ->
  complete (group_ok h) (group_cost h) (singles ts) sq' n' ->
  exists h1 t1 cur1 h2 t2 cur2, contractWithSeq ts sq true h = (h1, Ok (t1, n, cur1)) /\
    contractWithSeq ts sq' true h = (h2, Ok (t2, n', cur2)) /\
    Permutation (legs_of h1 t1) (legs_of h2 t2) /\
    forall s, in_bounds h1 (legs_of h1 t1) s -> entry h1 t1 s = entry h2 t2 s.
Proof.
  intros W LI Pos C1 C2. destruct (contractWithSeq_inplace h ts sq n W LI Pos C1) as (h1 & t1 & cur1 & E1 & _ & _ & _ & P1 & N1 & V1).
  destruct (contractWithSeq_inplace h ts sq' n' W LI Pos C2) as (h2 & t2 & cur2 & E2 & _ & _ & _ & P2 & N2 & V2).
  exists h1, t1, cur1, h2, t2, cur2. split; auto. split; auto. split; [now rewrite P1, P2|].
  intros s Hs. assert (in_bounds h (free_legs h ts) s) as B.
  { intros l Hl. destruct (N1 l Hl) as (_ & <-). apply Hs. eapply Permutation_in; [symmetry|]; eauto. }
  now rewrite V1, V2.
Qed.
Lemma cost_dense (h : heap) ta tb : wf_pair h ta tb -> t_diag (tens h ta) = false -> t_diag (tens h tb) = false -> 
  (forall p, In p (shared h ta tb) -> 0 < dim_of h (fst p)) ->
  let bonds := restA h ta tb ++ map fst (shared h ta tb) ++ restB h ta tb in
  exists h', contractCost ta tb h = (h', Ok (prodn (map (dim_of h) bonds), Z.of_nat (List.length bonds))) /\ only_bonds h h'.
Proof.
  intros W Da Db Pos. pose proof (contractCost_ok h ta tb W Pos) as C. unfold pair_cost, pair_level in C. now rewrite Da, Db in C.
Qed.
Lemma cost_one_diag (h : heap) ta tb : wf_pair h ta tb -> t_diag (tens h ta) <> t_diag (tens h tb) ->
  (forall p, In p (shared h ta tb) -> 0 < dim_of h (fst p)) ->
  let result := restA h ta tb ++ restB h ta tb in
  exists h', contractCost ta tb h = (h', Ok (prodn (map (dim_of h) result), Z.of_nat (List.length result))) /\ only_bonds h h'.
Proof.
  intros W D Pos. pose proof (contractCost_ok h ta tb W Pos) as C. unfold pair_cost, pair_level in C.
  destruct (t_diag (tens h ta)), (t_diag (tens h tb)); congruence || exact C.
Qed.
Lemma cost_two_diag (h : heap) ta tb : wf_tensor h ta -> t_diag (tens h ta) = true -> t_diag (tens h tb) = true -> 
  exists n, contractCost ta tb h = (h, Ok (n, 1%Z)) /\ forall l, In l (legs_of h ta) -> n = dim_of h l.
Proof.
  intros W Da Db. exists (t_len (tens h ta)). split.
  - unfold contractCost, bind, reads, readsR, bondDimension. rewrite Da, Db. simpl. now rewrite Da.
  - intros l Hl. symmetry. now apply diag_dim.
Qed.
End Sq.
