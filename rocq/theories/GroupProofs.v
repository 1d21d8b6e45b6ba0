(** Replacing a group of tensors of a network by another group with the same free legs and the same value. *)
From Coq Require Import List Arith Bool Lia String Permutation.
From Verif Require Import Base Sums NdModel NdProofs HeapModel FuncsModel FuncsProofs TensorModel TensorSpec
  ContractModel NetSpec ShareProofs LinkProofs SumpairsProofs ContractProofs NetProofs MergeLinkProofs GroupSpec.
Import ListNotations.
Local Open Scope list_scope.
Local Open Scope nat_scope.

Section Gr.
Context {A : Type} {HA : SR A}.
Notation heap := (heap A).

Lemma wf_list_open (h : heap) ts : wf_list h ts -> wf_open h ts.
Proof. intros W. constructor; apply W. Qed.

Lemma pairs_between_app (h : heap) L1 L1' L2 : pairs_between h (L1 ++ L1') L2 = pairs_between h L1 L2 ++ pairs_between h L1' L2.
Proof. unfold pairs_between. apply flat_map_app. Qed.

Lemma inner_app (h : heap) : forall G rest, NoDup (all_legs h (G ++ rest)) ->
  Permutation (inner h (G ++ rest)) (inner h G ++ pairs_between h (all_legs h G) (all_legs h rest) ++ inner h rest).
Proof.
  induction G as [|t G IH]; intros rest ND; [reflexivity|].
  cbn [app inner]. change (all_legs h (t :: G)) with (legs_of h t ++ all_legs h G). rewrite pairs_between_app.
  rewrite all_legs_app. simpl in ND. apply NoDup_app_r in ND as ND2. change (flat_map (legs_of h) (G ++ rest)) with (all_legs h (G ++ rest)) in ND2.
  rewrite IH by exact ND2. rewrite pairs_app_perm.
  - rewrite <- !app_assoc. apply Permutation_app_head. rewrite app_assoc. rewrite (Permutation_app_comm (pairs_between h (legs_of h t) (all_legs h rest))).
    rewrite <- app_assoc. reflexivity.
  - intros x H1 H2. rewrite all_legs_app in ND2. apply (NoDup_app_disj _ _ x ND2); auto.
Qed.

Lemma wf_net_app_l (h : heap) G rest : wf_net h (G ++ rest) -> wf_net h G.
Proof.
  intros W. constructor.
  - intros t Ht. apply W. apply in_app_iff; auto.
  - intros t Ht. apply W. apply in_app_iff; auto.
  - apply (NoDup_app_l _ _ (wn_ids _ _ W)).
  - pose proof (wn_nodup _ _ W) as N. rewrite all_legs_app in N. apply (NoDup_app_l _ _ N).
  - intros l b Hl EB. destruct (wn_links _ _ W l b) as (l' & E & OK); auto.
    { rewrite all_legs_app. apply in_app_iff; auto. }
    exists l'. split; auto. intros Hl'. apply OK. rewrite all_legs_app. apply in_app_iff; auto.
Qed.

Section One.
Variables (h : heap) (G rest : list tid).
Hypothesis W : wf_net h (G ++ rest).

Definition cross : list (lid * lid) := pairs_between h (free_legs h G) (all_legs h rest) ++ inner h rest.

Lemma group_ids : NoDup G. Proof. apply (NoDup_app_l _ _ (wn_ids _ _ W)). Qed.
Lemma group_disj l : In l (all_legs h G) -> In l (all_legs h rest) -> False.
Proof. pose proof (wn_nodup _ _ W) as N. rewrite all_legs_app in N. apply (NoDup_app_disj _ _ l N). Qed.

Lemma linked_fun (hh : heap) l a b : linked hh l a -> linked hh l b -> a = b.
Proof. intros H1 H2. apply partner_Some in H1. apply partner_Some in H2. congruence. Qed.

Lemma group_pairs : pairs_between h (all_legs h G) (all_legs h rest) = pairs_between h (free_legs h G) (all_legs h rest).
Proof.
  unfold free_legs. apply pairs_drop. intros l l' Hl EP Hr. fold (plegs (inner h G)) in Hl.
  pose proof (wf_net_app_l _ _ _ W) as WG. apply partner_Some in EP.
  apply plegs_In in Hl. assert (exists y, inner_link h G l y) as (y & t & t' & Ht & Ht' & NE & Hl2 & Hy & LL).
  { destruct Hl as [(y & Hy)|(y & Hy)]; exists y.
    - apply inner_sound in Hy; [auto|apply group_ids].
    - apply inner_sound in Hy; [|apply group_ids]. apply inner_link_sym; [apply WG|auto]. }
  rewrite (linked_fun h l l' y EP LL) in Hr. apply (group_disj y); auto. apply all_legs_In. exists t'; auto.
Qed.

Lemma group_inner : Permutation (inner h (G ++ rest)) (inner h G ++ cross).
Proof. rewrite inner_app by apply W. unfold cross. now rewrite group_pairs. Qed.

Lemma prod_entries_app ts ts' s : prod_entries h (ts ++ ts') s = rmul (prod_entries h ts s) (prod_entries h ts' s).
Proof. induction ts as [|t ts IH]; simpl; [now rewrite rmul_1_l|]. rewrite IH. apply rmul_assoc. Qed.

Lemma group_by s : netval h (G ++ rest) s = sumpairs (dim_of h) cross (fun s => rmul (netval h G s) (prod_entries h rest s)) s.
Proof.
  unfold netval at 1.
  assert (ND : NoDup (plegs (inner h (G ++ rest)))) by (apply inner_NoDup; apply W).
  rewrite (sumpairs_perm (dim_of h) _ (cross ++ inner h G)); [|apply prod_respects|rewrite group_inner; apply Permutation_app_comm|exact ND].
  rewrite sumpairs_app. apply sumpairs_ext. clear s. intros s. unfold netval.
  rewrite <- (sumpairs_mul_r (dim_of h) (inner h G) (prod_entries h G) (prod_entries h rest)).
  - apply sumpairs_ext. intros u. apply prod_entries_app.
  - apply prod_indep. intros l Hl Hp. apply (group_disj l); auto. apply (inner_legs h G group_ids). exact Hp.
Qed.

Lemma cross_legs l : In l (plegs cross) -> In l (free_legs h G) \/ In l (all_legs h rest).
Proof.
  intros Hl. unfold cross, plegs in Hl. rewrite !map_app, !in_app_iff in Hl.
  destruct Hl as [[Hl|Hl]|[Hl|Hl]].
  - left. apply in_map_iff in Hl. destruct Hl as ((a, b) & <- & Hp). unfold pairs_between in Hp. apply in_flat_map in Hp.
    destruct Hp as (x & Hx & Hp). destruct (partner h x); [|destruct Hp]. destruct (inb _ _); [|destruct Hp]. destruct Hp as [Hp|[]]. injection Hp as <- <-. auto.
  - right. apply (inner_legs h rest); [apply (NoDup_app_r _ _ (wn_ids _ _ W))|]. unfold plegs. apply in_app_iff; auto.
  - right. apply in_map_iff in Hl. destruct Hl as ((a, b) & <- & Hp). unfold pairs_between in Hp. apply in_flat_map in Hp.
    destruct Hp as (x & Hx & Hp). destruct (partner h x); [|destruct Hp]. destruct (inb _ _) eqn:EI; [|destruct Hp]. destruct Hp as [Hp|[]]. injection Hp as <- <-. now apply inb_true in EI.
  - right. apply (inner_legs h rest); [apply (NoDup_app_r _ _ (wn_ids _ _ W))|]. unfold plegs. apply in_app_iff; auto.
Qed.
Lemma cross_inner p : In p cross -> In p (inner h (G ++ rest)).
Proof. intros Hp. apply (Permutation_in _ (Permutation_sym group_inner)). apply in_app_iff; auto. Qed.
End One.

Section Rep.
Variables (h h' : heap) (G G' rest : list tid).
Hypothesis WO : wf_open h (G ++ rest).
Hypothesis R : group_replaced h h' G G' rest.
Let W := wo_net _ _ WO.

Lemma rp_rest t : In t rest -> t < ntens h /\ tens h' t = tens h t.
Proof.
  intros Ht. assert (t < ntens h) as L by (apply (wn_wf _ _ W); apply in_app_iff; auto). split; auto.
  apply (gr_rest _ _ _ _ _ R); auto. intros HG. apply (NoDup_app_disj _ _ t (wn_ids _ _ W)); auto.
Qed.
Lemma rp_legs t : In t rest -> legs_of h' t = legs_of h t.
Proof. intros Ht. unfold legs_of. now rewrite (proj2 (rp_rest t Ht)). Qed.
Lemma rp_all r : incl r rest -> all_legs h' r = all_legs h r.
Proof.
  induction r as [|t r IH]; intros HI; auto. unfold all_legs in *. cbn [flat_map]. f_equal; [apply rp_legs, HI; simpl; auto|].
  apply IH. intros x Hx. apply HI. simpl; auto.
Qed.
Lemma rp_alloc l : In l (all_legs h (G ++ rest)) -> l < nleg h.
Proof. intros Hl. apply all_legs_In in Hl. destruct Hl as (t & Ht & Hl). apply (wt_alloc _ _ (wn_wf _ _ W t Ht)); auto. Qed.
Lemma rp_free_all l : In l (free_legs h G) -> In l (all_legs h G).
Proof. unfold free_legs. intros Hl. apply others_In in Hl. tauto. Qed.
Lemma rp_keep l : In l (free_legs h G ++ all_legs h rest) -> In l (all_legs h (G ++ rest)).
Proof. rewrite all_legs_app, !in_app_iff. intros [Hl|Hl]; auto. left. now apply rp_free_all. Qed.
Lemma rp_ends b l l' : b < nbond h -> ends h' b l l' <-> ends h b l l'.
Proof.
  intros Hb. unfold ends. destruct (gr_bond _ _ _ _ _ R b Hb) as [E|E]; rewrite E; [tauto|].
  destruct (bonds h b) as [x y]. simpl. split; intros [X|X]; injection X as <- <-; auto.
Qed.
Lemma rp_linked l l' : In l (free_legs h G ++ all_legs h rest) -> linked h' l l' <-> linked h l l'.
Proof.
  intros Hl. unfold linked. destruct (gr_old _ _ _ _ _ R l Hl) as (EB & _). rewrite EB.
  split; intros (b & E & N); exists b; split; auto; apply rp_ends in N || apply rp_ends; auto; eapply (wo_bonds _ _ WO); eauto using rp_keep.
Qed.
Lemma partner_ext (x y : heap) l : (forall l', linked x l l' <-> linked y l l') -> partner x l = partner y l.
Proof.
  intros E. destruct (partner x l) as [a|] eqn:E1, (partner y l) as [b|] eqn:E2; auto.
  - apply partner_Some in E1. apply E in E1. apply partner_Some in E1. congruence.
  - apply partner_Some in E1. apply E in E1. apply partner_Some in E1. congruence.
  - apply partner_Some in E2. apply E in E2. apply partner_Some in E2. congruence.
Qed.
Lemma rp_partner l : In l (free_legs h G ++ all_legs h rest) -> partner h' l = partner h l.
Proof. intros Hl. apply partner_ext. intros l'. now apply rp_linked. Qed.
Lemma rp_pairs L1 L2 : incl L1 (free_legs h G ++ all_legs h rest) -> pairs_between h' L1 L2 = pairs_between h L1 L2.
Proof.
  intros HI. unfold pairs_between. induction L1 as [|l L1 IH]; auto. cbn [flat_map]. rewrite IH by (intros x Hx; apply HI; simpl; auto).
  rewrite rp_partner by (apply HI; simpl; auto). reflexivity.
Qed.
Lemma rp_inner r : incl r rest -> inner h' r = inner h r.
Proof.
  induction r as [|t r IH]; intros HI; auto. cbn [inner]. assert (HI' : incl r rest) by (intros x Hx; apply HI; simpl; auto).
  rewrite IH, rp_all by auto. rewrite rp_legs by (apply HI; simpl; auto). f_equal. apply rp_pairs. intros l Hl.
  apply in_app_iff. right. apply all_legs_In. exists t. split; auto. apply HI. simpl; auto.
Qed.

(** fresh legs of the new group are not linked to anything outside it *)
Lemma rp_out l : In l (all_legs h' G') -> ~ In l (free_legs h G) -> nleg h <= l.
Proof. intros Hl N. destruct (gr_new _ _ _ _ _ R l Hl); tauto. Qed.
Lemma rp_all' l : In l (all_legs h' (G' ++ rest)) -> In l (free_legs h G ++ all_legs h rest) \/ (In l (all_legs h' G') /\ nleg h <= l).
Proof.
  rewrite all_legs_app, (rp_all rest) by apply incl_refl. rewrite !in_app_iff. intros [Hl|Hl]; auto.
  destruct (gr_new _ _ _ _ _ R l Hl); auto.
Qed.

Lemma rp_fresh l : In l (all_legs h' G') -> nleg h <= l -> exists y, linked h' l y /\ In y (all_legs h' G').
Proof.
  intros Hl Hn. pose proof (wo_net _ _ (gr_in _ _ _ _ _ R)) as WG.
  destruct (all_free_or_inner h' G' l Hl) as [HF|HF].
  - apply (Permutation_in _ (gr_free _ _ _ _ _ R)) in HF. apply rp_free_all in HF.
    assert (l < nleg h) by (apply rp_alloc; rewrite all_legs_app; apply in_app_iff; auto). lia.
  - apply plegs_In in HF. assert (exists y, inner_link h' G' l y) as (y & t & t' & Ht & Ht' & NE & Hx & Hy & LL).
    { destruct HF as [(y & Hy)|(y & Hy)]; exists y; apply inner_sound in Hy; try apply WG; auto. apply inner_link_sym; [apply WG|auto]. }
    exists y. split; auto. apply all_legs_In. exists t'; auto.
Qed.

Lemma rp_wf : wf_open h' (G' ++ rest).
Proof.
  assert (WG := gr_in _ _ _ _ _ R).
  assert (WN : wf_net h' (G' ++ rest)).
  { constructor.
    - intros t Ht. apply in_app_iff in Ht. destruct Ht as [Ht|Ht]; [apply (wn_wf _ _ (wo_net _ _ WG)); auto|].
      apply (wf_same h h').
      + now apply rp_rest.
      + intros l Hl. apply (gr_old _ _ _ _ _ R). apply in_app_iff. right. apply all_legs_In. exists t; auto.
      + apply (gr_nleg _ _ _ _ _ R).
      + apply (gr_ntens _ _ _ _ _ R).
      + apply (wn_wf _ _ W). apply in_app_iff; auto.
    - intros t Ht. apply in_app_iff in Ht. destruct Ht as [Ht|Ht]; [apply (wn_owned _ _ (wo_net _ _ WG)); auto|].
      intros l Hl. rewrite rp_legs in Hl by auto.
      assert (In l (all_legs h rest)) as Hr by (apply all_legs_In; exists t; auto).
      rewrite (gr_owner _ _ _ _ _ R).
      + apply (wn_owned _ _ W); auto. apply in_app_iff; auto.
      + apply rp_alloc. rewrite all_legs_app. apply in_app_iff; auto.
      + intros HF. apply (group_disj h G rest W l); auto. now apply rp_free_all.
    - apply NoDup_app_intro.
      + apply WG.
      + apply (NoDup_app_r _ _ (wn_ids _ _ W)).
      + intros t Ht Hr. apply (gr_ids _ _ _ _ _ R) in Ht. apply rp_rest in Hr. lia.
    - rewrite all_legs_app, (rp_all rest) by apply incl_refl. apply NoDup_app_intro.
      + apply WG.
      + pose proof (wn_nodup _ _ W) as N. rewrite all_legs_app in N. apply (NoDup_app_r _ _ N).
      + intros l Hl Hr. destruct (gr_new _ _ _ _ _ R l Hl) as [HF|HF].
        * apply (group_disj h G rest W l); auto. now apply rp_free_all.
        * assert (l < nleg h) by (apply rp_alloc; rewrite all_legs_app; apply in_app_iff; auto). lia.
    - intros l b Hl EB. apply rp_all' in Hl. destruct Hl as [Hl|[Hl Hn]].
      + destruct (gr_old _ _ _ _ _ R l Hl) as (EB' & ED). rewrite EB' in EB.
        pose proof (rp_keep l Hl) as HA'. destruct (wn_links _ _ W l b HA' EB) as (l' & EN & OK).
        assert (b < nbond h) as Lb by (eapply (wo_bonds _ _ WO); eauto).
        assert (l' < nleg h) as L' by (apply (wo_alloc _ _ WO l l' HA'); exists b; auto).
        exists l'. split; [apply rp_ends; auto|]. intros Hl'. apply rp_all' in Hl'. destruct Hl' as [Hl'|[_ X]]; [|lia].
        destruct (gr_old _ _ _ _ _ R l' Hl') as (-> & ->). rewrite ED. apply OK. now apply rp_keep.
      + destruct (wn_links _ _ (wo_net _ _ WG) l b Hl EB) as (l' & EN & OK). exists l'. split; auto.
        intros _. apply OK. destruct (rp_fresh l Hl Hn) as (y & LY & HY).
        replace l' with y; auto. apply (linked_fun h' l); auto. exists b; auto. }
  constructor; auto.
  - intros l b Hl EB. apply rp_all' in Hl. destruct Hl as [Hl|[Hl Hn]].
    + destruct (gr_old _ _ _ _ _ R l Hl) as (EB' & _). rewrite EB' in EB. pose proof (wo_bonds _ _ WO l b (rp_keep l Hl) EB). pose proof (gr_nbond _ _ _ _ _ R). lia.
    + eapply (wo_bonds _ _ WG); eauto.
  - intros l l' Hl LL. apply rp_all' in Hl. destruct Hl as [Hl|[Hl Hn]].
    + apply rp_linked in LL; auto. pose proof (wo_alloc _ _ WO l l' (rp_keep l Hl) LL). pose proof (gr_nleg _ _ _ _ _ R). lia.
    + eapply (wo_alloc _ _ WG); eauto.
Qed.

Lemma rp_cross : Permutation (cross h' G' rest) (cross h G rest).
Proof.
  unfold cross. rewrite (rp_all rest), (rp_inner rest) by apply incl_refl. apply Permutation_app_tail.
  rewrite <- rp_pairs by (intros l Hl; apply in_app_iff; auto). unfold pairs_between. apply Permutation_flat_map. apply (gr_free _ _ _ _ _ R).
Qed.

Lemma rp_free : Permutation (free_legs h' (G' ++ rest)) (free_legs h (G ++ rest)).
Proof.
  pose proof (wo_net _ _ rp_wf) as W'.
  apply NoDup_Permutation; [apply free_NoDup, W'|apply free_NoDup, W|]. intros l.
  assert (X : forall hh GG, wf_net hh (GG ++ rest) -> In l (free_legs hh (GG ++ rest)) <-> 
    (In l (free_legs hh GG) \/ In l (all_legs hh rest)) /\ ~ In l (plegs (cross hh GG rest))).
  { intros hh GG WW. unfold free_legs at 1. rewrite others_In. fold (plegs (inner hh (GG ++ rest))). rewrite all_legs_app, in_app_iff.
    assert (E : In l (plegs (inner hh (GG ++ rest))) <-> In l (plegs (inner hh GG)) \/ In l (plegs (cross hh GG rest))).
    { split.
      - intros Hl. apply (Permutation_in _ (plegs_perm _ _ (group_inner hh GG rest WW))) in Hl.
        unfold plegs in *. rewrite !map_app, !in_app_iff in Hl. rewrite !in_app_iff. tauto.
      - intros Hl. apply (Permutation_in _ (Permutation_sym (plegs_perm _ _ (group_inner hh GG rest WW)))).
        unfold plegs in *. rewrite !map_app, !in_app_iff. rewrite !in_app_iff in Hl. tauto. }
    rewrite E. unfold free_legs. rewrite others_In. fold (plegs (inner hh GG)).
    assert (D : In l (all_legs hh rest) -> ~ In l (plegs (inner hh GG))).
    { intros Hr Hi. apply (group_disj hh GG rest WW l); auto. apply (inner_legs hh GG); auto. apply (group_ids hh GG rest WW). }
    tauto. }
  rewrite (X h' G' W'), (X h G W), (rp_all rest) by apply incl_refl.
  assert (F : In l (free_legs h' G') <-> In l (free_legs h G)).
  { split; apply Permutation_in; [|apply Permutation_sym]; apply (gr_free _ _ _ _ _ R). }
  assert (C : In l (plegs (cross h' G' rest)) <-> In l (plegs (cross h G rest))).
  { split; apply Permutation_in; [|apply Permutation_sym]; apply plegs_perm, rp_cross. }
  tauto.
Qed.

Lemma rp_prod r s : incl r rest -> prod_entries h' r s = prod_entries h r s.
Proof.
  induction r as [|t r IH]; intros HI; auto. cbn [prod_entries]. rewrite IH by (intros x Hx; apply HI; simpl; auto). f_equal.
  unfold entry. now rewrite (proj2 (rp_rest t (HI t (or_introl eq_refl)))).
Qed.

Lemma rp_value : (forall s, in_bounds h (free_legs h G) s -> netval h' G' s = netval h G s) ->
  forall s, in_bounds h (free_legs h (G ++ rest)) s -> netval h' (G' ++ rest) s = netval h (G ++ rest) s.
Proof.
  intros V s B. pose proof (wo_net _ _ rp_wf) as W'. rewrite (group_by h' G' rest W'), (group_by h G rest W).
  assert (RC : respects (fun s => rmul (netval h' G' s) (prod_entries h' rest s))).
  { intros x y E. f_equal; [apply sumpairs_respects; auto; apply prod_respects|apply prod_respects; auto]. }
  rewrite (sumpairs_perm (dim_of h') _ (cross h G rest) _ RC rp_cross).
  2:{ 
      assert (N : NoDup (plegs (inner h' (G' ++ rest)))) by (apply inner_NoDup; apply W').
      apply (Permutation_NoDup (plegs_perm _ _ (group_inner h' G' rest W'))) in N.
      unfold plegs in N. rewrite !map_app in N. 
      apply (Permutation_NoDup (l' := (map fst (inner h' G') ++ map snd (inner h' G')) ++ map fst (cross h' G' rest) ++ map snd (cross h' G' rest))) in N.
      - now apply NoDup_app_r in N.
      - rewrite <- !app_assoc. apply Permutation_app_head. rewrite !app_assoc. apply Permutation_app_tail. apply Permutation_app_comm. }
  rewrite (sumpairs_ext_d (dim_of h') (dim_of h)).
  2:{ intros p Hp. apply (gr_old _ _ _ _ _ R). apply in_app_iff. apply (cross_legs h G rest W). unfold plegs. apply in_app_iff. left. now apply in_map. }
  apply sumpairs_ext_in.
  - intros [x y] Hp. simpl. apply (inner_dim h (G ++ rest)); [apply W|apply W|]. now apply cross_inner.
  - intros s' B1 B2. rewrite (rp_prod rest) by apply incl_refl. f_equal. apply V. intros l Hl.
    destruct (in_dec Nat.eq_dec l (plegs (cross h G rest))) as [Hq|Hq]; [now apply B1|]. rewrite B2 by auto. apply B.
    unfold free_legs at 1. apply others_In. fold (plegs (inner h (G ++ rest))). split.
    + rewrite all_legs_app. apply in_app_iff. left. now apply rp_free_all.
    + intros Hi. apply (Permutation_in _ (plegs_perm _ _ (group_inner h G rest W))) in Hi.
      unfold plegs in Hi. rewrite !map_app, !in_app_iff in Hi. unfold free_legs in Hl. apply others_In in Hl.
      rewrite in_app_iff in Hl. unfold plegs in Hq. rewrite in_app_iff in Hq. tauto.
Qed.

Lemma rp_target l l' t' : wf_list h (G ++ rest) -> owners_alloc h (G ++ rest) -> 
  In l (all_legs h' (G' ++ rest)) -> linked h' l l' -> l_tensor (legs h' l') = Some t' ->
  (In t' (G' ++ rest) -> In l' (legs_of h' t')) /\ t' < ntens h'.
Proof.
  intros WL OA Hl LL ET. pose proof (gr_in _ _ _ _ _ R) as WG.
  assert (INS : In l' (all_legs h' G') -> (In t' (G' ++ rest) -> In l' (legs_of h' t')) /\ t' < ntens h').
  { intros H. apply all_legs_In in H. destruct H as (t2 & Ht2 & H2). pose proof (wn_owned _ _ (wo_net _ _ WG) t2 Ht2 l' H2) as O.
    rewrite O in ET. injection ET as <-. split; auto. apply (gr_ids _ _ _ _ _ R t2 Ht2). }
  apply rp_all' in Hl. destruct Hl as [Hl|[Hl Hn]].
  - pose proof (rp_keep l Hl) as HA'. apply rp_linked in LL; auto. pose proof (wo_alloc _ _ WO l l' HA' LL) as L'.
    destruct (in_dec Nat.eq_dec l' (free_legs h G)) as [HF|HF].
    + apply INS. apply (Permutation_in _ (Permutation_sym (gr_free _ _ _ _ _ R))) in HF. unfold free_legs in HF. apply others_In in HF. tauto.
    + rewrite (gr_owner _ _ _ _ _ R) in ET by auto. pose proof (OA l l' t' HA' LL ET) as Lt. split; [|pose proof (gr_ntens _ _ _ _ _ R); lia].
      intros Ht. apply in_app_iff in Ht. destruct Ht as [Ht|Ht]; [apply (gr_ids _ _ _ _ _ R) in Ht; lia|].
      rewrite rp_legs by auto. apply (wl_owner _ _ WL l l' t'); auto. apply in_app_iff; auto.
  - destruct (rp_fresh l Hl Hn) as (y & LY & HY). rewrite (linked_fun h' l l' y LL LY) in *. auto.
Qed.

Lemma rp_list : wf_list h (G ++ rest) -> owners_alloc h (G ++ rest) -> wf_list h' (G' ++ rest) /\ owners_alloc h' (G' ++ rest).
Proof.
  intros WL OA. split.
  - constructor; try apply rp_wf. intros l l' t' Hl LL ET Ht. now apply (rp_target l l' t').
  - intros l l' t' Hl LL ET. now apply (rp_target l l' t').
Qed.
End Rep.
End Gr.
