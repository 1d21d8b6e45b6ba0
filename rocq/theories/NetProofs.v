(** Proofs about networks: one contraction step preserves the network value. *)
From Coq Require Import List Arith Bool Lia Permutation.
From Verif Require Import Base Sums NdModel HeapModel FuncsModel TensorModel TensorSpec ContractModel NetSpec
  FuncsProofs NdProofs TensorProofs ShareProofs SumpairsProofs ContractProofs DiagContractProofs OneDiagProofs OuterProofs.
Import ListNotations.
Local Open Scope nat_scope.

Section Ne.
Context {A : Type} {HA : SR A}.
Add Ring NeRing : (SR_theory (A := A)).
Notation heap := (heap A).

Lemma entry_indep (h : heap) t L : (forall l, In l (legs_of h t) -> ~ In l L) -> indep L (entry h t).
Proof.
  intros D s s' E. assert (F : forall l, In l (legs_of h t) -> s l = s' l) by (intros; apply E; auto).
  unfold legs_of in F. unfold entry, entry_of. destruct (t_arr (tens h t)) as [a|]; auto.
  destruct (t_diag (tens h t)).
  - destruct (t_legs (tens h t)) as [|l ls]; auto. rewrite (F l) by (simpl; auto).
    assert (forallb (fun l' => Nat.eqb (s l') (s' l)) ls = forallb (fun l' => Nat.eqb (s' l') (s' l)) ls) as ->; auto.
    assert (forall x, In x ls -> s x = s' x) as G by (intros; apply F; simpl; auto). clear - G.
    induction ls as [|x ls IH]; simpl; auto. rewrite (G x) by (simpl; auto). rewrite IH; auto. intros; apply G; simpl; auto.
  - f_equal. apply map_ext_in. auto.
Qed.
Lemma indep_mul L (f g : assignment -> A) : indep L f -> indep L g -> indep L (fun s => rmul (f s) (g s)).
Proof. intros F G s s' E. now rewrite (F s s' E), (G s s' E). Qed.
Lemma prod_indep (h : heap) ts L : (forall l, In l (all_legs h ts) -> ~ In l L) -> indep L (prod_entries h ts).
Proof.
  induction ts as [|t ts IH]; intros D; simpl.
  - intros s s' _. reflexivity.
  - apply indep_mul; [apply entry_indep|apply IH]; intros l Hl; apply D; simpl; apply in_app_iff; auto.
Qed.
Lemma prod_respects (h : heap) ts : respects (prod_entries h ts).
Proof. apply indep_respects with (L := []). apply prod_indep. auto. Qed.

(** ** bounds under sumpairs *)
Definition plegs (P : list (lid * lid)) : list lid := map fst P ++ map snd P.
Lemma plegs_cons l l' P x : In x (plegs ((l, l') :: P)) <-> x = l \/ x = l' \/ In x (plegs P).
Proof. unfold plegs. simpl. rewrite !in_app_iff. simpl. intuition. Qed.
Lemma plegs_In x P : In x (plegs P) <-> (exists y, In (x, y) P) \/ (exists y, In (y, x) P).
Proof.
  unfold plegs. rewrite in_app_iff, !in_map_iff. split.
  - intros [([a b] & <- & H)|([a b] & <- & H)]; simpl; eauto.
  - intros [(y & H)|(y & H)]; [left; exists (x, y)|right; exists (y, x)]; auto.
Qed.
Lemma sumpairs_ext_in d (f g : assignment -> A) : forall P s, (forall p, In p P -> d (fst p) = d (snd p)) ->
  (forall s', (forall l, In l (plegs P) -> s' l < d l) -> (forall l, ~ In l (plegs P) -> s' l = s l) -> f s' = g s') ->
  sumpairs d P f s = sumpairs d P g s.
Proof.
  induction P as [|[l l'] P IH]; intros s D H.
  - apply H; auto. intros l [].
  - simpl. apply sumN_ext. intros i Hi. apply IH; [intros; apply D; simpl; auto|].
    intros s' B1 B2. apply H.
    + intros x Hx. destruct (in_dec Nat.eq_dec x (plegs P)) as [I|NI]; auto. rewrite B2 by auto.
      apply plegs_cons in Hx. pose proof (D (l, l') (or_introl eq_refl)) as D1. simpl in D1.
      unfold upd. destruct (Nat.eqb_spec x l') as [->|]; [lia|]. destruct (Nat.eqb_spec x l) as [->|]; [auto|]. intuition.
    + intros x Hx. rewrite plegs_cons in Hx. rewrite B2 by tauto. unfold upd.
      destruct (Nat.eqb_spec x l'); [tauto|]. destruct (Nat.eqb_spec x l); tauto.
Qed.

(** ** inner links *)
Lemma all_legs_In (h : heap) ts l : In l (all_legs h ts) <-> exists t, In t ts /\ In l (legs_of h t).
Proof. unfold all_legs. rewrite in_flat_map. tauto. Qed.
Lemma all_legs_app (h : heap) ts ts' : all_legs h (ts ++ ts') = all_legs h ts ++ all_legs h ts'.
Proof. unfold all_legs. apply flat_map_app. Qed.
Lemma all_legs_perm (h : heap) ts ts' : Permutation ts ts' -> Permutation (all_legs h ts) (all_legs h ts').
Proof. intros P. unfold all_legs. now apply Permutation_flat_map. Qed.

Lemma one_owner (h : heap) ts t t' l : NoDup (all_legs h ts) -> In t ts -> In t' ts -> In l (legs_of h t) -> In l (legs_of h t') -> t = t'.
Proof.
  induction ts as [|x ts IH]; intros ND Ht Ht' Hl Hl'; [destruct Ht|]. simpl in ND.
  destruct Ht as [->|Ht], Ht' as [->|Ht']; auto.
  - exfalso. eapply NoDup_app_disj; [exact ND|exact Hl|]. apply all_legs_In; eauto.
  - exfalso. eapply NoDup_app_disj; [exact ND|exact Hl'|]. apply all_legs_In; eauto.
  - apply NoDup_app_r in ND. auto.
Qed.

(** what an inner link is, without an order of the tensors *)
Definition inner_link (h : heap) (ts : list tid) (l l' : lid) : Prop :=
  exists t t', In t ts /\ In t' ts /\ t <> t' /\ In l (legs_of h t) /\ In l' (legs_of h t') /\ linked h l l'.

Lemma inner_sound (h : heap) ts l l' : NoDup ts -> In (l, l') (inner h ts) -> inner_link h ts l l'.
Proof.
  induction ts as [|t ts IH]; intros ND Hi; [destruct Hi|]. inversion ND; subst. simpl in Hi. apply in_app_iff in Hi. destruct Hi as [Hi|Hi].
  - apply pairs_In in Hi. destruct Hi as (H & H' & Hl). apply all_legs_In in H'. destruct H' as (t' & Ht' & Hl').
    exists t, t'. simpl. repeat split; auto. congruence.
  - destruct (IH H2 Hi) as (t1 & t2 & ? & ? & ?). exists t1, t2. simpl. tauto.
Qed.
Lemma inner_complete (h : heap) ts l l' : links_ok h (all_legs h ts) -> inner_link h ts l l' -> In (l, l') (inner h ts) \/ In (l', l) (inner h ts).
Proof.
  induction ts as [|t ts IH]; intros LO (t1 & t2 & H1 & H2 & N & L1 & L2 & LK); [destruct H1|]. simpl.
  assert (linked h l' l) as LK' by (apply (links_sym h _ l l' LO); auto; apply all_legs_In; eauto).
  rewrite !in_app_iff. destruct H1 as [->|H1], H2 as [->|H2]; try congruence.
  - left. left. apply pairs_In. repeat split; auto. apply all_legs_In; eauto.
  - right. left. apply pairs_In. repeat split; auto. apply all_legs_In; eauto.
  - destruct IH as [I|I]; auto.
    + eapply links_ok_incl; [|exact LO]. simpl. apply incl_appr, incl_refl.
    + exists t1, t2. auto 8.
Qed.
Lemma inner_link_sym (h : heap) ts l l' : links_ok h (all_legs h ts) -> inner_link h ts l l' -> inner_link h ts l' l.
Proof.
  intros LO (t1 & t2 & H1 & H2 & N & L1 & L2 & LK). exists t2, t1. repeat split; auto.
  apply (links_sym h _ l l' LO); auto; apply all_legs_In; eauto.
Qed.
Lemma inner_link_perm (h : heap) ts ts' l l' : Permutation ts ts' -> inner_link h ts l l' -> inner_link h ts' l l'.
Proof.
  intros P (t1 & t2 & H1 & H2 & R). exists t1, t2. split; [|split; [|exact R]]; eapply Permutation_in; eauto.
Qed.
Lemma inner_legs (h : heap) ts : NoDup ts -> incl (plegs (inner h ts)) (all_legs h ts).
Proof.
  intros ND x Hx. apply plegs_In in Hx. destruct Hx as [(y & H)|(y & H)]; apply inner_sound in H; auto;
    destruct H as (t & t' & ? & ? & ? & ? & ? & ?); apply all_legs_In; eauto.
Qed.
Lemma inner_NoDup (h : heap) ts : NoDup ts -> NoDup (all_legs h ts) -> links_ok h (all_legs h ts) -> NoDup (plegs (inner h ts)).
Proof.
  induction ts as [|t ts IH]; intros ND NL LO; [constructor|]. inversion ND; subst. simpl in NL, LO.
  assert (LO2 : links_ok h (all_legs h ts)) by (eapply links_ok_incl; [|exact LO]; apply incl_appr, incl_refl).
  pose proof (IH H2 (NoDup_app_r _ _ NL) LO2) as NI. unfold plegs in *. simpl. rewrite !map_app.
  set (P := pairs_between h (legs_of h t) (all_legs h ts)). set (Q := inner h ts) in *.
  assert (Permutation ((map fst P ++ map fst Q) ++ map snd P ++ map snd Q) ((map fst P ++ map snd P) ++ map fst Q ++ map snd Q)) as PP.
  { rewrite <- !app_assoc. apply Permutation_app_head. rewrite !app_assoc. apply Permutation_app_tail. apply Permutation_app_comm. }
  symmetry in PP. eapply Permutation_NoDup; [exact PP|]. apply NoDup_app_intro; auto.
  - apply NoDup_app_intro.
    + apply pairs_fst_NoDup. eapply NoDup_app_l; eauto.
    + apply pairs_snd_NoDup; auto. eapply NoDup_app_l; eauto.
    + intros x X1 X2. apply pairs_fst_incl in X1. apply pairs_snd_incl in X2. exact (NoDup_app_disj _ _ x NL X1 X2).
  - intros x X1 X2. pose proof (inner_legs h ts H2 x X2) as X3. apply in_app_iff in X1. destruct X1 as [X1|X1].
    + apply pairs_fst_incl in X1. exact (NoDup_app_disj _ _ x NL X1 X3).
    + apply in_map_iff in X1. destruct X1 as ([y x'] & E & Hp). simpl in E. subst x'. apply pairs_In in Hp. destruct Hp as (Y1 & Y2 & LK).
      assert (linked h x y) as LK'. { apply (links_sym h _ y x LO); auto; apply in_app_iff; auto. }
      change (map fst Q ++ map snd Q) with (plegs Q) in X2. apply plegs_In in X2.
      assert (exists z, inner_link h ts x z) as (z & t1 & t2 & ? & ? & ? & ? & ? & LZ).
      { destruct X2 as [(z & Hz)|(z & Hz)]; apply inner_sound in Hz; auto; exists z; auto. now apply inner_link_sym. }
      assert (z = y) as -> by (eapply linked_fun; eauto). eapply NoDup_app_disj; [exact NL|exact Y1|]. apply all_legs_In; eauto.
Qed.
Lemma inner_dim (h : heap) ts l l' : NoDup ts -> links_ok h (all_legs h ts) -> In (l, l') (inner h ts) -> dim_of h l = dim_of h l'.
Proof.
  intros ND LO Hi. apply inner_sound in Hi; auto. destruct Hi as (t & t' & ? & ? & ? & ? & ? & LK).
  apply (links_dim h _ l l' LO); auto; apply all_legs_In; eauto.
Qed.

(** ** free legs *)
Lemma free_In (h : heap) ts l : NoDup ts -> links_ok h (all_legs h ts) -> 
  In l (free_legs h ts) <-> In l (all_legs h ts) /\ forall l', ~ inner_link h ts l l'.
Proof.
  intros ND LO. unfold free_legs. rewrite others_In. fold (plegs (inner h ts)). rewrite plegs_In. split; intros [H1 H2]; split; auto.
  - intros l' I. apply H2. destruct (inner_complete h ts l l' LO I); eauto.
  - intros [(y & H)|(y & H)]; apply inner_sound in H; auto; eapply H2; eauto. eapply inner_link_sym; eauto.
Qed.
Lemma free_NoDup (h : heap) ts : NoDup (all_legs h ts) -> NoDup (free_legs h ts).
Proof. apply others_NoDup. Qed.
Lemma all_free_or_inner (h : heap) ts l : In l (all_legs h ts) -> In l (free_legs h ts) \/ In l (plegs (inner h ts)).
Proof.
  intros Hl. destruct (in_dec Nat.eq_dec l (plegs (inner h ts))); auto. left. unfold free_legs. apply others_In. auto.
Qed.

(** ** permutations of the list *)
Lemma prod_perm (h : heap) ts ts' s : Permutation ts ts' -> prod_entries h ts s = prod_entries h ts' s.
Proof. induction 1; simpl; try congruence. ring. Qed.
Lemma wf_net_perm (h : heap) ts ts' : Permutation ts ts' -> wf_net h ts -> wf_net h ts'.
Proof.
  intros P [W1 W2 W3 W4 W5]. constructor.
  - intros t Ht. apply W1. eapply Permutation_in; [symmetry|]; eauto.
  - intros t Ht. apply W2. eapply Permutation_in; [symmetry|]; eauto.
  - eapply Permutation_NoDup; eauto.
  - eapply Permutation_NoDup; [|exact W4]. now apply all_legs_perm.
  - eapply links_ok_incl; [|exact W5]. intros l Hl. eapply Permutation_in; [symmetry; apply all_legs_perm|]; eauto.
Qed.
Lemma same_inner (h : heap) ts ts' : wf_net h ts -> Permutation ts ts' -> same_pairs (inner h ts) (inner h ts').
Proof.
  intros W P x y Hi. apply inner_sound in Hi; [|apply W]. apply inner_complete; [apply (wf_net_perm _ _ _ P W)|].
  eapply inner_link_perm; eauto.
Qed.
Lemma netval_perm (h : heap) ts ts' s : Permutation ts ts' -> wf_net h ts -> netval h ts s = netval h ts' s.
Proof.
  intros P W. pose proof (wf_net_perm _ _ _ P W) as W'. unfold netval.
  rewrite (sumpairs_ext _ _ (prod_entries h ts) (prod_entries h ts')) by (intros; now apply prod_perm).
  apply sumpairs_same.
  - apply prod_respects.
  - apply inner_NoDup; apply W.
  - apply inner_NoDup; apply W'.
  - now apply same_inner.
  - apply same_inner; auto. now symmetry.
  - intros x y. apply inner_dim; apply W.
Qed.
Lemma free_perm (h : heap) ts ts' : Permutation ts ts' -> wf_net h ts -> Permutation (free_legs h ts) (free_legs h ts').
Proof.
  intros P W. pose proof (wf_net_perm _ _ _ P W) as W'. apply NoDup_Permutation.
  - apply free_NoDup, W.
  - apply free_NoDup, W'.
  - intros l. rewrite !free_In by (apply W || apply W'). split; intros [H1 H2]; split.
    + eapply Permutation_in; [apply all_legs_perm; eauto|auto].
    + intros l' I. apply (H2 l'). eapply inner_link_perm; [symmetry|]; eauto.
    + eapply Permutation_in; [apply all_legs_perm; symmetry; eauto|auto].
    + intros l' I. apply (H2 l'). eapply inner_link_perm; eauto.
Qed.

(** ** one step *)
Lemma wf_net_pair (h : heap) ta tb rest : wf_net h (ta :: tb :: rest) -> wf_pair h ta tb.
Proof.
  intros [W1 W2 W3 W4 W5]. constructor.
  - apply W1. simpl; auto.
  - apply W1. simpl; auto.
  - inversion W3; subst. intros ->. apply H1. simpl; auto.
  - simpl in W4. rewrite app_assoc in W4. now apply NoDup_app_l in W4.
  - eapply links_ok_incl; [|exact W5]. simpl. rewrite app_assoc. apply incl_appl, incl_refl.
Qed.
Lemma wf_same (h h' : heap) t : tens h' t = tens h t -> (forall l, In l (legs_of h t) -> dim_of h' l = dim_of h l) ->
  nleg h <= nleg h' -> ntens h <= ntens h' -> wf_tensor h t -> wf_tensor h' t.
Proof.
  intros Et Ed N1 N2 [W1 W2 W3 W4 W5]. assert (EL : legs_of h' t = legs_of h t) by (unfold legs_of; now rewrite Et).
  constructor.
  - lia.
  - now rewrite EL.
  - intros l Hl. rewrite EL in Hl. apply W3 in Hl. lia.
  - rewrite Et. unfold data_ok in *. destruct (t_like (tens h t)), (t_arr (tens h t)); auto. destruct W4 as [W4 W6]. split; auto.
    rewrite W6. destruct (t_diag (tens h t)); auto. apply map_ext_in. intros l Hl. symmetry. now apply Ed.
  - rewrite Et, EL. intros D. destruct (W5 D) as [X Y]. split; auto. intros l Hl. rewrite Ed by auto. auto.
Qed.

Section Step.
Variables (h h' : heap) (ta tb tc : tid) (L : list lid) (rest : list tid).
Hypothesis W : wf_net h (ta :: tb :: rest).
Hypothesis C : contracted h h' ta tb tc L.
Hypothesis PL : Permutation L (restA h ta tb ++ restB h ta tb).
Let WP : wf_pair h ta tb := wf_net_pair _ _ _ _ W.

Lemma step_leg l : l < nleg h -> l_bond (legs h' l) = l_bond (legs h l) /\ dim_of h' l = dim_of h l /\ l_name (legs h' l) = l_name (legs h l).
Proof.
  intros Hl. unfold dim_of. destruct (in_dec Nat.eq_dec l L) as [I|NI].
  - rewrite (ct_in _ _ _ _ _ _ C l I). auto.
  - rewrite (ct_out _ _ _ _ _ _ C l Hl NI). auto.
Qed.
Lemma step_partner l : l < nleg h -> partner h' l = partner h l.
Proof. intros Hl. apply partner_kept; [apply C|]. now apply step_leg. Qed.
Lemma step_linked l l' : l < nleg h -> linked h' l l' <-> linked h l l'.
Proof. intros Hl. rewrite <- !partner_Some. now rewrite step_partner. Qed.
Lemma net_alloc l : In l (all_legs h (ta :: tb :: rest)) -> l < nleg h.
Proof. rewrite all_legs_In. intros (t & Ht & Hl). eapply wt_alloc; eauto. now apply W. Qed.
Lemma step_rest t : In t rest -> t <> ta /\ t <> tb /\ t < ntens h /\ tens h' t = tens h t.
Proof.
  intros Ht. pose proof (wn_ids _ _ W) as N. inversion N as [|? ? N1 N2]; subst. inversion N2 as [|? ? N3 N4]; subst.
  assert (t <> ta) by (intros ->; apply N1; simpl; auto). assert (t <> tb) by (intros ->; auto).
  assert (t < ntens h) by (eapply wt_id; apply W; simpl; auto). repeat split; auto. now apply C.
Qed.
Lemma step_rest_legs t : In t rest -> legs_of h' t = legs_of h t.
Proof. intros Ht. unfold legs_of. destruct (step_rest t Ht) as (_ & _ & _ & ->). auto. Qed.
Lemma step_all_rest : all_legs h' rest = all_legs h rest.
Proof.
  unfold all_legs. pose proof step_rest_legs as F. induction rest as [|t r IH]; auto. simpl. rewrite F by (simpl; auto). f_equal.
  clear - F. induction r as [|x r IH]; simpl; auto. rewrite F by (simpl; auto). f_equal. apply IH. intros; apply F; simpl in *; tauto.
Qed.
Lemma step_all : all_legs h' (tc :: rest) = L ++ all_legs h rest.
Proof. simpl. now rewrite step_all_rest, (ct_legs _ _ _ _ _ _ C). Qed.
Lemma L_incl : incl L (legs_of h ta ++ legs_of h tb).
Proof.
  intros l Hl. apply (Permutation_in _ PL) in Hl. apply in_app_iff in Hl. apply in_app_iff.
  unfold restA, restB in Hl. rewrite !others_In in Hl. tauto.
Qed.
Lemma step_incl : incl (all_legs h' (tc :: rest)) (all_legs h (ta :: tb :: rest)).
Proof.
  intros l Hl. rewrite step_all in Hl. simpl. rewrite app_assoc. apply in_app_iff in Hl. apply in_app_iff.
  destruct Hl as [Hl|Hl]; auto. left. now apply L_incl.
Qed.
Lemma net_split : NoDup (legs_of h ta ++ legs_of h tb) /\ NoDup (all_legs h rest) /\ 
  (forall x, In x (legs_of h ta ++ legs_of h tb) -> In x (all_legs h rest) -> False).
Proof.
  pose proof (wn_nodup _ _ W) as N. simpl in N. rewrite app_assoc in N. split; [now apply NoDup_app_l in N|].
  split; [now apply NoDup_app_r in N|]. intros x. now apply NoDup_app_disj.
Qed.
Lemma step_wf : wf_net h' (tc :: rest).
Proof.
  destruct net_split as (N1 & N2 & N3). constructor.
  - intros t [<-|Ht]; [apply C|]. destruct (step_rest t Ht) as (H1 & H2 & H3 & H4). apply (wf_same h h'); auto.
    + intros l Hl. apply step_leg. apply net_alloc. apply all_legs_In. exists t. simpl. auto.
    + rewrite (ct_nleg _ _ _ _ _ _ C). auto.
    + rewrite (ct_ntens _ _ _ _ _ _ C). auto.
    + apply W. simpl; auto.
  - intros t [<-|Ht]; [apply C|]. intros l Hl. rewrite step_rest_legs in Hl by auto. rewrite (ct_out _ _ _ _ _ _ C).
    + apply (wn_owned _ _ W t); simpl; auto.
    + apply net_alloc. apply all_legs_In. exists t. simpl. auto.
    + intros Hi. apply L_incl in Hi. apply (N3 l); auto. apply all_legs_In; eauto.
  - constructor.
    + intros Hi. destruct (step_rest tc Hi) as (_ & _ & H & _). rewrite (ct_id _ _ _ _ _ _ C) in H. lia.
    + pose proof (wn_ids _ _ W) as N. inversion N as [|? ? X1 X2]; subst. now inversion X2.
  - rewrite step_all. apply NoDup_app_intro; auto.
    + symmetry in PL. eapply Permutation_NoDup; [exact PL|]. apply rest_alloc, WP.
    + intros x Hx. apply L_incl in Hx. now apply N3.
  - eapply links_ok_incl; [apply step_incl|]. apply (links_ok_kept h h'); [apply C| |apply W].
    intros l Hl. destruct (step_leg l (net_alloc l Hl)) as (H1 & H2 & _). auto.
Qed.

Lemma rest_not_shared l : In l L <-> In l (legs_of h ta ++ legs_of h tb) /\ ~ In l (plegs (shared h ta tb)).
Proof.
  transitivity (In l (restA h ta tb ++ restB h ta tb)).
  { split; apply Permutation_in; auto. now symmetry. }
  unfold restA, restB, plegs. rewrite !in_app_iff, !others_In. pose proof (wp_disj h ta tb l WP) as D. 
  pose proof (shared_fst h ta tb l) as F1. pose proof (shared_snd h ta tb l) as F2. tauto.
Qed.
Lemma shared_link l l' : In (l, l') (shared h ta tb) <-> In l (legs_of h ta) /\ In l' (legs_of h tb) /\ linked h l l'.
Proof. apply pairs_In. Qed.
Lemma pair_sym_link l l' : In l (legs_of h ta ++ legs_of h tb) -> In l' (legs_of h ta ++ legs_of h tb) -> linked h l l' -> linked h l' l.
Proof. intros H1 H2. apply (links_sym h _ l l' (wp_links _ _ _ WP)); auto. Qed.

(** inner links of the old list: shared ones and those of the new list *)
Lemma step_inner_link l l' : inner_link h (ta :: tb :: rest) l l' <-> 
  In (l, l') (shared h ta tb) \/ In (l', l) (shared h ta tb) \/ inner_link h' (tc :: rest) l l'.
Proof.
  destruct net_split as (N1 & N2 & N3). pose proof (wn_nodup _ _ W) as NA. pose proof (wn_links _ _ W) as LO.
  assert (OW : forall t x, In t (ta :: tb :: rest) -> In x (legs_of h t) -> x < nleg h) by (intros; apply net_alloc, all_legs_In; eauto).
  assert (Ntc : forall t, In t rest -> t <> tc).
  { intros t Ht ->. destruct (step_rest tc Ht) as (_ & _ & X & _). rewrite (ct_id _ _ _ _ _ _ C) in X. lia. }
  assert (InL : forall x y t t', (t = ta \/ t = tb) -> In t' rest -> In x (legs_of h t) -> In y (legs_of h t') -> linked h x y -> In x L).
  { intros x y t t' Et Ht' Hx Hy LK. apply rest_not_shared. 
    assert (In x (legs_of h ta ++ legs_of h tb)) as Hx' by (apply in_app_iff; destruct Et; subst; auto). split; auto.
    intros Hs. apply plegs_In in Hs. destruct Hs as [(z & Hz)|(z & Hz)].
    - apply shared_link in Hz. destruct Hz as (Z1 & Z2 & Z3). assert (y = z) as -> by (eapply linked_fun; eauto).
      apply (N3 z); [apply in_app_iff; auto|apply all_legs_In; eauto].
    - apply shared_link in Hz. destruct Hz as (Z1 & Z2 & Z3). 
      assert (linked h x z) as Z4. { apply pair_sym_link; auto; apply in_app_iff; auto. }
      assert (y = z) as -> by (eapply linked_fun; eauto).
      apply (N3 z); [apply in_app_iff; auto|apply all_legs_In; eauto]. }
  split.
  - intros (t & t' & Ht & Ht' & N & Hl & Hl' & LK).
    assert (linked h l' l) as LK' by (apply (links_sym h _ l l' LO); auto; apply all_legs_In; eauto).
    assert (linked h' l l') as LK2 by (apply step_linked; eauto).
    destruct (in_dec Nat.eq_dec t rest) as [Rt|Rt], (in_dec Nat.eq_dec t' rest) as [Rt'|Rt'].
    + right. right. exists t, t'. simpl. rewrite !step_rest_legs by auto. auto 10.
    + assert (t' = ta \/ t' = tb) as Et' by (simpl in Ht'; intuition).
      right. right. exists t, tc. simpl. rewrite (ct_legs _ _ _ _ _ _ C). rewrite step_rest_legs by auto. repeat split; auto.
      apply (InL l' l t' t); auto.
    + assert (t = ta \/ t = tb) as Et by (simpl in Ht; intuition).
      right. right. exists tc, t'. simpl. rewrite (ct_legs _ _ _ _ _ _ C). rewrite step_rest_legs by auto. repeat split; auto.
      * intros E. now apply (Ntc t').
      * apply (InL l l' t t'); auto.
    + assert (t = ta \/ t = tb) as Et by (simpl in Ht; intuition). assert (t' = ta \/ t' = tb) as Et' by (simpl in Ht'; intuition).
      destruct Et as [->| ->], Et' as [->| ->]; try congruence.
      * left. now apply shared_link.
      * right. left. now apply shared_link.
  - intros [Hs|[Hs|Hi]].
    + apply shared_link in Hs. exists ta, tb. simpl. pose proof (wp_ne _ _ _ WP). intuition.
    + apply shared_link in Hs. destruct Hs as (S1 & S2 & S3). exists tb, ta. simpl. pose proof (wp_ne _ _ _ WP).
      repeat split; auto. apply pair_sym_link; auto; apply in_app_iff; auto.
    + destruct Hi as (t & t' & Ht & Ht' & N & Hl & Hl' & LK).
      assert (G : forall t x, In t (tc :: rest) -> In x (legs_of h' t) -> exists t0, In t0 (ta :: tb :: rest) /\ In x (legs_of h t0) /\ (t = tc -> t0 = ta \/ t0 = tb) /\ (In t rest -> t0 = t)).
      { intros u x [<-|Hu] Hx.
        - rewrite (ct_legs _ _ _ _ _ _ C) in Hx. apply L_incl in Hx. apply in_app_iff in Hx.
          destruct Hx as [Hx|Hx]; [exists ta|exists tb]; simpl; repeat split; auto; intros Hc; exfalso; now apply (Ntc tc).
        - rewrite step_rest_legs in Hx by auto. exists u. simpl. repeat split; auto. intros ->. exfalso. now apply (Ntc tc). }
      destruct (G t l Ht Hl) as (t0 & T1 & T2 & T3 & T4). destruct (G t' l' Ht' Hl') as (t0' & T1' & T2' & T3' & T4').
      exists t0, t0'. repeat split; auto.
      * intros ->. destruct Ht as [<-|Ht], Ht' as [<-|Ht']; try congruence.
        -- rewrite (T4' Ht') in *. destruct (step_rest t' Ht') as (X1 & X2 & _). destruct (T3 eq_refl); congruence.
        -- rewrite (T4 Ht) in *. destruct (step_rest t Ht) as (X1 & X2 & _). destruct (T3' eq_refl); congruence.
        -- apply N. now rewrite <- (T4 Ht), <- (T4' Ht').
      * apply step_linked in LK; auto. apply (OW t0 l); auto.
Qed.

Lemma step_free : Permutation (free_legs h' (tc :: rest)) (free_legs h (ta :: tb :: rest)).
Proof.
  pose proof step_wf as W'. apply NoDup_Permutation.
  - apply free_NoDup, W'.
  - apply free_NoDup, W.
  - intros l. rewrite !free_In by (apply W || apply W'). split; intros [H1 H2]; split.
    + now apply step_incl.
    + intros l' I. apply step_inner_link in I. rewrite step_all in H1. apply in_app_iff in H1.
      assert (In l (plegs (shared h ta tb)) -> False) as NS.
      { intros HS. destruct H1 as [H1|H1]; [now apply rest_not_shared in H1|].
        destruct net_split as (_ & _ & N3). apply (N3 l); auto. apply in_app_iff. unfold plegs in HS. apply in_app_iff in HS.
        destruct HS as [HS|HS]; [left; now apply shared_fst in HS|right; now apply shared_snd in HS]. }
      destruct I as [I|[I|I]]; [apply NS, plegs_In; eauto|apply NS, plegs_In; eauto|eapply H2; eauto].
    + rewrite step_all. apply in_app_iff. simpl in H1. rewrite app_assoc in H1. apply in_app_iff in H1. destruct H1 as [H1|H1]; auto.
      left. apply rest_not_shared. split; auto. intros HS. apply plegs_In in HS. destruct HS as [(y & Hy)|(y & Hy)]; apply (H2 y); apply step_inner_link; auto.
    + intros l' I. apply (H2 l'). apply step_inner_link. auto.
Qed.

Hypothesis V : forall s, in_bounds h (restA h ta tb ++ restB h ta tb) s -> entry h' tc s = einsum h ta tb s.

Lemma prod_same ts s : (forall t, In t ts -> tens h' t = tens h t) -> prod_entries h' ts s = prod_entries h ts s.
Proof. induction ts as [|t ts IH]; intros F; simpl; auto. rewrite IH by (intros; apply F; simpl; auto). f_equal. unfold entry. now rewrite F by (simpl; auto). Qed.

Lemma step_value s : in_bounds h (free_legs h (ta :: tb :: rest)) s ->
  netval h' (tc :: rest) s = netval h (ta :: tb :: rest) s.
Proof.
  intros B. pose proof step_wf as W'. destruct net_split as (N1 & N2 & N3). unfold netval.
  set (F := fun s => rmul (rmul (entry h ta s) (entry h tb s)) (prod_entries h rest s)).
  assert (Dl : forall l, In l (all_legs h' (tc :: rest)) -> dim_of h' l = dim_of h l).
  { intros l Hl. apply step_leg, net_alloc. now apply step_incl. }
  rewrite (sumpairs_ext_in (dim_of h') (prod_entries h' (tc :: rest)) (sumpairs (dim_of h) (shared h ta tb) F)).
  - rewrite (sumpairs_ext_d (dim_of h') (dim_of h)).
    2:{ intros p Hp. apply Dl. apply inner_legs; [apply W'|]. unfold plegs. apply in_app_iff. left. now apply in_map. }
    rewrite <- sumpairs_app.
    assert (RF : respects (prod_entries h (ta :: tb :: rest))) by apply prod_respects.
    rewrite (sumpairs_ext _ _ F (prod_entries h (ta :: tb :: rest))) by (intros; unfold F; simpl; ring).
    assert (NS : forall x, In x (plegs (shared h ta tb)) -> ~ In x (all_legs h' (tc :: rest))).
    { intros x HS Ha. rewrite step_all in Ha. apply in_app_iff in Ha. destruct Ha as [Ha|Ha]; [now apply rest_not_shared in Ha|].
      apply (N3 x); auto. apply in_app_iff. unfold plegs in HS. apply in_app_iff in HS.
      destruct HS as [HS|HS]; [left; now apply shared_fst in HS|right; now apply shared_snd in HS]. }
    apply sumpairs_same; auto.
    + rewrite !map_app. set (I := inner h' (tc :: rest)). set (S := shared h ta tb).
      assert (Permutation ((map fst I ++ map snd I) ++ map fst S ++ map snd S) ((map fst I ++ map fst S) ++ map snd I ++ map snd S)) as PP.
      { rewrite <- !app_assoc. apply Permutation_app_head. rewrite !app_assoc. apply Permutation_app_tail. apply Permutation_app_comm. }
      eapply Permutation_NoDup; [exact PP|]. apply NoDup_app_intro.
      * apply inner_NoDup; apply W'.
      * apply shared_NoDup, WP.
      * intros x X1 X2. apply (NS x X2). apply inner_legs; [apply W'|auto].
    + apply inner_NoDup; apply W.
    + intros x y Hi. apply inner_complete; [apply W|]. apply step_inner_link. apply in_app_iff in Hi. destruct Hi as [Hi|Hi]; auto.
      right. right. apply inner_sound; auto. apply W'.
    + intros x y Hi. apply inner_sound in Hi; [|apply W]. apply step_inner_link in Hi. rewrite !in_app_iff.
      destruct Hi as [Hi|[Hi|Hi]]; auto. destruct (inner_complete h' (tc :: rest) x y) as [X|X]; auto. apply W'.
    + intros x y Hi. apply in_app_iff in Hi. destruct Hi as [Hi|Hi].
      * assert (X1 : In x (plegs (inner h' (tc :: rest)))) by (apply plegs_In; eauto).
        assert (X2 : In y (plegs (inner h' (tc :: rest)))) by (apply plegs_In; eauto).
        apply inner_legs in X1; [|apply W']. apply inner_legs in X2; [|apply W'].
        rewrite <- !Dl by auto. apply (inner_dim h' (tc :: rest)); [apply W'|apply W'|auto].
      * apply (shared_dim h ta tb (x, y)); auto.
  - intros [x y] Hp. simpl. apply (inner_dim h' (tc :: rest)); [apply W'|apply W'|auto].
  - intros s' B1 B2. simpl.
    assert (IB : in_bounds h (restA h ta tb ++ restB h ta tb) s').
    { intros l Hl. assert (In l L) as HL by (symmetry in PL; eapply Permutation_in; eauto).
      assert (In l (all_legs h' (tc :: rest))) as HA' by (rewrite step_all; apply in_app_iff; auto).
      rewrite <- Dl by auto. destruct (in_dec Nat.eq_dec l (plegs (inner h' (tc :: rest)))) as [I|NI]; auto.
      rewrite B2, Dl by auto. apply B. eapply Permutation_in; [apply step_free|].
      destruct (all_free_or_inner h' (tc :: rest) l HA') as [X|X]; [auto|contradiction]. }
    rewrite V by auto. unfold einsum. rewrite prod_same by (intros; now apply step_rest).
    symmetry. apply (sumpairs_mul_r (dim_of h) (shared h ta tb) (fun s => rmul (entry h ta s) (entry h tb s)) (prod_entries h rest)).
    apply prod_indep. intros l Hl HS. apply (N3 l); auto. apply in_app_iff in HS. apply in_app_iff.
    destruct HS as [HS|HS]; [left; now apply shared_fst in HS|right; now apply shared_snd in HS].
Qed.
End Step.
End Ne.
