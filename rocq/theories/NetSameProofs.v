(** Heaps that differ only in names of legs and in the order of the ends of bonds carry the same networks. *)
From Coq Require Import List Arith Bool Lia String ZArith Permutation.
From Verif Require Import Base Sums NdModel NdProofs HeapModel FuncsModel FuncsProofs TensorModel TensorSpec
  ContractModel NetSpec ShareProofs LinkProofs SumpairsProofs ContractProofs NetProofs MergeLinkProofs GroupSpec GroupProofs.
Import ListNotations.
Local Open Scope list_scope.
Local Open Scope nat_scope.

Section Ns.
Context {A : Type} {HA : SR A}.
Notation heap := (heap A).

Lemma ns_refl (h : heap) : net_same h h.
Proof. constructor; auto. intros b. auto. Qed.
Lemma ns_trans (h h1 h2 : heap) : net_same h h1 -> net_same h1 h2 -> net_same h h2.
Proof.
  intros [a1 a2 a3 a4 a5 a6] [b1' b2 b3 b4 b5 b6]. constructor; try congruence.
  - intros l. destruct (a2 l) as (x1 & x2 & x3), (b2 l) as (y1 & y2 & y3). repeat split; congruence.
  - intros b. destruct (a3 b) as [E|E], (b3 b) as [F|F]; rewrite F, E; simpl; auto. left. now destruct (bonds h b).
Qed.
Lemma ns_ob (h h' : heap) : only_bonds h h' -> net_same h h'.
Proof. intros [a1 a2 a3 a4 a5 a6 a7 a8]. constructor; auto. intros l. now rewrite a1. Qed.
Lemma ns_names (h h' : heap) L f : only_names h h' L f -> net_same h h'.
Proof.
  intros [a1 a2 a3 a4 a5 a6 a7 a8 a9]. constructor; auto.
  - intros l. destruct (in_dec Nat.eq_dec l L) as [H|H]; [rewrite a8 by auto; auto|rewrite a9 by auto; auto].
  - intros b. left. now rewrite a1.
Qed.

Section One.
Variables h h' : heap.
Hypothesis NS : net_same h h'.

Lemma ns_legs_of t : legs_of h' t = legs_of h t. Proof. unfold legs_of. now rewrite (ns_tens _ _ NS). Qed.
Lemma ns_all ts : all_legs h' ts = all_legs h ts.
Proof. unfold all_legs. rewrite !flat_map_concat_map. f_equal. apply map_ext. intros. apply ns_legs_of. Qed.
Lemma ns_dim l : dim_of h' l = dim_of h l. Proof. unfold dim_of. apply NS. Qed.
Lemma ns_dims L : map (dim_of h') L = map (dim_of h) L. Proof. apply map_ext. apply ns_dim. Qed.
Lemma ns_entry t s : entry h' t s = entry h t s. Proof. unfold entry. now rewrite (ns_tens _ _ NS). Qed.
Lemma ns_inb L s : in_bounds h' L s <-> in_bounds h L s.
Proof. unfold in_bounds. split; intros H l Hl; specialize (H l Hl); rewrite ns_dim in *; auto. Qed.
Lemma ns_ends b l l' : ends h' b l l' <-> ends h b l l'.
Proof.
  unfold ends. destruct (ns_bonds _ _ NS b) as [E|E]; rewrite E; [tauto|].
  destruct (bonds h b) as [x y]. simpl. split; intros [X|X]; injection X as <- <-; auto.
Qed.
Lemma ns_linked l l' : linked h' l l' <-> linked h l l'.
Proof.
  unfold linked. destruct (ns_leg _ _ NS l) as (_ & _ & ->). split; intros (b & E & N); exists b; split; auto; now apply ns_ends.
Qed.
Lemma ns_partner l : partner h' l = partner h l. Proof. apply partner_ext. intros. apply ns_linked. Qed.
Lemma ns_pairs L1 L2 : pairs_between h' L1 L2 = pairs_between h L1 L2.
Proof. unfold pairs_between. rewrite !flat_map_concat_map. f_equal. apply map_ext. intros l. now rewrite ns_partner. Qed.
Lemma ns_shared ta tb : shared h' ta tb = shared h ta tb. Proof. unfold shared. now rewrite ns_pairs, !ns_legs_of. Qed.
Lemma ns_restA ta tb : restA h' ta tb = restA h ta tb. Proof. unfold restA. now rewrite ns_shared, ns_legs_of. Qed.
Lemma ns_restB ta tb : restB h' ta tb = restB h ta tb. Proof. unfold restB. now rewrite ns_shared, ns_legs_of. Qed.
Lemma ns_inner ts : inner h' ts = inner h ts.
Proof. induction ts as [|t ts IH]; auto. cbn [inner]. now rewrite IH, ns_pairs, ns_all, ns_legs_of. Qed.
Lemma ns_free ts : free_legs h' ts = free_legs h ts. Proof. unfold free_legs. now rewrite ns_inner, ns_all. Qed.
Lemma ns_prod ts s : prod_entries h' ts s = prod_entries h ts s.
Proof. induction ts as [|t ts IH]; auto. cbn [prod_entries]. now rewrite IH, ns_entry. Qed.
Lemma ns_sum P (f g : assignment -> A) s : (forall s, f s = g s) -> sumpairs (dim_of h') P f s = sumpairs (dim_of h) P g s.
Proof. intros E. rewrite (sumpairs_ext_d (dim_of h') (dim_of h)) by (intros; apply ns_dim). now apply sumpairs_ext. Qed.
Lemma ns_netval ts s : netval h' ts s = netval h ts s.
Proof. unfold netval. rewrite ns_inner. apply ns_sum. intros. apply ns_prod. Qed.
Lemma ns_einsum ta tb s : einsum h' ta tb s = einsum h ta tb s.
Proof. unfold einsum. rewrite ns_shared. apply ns_sum. intros. now rewrite !ns_entry. Qed.
Lemma ns_wf t : wf_tensor h t -> wf_tensor h' t.
Proof. apply wf_same; [now rewrite (ns_tens _ _ NS)|intros; apply ns_dim|now rewrite (ns_nleg _ _ NS)|now rewrite (ns_ntens _ _ NS)]. Qed.
Lemma ns_owned t : owned h t -> owned h' t.
Proof. intros O l Hl. rewrite ns_legs_of in Hl. destruct (ns_leg _ _ NS l) as (-> & _). auto. Qed.
Lemma ns_links L : links_ok h L -> links_ok h' L.
Proof.
  intros LO l b Hl EB. destruct (ns_leg _ _ NS l) as (_ & _ & EB'). rewrite EB' in EB. destruct (LO l b Hl EB) as (l' & E & OK).
  exists l'. split; [now apply ns_ends|]. intros Hl'. destruct (ns_leg _ _ NS l') as (_ & _ & ->). rewrite !ns_dim. auto.
Qed.
Lemma ns_wf_net ts : wf_net h ts -> wf_net h' ts.
Proof. intros [a b c d e]. constructor; auto using ns_wf, ns_owned; rewrite ns_all; auto using ns_links. Qed.
Lemma ns_wf_open ts : wf_open h ts -> wf_open h' ts.
Proof.
  intros [a b c]. constructor; [now apply ns_wf_net| |].
  - intros l b'. rewrite ns_all, (ns_nbond _ _ NS). destruct (ns_leg _ _ NS l) as (_ & _ & ->). apply b.
  - intros l l'. rewrite ns_all, (ns_nleg _ _ NS), ns_linked. apply c.
Qed.
Lemma ns_wf_list ts : wf_list h ts -> wf_list h' ts.
Proof.
  intros WL. pose proof (ns_wf_open ts (wf_list_open _ _ WL)) as [a b c]. constructor; auto.
  intros l l' t'. rewrite ns_all, ns_linked, ns_legs_of. destruct (ns_leg _ _ NS l') as (-> & _). apply WL.
Qed.
Lemma ns_owners ts : owners_alloc h ts -> owners_alloc h' ts.
Proof. intros O l l' t'. rewrite ns_all, ns_linked, (ns_ntens _ _ NS). destruct (ns_leg _ _ NS l') as (-> & _). apply O. Qed.
Lemma ns_wf_pair ta tb : wf_pair h ta tb -> wf_pair h' ta tb.
Proof. intros [a b c d e]. constructor; auto using ns_wf; rewrite !ns_legs_of; auto using ns_links. Qed.
End One.
End Ns.
