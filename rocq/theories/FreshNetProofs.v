(** Networks made of tensors without bonds by linking pairs of their legs. *)
From Coq Require Import List Arith Bool String Permutation Lia.
From Verif Require Import Base Sums NdModel HeapModel TensorModel TensorSpec NetSpec FuncsProofs SumpairsProofs NetProofs LinkProofs.
Import ListNotations.
Local Open Scope nat_scope.

Section Fresh.
Context {A : Type} {HA : SR A}.
Notation heap := (heap A).
Variables (h h' : heap) (ts : list tid) (ps : list (lid * lid)).
Hypothesis Wf : forall t, In t ts -> wf_tensor h t /\ owned h t.
Hypothesis Nt : NoDup ts.
Hypothesis Nl : NoDup (all_legs h ts).
Hypothesis Free : forall l, In l (all_legs h ts) -> l_bond (legs h l) = None.
Hypothesis LA : links_added h h' ps.
Hypothesis Np : NoDup (plegs ps).
Hypothesis Dim : forall p, In p ps -> dim_of h (fst p) = dim_of h (snd p).
Hypothesis Across : forall l l', In (l, l') ps -> exists t t', In t ts /\ In t' ts /\ t <> t' /\ In l (legs_of h t) /\ In l' (legs_of h t').

Lemma F_legs t : legs_of h' t = legs_of h t. Proof. unfold legs_of. now rewrite (la_tens _ _ _ LA). Qed.
Lemma F_all us : all_legs h' us = all_legs h us. Proof. unfold all_legs. rewrite !flat_map_concat_map. f_equal. apply map_ext. intros. apply F_legs. Qed.
Lemma F_dim l : dim_of h' l = dim_of h l. Proof. unfold dim_of. apply (la_fields _ _ _ LA). Qed.
Lemma F_entry t s : entry h' t s = entry h t s. Proof. unfold entry. now rewrite (la_tens _ _ _ LA). Qed.
Lemma F_prod us s : prod_entries h' us s = prod_entries h us s.
Proof. induction us as [|t us IH]; simpl; auto. now rewrite F_entry, IH. Qed.
Lemma F_ends (x : heap) b l a c : ends x b l a -> ends x b l c -> a = c.
Proof. unfold ends. intros [H|H] [K|K]; rewrite H in K; congruence. Qed.
Lemma F_linked l l' : In l (all_legs h ts) -> linked h' l l' <-> In (l, l') ps \/ In (l', l) ps.
Proof.
  intros Hl. split.
  - intros (b & Eb & En). destruct (in_dec Nat.eq_dec l (plegs ps)) as [I|I]; [|rewrite (la_out _ _ _ LA) in Eb by exact I; rewrite Free in Eb; [discriminate|auto]].
    assert (exists x, In (l, x) ps \/ In (x, l) ps) as (x & Hx) by (apply plegs_In in I as [(y & I)|(y & I)]; eauto).
    assert (linked h' l x) as (b' & Eb' & En') by (destruct Hx as [H|H]; apply (la_in _ _ _ LA) in H; tauto).
    assert (b' = b) as -> by congruence. assert (x = l') as <- by (eapply F_ends; eauto). exact Hx.
  - intros [H|H]; apply (la_in _ _ _ LA) in H; tauto.
Qed.
Lemma F_in l l' : In (l, l') ps -> In l (all_legs h ts) /\ In l' (all_legs h ts).
Proof. intros H. destruct (Across l l' H) as (t & t' & H1 & H2 & _ & H3 & H4). split; apply all_legs_In; eauto. Qed.
Lemma F_wf : wf_net h' ts.
Proof.
  constructor.
  - intros t Ht. apply (wf_same h h'); [now rewrite (la_tens _ _ _ LA)|intros l _; apply F_dim|rewrite (la_nleg _ _ _ LA); lia|rewrite (la_ntens _ _ _ LA); lia|]. apply Wf, Ht.
  - intros t Ht l Hl. rewrite F_legs in Hl. destruct (la_fields _ _ _ LA l) as (-> & _). apply (Wf t Ht). exact Hl.
  - exact Nt.
  - rewrite F_all. exact Nl.
  - rewrite F_all. intros l b Hl Eb. destruct (in_dec Nat.eq_dec l (plegs ps)) as [I|I]; [|rewrite (la_out _ _ _ LA) in Eb by exact I; rewrite Free in Eb; [discriminate|auto]].
    assert (exists x, In (l, x) ps \/ In (x, l) ps) as (x & Hx) by (apply plegs_In in I as [(y & I)|(y & I)]; eauto).
    assert (K : linked h' l x /\ l_bond (legs h' l) = l_bond (legs h' x) /\ dim_of h l = dim_of h x).
    { destruct Hx as [H|H]; pose proof (Dim _ H) as D; apply (la_in _ _ _ LA) in H as (H1 & H2 & H3); simpl in D; auto. }
    destruct K as ((b' & Eb' & En) & E & D). assert (b' = b) as -> by congruence. exists x. split; auto. intros _. rewrite !F_dim. split; congruence.
Qed.
Lemma F_inner l l' : inner_link h' ts l l' <-> In (l, l') ps \/ In (l', l) ps.
Proof.
  split.
  - intros (t & t' & Ht & Ht' & _ & Hl & _ & H). apply F_linked; auto. apply all_legs_In. exists t. split; auto. now rewrite F_legs in Hl.
  - intros H. assert (exists t t', In t ts /\ In t' ts /\ t <> t' /\ In l (legs_of h t) /\ In l' (legs_of h t')) as (t & t' & H1 & H2 & H3 & H4 & H5).
    { destruct H as [H|H]; [exact (Across _ _ H)|]. destruct (Across _ _ H) as (t & t' & K1 & K2 & K3 & K4 & K5). exists t', t. auto. }
    exists t, t'. rewrite !F_legs. repeat split; auto. apply F_linked; auto. apply all_legs_In. eauto.
Qed.
Theorem fresh_value s : netval h' ts s = sumpairs (dim_of h) ps (prod_entries h ts) s.
Proof.
  unfold netval. pose proof F_wf as W. rewrite (sumpairs_same (dim_of h') (prod_entries h' ts) (prod_respects h' ts) (inner h' ts) ps).
  - rewrite (sumpairs_ext_d (dim_of h') (dim_of h)) by (intros p _; apply F_dim). apply sumpairs_ext. intros s'. apply F_prod.
  - apply inner_NoDup; apply W.
  - exact Np.
  - intros x y H. apply F_inner. apply inner_sound; auto.
  - intros x y H. apply inner_complete; [apply W|]. apply F_inner. auto.
  - intros x y H. apply (inner_dim h' ts x y); [exact Nt|apply W|exact H].
Qed.
Theorem fresh_free l : In l (free_legs h' ts) <-> In l (all_legs h ts) /\ ~ In l (plegs ps).
Proof.
  pose proof F_wf as W. rewrite (free_In h' ts l) by apply W. rewrite F_all. split; intros (H1 & H2); (split; [exact H1|]).
  - intros H. apply plegs_In in H as [(y & H)|(y & H)]; apply (H2 y); apply F_inner; auto.
  - intros y H. apply F_inner in H. apply H2, plegs_In. destruct H as [H|H]; eauto.
Qed.
End Fresh.
