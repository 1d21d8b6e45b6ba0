(** Vocabulary: a group of tensors of a network replaced by another group. *)
From Coq Require Import List Arith Permutation.
From Verif Require Import Base Sums NdModel HeapModel TensorSpec NetSpec.
Import ListNotations.

Section Sp.
Context {A : Type}.
Notation heap := (heap A).

(** well-formed network whose bonds and linked legs are allocated ([wf_list] without its clause on owners) *)
Record wf_open (h : heap) (ts : list tid) : Prop := {
  wo_net : wf_net h ts;
  wo_bonds : forall l b, In l (all_legs h ts) -> l_bond (legs h l) = Some b -> (b < nbond h)%nat;
  wo_alloc : forall l l', In l (all_legs h ts) -> linked h l l' -> (l' < nleg h)%nat }.

(** the tensors that own the legs linked to the network are allocated *)
Definition owners_alloc (h : heap) (ts : list tid) : Prop :=
  forall l l' t', In l (all_legs h ts) -> linked h l l' -> l_tensor (legs h l') = Some t' -> (t' < ntens h)%nat.

(** between [h] and [h'] the tensors [G] gave their free legs to the tensors [G']; all other legs of [G'] are new;
    the legs and tensors of [rest] are as before *)
Record group_replaced (h h' : heap) (G G' rest : list tid) : Prop := {
  gr_in : wf_open h' G';
  gr_ids : forall t, In t G' -> (ntens h <= t < ntens h')%nat;
  gr_free : Permutation (free_legs h' G') (free_legs h G);
  gr_new : forall l, In l (all_legs h' G') -> In l (free_legs h G) \/ (nleg h <= l)%nat;
  gr_old : forall l, In l (free_legs h G ++ all_legs h rest) ->
           l_bond (legs h' l) = l_bond (legs h l) /\ dim_of h' l = dim_of h l;
  gr_owner : forall l, (l < nleg h)%nat -> ~ In l (free_legs h G) -> l_tensor (legs h' l) = l_tensor (legs h l);
  gr_bond : forall b, (b < nbond h)%nat -> bonds h' b = bonds h b \/ bonds h' b = mkBond (b1 (bonds h b)) (b0 (bonds h b));
  gr_rest : forall t, (t < ntens h)%nat -> ~ In t G -> tens h' t = tens h t;
  gr_nleg : (nleg h <= nleg h')%nat; gr_nbond : (nbond h <= nbond h')%nat; gr_ntens : (ntens h <= ntens h')%nat }.

(** the two heaps differ at most in the names of legs and in the order of the ends of bonds *)
Record net_same (h h' : heap) : Prop := {
  ns_tens : tens h' = tens h;
  ns_leg : forall l, l_tensor (legs h' l) = l_tensor (legs h l) /\ l_dim (legs h' l) = l_dim (legs h l) /\ l_bond (legs h' l) = l_bond (legs h l);
  ns_bonds : bonds_kept h h';
  ns_nleg : nleg h' = nleg h; ns_nbond : nbond h' = nbond h; ns_ntens : ntens h' = ntens h }.
End Sp.
