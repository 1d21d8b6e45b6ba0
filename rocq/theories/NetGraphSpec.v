(** Vocabulary for lists of tensors handed to the contraction-order searches. *)
From Coq Require Import List Arith Bool Permutation Relations.
From Verif Require Import Base NdModel HeapModel TensorSpec NetSpec.
Import ListNotations.
Local Open Scope nat_scope.

Section Spec.
Context {A : Type} {HA : SR A}.
Notation heap := (heap A).

(** every link of a tensor of the list leads to another tensor of the list *)
Definition closed_net (h : heap) (ts : list tid) : Prop :=
  forall t l l', In t ts -> In l (legs_of h t) -> linked h l l' -> exists t', In t' ts /\ t' <> t /\ In l' (legs_of h t').

(** all diagonal tensors of the list have legs of one dimension, and no group of diagonal tensors is cut off from
    the rest while another diagonal tensor exists outside of it *)
Definition diagonals_uniform (h : heap) (ts : list tid) : Prop :=
  (forall t t' l l', In t ts -> In t' ts -> t_diag (tens h t) = true -> t_diag (tens h t') = true ->
     In l (legs_of h t) -> In l' (legs_of h t') -> dim_of h l = dim_of h l') /\
  (forall G1 G2, NoDup (G1 ++ G2) -> incl (G1 ++ G2) ts -> G1 <> [] -> G2 <> [] ->
     all_diag h G1 = true -> all_diag h G2 = true -> free_legs h G1 <> []).

(** two tensors of the list share a link; the list is connected *)
Definition net_adjacent (h : heap) (ts : list tid) (t t' : tid) : Prop :=
  In t ts /\ In t' ts /\ exists l l', In l (legs_of h t) /\ In l' (legs_of h t') /\ linked h l l'.
Definition net_connected (h : heap) (ts : list tid) : Prop :=
  forall t t', In t ts -> In t' ts -> clos_refl_trans tid (net_adjacent h ts) t t'.

(** [t0] of [h'] holds the result of contracting the tensors [ts] of [h]; its legs are those of the list that
    are not linked, renamed by [cp], with their names and dimensions *)
Record result_legs (h h' : heap) (ts : list tid) (t0 : tid) (cp : lid -> lid) : Prop := {
  rl_wf : wf_tensor h' t0; rl_like : t_like (tens h' t0) = false; rl_diag : t_diag (tens h' t0) = all_diag h ts;
  rl_inj : forall l l', In l (free_legs h ts) -> In l' (free_legs h ts) -> cp l = cp l' -> l = l';
  rl_legs : Permutation (legs_of h' t0) (map cp (free_legs h ts));
  rl_leg : forall l, In l (free_legs h ts) -> l_name (legs h' (cp l)) = l_name (legs h l) /\ dim_of h' (cp l) = dim_of h l }.
End Spec.
