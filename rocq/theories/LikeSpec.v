(** Vocabulary for comparing tensors with their shape-only stand-ins. *)
From Coq Require Import List Arith.
From Verif Require Import Base NdModel HeapModel TensorModel TensorSpec NetSpec.
Import ListNotations.

Section Sp.
Context {A : Type} {HA : SR A}.
Notation heap := (heap A).

(** what a leg shows of itself: its name and its dimension *)
Definition sig (h : heap) (l : lid) : pname * nat := (l_name (legs h l), dim_of h l).

(** [sa] and [sb] stand for [ta] and [tb]: TensorLikes with the same diagonal flags whose legs, in the same order, have
    the same names and dimensions and are linked to each other in the same way *)
Record stands_for (h g : heap) (ta tb sa sb : tid) (cp : lid -> lid) : Prop := {
  sf_like : t_like (tens g sa) = true /\ t_like (tens g sb) = true;
  sf_diag : t_diag (tens g sa) = t_diag (tens h ta) /\ t_diag (tens g sb) = t_diag (tens h tb);
  sf_legs : legs_of g sa = map cp (legs_of h ta) /\ legs_of g sb = map cp (legs_of h tb);
  sf_sig : forall l, In l (legs_of h ta ++ legs_of h tb) -> sig g (cp l) = sig h l;
  sf_link : forall l l', In l (legs_of h ta) -> In l' (legs_of h tb) -> linked g (cp l) (cp l') <-> linked h l l' }.
End Sp.
