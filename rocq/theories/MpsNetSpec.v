(** Vocabulary for contracting a network through matrix product states (contractWithMPS). *)
From Coq Require Import List Arith ZArith Permutation.
From Verif Require Import Base Sums NdModel HeapModel TensorSpec NetSpec.
Import ListNotations.
Local Open Scope list_scope.
Local Open Scope nat_scope.

Section Net.
Context {A : Type}.
Notation heap := (heap A).

(** a link leads from the tensors [G] to the tensors [G'] *)
Definition touches (h : heap) (G G' : list tid) : Prop := exists l l', In l (all_legs h G) /\ In l' (all_legs h G') /\ linked h l l'.
(** the groups [s] and [t] joined at the smaller position; the other position is empty afterwards *)
Definition joined (s t : nat) (gs : list (list tid)) : list (list tid) :=
  set_nth (Nat.max s t) [] (set_nth (Nat.min s t) (nth s gs [] ++ nth t gs []) gs).
(** a sequence of contractions for the groups [gs]: every pair names two different groups with a link between them, and in the end the only group left is
    at position 0 *)
Fixpoint joins (h : heap) (gs : list (list tid)) (sq : list (nat * nat)) : Prop :=
  match sq with
  | [] => forall i, nth i gs [] <> [] <-> i = 0
  | (s, t) :: sq' => s < List.length gs /\ t < List.length gs /\ s <> t /\ touches h (nth s gs []) (nth t gs []) /\ joins h (joined s t gs) sq'
  end.
(** a sequence for the tensors [ts] *)
Definition links_order (h : heap) (ts : list tid) (sq : list (nat * nat)) : Prop := joins h (map (fun t => [t]) ts) sq.
Context {HA : SR A}.
(** the tensor [t] of [h'] holds the values of the network [ts] of [h]: its legs are the free legs of the network, renamed by [cp] *)
Record holds (h : heap) (ts : list tid) (h' : heap) (t : tid) (cp : lid -> lid) : Prop := {
  ho_wf : wf_tensor h' t; ho_like : t_like (tens h' t) = false; ho_diag : t_diag (tens h' t) = false;
  ho_inj : forall l l', In l (free_legs h ts) -> In l' (free_legs h ts) -> cp l = cp l' -> l = l';
  ho_legs : Permutation (legs_of h' t) (map cp (free_legs h ts));
  ho_dim : forall l, In l (free_legs h ts) -> dim_of h' (cp l) = dim_of h l;
  ho_entry : forall s, in_bounds h (free_legs h ts) (fun l => s (cp l)) -> entry h' t s = netval h ts (fun l => s (cp l)) }.
End Net.
