(** Vocabulary for the renormalization group on the triangular pattern. *)
From Coq Require Import List Arith Bool String.
From Verif Require Import Base Sums NdModel HeapModel TensorSpec ContractModel SvdModel SvdSpec FtnModel NamedSpec NetsSpec TrgModel TrgSpec TriTrgModel.
Import ListNotations.
Local Open Scope nat_scope.
Local Open Scope string_scope.
Local Open Scope list_scope.

Section Sp.
Context {A B : Type} {HA : SR A}.
Notation heap := (heap A).
Notation world := (world A).
Notation tri := (tri A).
Notation fun3 := (nat -> nat -> nat -> A).
Local Open Scope sr_scope.
Variable num : numerics A B.

(** a dense tensor with legs 1, 2, 3 (in any order) of dimension [D] *)
Definition triangle (h : heap) (t : tid) (D : nat) : Prop := dense_legs h t [("1", D); ("2", D); ("3", D)].
Definition entry3 (h : heap) (t : tid) : fun3 := fun i j k => at_ h t [("1", i); ("2", j); ("3", k)].
(** no leg of the tensor carries a bond *)
Definition bondless (h : heap) (t : tid) : Prop := forall l, In l (legs_of h t) -> l_bond (legs h l) = None.
(** two tensors without common legs *)
Definition apart (h : heap) (t u : tid) : Prop := t <> u /\ forall l, In l (legs_of h t) -> ~ In l (legs_of h u).

(** two triangles joined along leg 1; rows: legs 2, columns: legs 3 *)
Definition pair_mat (D : nat) (a b : fun3) : arr A :=
  tab [(D * D)%nat; (D * D)%nat] (fun idx => let i := nth 0 idx 0%nat in let j := nth 1 idx 0%nat in
    sumN D (fun z => a z (i / D)%nat (j / D)%nat * b z (i mod D)%nat (j mod D)%nat)).
(** three halves around a vertex *)
Definition around (D : nat) (half : nat -> nat -> A) : fun3 := fun i1 i2 i3 =>
  sumN D (fun x => sumN D (fun y => sumN D (fun z => half (x * D + y)%nat i1 * half (z * D + x)%nat i2 * half (y * D + z)%nat i3))).
(** the two triangles closed along all three legs *)
Definition theta (D : nat) (a b : fun3) : A := sumN D (fun i => sumN D (fun j => sumN D (fun k => a i j k * b i j k))).

Definition tri_net (w : world) (g : tri) : Prop := match p_net g with Some f => is_net w f triangle_net | None => True end.
(** the weight of a triangle of which at most one corner may be occupied *)
Definition hard (alpha : A) : fun3 := fun i j k => match (i + j + k)%nat with 0%nat => 1 | 1%nat => alpha | _ => 0 end.
(** the object holds two triangles ready to be linked *)
Record tri_state (w : world) (g : tri) (D : nat) : Prop := {
  ts_net : tri_net w g;
  ts_a : triangle (w_heap w) (p_a g) D; ts_b : triangle (w_heap w) (p_b g) D;
  ts_freeA : bondless (w_heap w) (p_a g); ts_freeB : bondless (w_heap w) (p_b g);
  ts_apart : apart (w_heap w) (p_a g) (p_b g) }.
(** the matrix decomposed in the next step *)
Definition tri_mat (h : heap) (g : tri) (D : nat) : arr A := pair_mat D (entry3 h (p_a g)) (entry3 h (p_b g)).
(** a copy with the same entries that shares nothing with the tensors of the object *)
Definition tri_copy (h : heap) (g : tri) (t c : tid) (D : nat) : Prop :=
  triangle h c D /\ apart h c (p_a g) /\ apart h c (p_b g) /\ forall i j k, entry3 h c i j k = entry3 h t i j k.
(** a tensor apart from those of the object is as before, and apart from those of the new object *)
Definition tri_kept (h h' : heap) (g g' : tri) : Prop := forall t m, dense_legs h t m -> apart h t (p_a g) -> apart h t (p_b g) ->
  dense_legs h' t m /\ (forall q, at_ h' t q = at_ h t q) /\ apart h' t (p_a g') /\ apart h' t (p_b g').
End Sp.
