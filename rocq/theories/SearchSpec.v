(** Specification vocabulary for the contraction-order searches (C25 - C32): vertices with edges, contraction
    trees and their costs, written without tables, bit sets or loops. *)
From Coq Require Import List Arith Bool Lia ZArith Permutation Relations.
From Verif Require Import Base SearchModel.
Import ListNotations.
Local Open Scope nat_scope.

Section Spec.
Variable verts : list vres.
Variable dim : nat -> nat.
Variable typ : option nat.

Definition vert (i : nat) : vres := nth i verts ([], [], false).
Definition vedges (i : nat) : list nat := fst (fst (vert i)).
Definition vshape (i : nat) : list nat := snd (fst (vert i)).
Definition vdiag (i : nat) : bool := snd (vert i).
Definition vertices : list nat := seq 0 (List.length verts).

(** every vertex lists an edge at most once, with its dimension; an edge belongs to at most two vertices;
    all edges of a diagonal vertex have the same dimension *)
Record wf_graph : Prop := {
  wg_nodup : forall i, In i vertices -> NoDup (vedges i);
  wg_shape : forall i, In i vertices -> vshape i = map dim (vedges i);
  wg_two : forall e, count_occ Nat.eq_dec (flat_map vedges vertices) e <= 2;
  wg_diag : forall i e e', In i vertices -> vdiag i = true -> In e (vedges i) -> In e' (vedges i) -> dim e = dim e' }.

(** edges leaving a group of vertices: those occurring exactly once in it *)
Definition bnd (G : list nat) : list nat :=
  filter (fun e => Nat.eqb (count_occ Nat.eq_dec (flat_map vedges G) e) 1) (flat_map vedges G).
(** edges joining two groups *)
Definition common (G1 G2 : list nat) : list nat :=
  filter (fun e => existsb (Nat.eqb e) (bnd G2)) (bnd G1).
Definition all_dg (G : list nat) : bool := forallb vdiag G.

(** the cost of contracting two groups: the number of index values to visit, with exact or typical dimensions *)
Definition size_of (L : list nat) : nat :=
  match typ with None => prodn (map dim L) | Some d => d ^ List.length L end.
Definition join_cost (G1 G2 : list nat) : nat :=
  match all_dg G1, all_dg G2 with
  | true, true => match typ with
                  | Some d => d
                  | None => match bnd G1 with e :: _ => dim e | [] => 0 end
                  end
  | false, false => size_of (bnd (G1 ++ G2) ++ common G1 G2)
  | _, _ => size_of (bnd (G1 ++ G2))
  end.

(** contraction trees *)
Inductive tree := Leaf (i : nat) | Node (a b : tree).
Fixpoint leaves (t : tree) : list nat :=
  match t with Leaf i => [i] | Node a b => leaves a ++ leaves b end.
Fixpoint tree_cost (t : tree) : nat :=
  match t with Leaf _ => 0 | Node a b => tree_cost a + tree_cost b + join_cost (leaves a) (leaves b) end.
Definition spans (t : tree) : Prop := Permutation (leaves t) vertices.

(** no outer product of two diagonal groups *)
Definition joinable (G1 G2 : list nat) : Prop :=
  all_dg G1 = true -> all_dg G2 = true -> common G1 G2 <> [].
Fixpoint no_diag_outer (t : tree) : Prop :=
  match t with
  | Leaf _ => True
  | Node a b => no_diag_outer a /\ no_diag_outer b /\ joinable (leaves a) (leaves b)
  end.

(** every step of a contraction costs something *)
Definition positive_costs : Prop :=
  forall G1 G2, NoDup (G1 ++ G2) -> incl (G1 ++ G2) vertices -> G1 <> [] -> G2 <> [] -> joinable G1 G2 -> 0 < join_cost G1 G2.

(** every step that the capped search may take costs nothing *)
Definition zero_costs : Prop :=
  forall G1 G2, NoDup (G1 ++ G2) -> incl (G1 ++ G2) vertices -> G1 <> [] -> G2 <> [] -> joinable G1 G2 -> join_cost G1 G2 = 0.

(** at the start every vertex is a group of its own *)
Definition groups0 : list (nat * list nat) := map (fun i => (i, [i])) vertices.
(** two groups joined by an edge *)
Definition touching (G1 G2 : list nat) : Prop := common G1 G2 <> [].

(** with exact dimensions, the cost of two diagonal groups is read off one edge: the brute-force search needs
    all diagonal vertices to have the same dimension, and a group of diagonal vertices without edges to
    the outside must not meet another one *)
Record diag_uniform : Prop := {
  du_dim : forall i j e e', In i vertices -> In j vertices -> vdiag i = true -> vdiag j = true ->
           In e (vedges i) -> In e' (vedges j) -> dim e = dim e';
  du_open : forall G1 G2, NoDup (G1 ++ G2) -> incl (G1 ++ G2) vertices -> G1 <> [] -> G2 <> [] ->
            all_dg G1 = true -> all_dg G2 = true -> bnd G1 <> [] }.

(** connectedness *)
Definition adjacent (i j : nat) : Prop :=
  In i vertices /\ In j vertices /\ exists e, In e (vedges i) /\ In e (vedges j).
Definition connected : Prop := forall i j, In i vertices -> In j vertices -> clos_refl_trans nat adjacent i j.
End Spec.

(** the order in which a set is listed by [listSymmetricDifference] is arbitrary *)
Definition symdiff_ok (symdiff : list nat -> list nat -> list nat) : Prop :=
  forall x y, NoDup (symdiff x y) /\ forall e, In e (symdiff x y) <-> (In e x /\ ~ In e y) \/ (In e y /\ ~ In e x).
