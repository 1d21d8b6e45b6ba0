(** Vocabulary for truncated singular value decompositions. *)
From Coq Require Import List Arith Bool String ZArith Permutation.
From Verif Require Import Base Sums NdModel HeapModel FuncsModel TensorSpec NetSpec MergeLinkSpec GroupSpec SvdModel.
Import ListNotations.

Section Sp.
Context {A : Type} {HA : SR A}.
Notation heap := (heap A).
Local Open Scope sr_scope.
Variable lib : linalg A.

Definition svd_u (m : arr A) : arr A := fst (fst (np_svd lib m)).
Definition svd_s (m : arr A) : arr A := snd (fst (np_svd lib m)).
Definition svd_v (m : arr A) : arr A := snd (np_svd lib m).

(** the shapes numpy.linalg.svd answers with for an r x c matrix *)
Record svd_shape (m : arr A) (r c : nat) : Prop := {
  ss_u : wfa (svd_u m) /\ ashape (svd_u m) = [r; r];
  ss_s : wfa (svd_s m) /\ ashape (svd_s m) = [Nat.min r c];
  ss_v : wfa (svd_v m) /\ ashape (svd_v m) = [c; c] }.

(** an exact decomposition: m = u diag(s) vh, and the roots of the singular values square to them *)
Record svd_exact (m : arr A) (r c : nat) : Prop := {
  sx_shape : svd_shape m r c;
  sx_eq : forall i j, (i < r)%nat -> (j < c)%nat ->
    aget m [i; j] = sumN (Nat.min r c) (fun k => aget (svd_u m) [i; k] * (aget (svd_s m) [k] * aget (svd_v m) [k; j]));
  sx_root : forall k, (k < Nat.min r c)%nat ->
    np_sqrt lib (aget (svd_s m) [k]) * np_sqrt lib (aget (svd_s m) [k]) = aget (svd_s m) [k] }.

(** all singular values from position [k] on are 0 *)
Definition lossless (m : arr A) (k : nat) : Prop :=
  forall i, (k <= i)%nat -> (i < List.length (adata (svd_s m)))%nat -> nth i (adata (svd_s m)) 0 = 0.

(** how many singular values pass the threshold *)
Definition above (m : arr A) : nat := List.length (filter (np_big lib) (adata (svd_s m))).

(** the number of values kept for the bound [chi] *)
Definition kept (m : arr A) (r c : nat) (chi : Z) : Z :=
  Z.min chi (Z.of_nat (Nat.min (above m) (Nat.min r c))).

(** [m] is the matrix of the function [f] of an assignment, with rows labelled by the indices of the legs [rl], columns by [cl] *)
Record matrix_of (h : heap) (f : assignment -> A) (rl cl : list lid) (m : arr A) : Prop := {
  mo_wf : wfa m;
  mo_shape : ashape m = [prodn (map (dim_of h) rl); prodn (map (dim_of h) cl)];
  mo_entry : forall s, in_bounds h (rl ++ cl) s ->
    aget m [ravel (map (dim_of h) rl) (map s rl); ravel (map (dim_of h) cl) (map s cl)] = f s }.

(** names of the two ends of the bond that replaces the shared bonds [P] *)
Inductive merge_names (h : heap) : list (lid * lid) -> option pname -> pname -> pname -> Prop :=
| mn_keep la lb : merge_names h [(la, lb)] None (l_name (legs h la)) (l_name (legs h lb))
| mn_given la lb n : merge_names h [(la, lb)] (Some n) n n
| mn_many P bn na nb : (2 <= List.length P)%nat -> bond_names h P bn na nb -> merge_names h P bn na nb.

(** The tensors [ta] and [tb] of the network [ta :: tb :: rest] have been replaced by the new tensors [u] and [v].  The legs of the pair
    that are not shared by the two are the same objects as before; [La] are now on [u] and [Lb] on [v].  In place of the shared bonds there is
    one bond between [u] and [v], of dimension [k], whose ends are named [na] and [nb]. *)
Record split_pair (h h' : heap) (ta tb : tid) (rest : list tid) (La Lb : list lid) (u v : tid) (k : nat) (na nb : pname) (like : bool) : Prop := {
  sp_bond : exists x y, shared h' u v = [(x, y)] /\ dim_of h' x = k /\ dim_of h' y = k /\ 
    l_name (legs h' x) = na /\ l_name (legs h' y) = nb /\
    legs_of h' u = La ++ [x] /\ legs_of h' v = y :: Lb /\ (nleg h <= x)%nat /\ (nleg h <= y)%nat;
  sp_ids : ~ In u (ta :: tb :: rest) /\ ~ In v (ta :: tb :: rest) /\ u <> v;
  sp_flags : t_diag (tens h' u) = false /\ t_like (tens h' u) = like /\ t_diag (tens h' v) = false /\ t_like (tens h' v) = like;
  sp_legs : forall l, In l (La ++ Lb) ->
    dim_of h' l = dim_of h l /\ l_name (legs h' l) = l_name (legs h l) /\ l_bond (legs h' l) = l_bond (legs h l);
  sp_rest : forall t, In t rest -> tens h' t = tens h t;
  sp_restlegs : forall l, In l (all_legs h rest) -> legs h' l = legs h l;
  sp_links : forall l l', In l (La ++ Lb ++ all_legs h rest) -> linked h' l l' <-> linked h l l';
  sp_wf : wf_open h' (u :: v :: rest);
  sp_free : Permutation (free_legs h' (u :: v :: rest)) (free_legs h (ta :: tb :: rest)) }.
End Sp.
