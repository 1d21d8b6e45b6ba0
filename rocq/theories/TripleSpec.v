(** Vocabulary: two linked tensors replaced by u, s, v. *)
From Coq Require Import List Arith Bool String ZArith Permutation.
From Verif Require Import Base Sums NdModel HeapModel TensorSpec NetSpec GroupSpec SvdModel SvdSpec.
Import ListNotations.

Section Sp.
Context {A : Type}.
Notation heap := (heap A).

(** The tensors [ta] and [tb] of the network [ta :: tb :: rest] have been replaced by the new tensors [u], [s] and [v].  The legs of the pair
    that are not shared by the two are the same objects as before; [La] are now on [u] and [Lb] on [v].  In place of the shared bonds there are
    the bonds x0 - x1 between [u] and [s] and x2 - x3 between [s] and [v], of dimension [k]; [s] is diagonal and has no other legs. *)
Record split_triple (h h' : heap) (ta tb : tid) (rest : list tid) (La Lb : list lid) (u s v : tid) (x0 x1 x2 x3 : lid) (k : nat) (na nb : pname) : Prop := {
  s3_us : shared h' u s = [(x0, x1)]; s3_sv : shared h' s v = [(x2, x3)]; s3_uv : shared h' u v = [];
  s3_u : legs_of h' u = La ++ [x0]; s3_s : legs_of h' s = [x1; x2]; s3_v : legs_of h' v = x3 :: Lb;
  s3_dims : forall x, In x [x0; x1; x2; x3] -> dim_of h' x = k;
  s3_names : l_name (legs h' x0) = na /\ l_name (legs h' x1) = nb /\ l_name (legs h' x2) = na /\ l_name (legs h' x3) = nb;
  s3_new : forall x, In x [x0; x1; x2; x3] -> (nleg h <= x)%nat;
  s3_ids : forall t, In t [u; s; v] -> ~ In t (ta :: tb :: rest);
  s3_distinct : NoDup [u; s; v];
  s3_diag : t_diag (tens h' u) = false /\ t_diag (tens h' s) = true /\ t_diag (tens h' v) = false;
  s3_like : t_like (tens h' u) = false /\ t_like (tens h' s) = false /\ t_like (tens h' v) = false;
  s3_legs : forall l, In l (La ++ Lb) ->
    dim_of h' l = dim_of h l /\ l_name (legs h' l) = l_name (legs h l) /\ l_bond (legs h' l) = l_bond (legs h l);
  s3_rest : forall t, In t rest -> tens h' t = tens h t;
  s3_restlegs : forall l, In l (all_legs h rest) -> legs h' l = legs h l;
  s3_links : forall l l', In l (La ++ Lb ++ all_legs h rest) -> linked h' l l' <-> linked h l l';
  s3_wf : wf_open h' (u :: s :: v :: rest);
  s3_free : Permutation (free_legs h' (u :: s :: v :: rest)) (free_legs h (ta :: tb :: rest)) }.

(** m = u diag(s) vh; nothing is asked of square roots *)
Definition svd_reproduces `{SR A} (lib : linalg A) (m : arr A) (r c : nat) : Prop :=
  forall i j, (i < r)%nat -> (j < c)%nat ->
    aget m [i; j] = sumN (Nat.min r c) (fun k => rmul (aget (svd_u lib m) [i; k]) (rmul (aget (svd_s lib m) [k]) (aget (svd_v lib m) [k; j]))).

(** the entries of the three tensors are the first [k] columns, values and rows of the decomposition of [m] *)
Record svd_entries `{SR A} (lib : linalg A) (m : arr A) (h h' : heap) (La Lb : list lid) (u s v : tid) (x0 x1 x2 x3 : lid) (k : nat) : Prop := {
  se_u : forall a, in_bounds h La a -> (a x0 < k)%nat ->
    entry h' u a = aget (svd_u lib m) [ravel (map (dim_of h) La) (map a La); a x0];
  se_s : forall a, (a x1 < k)%nat -> (a x2 < k)%nat ->
    entry h' s a = if Nat.eqb (a x1) (a x2) then aget (svd_s lib m) [a x1] else r0;
  se_v : forall a, in_bounds h Lb a -> (a x3 < k)%nat ->
    entry h' v a = aget (svd_v lib m) [a x3; ravel (map (dim_of h) Lb) (map a Lb)] }.
End Sp.
