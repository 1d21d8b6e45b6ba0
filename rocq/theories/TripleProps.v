(** Property theorem for examples/Schimdt.py SchimdtDecomposition without square roots: C51. *)
From Coq Require Import List Arith Bool ZArith Lia String Permutation.
From Verif Require Import Base Sums NdModel NdProofs HeapModel FuncsModel FuncsSpec TensorModel TensorSpec ContractModel NetSpec
  MergeLinkSpec GroupSpec SvdModel SvdSpec SchmidtSpec TripleSpec TripleSvdProofs ContractProps MergeLinkProps SvdProps SchmidtProps.
Import ListNotations.
Local Open Scope list_scope.
Local Open Scope nat_scope.

(** SchimdtDecomposition(ta, tb, chi, squareRootSeparation = False, swapLabels = (swA, swB)) on two dense tensors with at least one
    common bond: the pair is replaced by three tensors u - s - v joined by two bonds of dimension k <= chi; s is diagonal; the entries
    are the first k columns, values and rows of numpy's decomposition of the matrix of the pair.  If the decomposition multiplies
    back to the matrix and the singular values from k on are zero, the value of every network containing the two tensors is
    unchanged; no property of square roots is needed.  A negative chi raises ValueError. *)
Theorem C51_usv : forall A (HA : SR A) (lib : linalg A) (h : heap A) ta tb rest la lb P swA swB, wf_open h (ta :: tb :: rest) ->
  t_like (tens h ta) = false -> t_like (tens h tb) = false -> t_diag (tens h ta) = false -> t_diag (tens h tb) = false ->
  shared h ta tb = (la, lb) :: P -> separable h ta tb swA swB ->
  let La := sideA h ta tb swA swB in let Lb := sideB h ta tb swA swB in
  exists m, matrix_of h (einsum h ta tb) La Lb m /\
  forall chi, let r := prodn (map (dim_of h) La) in let c := prodn (map (dim_of h) Lb) in
    let k := kept lib m r c chi in svd_shape lib m r c ->
    ((chi < 0)%Z -> exists h', schimdt lib ta tb chi false swA swB h = (h', Err ValueError)) /\
    ((0 <= chi)%Z -> (0 <= k <= chi)%Z /\
     exists h' u s v x0 x1 x2 x3, schimdt lib ta tb chi false swA swB h = (h', Ok (u, Some s, v)) /\
      split_triple h h' ta tb rest La Lb u s v x0 x1 x2 x3 (Z.to_nat k) (l_name (legs h la)) (l_name (legs h lb)) /\
      svd_entries lib m h h' La Lb u s v x0 x1 x2 x3 (Z.to_nat k) /\
      (svd_reproduces lib m r c -> lossless lib m (Z.to_nat k) ->
       forall a, in_bounds h (free_legs h (ta :: tb :: rest)) a -> netval h' (u :: s :: v :: rest) a = netval h (ta :: tb :: rest) a)).
Proof. exact @schimdt_usv. Qed.
Print Assumptions C51_usv.

(** The case of C51_example meets the hypotheses: its decomposition multiplies back to the matrix. *)
Example C51_usv_example : wf_open exm [0; 1; 2] /\ shared exm 0 1 = [(0, 4); (1, 3)] /\ separable exm 0 1 ["c"]%string ["f"]%string /\
  forall m, matrix_of exm (einsum exm 0 1) [5] [2] m -> svd_shape lib1 m 2 2 /\ svd_reproduces lib1 m 2 2 /\ kept lib1 m 2 2 5 = 2%Z /\ lossless lib1 m 2.
Proof.
  destruct C51_example as (H1 & _ & _ & _ & _ & H2 & H3 & _ & _ & H4). split; auto. split; auto. split; auto.
  intros m Hm. destruct (H4 m Hm) as (EX & K & LS). split; [apply EX|]. split; [|auto].
  intros i j Hi Hj. cbn [Nat.min sumN]. unfold svd_u, svd_s, svd_v. cbn [np_svd lib1 fst snd].
  destruct j as [|[|j]]; [| |lia]; (cbn - [aget Z.mul Z.add]; cbn [aget ashape adata ravel prodn fold_right nth Nat.mul Nat.add]).
  - change (aget m [i; 0%nat] = aget m [i; 0%nat] * (1 * 1) + (aget m [i; 1%nat] * (1 * 0) + 0))%Z. lia.
  - change (aget m [i; 1%nat] = aget m [i; 0%nat] * (1 * 0) + (aget m [i; 1%nat] * (1 * 1) + 0))%Z. lia.
Qed.
