(** Property theorems for examples/Schimdt.py SchimdtDecomposition with squareRootSeparation: C51. *)
From Coq Require Import List Arith Bool ZArith Lia String Permutation.
From Verif Require Import Base Sums NdModel NdProofs HeapModel FuncsModel FuncsSpec TensorModel TensorSpec ContractModel NetSpec
  MergeLinkSpec GroupSpec SvdModel SvdSpec SchmidtSpec MergeSvdProofs SchmidtProofs ContractProps MergeLinkProps SvdProps.
Import ListNotations.
Local Open Scope list_scope.
Local Open Scope nat_scope.

(** SchimdtDecomposition(ta, tb, chi, squareRootSeparation = True, swapLabels = (swA, swB)) on two dense tensors with at least one
    common bond.  [m] is the matrix of their contraction; its rows are labelled by the legs the first result gets: those left of
    ta except the ones called by swA, then the ones of tb called by swB.  For a decomposition of [m] with numpy's shapes and
    0 <= chi, the two tensors are replaced by two new ones which own these leg objects under their old names and share one bond
    of dimension k <= chi, named as the first common bond was; if the decomposition is exact and the singular values from k on
    are zero, the value of every network containing the two tensors is unchanged.  A negative chi raises ValueError. *)
Theorem C51_schmidt : forall A (HA : SR A) (lib : linalg A) (h : heap A) ta tb rest la lb P swA swB, wf_open h (ta :: tb :: rest) ->
  t_like (tens h ta) = false -> t_like (tens h tb) = false -> t_diag (tens h ta) = false -> t_diag (tens h tb) = false ->
  shared h ta tb = (la, lb) :: P -> separable h ta tb swA swB ->
  let La := sideA h ta tb swA swB in let Lb := sideB h ta tb swA swB in
  exists m, matrix_of h (einsum h ta tb) La Lb m /\
  forall chi, let r := prodn (map (dim_of h) La) in let c := prodn (map (dim_of h) Lb) in
    let k := kept lib m r c chi in svd_shape lib m r c ->
    ((chi < 0)%Z -> exists h', schimdt lib ta tb chi true swA swB h = (h', Err ValueError)) /\
    ((0 <= chi)%Z -> (0 <= k <= chi)%Z /\
     exists h' u v, schimdt lib ta tb chi true swA swB h = (h', Ok (u, None, v)) /\
      split_pair h h' ta tb rest La Lb u v (Z.to_nat k) (l_name (legs h la)) (l_name (legs h lb)) false /\
      (svd_exact lib m r c -> lossless lib m (Z.to_nat k) ->
       forall s, in_bounds h (free_legs h (ta :: tb :: rest)) s -> netval h' (u :: v :: rest) s = netval h (ta :: tb :: rest) s)).
Proof. exact @schimdt_dense. Qed.
Print Assumptions C51_schmidt.

(** Two tensors without a common bond, a Tensor with a TensorLike, label lists of different lengths and labels that do not
    occur are rejected by an AssertionError, and no tensor, leg or name has changed. *)
Theorem C51_rejected : forall A (HA : SR A) (lib : linalg A) (h : heap A) ta tb chi root swA swB, wf_pair h ta tb ->
  shared h ta tb = [] \/ t_like (tens h ta) <> t_like (tens h tb) \/ List.length swA <> List.length swB \/
  (exists s, In s swA /\ forall l, In l (legs_of h ta) -> l_name (legs h l) <> NStr s) \/
  (exists s, In s swB /\ forall l, In l (legs_of h tb) -> l_name (legs h l) <> NStr s) ->
  exists h', schimdt lib ta tb chi root swA swB h = (h', Err AssertionError) /\ only_bonds h h'.
Proof. exact @schimdt_rejected. Qed.
Print Assumptions C51_rejected.

(** The tensors 0 and 1 of [exm] share two bonds; exchanging their remaining legs 2 (called "c") and 5 (called "f", linked to
    tensor 2) gives the first result leg 5 and the second leg 2. *)
Example C51_example : wf_open exm [0; 1; 2] /\ t_like (tens exm 0) = false /\ t_like (tens exm 1) = false /\
  t_diag (tens exm 0) = false /\ t_diag (tens exm 1) = false /\ shared exm 0 1 = [(0, 4); (1, 3)] /\
  separable exm 0 1 ["c"]%string ["f"]%string /\ sideA exm 0 1 ["c"]%string ["f"]%string = [5] /\ sideB exm 0 1 ["c"]%string ["f"]%string = [2] /\
  forall m, matrix_of exm (einsum exm 0 1) [5] [2] m ->
    svd_exact lib1 m 2 2 /\ kept lib1 m 2 2 5 = 2%Z /\ lossless lib1 m 2.
Proof.
  assert (W : wf_list exm [0; 1; 2]) by (apply exm_list; [intros t Ht; enum Ht; lia|nd|nd]).
  split.
  { constructor; [apply W|intros l b; apply (wl_bonds _ _ W)|intros l l'; apply (wl_alloc _ _ W)]. }
  split; [reflexivity|]. split; [reflexivity|]. split; [reflexivity|]. split; [reflexivity|]. split; [reflexivity|].
  split.
  { constructor.
    - intros l Hl. unfold legs_of in Hl. simpl in Hl. enum Hl; simpl; eexists; split; reflexivity.
    - unfold legs_of. simpl. repeat constructor; simpl; intuition congruence.
    - unfold legs_of. simpl. repeat constructor; simpl; intuition congruence.
    - reflexivity.
    - intros s Hs. enum Hs. exists 2. split; [unfold legs_of; simpl; auto|reflexivity].
    - intros s Hs. enum Hs. exists 5. split; [unfold legs_of; simpl; auto|reflexivity].
    - split; [|discriminate]. vm_compute. repeat constructor; simpl; intuition congruence.
    - split; [|discriminate]. vm_compute. repeat constructor; simpl; intuition congruence.
    - intros l l' Hl Hl' (b & Eb & K). vm_compute in Hl, Hl'. enum Hl; simpl in Eb; try discriminate; injection Eb as <-;
      enum Hl'; destruct K as [K|K]; discriminate K. }
  split; [reflexivity|]. split; [reflexivity|].
  intros m [M1 M2 _]. split; [|split; [reflexivity|intros i H1 H2; simpl in H2; lia]].
  constructor.
  - constructor; (split; [first [exact M1|reflexivity]|first [exact M2|reflexivity]]).
  - intros i j Hi Hj. cbn [Nat.min sumN]. unfold svd_u, svd_s, svd_v. cbn [np_svd lib1 fst snd].
    destruct j as [|[|j]]; [| |lia]; (cbn - [aget Z.mul Z.add]; cbn [aget ashape adata ravel prodn fold_right nth Nat.mul Nat.add]).
    + change (aget m [i; 0%nat] = aget m [i; 0%nat] * (1 * 1) + (aget m [i; 1%nat] * (1 * 0) + 0))%Z. lia.
    + change (aget m [i; 1%nat] = aget m [i; 0%nat] * (1 * 0) + (aget m [i; 1%nat] * (1 * 1) + 0))%Z. lia.
  - intros k Hk. destruct k as [|[|k]]; [reflexivity|reflexivity|simpl in Hk; lia].
Qed.
Example C51_rejected_example : wf_pair exm 0 1 /\ shared exm 0 1 <> [] /\ List.length ["z"]%string = List.length ["f"]%string /\
  (exists s, In s ["z"]%string /\ forall l, In l (legs_of exm 0) -> l_name (legs exm l) <> NStr s).
Proof.
  assert (W : wf_list exm [0; 1; 2]) by (apply exm_list; [intros t Ht; enum Ht; lia|nd|nd]).
  split; [apply (open_pair exm 0 1 [2]); constructor; [apply W|intros l b; apply (wl_bonds _ _ W)|intros l l'; apply (wl_alloc _ _ W)]|].
  split; [discriminate|]. split; [reflexivity|]. exists "z"%string. split; [simpl; auto|].
  intros l Hl. unfold legs_of in Hl. simpl in Hl. enum Hl; discriminate.
Qed.
