(** Property theorems for contract.py merge: C48. *)
From Coq Require Import List Arith Bool ZArith Lia String Permutation.
From Verif Require Import Base Sums NdModel NdProofs HeapModel FuncsModel FuncsSpec TensorModel TensorSpec ContractModel NetSpec
  MergeLinkSpec GroupSpec SvdModel SvdSpec MergeSvdProofs ContractProps MergeLinkProps.
Import ListNotations.
Local Open Scope list_scope.
Local Open Scope nat_scope.

(** merge(ta, tb, chi) on two dense (or diagonal) tensors sharing at least one bond.  [m] is the matrix of their contraction, rows
    labelled by the legs that stay with ta, columns by those that stay with tb.  For a decomposition of [m] with numpy's shapes and
    0 <= chi the two tensors are replaced by two new ones with one bond of dimension k <= chi between them; if the decomposition is
    exact and the singular values from k on are zero, the value of every network containing the two tensors is unchanged.
    A negative chi raises ValueError. *)
Theorem C48_truncated : forall A (HA : SR A) (lib : linalg A) (h : heap A) ta tb rest bn na nb, wf_list h (ta :: tb :: rest) ->
  t_like (tens h ta) = false -> t_like (tens h tb) = false ->
  (2 <= List.length (shared h ta tb) -> t_diag (tens h ta) = false /\ t_diag (tens h tb) = false /\
    forall l, In l (restA h ta tb ++ restB h ta tb) -> 0 < dim_of h l) ->
  merge_names h (shared h ta tb) bn na nb ->
  exists m, matrix_of h (einsum h ta tb) (restA h ta tb) (restB h ta tb) m /\
  forall chi, let r := prodn (map (dim_of h) (restA h ta tb)) in let c := prodn (map (dim_of h) (restB h ta tb)) in
    let k := kept lib m r c chi in svd_shape lib m r c ->
    ((chi < 0)%Z -> exists h', merge lib ta tb (Some chi) bn h = (h', Err ValueError)) /\
    ((0 <= chi)%Z -> (0 <= k <= chi)%Z /\
     exists h' u v, merge lib ta tb (Some chi) bn h = (h', Ok (u, v)) /\ split_pair h h' ta tb rest (restA h ta tb) (restB h ta tb) u v (Z.to_nat k) na nb false /\
      (svd_exact lib m r c -> lossless lib m (Z.to_nat k) ->
       forall s, in_bounds h (free_legs h (ta :: tb :: rest)) s -> netval h' (u :: v :: rest) s = netval h (ta :: tb :: rest) s)).
Proof. exact @merge_dense. Qed.
Print Assumptions C48_truncated.

(** Two TensorLikes: the new bond has the smallest of chi, the product of the shared dimensions and the sizes of the two sides. *)
Theorem C48_tensorlike : forall A (HA : SR A) (lib : linalg A) (h : heap A) ta tb rest bn na nb chi, wf_list h (ta :: tb :: rest) ->
  t_like (tens h ta) = true -> t_like (tens h tb) = true ->
  (2 <= List.length (shared h ta tb) -> t_diag (tens h ta) = false /\ t_diag (tens h tb) = false) ->
  merge_names h (shared h ta tb) bn na nb ->
  let d := prodn (map (fun p => dim_of h (fst p)) (shared h ta tb)) in
  (d = 0 -> exists h', merge lib ta tb (Some chi) bn h = (h', Err ZeroDivisionError)) /\
  (0 < d -> (0 <= chi)%Z ->
   exists h' u v, merge lib ta tb (Some chi) bn h = (h', Ok (u, v)) /\
    split_pair h h' ta tb rest (restA h ta tb) (restB h ta tb) u v
     (Nat.min (Z.to_nat chi) (Nat.min d (Nat.min (prodn (map (dim_of h) (restA h ta tb))) (prodn (map (dim_of h) (restB h ta tb)))))) na nb true).
Proof. exact @merge_like. Qed.
Print Assumptions C48_tensorlike.

(** Without chi, merge does what mergeLink does (C21) and returns the two tensors. *)
Theorem C48_untruncated : forall A (HA : SR A) (lib : linalg A) (h : heap A) ta tb bn, t_like (tens h ta) = t_like (tens h tb) ->
  merge lib ta tb None bn h = (fst (mergeLink ta tb bn h), match snd (mergeLink ta tb bn h) with Ok _ => Ok (ta, tb) | Err e => Err e end).
Proof. exact @merge_untruncated. Qed.
Print Assumptions C48_untruncated.

(** Two tensors without a shared bond are returned as they are. *)
Theorem C48_unshared : forall A (HA : SR A) (lib : linalg A) (h : heap A) ts ta tb chi bn, wf_list h ts -> In ta ts -> In tb ts -> ta <> tb ->
  t_like (tens h ta) = t_like (tens h tb) ->
  shared h ta tb = [] -> exists h', merge lib ta tb chi bn h = (h', Ok (ta, tb)) /\ only_bonds h h'.
Proof. exact @merge_unshared. Qed.
Print Assumptions C48_unshared.

(** A Tensor and a TensorLike are rejected and nothing has changed. *)
Theorem C48_mixed : forall A (HA : SR A) (lib : linalg A) (h : heap A) ta tb chi bn, t_like (tens h ta) <> t_like (tens h tb) ->
  merge lib ta tb chi bn h = (h, Err AssertionError).
Proof. exact @merge_flags. Qed.
Print Assumptions C48_mixed.

(** The tensors 0 and 1 of [exm] share two bonds of total dimension 6; with the decomposition m = m . 1 . 1 of the 2 x 2 matrix
    of the pair and chi = 5 the new bond has dimension 2, and nothing is discarded. *)
Definition lib1 : linalg Z := mkLinalg (fun m => (m, mkArr [2] [1; 1]%Z, mkArr [2; 2] [1; 0; 0; 1]%Z)) (fun x => x) (fun x => Z.ltb 0 x).
Example C48_example : wf_list exm [0; 1; 2] /\ t_like (tens exm 0) = false /\ t_like (tens exm 1) = false /\
  (t_diag (tens exm 0) = false /\ t_diag (tens exm 1) = false /\ forall l, In l (restA exm 0 1 ++ restB exm 0 1) -> 0 < dim_of exm l) /\
  merge_names exm (shared exm 0 1) None (NStr "a|b") (NStr "e|d") /\
  prodn (map (fun p => dim_of exm (fst p)) (shared exm 0 1)) = 6 /\
  forall m, matrix_of exm (einsum exm 0 1) (restA exm 0 1) (restB exm 0 1) m ->
    svd_exact lib1 m 2 2 /\ kept lib1 m 2 2 5 = 2%Z /\ lossless lib1 m 2.
Proof.
  split; [apply exm_list; [intros t Ht; enum Ht; lia|nd|nd]|]. split; [reflexivity|]. split; [reflexivity|].
  split; [split; [reflexivity|]; split; [reflexivity|]; intros l Hl; vm_compute in Hl; enum Hl; unfold dim_of; simpl; lia|].
  split; [apply mn_many; [simpl; lia|apply (bn_join exm (shared exm 0 1) ["a"; "b"]%string ["e"; "d"]%string); reflexivity]|].
  split; [reflexivity|].
  intros m [M1 M2 _]. split; [|split; [reflexivity|intros i H1 H2; simpl in H2; lia]].
  constructor.
  - constructor; (split; [first [exact M1|reflexivity]|first [exact M2|reflexivity]]).
  - intros i j Hi Hj. cbn [Nat.min sumN]. unfold svd_u, svd_s, svd_v. cbn [np_svd lib1 fst snd].
    destruct j as [|[|j]]; [| |lia]; (cbn - [aget Z.mul Z.add]; cbn [aget ashape adata ravel prodn fold_right nth Nat.mul Nat.add]).
    + change (aget m [i; 0%nat] = aget m [i; 0%nat] * (1 * 1) + (aget m [i; 1%nat] * (1 * 0) + 0))%Z. lia.
    + change (aget m [i; 1%nat] = aget m [i; 0%nat] * (1 * 0) + (aget m [i; 1%nat] * (1 * 1) + 0))%Z. lia.
  - intros k Hk. destruct k as [|[|k]]; [reflexivity|reflexivity|simpl in Hk; lia].
Qed.
