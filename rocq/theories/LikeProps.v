(** Property theorems for shape-only (TensorLike) contraction: C19, and one more outer product of diagonal tensors (C16). *)
From Coq Require Import List Arith Bool ZArith Lia String Permutation.
From Verif Require Import Base Sums NdModel HeapModel FuncsModel FuncsSpec TensorModel TensorSpec ContractModel NetSpec LikeSpec
  LinkProofs NetProofs SeqProofs CopyListProofs LikeProofs LikeSeqProofs ContractProps CopyListProps.
Import ListNotations.
Local Open Scope list_scope.
Local Open Scope nat_scope.

(** ** C19: a pair *)
Theorem C19_pair : forall A (HA : SR A) (h g : heap A) ta tb sa sb cp h' tc, 
  wf_pair h ta tb -> wf_pair g sa sb -> stands_for h g ta tb sa sb cp ->
  t_like (tens h ta) = false -> t_like (tens h tb) = false ->
  contractTwoTensors ta tb h = (h', Ok tc) ->
  exists g' sc, contractTwoTensors sa sb g = (g', Ok sc) /\ t_like (tens g' sc) = true /\ t_arr (tens g' sc) = None /\
    t_diag (tens g' sc) = t_diag (tens h' tc) /\
    Permutation (map (sig g') (legs_of g' sc)) (map (sig h') (legs_of h' tc)) /\
    (t_diag (tens h ta) = t_diag (tens h tb) -> map (sig g') (legs_of g' sc) = map (sig h') (legs_of h' tc)).
Proof. exact @pair_shadow. Qed.
Print Assumptions C19_pair.

(** without any data the contraction of TensorLikes always succeeds, two diagonal ones of different size excepted *)
Theorem C19_needs_no_data : forall A (HA : SR A) (h : heap A) ta tb, wf_pair h ta tb -> 
  t_like (tens h ta) = true -> t_like (tens h tb) = true ->
  (t_diag (tens h ta) = true -> t_diag (tens h tb) = true -> t_len (tens h ta) = t_len (tens h tb)) ->
  exists h' tc, contractTwoTensors ta tb h = (h', Ok tc) /\ t_like (tens h' tc) = true /\
    Permutation (legs_of h' tc) (restA h ta tb ++ restB h ta tb).
Proof. exact @like_succeeds. Qed.
Print Assumptions C19_needs_no_data.

(** ** C19: any sequence, in place or not; the shadows are made by copyTensorList(..., tensorLikeContract = True) *)
Theorem C19_sequence : forall A (HA : SR A) (h : heap A) ts sq ip n h' t0 c cur, 
  wf_list h ts -> (forall t, In t ts -> t_like (tens h t) = false) ->
  complete (fun _ _ => True) (group_cost h) (singles ts) sq n ->
  contractWithSeq ts sq ip h = (h', Ok (t0, c, cur)) ->
  exists h1 ss h2 s0 cur2, copyTensorList ts true h = (h1, Ok ss) /\
    contractWithSeq ss sq true h1 = (h2, Ok (s0, c, cur2)) /\
    t_like (tens h2 s0) = true /\ t_arr (tens h2 s0) = None /\ t_diag (tens h2 s0) = t_diag (tens h' t0) /\
    Permutation (map (sig h2) (legs_of h2 s0)) (map (sig h') (legs_of h' t0)).
Proof. exact @shadow_predicts. Qed.
Print Assumptions C19_sequence.

(** the converse fails: the TensorLikes of a diagonal tensor without legs and of a dense tensor contract, the tensors do not *)
Theorem C19_converse_refuted : exists (h h' : heap Z) ta tb h1 ss h2 s0, wf_list h [ta; tb] /\
  t_like (tens h ta) = false /\ t_like (tens h tb) = false /\
  contractTwoTensors ta tb h = (h', Err ValueError) /\
  copyTensorList [ta; tb] true h = (h1, Ok ss) /\ contractWithSeq ss [(0, 1)] true h1 = (h2, Ok s0).
Proof.
  assert (P : forall X (r : heap Z * res X) x, snd r = x -> r = (fst r, x)) by (intros X [u v] x <-; reflexivity).
  exists exn, (fst (contractTwoTensors 5 0 exn)), 5, 0, (fst (copyTensorList [5; 0] true exn)), [7; 8],
    (fst (contractWithSeq [7; 8] [(0, 1)] true (fst (copyTensorList [5; 0] true exn)))), (9, 12, [9; 8]).
  split; [|split; [reflexivity|split; [reflexivity|split; [|split]]]];
    [|apply P; vm_compute; reflexivity|apply P; vm_compute; reflexivity|apply P; vm_compute; reflexivity].
  apply exn_list. constructor.
  - intros t Ht. apply exn_wf. enum Ht; lia.
  - intros t Ht. apply exn_owned. enum Ht; lia.
  - nd.
  - unfold all_legs, legs_of. simpl. nd.
  - apply exn_links. intros l Hl. unfold all_legs, legs_of in Hl. enum Hl; lia.
Qed.
Print Assumptions C19_converse_refuted.

(** a sequence over a dense, a diagonal and a dense tensor: hypotheses met, run returns *)
Example C19_example : wf_list exn [0; 1; 2] /\ (forall t, In t [0; 1; 2] -> t_like (tens exn t) = false) /\
  complete (fun _ _ => True) (group_cost exn) (singles [0; 1; 2]) [(2, 1); (0, 1)] (group_cost exn [2] [1] + (group_cost exn [0] [2; 1] + 0)) /\
  t_diag (tens exn 1) = true /\
  match snd (contractWithSeq [0; 1; 2] [(2, 1); (0, 1)] true exn) with Ok _ => True | Err _ => False end.
Proof.
  split; [apply exn_list, exn_net|]. split; [intros t Ht; enum Ht; reflexivity|]. split; [|split; [reflexivity|vm_compute; exact I]].
  eapply (complete_step _ _ _ [(0, [0])] 2 1 [2] [1]); [lia| |exact I|].
  - unfold singles. simpl. apply (Permutation_rev [(0, [0]); (1, [1]); (2, [2])]).
  - eapply (complete_step _ _ _ [] 0 1 [0] [2; 1]); [lia| |exact I|constructor]. simpl. apply perm_swap.
Qed.
(** the copies made by copyTensorList stand for the originals *)
Example C19_example_pair : exists g sa sb cp, wf_pair exn 0 1 /\ wf_pair g sa sb /\ stands_for exn g 0 1 sa sb cp /\ shared exn 0 1 <> [] /\
  match snd (contractTwoTensors 0 1 exn) with Ok _ => True | Err _ => False end.
Proof.
  destruct (copyTensorList_ok exn [0; 1] true (exn_list _ exn_net01)) as (g & ct & cp & E & N & LK & _); [discriminate|].
  exists g, (ct 0), (ct 1), cp. split; [apply exn_pair; try lia; nd|]. split; [apply (wf_net_pair g (ct 0) (ct 1) []), N|]. split; [|split; [discriminate|vm_compute; exact I]].
  assert (AL : forall l, In l (legs_of exn 0 ++ legs_of exn 1) -> In l (all_legs exn [0; 1])).
  { intros l Hl. unfold all_legs. cbn [flat_map]. now rewrite app_nil_r. }
  constructor.
  - split; apply LK; simpl; auto.
  - split; apply (nc_flags _ _ _ _ _ N); simpl; auto.
  - split; apply (nc_legs _ _ _ _ _ N); simpl; auto.
  - intros l Hl. unfold sig. destruct (nc_leg _ _ _ _ _ N l (AL l Hl)) as (-> & ->). reflexivity.
  - intros l l' Hl Hl'. apply (nc_linked _ _ _ _ _ N); apply AL, in_app_iff; auto.
Qed.
Example C19_example_no_data : wf_pair exn 0 4 /\ t_like (tens exn 4) = true.
Proof. split; [apply exn_pair; try lia; nd|reflexivity]. Qed.

(** ** C16: a diagonal tensor without legs and one with legs give the correct outer product *)
Theorem C16_diagonal_scalar : forall A (HA : SR A) (h : heap A) ta tb, wf_pair h ta tb -> 
  t_like (tens h ta) = false -> t_like (tens h tb) = false -> t_diag (tens h ta) = true -> t_diag (tens h tb) = true ->
  (legs_of h ta = [] /\ legs_of h tb <> []) \/ (legs_of h ta <> [] /\ legs_of h tb = []) -> 
  exists h' tc, contractTwoTensors ta tb h = (h', Ok tc) /\
    contracted h h' ta tb tc (legs_of h ta ++ legs_of h tb) /\ 
    t_diag (tens h' tc) = true /\ t_like (tens h' tc) = false /\
    forall s, in_bounds h (legs_of h ta ++ legs_of h tb) s -> entry h' tc s = rmul (entry h ta s) (entry h tb s).
Proof. exact @contract_diag_scalar. Qed.
Print Assumptions C16_diagonal_scalar.
Example C16_diagonal_scalar_example : wf_pair exn 5 1 /\ legs_of exn 5 = [] /\ legs_of exn 1 <> [] /\
  t_diag (tens exn 5) = true /\ t_diag (tens exn 1) = true.
Proof. split; [apply exn_pair; try lia; nd|]. repeat split; discriminate. Qed.
