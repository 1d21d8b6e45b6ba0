(** Property theorems for the copying of tensor lists and out-of-place contraction: C23, C24, C18 (inplace=False). *)
From Coq Require Import List Arith Bool ZArith Lia String Permutation.
From Verif Require Import Base Sums NdModel HeapModel FuncsModel FuncsSpec TensorModel TensorSpec ContractModel NetSpec
  LinkProofs NetProofs SeqProofs FrameProofs CopyListProofs ContractProps.
Import ListNotations.
Local Open Scope list_scope.
Local Open Scope nat_scope.

Lemma exn_linked l l' : l < 11 -> linked exn l l' -> l' < 11.
Proof. intros Hl (b & Eb & [K|K]); do 11 (destruct l as [|l]; [simpl in Eb; first [discriminate Eb|injection Eb as <-; injection K; lia]|]); lia. Qed.
Lemma exn_owner l l' t' : l < 11 -> linked exn l l' -> l_tensor (legs exn l') = Some t' -> In l' (legs_of exn t').
Proof.
  intros Hl Lk Et. pose proof (exn_linked l l' Hl Lk) as H'. clear Lk.
  do 11 (destruct l' as [|l']; [simpl in Et; injection Et as <-; simpl; lia|]). lia.
Qed.
Lemma exn_list ts : wf_net exn ts -> wf_list exn ts.
Proof.
  intros W. assert (AL : forall l, In l (all_legs exn ts) -> l < 11).
  { intros l Hl. apply all_legs_In in Hl. destruct Hl as (t & Ht & Hl). exact (wt_alloc _ _ (wn_wf _ _ W t Ht) l Hl). }
  constructor; auto.
  - intros l b Hl Eb. exact (proj1 (exn_sym l b (AL l Hl) Eb)).
  - intros l l' Hl Lk. exact (exn_linked l l' (AL l Hl) Lk).
  - intros l l' t' Hl Lk Et _. exact (exn_owner l l' t' (AL l Hl) Lk Et).
Qed.
Lemma exn_net01 : wf_net exn [0; 1].
Proof.
  constructor.
  - intros t Ht. apply exn_wf. enum Ht; lia.
  - intros t Ht. apply exn_owned. enum Ht; lia.
  - repeat constructor; simpl; intuition lia.
  - unfold all_legs, legs_of. simpl. repeat constructor; simpl; intuition lia.
  - apply exn_links. intros l Hl. unfold all_legs, legs_of in Hl. enum Hl; lia.
Qed.

(** ** C23: copyTensorList *)
Theorem C23_copy : forall A (HA : SR A) (h : heap A) ts like, wf_list h ts ->
  (like = false -> forall t, In t ts -> ~ (t_diag (tens h t) = true /\ t_like (tens h t) = false /\ legs_of h t = [])) ->
  exists h' ct cp, copyTensorList ts like h = (h', Ok (map ct ts)) /\ net_copy h h' ts ct cp /\
    (forall t, In t ts -> t_like (tens h' (ct t)) = if like then true else t_like (tens h t)) /\
    (like = false -> forall t s, In t ts -> entry h' (ct t) s = entry h t (fun l => s (cp l))).
Proof. exact @copyTensorList_ok. Qed.
Print Assumptions C23_copy.
Theorem C23_same_value : forall A (HA : SR A) (h h' : heap A) ts ct cp, wf_net h ts -> net_copy h h' ts ct cp -> forall s,
  (forall t s, In t ts -> entry h' (ct t) s = entry h t (fun l => s (cp l))) ->
  netval h' (map ct ts) s = netval h ts (fun l => s (cp l)).
Proof. exact @netval_copy. Qed.
Print Assumptions C23_same_value.
(** nothing allocated before is changed, whatever the list and whether or not the call raises *)
Theorem C23_originals_unchanged : forall A (HA : SR A) (h h' : heap A) ts like r, copyTensorList ts like h = (h', r) ->
  (forall l, l < nleg h -> legs h' l = legs h l) /\ (forall b, b < nbond h -> bonds h' b = bonds h b) /\
  (forall t, t < ntens h -> tens h' t = tens h t) /\
  match r with
  | Ok cs => forall c, In c cs -> ntens h <= c < ntens h' /\ forall l, In l (legs_of h' c) -> nleg h <= l
  | Err _ => True
  end.
Proof. exact @copyList_frame. Qed.
Print Assumptions C23_originals_unchanged.
(** two of the three linked tensors: the bonds to the third one become free legs of the copies *)
Example C23_example : wf_list exn [0; 1] /\
  (forall t, In t [0; 1] -> ~ (t_diag (tens exn t) = true /\ t_like (tens exn t) = false /\ legs_of exn t = [])) /\
  linked exn 2 3 /\ linked exn 1 6 /\ ~ In 6 (all_legs exn [0; 1]).
Proof.
  split; [apply exn_list, exn_net01|]. split; [intros t Ht (_ & _ & E); enum Ht|].
  split; [exists 0; split; [reflexivity|now left]|]. split; [exists 2; split; [reflexivity|now left]|]. intros Hl; unfold all_legs, legs_of in Hl; enum Hl.
Qed.

(** ** C24: out-of-place contraction *)
Theorem C24_inputs_untouched : forall A (HA : SR A) (h h' : heap A) ts sq r, contractWithSeq ts sq false h = (h', r) ->
  (forall l, l < nleg h -> legs h' l = legs h l) /\ (forall b, b < nbond h -> bonds h' b = bonds h b) /\
  (forall t, t < ntens h -> tens h' t = tens h t) /\
  match r with Ok (t0, _, _) => ntens h <= t0 | Err _ => True end.
Proof. exact @seq_frame. Qed.
Print Assumptions C24_inputs_untouched.
(** a run that succeeds, and one that raises half way *)
Example C24_example : (exists t n c, snd (contractWithSeq [0; 1; 2] [(2, 1); (0, 1)] false exn) = Ok (t, n, c)) /\
  (exists e, snd (contractWithSeq [0; 1; 2] [(2, 1); (0, 7)] false exn) = Err e) /\
  nleg (fst (contractWithSeq [0; 1; 2] [(2, 1); (0, 7)] false exn)) <> nleg exn.
Proof. split; [vm_compute; eauto|]. split; [vm_compute; eauto|]. vm_compute. discriminate. Qed.

(** ** C18 with inplace=False: the copies are contracted to the value of the original network *)
Theorem C18_out_of_place : forall A (HA : SR A) (h : heap A) ts sq n, wf_list h ts ->
  (forall t, In t ts -> t_like (tens h t) = false /\ (t_diag (tens h t) = true -> legs_of h t <> [])) ->
  (forall p, In p (inner h ts) -> 0 < dim_of h (fst p)) ->
  complete (group_ok h) (group_cost h) (singles ts) sq n ->
  exists h' t0 cur cp, contractWithSeq ts sq false h = (h', Ok (t0, n, cur)) /\
    wf_tensor h' t0 /\ t_like (tens h' t0) = false /\ t_diag (tens h' t0) = all_diag h ts /\
    (forall l l', In l (free_legs h ts) -> In l' (free_legs h ts) -> cp l = cp l' -> l = l') /\
    Permutation (legs_of h' t0) (map cp (free_legs h ts)) /\
    (forall l, In l (free_legs h ts) -> l_name (legs h' (cp l)) = l_name (legs h l) /\ dim_of h' (cp l) = dim_of h l) /\
    forall s, in_bounds h (free_legs h ts) (fun l => s (cp l)) -> entry h' t0 s = netval h ts (fun l => s (cp l)).
Proof. exact @contractWithSeq_copy. Qed.
Print Assumptions C18_out_of_place.
Example C18_out_of_place_example : wf_list exn [0; 1; 2] /\
  (forall t, In t [0; 1; 2] -> t_like (tens exn t) = false /\ (t_diag (tens exn t) = true -> legs_of exn t <> [])) /\
  (forall p, In p (inner exn [0; 1; 2]) -> 0 < dim_of exn (fst p)).
Proof.
  split; [apply exn_list, exn_net|]. split; [intros t Ht; enum Ht; split; try reflexivity; discriminate|].
  intros p Hp. vm_compute in Hp. enum Hp; unfold dim_of; simpl; lia.
Qed.
