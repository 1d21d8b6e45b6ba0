(** Property theorems for FreeBoundaryMPS.copyOfTensors (C68). *)
From Coq Require Import List Arith Bool ZArith Lia String Permutation.
From Verif Require Import Base Sums NdModel HeapModel FuncsModel TensorModel TensorSpec ContractModel NetSpec NetProofs
  GroupSpec NetSameProofs MpsModel MpsSpec MpsNewProofs ContractProps MpsProps MpsCopyModel MpsCopyProofs.
Import ListNotations.
Local Open Scope list_scope.
Local Open Scope nat_scope.

(** copyOfTensors of a chain: fresh tensors with the same entries, names and dimensions, linked exactly where the originals are linked to each
    other; nothing that existed before is changed.  The copies are again a chain (with nothing around it: a link from an outgoing leg to the
    outside is not copied), and it has the value of the original chain for every assignment of indices to its outgoing legs. *)
Theorem C68_copy : forall A (HA : SR A) (h : heap A) ts chi act os env lf rt, chain h ts os env lf rt -> wf_list h ts ->
  exists h' ct cp, copyOfTensors (mkMps ts chi act) h = (h', Ok (map ct ts)) /\ net_copy h h' ts ct cp /\
    (forall t s, In t ts -> entry h' (ct t) s = entry h t (fun l => s (cp l))) /\
    chain h' (map ct ts) (map cp os) [] (fun i => cp (lf i)) (fun i => cp (rt i)) /\
    forall s, netval h' (map ct ts) s = netval h ts (fun l => s (cp l)).
Proof. exact @copyOfTensors_ok. Qed.
Print Assumptions C68_copy.

(** if the legs of the first two tensors have lost the names "r" and "l" (they are ordinary legs whose names can be assigned), the call raises;
    nothing that existed before is changed *)
Theorem C68_unnamed : forall A (HA : SR A) (h : heap A) ta tb ts chi act, (forall t, In t (ta :: tb :: ts) -> wf_tensor h t) ->
  (forall t, In t (ta :: tb :: ts) -> ~ (t_diag (tens h t) = true /\ t_like (tens h t) = false /\ legs_of h t = [])) ->
  ~ (In (NStr "r") (names_of h ta) /\ In (NStr "l") (names_of h tb)) ->
  exists h', copyOfTensors (mkMps (ta :: tb :: ts) chi act) h = (h', Err AttributeError) /\
    (forall l, l < nleg h -> legs h' l = legs h l) /\ (forall b, b < nbond h -> bonds h' b = bonds h b) /\ (forall t, t < ntens h -> tens h' t = tens h t).
Proof. exact @copyOfTensors_unnamed. Qed.
Print Assumptions C68_unnamed.

(** the chain 0, 1, 2 with the tensor 3 at an outgoing leg, made by the constructor; before the constructor has named the legs the second theorem applies *)
Example C68_example : exists h', newMps [0; 1; 2] (Some 12%Z) exc = (h', Ok (mkMps [0; 1; 2] 12 None, false)) /\
  (exists lf rt, chain h' [0; 1; 2] [1; 4; 6] [3] lf rt) /\ wf_list h' [0; 1; 2].
Proof.
  destruct C47_example as (_ & SH & _ & _ & _ & _ & h' & E & lf & rt & CH & _). exists h'. split; [exact E|]. split; [eauto|].
  destruct (C47_shape Z exc [0; 1; 2] (Some 12%Z) (sub_net exc [0; 1; 2] [3] exc_open)) as [CS _]. destruct (CS SH) as (h2 & m & w & E2 & _ & NS & _).
  assert (h2 = h') as -> by congruence. clear E2 CS.
  pose proof (ch_wf _ _ _ _ _ _ CH) as W. assert (IN : forall l, In l (all_legs h' [0; 1; 2]) -> In l (all_legs h' ([0; 1; 2] ++ [3]))).
  { intros l Hl. apply all_legs_In in Hl as (t & Ht & Hl). apply all_legs_In. exists t. split; auto. apply in_app_iff. auto. }
  constructor.
  - exact (sub_net h' [0; 1; 2] [3] W).
  - intros l b Hl. apply (wo_bonds _ _ W), IN, Hl.
  - intros l l' Hl. apply (wo_alloc _ _ W), IN, Hl.
  - intros l l' t' Hl LK Et Ht. rewrite (ns_all _ _ NS) in Hl. apply (ns_linked _ _ NS) in LK. destruct (ns_leg _ _ NS l') as (L1 & _). rewrite L1 in Et. rewrite (ns_legs_of _ _ NS).
    assert (l < 8) by (enum Hl; lia). pose proof LK as (b & Eb & _). apply exc_linked in LK; auto. subst l'.
    enum Hl; try discriminate Eb; cbn in Et; injection Et as <-; try (simpl in Ht; intuition lia); vm_compute; auto.
Qed.
Example C68_unnamed_example : (forall t, In t [0; 1; 2] -> wf_tensor exc t) /\ ~ (In (NStr "r") (names_of exc 0) /\ In (NStr "l") (names_of exc 1)) /\
  (forall t, In t [0; 1; 2] -> ~ (t_diag (tens exc t) = true /\ t_like (tens exc t) = false /\ legs_of exc t = [])).
Proof.
  split; [intros t Ht; apply exc_wf; simpl in Ht; lia|]. split; [intros (H & _); cbn in H; intuition discriminate|].
  intros t Ht (H & _). enum Ht.
Qed.
