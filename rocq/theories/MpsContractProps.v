(** Property theorems for commonLegs and contractMPS: C55. *)
From Coq Require Import List Arith Bool ZArith Lia String Permutation.
From Verif Require Import Base Sums NdModel NdProofs HeapModel FuncsModel TensorModel TensorSpec ContractModel NetSpec ShareProofs NetProofs
  GroupSpec GroupProofs NetSameProofs SvdModel SvdSpec MpsModel MpsSpec MpsPreProofs MpsSwapProofs MpsContractModel MpsContractSpec MpsCommonProofs MpsContractProofs
  ContractProps MergeLinkProps MpsProps MpsOpenProofs.
Import ListNotations.
Local Open Scope list_scope.
Local Open Scope nat_scope.

(** commonLegs of two MPSes in a closed network lists, for the links between an outgoing leg of the first and one of the second, the positions of the two legs. *)
Theorem C55_common : forall A (h : heap A) tsA tsB e osA osB lfA rtA lfB rtB, chain h tsA osA (tsB ++ e) lfA rtA -> chain h tsB osB (tsA ++ e) lfB rtB ->
  closed h (tsA ++ tsB ++ e) -> forall chia acta chib actb, exists r, commonLegs h (mkMps tsA chia acta) (OMps (mkMps tsB chib actb)) = Ok r /\
  Forall2 (fun p q => fst p < List.length tsA /\ snd p < List.length tsB /\ nth (fst p) osA 0 = fst q /\ nth (snd p) osB 0 = snd q) r (pairs_between h osA osB).
Proof. exact @common_legs. Qed.
Print Assumptions C55_common.

(** contractMPS of two MPSes with exactly one link between their outgoing legs, in any closed network: the result is a tensor without legs if both have one
    site, and otherwise an MPS whose outgoing legs are the others of the first MPS followed by the others of the second, with the smaller of the two bounds.
    If no exchange on the way loses anything (which an exact library and enough room guarantee) the value of the network is unchanged. *)
Theorem C55_contract : forall A (HA : SR A) (lib : linalg A), svd_total lib -> forall (h : heap A) tsA tsB e osA osB lfA rtA lfB rtB ia ib chia chib acta actb,
  chain h tsA osA (tsB ++ e) lfA rtA -> chain h tsB osB (tsA ++ e) lfB rtB -> closed h (tsA ++ tsB ++ e) -> ia < List.length tsA -> ib < List.length tsB ->
  (0 <= chia)%Z -> (0 <= chib)%Z -> pairs_between h osA osB = [(nth ia osA 0, nth ib osB 0)] ->
  exists h' o, contractMPS lib (OMps (mkMps tsA chia acta)) (OMps (mkMps tsB chib actb)) h = (h', Ok o) /\
    contracted_to h tsA tsB e osA osB rtA rtB (without ia osA ++ without ib osB) (Z.min chia chib) h' o /\
    ((lossless_run lib (moves ia (List.length tsA - 1)) (mkMps tsA chia acta) h \/ (svd_perfect lib /\ roomy h tsA osA rtA ia chia)) ->
     ((forall h1 a1, moveTensor lib (Z.of_nat ia) (Z.of_nat (List.length tsA) - 1) (mkMps tsA chia acta) h = (h1, Ok a1) -> lossless_run lib (moves ib 0) (mkMps tsB chib actb) h1) \/
       (svd_perfect lib /\ roomy h tsB osB rtB ib chib)) ->
     same_value h (tsA ++ tsB ++ e) h' (sites o ++ e)).
Proof. exact @contract_mps. Qed.
Print Assumptions C55_contract.

(** Two MPSes with no link between them, or with several, are refused; nothing has changed. *)
Theorem C55_refused : forall A (HA : SR A) (lib : linalg A) (h : heap A) tsA tsB e osA osB lfA rtA lfB rtB chia chib acta actb,
  chain h tsA osA (tsB ++ e) lfA rtA -> chain h tsB osB (tsA ++ e) lfB rtB -> closed h (tsA ++ tsB ++ e) -> List.length (pairs_between h osA osB) <> 1 ->
  contractMPS lib (OMps (mkMps tsA chia acta)) (OMps (mkMps tsB chib actb)) h = (h, Err AssertionError).
Proof. exact @contract_refused. Qed.
Print Assumptions C55_refused.

(** With a negative bound (the default) the call fails as soon as the first MPS has to be rearranged. *)
Theorem C55_negative : forall A (HA : SR A) (lib : linalg A), svd_total lib -> forall (h : heap A) tsA tsB e osA osB lfA rtA lfB rtB ia ib chia chib acta actb,
  chain h tsA osA (tsB ++ e) lfA rtA -> chain h tsB osB (tsA ++ e) lfB rtB -> closed h (tsA ++ tsB ++ e) -> ia < List.length tsA -> ib < List.length tsB ->
  pairs_between h osA osB = [(nth ia osA 0, nth ib osB 0)] -> (chia < 0)%Z -> S ia <> List.length tsA ->
  exists h', contractMPS lib (OMps (mkMps tsA chia acta)) (OMps (mkMps tsB chib actb)) h = (h', Err ValueError).
Proof. exact @contract_negative. Qed.
Print Assumptions C55_negative.

(** Finding: the tensor that a complete contraction returns is not accepted as an argument again: as the second argument it raises AttributeError,
    or AssertionError if no outgoing leg of the MPS is linked, and as the first argument always AttributeError. *)
Theorem C55_tensor : forall A (HA : SR A) (lib : linalg A) (h : heap A) o, (forall m, o <> OMps m) ->
  (forall chi act ts os env lf rt, chain h ts os env lf rt ->
    (forall l l', In l os -> ~ linked h l l') /\ contractMPS lib (OMps (mkMps ts chi act)) o h = (h, Err AssertionError) \/
    (exists l l', In l os /\ linked h l l') /\ contractMPS lib (OMps (mkMps ts chi act)) o h = (h, Err AttributeError)) /\
  forall ob, contractMPS lib o ob h = (h, Err AttributeError).
Proof.
  intros A HA lib h o NO. split.
  - intros chi act ts os env lf rt C. rewrite (contract_tensor lib h o chi act NO ts os env lf rt C).
    destruct (forallb _ os) eqn:E; [left|right]; (split; [|reflexivity]).
    + intros l l' Hl LK. rewrite forallb_forall in E. specialize (E l Hl). apply partner_Some in LK. now rewrite LK in E.
    + assert (X : existsb (fun l => negb (match partner h l with Some _ => false | None => true end)) os = true).
      { clear C. induction os as [|l os IH]; [discriminate E|]. cbn [forallb existsb] in *. destruct (partner h l); [reflexivity|]. now apply IH. }
      apply existsb_exists in X. destruct X as (l & Hl & X). destruct (partner h l) as [l'|] eqn:P; [|discriminate X]. exists l, l'. split; auto. now apply partner_Some.
  - intros ob. destruct o as [m|t|]; [now destruct (NO m)|reflexivity|reflexivity].
Qed.
Print Assumptions C55_tensor.

(** The three-site MPS of the example for C47, whose middle leg is linked to the only leg of a one-site MPS. *)
Lemma exd_pre : prechain exc [0; 1; 2] [1; 4; 6] [3] (fun i => nth i [0; 2; 5] 0) (fun i => nth i [0; 3; 0] 0).
Proof.
  constructor.
  - reflexivity.
  - exact exc_open.
  - intros t Ht. enum Ht; auto.
  - intros i Hi. destruct i as [|[|[|i]]]; [reflexivity|reflexivity|reflexivity|simpl in Hi; lia].
  - intros i Hi. destruct i as [|[|i]]; simpl in Hi; try lia; [exists 0|exists 1]; (split; [reflexivity|now left]).
  - intros l l' Hl Hl' LK. assert (LK' := LK). assert (l < 8) by (enum Hl; lia). apply exc_linked in LK; auto. subst l'.
    destruct LK' as (b & Eb & _). enum Hl; try discriminate Eb; cbv in Hl'; intuition lia.
Qed.
Lemma exd_pre3 : prechain exc [3] [7] [0; 1; 2] (fun _ => 0) (fun _ => 0).
Proof.
  constructor.
  - reflexivity.
  - eapply wf_open_perm; [|exact exc_open]. symmetry. exact (Permutation_middle [0; 1; 2] [] 3).
  - intros t Ht. enum Ht; auto.
  - intros i Hi. destruct i as [|i]; [reflexivity|simpl in Hi; lia].
  - intros i Hi. simpl in Hi. lia.
  - intros l l' Hl Hl' LK. assert (l < 8) by (enum Hl; lia). apply exc_linked in LK; auto. subst l'. enum Hl. cbv in Hl'. intuition lia.
Qed.
Lemma exd_closed : closed exc ([0; 1; 2] ++ [3] ++ []).
Proof.
  intros l l' Hl (b & Eb & _). change (free_legs exc ([0; 1; 2] ++ [3] ++ [])) with [1; 6] in Hl. enum Hl; discriminate Eb.
Qed.
Lemma pre_same A (h h' : heap A) ts os env lf rt : net_same h h' -> prechain h ts os env lf rt -> prechain h' ts os env lf rt.
Proof.
  intros NS PC. constructor; [apply PC|apply (ns_wf_open _ _ NS); apply PC|..].
  - intros t Ht. rewrite (ns_tens _ _ NS). now apply PC.
  - intros i Hi. rewrite (ns_legs_of _ _ NS). now apply PC.
  - intros i Hi. apply (ns_linked _ _ NS). now apply PC.
  - intros l l' Hl Hl' LK. apply (ns_linked _ _ NS) in LK. rewrite (ns_all _ _ NS) in Hl'. exact (pc_out _ _ _ _ _ _ PC l l' Hl Hl' LK).
Qed.
Example C55_example : svd_perfect libE /\ svd_total libE /\ exists (h : heap Z) lfA rtA lfB rtB,
  chain h [0; 1; 2] [1; 4; 6] ([3] ++ []) lfA rtA /\ chain h [3] [7] ([0; 1; 2] ++ []) lfB rtB /\ closed h ([0; 1; 2] ++ [3] ++ []) /\
  pairs_between h [1; 4; 6] [7] = [(nth 1 [1; 4; 6] 0, nth 0 [7] 0)] /\ roomy h [0; 1; 2] [1; 4; 6] rtA 1 12 /\ roomy h [3] [7] rtB 0 12 /\
  without 1 [1; 4; 6] ++ without 0 [7] = [1; 6] /\
  List.length (pairs_between h [7] [1; 6]) <> 1.
Proof.
  split; [exact libE_perfect|]. split; [intros m r c WM SM; apply (sx_shape _ _ _ _ (proj1 (libE_perfect m r c WM SM)))|].
  destruct (pc_new exc [0; 1; 2] [1; 4; 6] [3] _ _ exd_pre (Some 12%Z)) as (h1 & E1 & NS1 & C1 & _); [discriminate|].
  destruct (pc_new h1 [3] [7] [0; 1; 2] _ _ (pre_same _ _ _ _ _ _ _ _ NS1 exd_pre3) (Some 12%Z)) as (h2 & E2 & NS2 & C2 & NM2); [discriminate|].
  assert (PB : forall L1 L2, pairs_between h2 L1 L2 = pairs_between exc L1 L2).
  { intros L1 L2. rewrite (ns_pairs _ _ NS2), (ns_pairs _ _ NS1). reflexivity. }
  assert (DM : forall l, dim_of h2 l = dim_of exc l) by (intros l; rewrite (ns_dim _ _ NS2); apply (ns_dim _ _ NS1)).
  exists h2. eexists _, _, _, _. split; [|split; [exact C2|]].
  - apply (chain_frame h1 h2 [0; 1; 2] [1; 4; 6] [3] ([3] ++ []) _ _ C1).
    + apply (same_ut h1 h2 [0; 1; 2] (all_legs h1 [3]) NS2 NM2). rewrite !(ns_all _ _ NS1). intros l Hl H3. enum Hl; cbv in H3; intuition lia.
    + apply (ns_wf_open _ _ NS2). apply (ns_wf_open _ _ NS1). exact exc_open.
  - split; [apply (same_closed _ _ _ NS2), (same_closed _ _ _ NS1); exact exd_closed|]. split; [rewrite PB; reflexivity|].
    split; [|split; [|split; [reflexivity|rewrite PB; vm_compute; discriminate]]].
    + split; [rewrite DM; vm_compute; discriminate|]. intros k Hk. rewrite !DM. destruct k as [|[|k]]; simpl in Hk; try lia; vm_compute; discriminate.
    + split; [rewrite DM; vm_compute; discriminate|]. intros k Hk. simpl in Hk. lia.
Qed.
