(** Property theorems for contractWithMPS: C57. *)
From Coq Require Import List Arith Bool ZArith Lia String Permutation Relations.
From Verif Require Import Base Sums NdModel NdProofs HeapModel FuncsModel TensorModel TensorSpec ContractModel NetSpec ShareProofs NetProofs SearchSpec NetGraphModel NetGraphSpec
  GroupSpec GroupProofs SvdModel SvdSpec MpsModel MpsSpec MpsContractModel MpsContractSpec MpsDoubleSpec MpsNetSpec MpsNetFinalProofs RankLibProofs
  ContractProps SearchProps.
Import ListNotations.
Local Open Scope list_scope.
Local Open Scope nat_scope.

(** contractWithMPS of any closed network with a nonzero value, along any sequence that always joins two groups with a link between them, with an exact decomposition
    that finds the rank and a bound of at least the product of all leg dimensions: every tensor becomes an MPS, the MPSes are merged and contracted, and the tensor
    returned has one leg for every free leg of the network and exactly the network's values. *)
Theorem C57_contract : forall A (HA : SR A) (lib : linalg A), svd_perfect lib -> svd_rank lib -> forall symdiff, symdiff_ok symdiff ->
  forall (h : heap A) tl sq greedy chi, wf_open h tl -> closed h tl -> alive h tl ->
  (forall t, In t tl -> t_like (tens h t) = false /\ legs_of h t <> [] /\ (List.length (legs_of h t) = 1 -> t_diag (tens h t) = false)) ->
  prodn (map (dim_of h) (all_legs h tl)) <= chi -> links_order h tl sq ->
  exists fuel0 h' t cp, (forall fuel, fuel0 <= fuel -> contractWithMPS lib symdiff fuel tl chi (Some sq) greedy h = (h', Ok (Some t))) /\ holds h tl h' t cp.
Proof. exact @contract_mps_ok. Qed.
Print Assumptions C57_contract.

(** Without a sequence and with the greedy flag, the same holds for every connected network: the greedy search finds a sequence of this kind. *)
Theorem C57_greedy : forall A (HA : SR A) symdiff, symdiff_ok symdiff -> forall (lib : linalg A) (h : heap A) tl chi, svd_perfect lib -> svd_rank lib ->
  wf_open h tl -> closed h tl -> alive h tl -> tl <> [] -> net_connected h tl ->
  (forall t, In t tl -> t_like (tens h t) = false /\ legs_of h t <> [] /\ (List.length (legs_of h t) = 1 -> t_diag (tens h t) = false)) ->
  prodn (map (dim_of h) (all_legs h tl)) <= chi ->
  exists fuel0 h' t cp, (forall fuel, fuel0 <= fuel -> contractWithMPS lib symdiff fuel tl chi None true h = (h', Ok (Some t))) /\ holds h tl h' t cp.
Proof. exact @contract_mps_greedy. Qed.
Print Assumptions C57_greedy.

(** Without a sequence, the one generated is used; if none is found, its exception is raised before anything has changed. *)
Theorem C57_generates : forall A (HA : SR A) symdiff (lib : linalg A) fuel tl chi (greedy : bool) (h : heap A) sq cost,
  (if greedy then generateGreedySequence symdiff fuel h tl else generateOptimalSequence symdiff fuel h tl false (Some 10)) = Ok (sq, cost) ->
  contractWithMPS lib symdiff fuel tl chi None greedy h = contractWithMPS lib symdiff fuel tl chi (Some sq) greedy h.
Proof. exact @contract_generates. Qed.
Print Assumptions C57_generates.
Theorem C57_no_sequence : forall A (HA : SR A) symdiff (lib : linalg A) fuel tl chi (greedy : bool) (h : heap A) e,
  (if greedy then generateGreedySequence symdiff fuel h tl else generateOptimalSequence symdiff fuel h tl false (Some 10)) = Err e ->
  contractWithMPS lib symdiff fuel tl chi None greedy h = (h, Err e).
Proof. exact @contract_generate_fails. Qed.
Print Assumptions C57_no_sequence.

(** A sequence whose first pair are two tensors without a link raises AssertionError. *)
Theorem C57_unlinked : forall A (HA : SR A) (lib : linalg A), svd_perfect lib -> svd_rank lib -> forall symdiff
  (h : heap A) tl s t sq greedy chi, wf_open h tl -> closed h tl -> alive h tl ->
  (forall t, In t tl -> t_like (tens h t) = false /\ legs_of h t <> [] /\ (List.length (legs_of h t) = 1 -> t_diag (tens h t) = false)) ->
  prodn (map (dim_of h) (all_legs h tl)) <= chi -> s < List.length tl -> t < List.length tl -> s <> t -> ~ touches h [nth s tl 0] [nth t tl 0] ->
  exists h', forall fuel, contractWithMPS lib symdiff fuel tl chi (Some ((s, t) :: sq)) greedy h = (h', Err AssertionError).
Proof. exact @contract_mps_unlinked. Qed.
Print Assumptions C57_unlinked.

(** Two vectors and a tensor with four legs, two of them linked to the vectors; all dimensions 2. *)
Definition exw : heap bool :=
  mkHeap (fun l => mkLeg (Some (nth l [0; 1; 2; 2; 2; 2] 0)) 2 (NStr (nth l ["a"; "b"; "a"; "b"; "c"; "d"] "x")%string)
           (nth l [Some 0; Some 1; Some 0; Some 1] None))
         (fun b => nth b [mkBond 0 2; mkBond 1 3] (mkBond 0 0))
         (fun t => let ls := nth t [[0]; [1]; [2; 3; 4; 5]] [] in
                   mkTensor ls (Some (tab (map (fun _ => 2) ls) (fun x => Nat.eqb (nth 0 x 0) 1))) false false 0 None)
         6 2 3 (fun _ => false) 0.
Definition exw_part (l : nat) : nat := nth l [2; 3; 0; 1] 0.
Lemma exw_wf t : t < 3 -> wf_tensor exw t.
Proof.
  intros Ht. destruct t as [|[|[|t]]]; [| | |lia]; clear Ht; apply Build_wf_tensor.
  all: try (simpl; lia).
  all: try (unfold legs_of; simpl; repeat constructor; simpl; intuition lia).
  all: try (intros l Hl; unfold legs_of in Hl; enum Hl; simpl; lia).
  all: try discriminate.
  all: try (now repeat split).
Qed.
Lemma exw_bond l b : l < 6 -> l_bond (legs exw l) = Some b -> b < 2 /\ ends exw b l (exw_part l) /\ l_bond (legs exw (exw_part l)) = Some b /\
  dim_of exw l = dim_of exw (exw_part l) /\ exw_part l < 6.
Proof.
  intros Hl Eb. do 6 (destruct l as [|l]; [simpl in Eb; first [discriminate Eb|injection Eb as <-; split; [lia|split; [first [now left|now right]|split; [reflexivity|split; [reflexivity|vm_compute; lia]]]]]|]). lia.
Qed.
Lemma exw_linked l l' : l < 6 -> linked exw l l' -> l' = exw_part l.
Proof. intros Hl (b & Eb & K). destruct (exw_bond l b Hl Eb) as (_ & E & _). apply (linked_fun exw l); exists b; auto. Qed.
Lemma exw_open : wf_open exw [0; 1; 2].
Proof.
  assert (AL : forall l, In l (all_legs exw [0; 1; 2]) -> l < 6) by (intros l Hl; enum Hl; lia).
  constructor; [constructor|..].
  - intros t Ht. apply exw_wf. enum Ht; lia.
  - intros t Ht l Hl. enum Ht; enum Hl; reflexivity.
  - nd.
  - nd.
  - intros l b Hl Eb. exists (exw_part l). destruct (exw_bond l b (AL l Hl) Eb) as (_ & X & Y & Z & _). auto.
  - intros l b Hl Eb. apply (exw_bond l b (AL l Hl) Eb).
  - intros l l' Hl Lk. rewrite (exw_linked l l' (AL l Hl) Lk). destruct Lk as (b & Eb & _). apply (exw_bond l b (AL l Hl) Eb).
Qed.
Lemma exw_closed : closed exw [0; 1; 2].
Proof. intros l l' Hl (b & Eb & _). change (free_legs exw [0; 1; 2]) with [4; 5] in Hl. enum Hl; discriminate Eb. Qed.
Lemma exw_alive : alive exw [0; 1; 2].
Proof. exists (fun _ => 0). split; [|vm_compute; discriminate]. intros l _. unfold dim_of. cbn [exw legs l_dim]. lia. Qed.
Lemma exw_usable t : In t [0; 1; 2] -> t_like (tens exw t) = false /\ legs_of exw t <> [] /\ (List.length (legs_of exw t) = 1 -> t_diag (tens exw t) = false).
Proof. intros Ht. enum Ht; (split; [reflexivity|split; [discriminate|reflexivity]]). Qed.
Lemma exw_order : links_order exw [0; 1; 2] [(0, 2); (0, 1)].
Proof.
  unfold links_order. cbn [map joins nth]. split; [cbn; lia|]. split; [cbn; lia|]. split; [lia|]. split.
  { exists 0, 2. split; [vm_compute; auto|]. split; [vm_compute; auto|]. exists 0. split; [reflexivity|now left]. }
  change (joined 0 2 [[0]; [1]; [2]]) with [[0; 2]; [1]; ([] : list tid)]. split; [cbn; lia|]. split; [cbn; lia|]. split; [lia|]. split.
  { exists 3, 1. split; [vm_compute; auto|]. split; [vm_compute; auto|]. exists 1. split; [reflexivity|now right]. }
  change (joined 0 1 [[0; 2]; [1]; []]) with [[0; 2; 1]; ([] : list tid); []]. intros [|[|[|i]]]; cbn; try tauto; (split; [|easy]); try destruct i; tauto.
Qed.
Lemma exw_connected : net_connected exw [0; 1; 2].
Proof.
  assert (S1 : net_adjacent exw [0; 1; 2] 0 2) by (split; [simpl; auto|]; split; [simpl; auto|]; exists 0, 2; split; [vm_compute; auto|]; split; [vm_compute; auto|]; exists 0; split; [reflexivity|now left]).
  assert (S2 : net_adjacent exw [0; 1; 2] 2 0) by (split; [simpl; auto|]; split; [simpl; auto|]; exists 2, 0; split; [vm_compute; auto|]; split; [vm_compute; auto|]; exists 0; split; [reflexivity|now right]).
  assert (S3 : net_adjacent exw [0; 1; 2] 1 2) by (split; [simpl; auto|]; split; [simpl; auto|]; exists 1, 3; split; [vm_compute; auto|]; split; [vm_compute; auto|]; exists 1; split; [reflexivity|now left]).
  assert (S4 : net_adjacent exw [0; 1; 2] 2 1) by (split; [simpl; auto|]; split; [simpl; auto|]; exists 3, 1; split; [vm_compute; auto|]; split; [vm_compute; auto|]; exists 1; split; [reflexivity|now right]).
  assert (TO : forall t, In t [0; 1; 2] -> clos_refl_trans tid (net_adjacent exw [0; 1; 2]) t 2 /\ clos_refl_trans tid (net_adjacent exw [0; 1; 2]) 2 t).
  { intros t Ht. enum Ht; (split; [try (now apply rt_step); apply rt_refl|try (now apply rt_step); apply rt_refl]). }
  intros t t' Ht Ht'. eapply rt_trans; [apply (TO t Ht)|apply (TO t' Ht')].
Qed.
Example C57_example : svd_perfect libB /\ svd_rank libB /\ symdiff_ok sd /\ wf_open exw [0; 1; 2] /\ closed exw [0; 1; 2] /\ alive exw [0; 1; 2] /\ net_connected exw [0; 1; 2] /\
  (forall t, In t [0; 1; 2] -> t_like (tens exw t) = false /\ legs_of exw t <> [] /\ (List.length (legs_of exw t) = 1 -> t_diag (tens exw t) = false)) /\
  prodn (map (dim_of exw) (all_legs exw [0; 1; 2])) <= 64 /\ links_order exw [0; 1; 2] [(0, 2); (0, 1)] /\ free_legs exw [0; 1; 2] = [4; 5].
Proof.
  split; [exact libB_perfect|]. split; [exact libB_rank|]. split; [exact sd_ok|]. split; [exact exw_open|]. split; [exact exw_closed|]. split; [exact exw_alive|].
  split; [exact exw_connected|]. split; [exact exw_usable|]. split; [vm_compute; lia|]. split; [exact exw_order|reflexivity].
Qed.

(** The default search may choose an outer product, which contractWithMPS cannot contract: on this connected network, which the function contracts exactly with the
    greedy flag, the default call raises AssertionError. *)
Theorem C57_default_refuted : forall lib : linalg bool, svd_perfect lib -> svd_rank lib ->
  exists (h : heap bool) tl chi, wf_open h tl /\ closed h tl /\ alive h tl /\ net_connected h tl /\
    (forall t, In t tl -> t_like (tens h t) = false /\ legs_of h t <> [] /\ (List.length (legs_of h t) = 1 -> t_diag (tens h t) = false)) /\
    prodn (map (dim_of h) (all_legs h tl)) <= chi /\
    exists fuel0 h', forall fuel, fuel0 <= fuel -> contractWithMPS lib sd fuel tl chi None false h = (h', Err AssertionError).
Proof.
  intros lib SP SRK. exists exw, [0; 1; 2], 64. split; [exact exw_open|]. split; [exact exw_closed|]. split; [exact exw_alive|]. split; [exact exw_connected|]. split; [exact exw_usable|].
  assert (RM : prodn (map (dim_of exw) (all_legs exw [0; 1; 2])) <= 64) by (vm_compute; lia). split; [exact RM|].
  assert (NT : ~ touches exw [nth 0 [0; 1; 2] 0] [nth 1 [0; 1; 2] 0]).
  { intros (l & l' & Hl & Hl' & LK). assert (l < 6) by (enum Hl; lia). apply exw_linked in LK; auto. subst l'. enum Hl. vm_compute in Hl'. intuition lia. }
  assert (L0 : 0 < List.length [0; 1; 2]) by (cbn; lia). assert (L1 : 1 < List.length [0; 1; 2]) by (cbn; lia). assert (N01 : 0 <> 1) by lia.
  destruct (contract_mps_unlinked lib SP SRK sd exw [0; 1; 2] 0 1 [(2, 0)] false 64 exw_open exw_closed exw_alive exw_usable RM L0 L1 N01 NT) as (h' & E).
  exists 20, h'. intros fuel Hf. replace fuel with (20 + (fuel - 20)) by lia. generalize (fuel - 20). intros n.
  rewrite <- (E (20 + n)). eapply contract_generates. cbv iota. vm_compute. reflexivity.
Qed.
Print Assumptions C57_default_refuted.

(** Two linked vectors and a third vector without links: once the pair has become a number, a Tensor, the function calls mergeMPS with it and raises AttributeError. *)
Definition exs : heap bool :=
  mkHeap (fun l => mkLeg (Some l) 2 (NStr (nth l ["a"; "a"; "b"] "x")%string) (nth l [Some 0; Some 0] None))
         (fun b => mkBond 0 1)
         (fun t => mkTensor [t] (Some (tab [2] (fun _ => true))) false false 0 None)
         3 1 3 (fun _ => false) 0.
Theorem C57_scalar_refuted : exists h', forall fuel, contractWithMPS libB sd fuel [0; 1; 2] 8 (Some [(0, 1); (0, 2)]) false exs = (h', Err AttributeError).
Proof. eexists. intros fuel. vm_compute. reflexivity. Qed.
Print Assumptions C57_scalar_refuted.
