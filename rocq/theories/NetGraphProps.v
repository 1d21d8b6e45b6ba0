(** Property theorems for the search of a sequence and its execution: C31, C32. *)
From Coq Require Import List Arith Bool ZArith Lia String Permutation Relations.
From Verif Require Import Base Sums NdModel HeapModel FuncsModel FuncsSpec TensorModel TensorSpec ContractModel NetSpec
  SearchModel SearchSpec GraphModel NetGraphModel NetGraphSpec NetProofs ShareProofs NetRunProofs NetOptProofs ContractProps CopyListProps SearchProps.
Import ListNotations.
Local Open Scope list_scope.
Local Open Scope nat_scope.

(** the triangle of tensors 0, 1, 2 of [exn] meets the hypotheses *)
Lemma exn_closed : closed_net exn [0; 1; 2].
Proof.
  intros t l l' Ht Hl LK. apply partner_Some in LK. unfold legs_of in Hl. enum Ht; enum Hl; vm_compute in LK; try discriminate LK; injection LK as <-;
    first [exists 0; split; [simpl; auto; fail|split; [lia|simpl; auto; fail]]|exists 1; split; [simpl; auto; fail|split; [lia|simpl; auto; fail]]|exists 2; split; [simpl; auto; fail|split; [lia|simpl; auto; fail]]].
Qed.
Lemma exn_adj01 : net_adjacent exn [0; 1; 2] 0 1 /\ net_adjacent exn [0; 1; 2] 1 0.
Proof.
  split; (split; [simpl; auto|split; [simpl; auto|]]); [exists 2, 3|exists 3, 2]; (split; [simpl; auto|split; [simpl; auto|apply partner_Some; reflexivity]]).
Qed.
Lemma exn_adj12 : net_adjacent exn [0; 1; 2] 1 2 /\ net_adjacent exn [0; 1; 2] 2 1.
Proof.
  split; (split; [simpl; auto|split; [simpl; auto|]]); [exists 4, 5|exists 5, 4]; (split; [simpl; auto|split; [simpl; auto|apply partner_Some; reflexivity]]).
Qed.
Lemma exn_connected : net_connected exn [0; 1; 2].
Proof.
  destruct exn_adj01 as (A1 & A2), exn_adj12 as (A3 & A4).
  assert (T0 : forall t, In t [0; 1; 2] -> clos_refl_trans nat (net_adjacent exn [0; 1; 2]) t 1).
  { intros t Ht. enum Ht; [now apply rt_step|apply rt_refl|now apply rt_step]. }
  assert (T1 : forall t, In t [0; 1; 2] -> clos_refl_trans nat (net_adjacent exn [0; 1; 2]) 1 t).
  { intros t Ht. enum Ht; [now apply rt_step|apply rt_refl|now apply rt_step]. }
  intros t t' Ht Ht'. eapply rt_trans; eauto.
Qed.
Lemma exn_not_like t : In t [0; 1; 2] -> t_like (tens exn t) = false.
Proof. intros H. enum H; reflexivity. Qed.
Lemma exn_pos l : In l (all_legs exn [0; 1; 2]) -> 0 < dim_of exn l.
Proof. intros H. unfold all_legs, legs_of in H. enum H; vm_compute; lia. Qed.
Lemma exn_uniform : diagonals_uniform exn [0; 1; 2].
Proof.
  split.
  - intros t t' l l' Ht Ht' D D' Hl Hl'. unfold legs_of in *. enum Ht; enum Ht'; enum Hl; enum Hl'; reflexivity.
  - intros G1 G2 ND IN N1 N2 D1 D2. destruct G1 as [|a [|a' G1]]; [congruence| |].
    + unfold all_diag in D1. simpl in D1. assert (Ha : In a [0; 1; 2]) by (apply IN; simpl; auto). enum Ha.
    + exfalso. unfold all_diag in D1. simpl in D1. apply andb_prop in D1. destruct D1 as (Da & D1). apply andb_prop in D1. destruct D1 as (Da' & _).
      assert (Ha : In a [0; 1; 2]) by (apply IN; simpl; auto). assert (Ha' : In a' [0; 1; 2]) by (apply IN; simpl; auto).
      enum Ha; enum Ha'. inversion ND; subst. simpl in *. tauto.
Qed.

(** ** C31 With exact dimensions, the cost the search reports is the cost the execution returns *)
Theorem C31_greedy : forall A (HA : SR A) symdiff, symdiff_ok symdiff ->
  forall fuel (h : heap A) ts sq c inplace h' t0 n cur, wf_net h ts -> closed_net h ts -> (inplace = false -> wf_list h ts) ->
  (forall t, In t ts -> t_like (tens h t) = false) -> ts <> [] ->
  generateGreedySequence symdiff fuel h ts = Ok (sq, c) ->
  contractWithSeq ts sq inplace h = (h', Ok (t0, n, cur)) -> n = c.
Proof. exact @cost_greedy. Qed.
Print Assumptions C31_greedy.
Theorem C31_capping : forall A (HA : SR A) symdiff, symdiff_ok symdiff ->
  forall fuel (h : heap A) ts sq c inplace h' t0 n cur, wf_net h ts -> closed_net h ts -> (inplace = false -> wf_list h ts) ->
  (forall t, In t ts -> t_like (tens h t) = false) ->
  generateOptimalSequence symdiff fuel h ts false None = Ok (sq, c) ->
  contractWithSeq ts sq inplace h = (h', Ok (t0, n, cur)) -> n = c.
Proof. exact @cost_capping. Qed.
Print Assumptions C31_capping.
Theorem C31_bruteForce : forall A (HA : SR A) symdiff, symdiff_ok symdiff ->
  forall fuel (h : heap A) ts sq c inplace h' t0 n cur, wf_net h ts -> closed_net h ts -> (inplace = false -> wf_list h ts) ->
  (forall t, In t ts -> t_like (tens h t) = false) -> ts <> [] -> diagonals_uniform h ts ->
  generateOptimalSequence symdiff fuel h ts true None = Ok (sq, c) ->
  contractWithSeq ts sq inplace h = (h', Ok (t0, n, cur)) -> n = c.
Proof. exact @cost_bf. Qed.
Print Assumptions C31_bruteForce.
(** in a connected network with positive dimensions the exact search ends, its sequence runs, and the two costs agree *)
Theorem C31_connected : forall A (HA : SR A) symdiff, symdiff_ok symdiff -> forall (h : heap A) ts,
  wf_net h ts -> closed_net h ts -> net_connected h ts -> ts <> [] -> (forall l, In l (all_legs h ts) -> 0 < dim_of h l) ->
  (forall t, In t ts -> t_like (tens h t) = false) -> forall typ inplace,
  (forall d, typ = Some d -> 0 < d) -> (typ = None -> forall t, In t ts -> legs_of h t <> []) ->
  (inplace = false -> wf_list h ts /\ forall t, In t ts -> t_diag (tens h t) = true -> legs_of h t <> []) ->
  exists fuel0 sq c n h' t0 cur cp, (forall fuel, fuel0 <= fuel -> generateOptimalSequence symdiff fuel h ts false typ = Ok (sq, c) /\
      contractAndCost symdiff fuel ts None false typ inplace false h = (h', Ok (t0, n, cur))) /\
    (typ = None -> n = c) /\ (inplace = true -> cp = fun l => l) /\ result_legs h h' ts t0 cp /\
    forall s, in_bounds h (free_legs h ts) (fun l => s (cp l)) -> entry h' t0 s = netval h ts (fun l => s (cp l)).
Proof. exact @capping_full. Qed.
Print Assumptions C31_connected.
Theorem C31_greedy_connected : forall A (HA : SR A) symdiff, symdiff_ok symdiff -> forall (h : heap A) ts,
  wf_net h ts -> closed_net h ts -> net_connected h ts -> ts <> [] -> (forall l, In l (all_legs h ts) -> 0 < dim_of h l) ->
  (forall t, In t ts -> t_like (tens h t) = false) -> forall typ inplace,
  (inplace = false -> wf_list h ts /\ forall t, In t ts -> t_diag (tens h t) = true -> legs_of h t <> []) ->
  exists sq n h' t0 cur cp, (forall fuel, generateGreedySequence symdiff fuel h ts = Ok (sq, n) /\
      contractAndCost symdiff fuel ts None false typ inplace true h = (h', Ok (t0, n, cur))) /\
    (inplace = true -> cp = fun l => l) /\ result_legs h h' ts t0 cp /\
    forall s, in_bounds h (free_legs h ts) (fun l => s (cp l)) -> entry h' t0 s = netval h ts (fun l => s (cp l)).
Proof. exact @greedy_full. Qed.
Print Assumptions C31_greedy_connected.
(** the executed cost is the least: no sequence without outer products of diagonal groups runs cheaper *)
Theorem C31_cheapest : forall A symdiff, symdiff_ok symdiff -> forall (h : heap A) ts, wf_net h ts -> closed_net h ts ->
  forall fuel sq c sq' n', (forall l, In l (all_legs h ts) -> 0 < dim_of h l) ->
  generateOptimalSequence symdiff fuel h ts false None = Ok (sq, c) ->
  complete (fun G1 G2 => all_diag h G1 = true -> all_diag h G2 = true -> groups_linked h G1 G2) (group_cost h) (singles ts) sq' n' -> c <= n'.
Proof. exact @capping_cheapest. Qed.
Print Assumptions C31_cheapest.
Theorem C31_bruteForce_cheapest : forall A symdiff, symdiff_ok symdiff -> forall (h : heap A) ts, wf_net h ts -> closed_net h ts ->
  forall fuel sq c sq' n', ts <> [] -> diagonals_uniform h ts ->
  generateOptimalSequence symdiff fuel h ts true None = Ok (sq, c) ->
  complete (fun _ _ => True) (group_cost h) (singles ts) sq' n' -> c <= n'.
Proof. exact @bf_cheapest. Qed.
Print Assumptions C31_bruteForce_cheapest.
Example C31_example : wf_list exn [0; 1; 2] /\ closed_net exn [0; 1; 2] /\ net_connected exn [0; 1; 2] /\ diagonals_uniform exn [0; 1; 2] /\
  (forall l, In l (all_legs exn [0; 1; 2]) -> 0 < dim_of exn l) /\ (forall t, In t [0; 1; 2] -> t_like (tens exn t) = false) /\
  (forall t, In t [0; 1; 2] -> legs_of exn t <> []) /\
  (exists sq h' t0 cur, generateOptimalSequence sd 10 exn [0; 1; 2] false None = Ok (sq, 18) /\ contractWithSeq [0; 1; 2] sq false exn = (h', Ok (t0, 18, cur))) /\
  (exists sq h' t0 cur, generateOptimalSequence sd 10 exn [0; 1; 2] true None = Ok (sq, 18) /\ contractWithSeq [0; 1; 2] sq true exn = (h', Ok (t0, 18, cur))) /\
  (exists sq h' t0 cur, generateGreedySequence sd 10 exn [0; 1; 2] = Ok (sq, 18) /\ contractWithSeq [0; 1; 2] sq true exn = (h', Ok (t0, 18, cur))).
Proof.
  split; [apply exn_list, exn_net|]. split; [exact exn_closed|]. split; [exact exn_connected|]. split; [exact exn_uniform|].
  split; [exact exn_pos|]. split; [exact exn_not_like|]. split; [intros t Ht; enum Ht; discriminate|].
  split; [|split]; (eexists; eexists; eexists; eexists; split; [vm_compute; reflexivity|cbv; reflexivity]).
Qed.

(** ** C32 The default search never leads to a wrong value; brute force can *)
Theorem C32_default_value : forall A (HA : SR A) symdiff, symdiff_ok symdiff ->
  forall fuel (h : heap A) ts typ inplace greedy h' t0 n cur, wf_net h ts -> closed_net h ts -> (inplace = false -> wf_list h ts) ->
  (forall t, In t ts -> t_like (tens h t) = false) -> ts <> [] ->
  contractAndCost symdiff fuel ts None false typ inplace greedy h = (h', Ok (t0, n, cur)) ->
  exists cp, (inplace = true -> cp = fun l => l) /\ result_legs h h' ts t0 cp /\
    forall s, in_bounds h (free_legs h ts) (fun l => s (cp l)) -> entry h' t0 s = netval h ts (fun l => s (cp l)).
Proof. exact @default_value. Qed.
Print Assumptions C32_default_value.
(** contractTensorList on a connected network: it ends, succeeds and returns the value *)
Theorem C32_contractTensorList : forall A (HA : SR A) symdiff, symdiff_ok symdiff -> forall (h : heap A) ts,
  wf_net h ts -> closed_net h ts -> net_connected h ts -> ts <> [] -> (forall l, In l (all_legs h ts) -> 0 < dim_of h l) ->
  (forall t, In t ts -> t_like (tens h t) = false) -> wf_list h ts -> (forall t, In t ts -> t_diag (tens h t) = true -> legs_of h t <> []) ->
  exists fuel0 h' t0 cp, (forall fuel, fuel0 <= fuel -> contractTensorList symdiff fuel ts h = (h', Ok t0)) /\ result_legs h h' ts t0 cp /\
    forall s, in_bounds h (free_legs h ts) (fun l => s (cp l)) -> entry h' t0 s = netval h ts (fun l => s (cp l)).
Proof. exact @contractTensorList_ok. Qed.
Print Assumptions C32_contractTensorList.
(** a link that leads to a tensor outside the list stops every search with KeyError *)
Theorem C32_open_link_raises : forall A (h : heap A) ts, wf_net h ts ->
  (exists l l', In l (all_legs h ts) /\ linked h l l' /\ forall t', l_tensor (legs h l') = Some t' -> ~ In t' ts) ->
  makeTensorGraph h ts = Err KeyError.
Proof. exact @open_link_raises. Qed.
Print Assumptions C32_open_link_raises.
Example C32_open_example : wf_net exn [0; 1] /\ linked exn 1 6 /\ In 1 (all_legs exn [0; 1]) /\ l_tensor (legs exn 6) = Some 2.
Proof. split; [exact exn_net01|]. split; [apply partner_Some; reflexivity|]. split; [simpl; auto|reflexivity]. Qed.

(** the witness: diagonal (legs 0 1), dense (legs 2 3), diagonal (legs 4 5) in a chain 1-2, 3-4 *)
Definition exb : heap Z :=
  mkHeap (fun l => nth l [mkLeg (Some 0) 2 (NStr "i") None; mkLeg (Some 0) 2 (NStr "j") (Some 0);
                          mkLeg (Some 1) 2 (NStr "j") (Some 0); mkLeg (Some 1) 2 (NStr "k") (Some 1);
                          mkLeg (Some 2) 2 (NStr "k") (Some 1); mkLeg (Some 2) 2 (NStr "l") None]
                         (mkLeg None 0 NNone None))
         (fun b => nth b [mkBond 1 2; mkBond 3 4] (mkBond 0 0))
         (fun t => match t with
                   | 0 => mkTensor [0; 1] (Some (mkArr [2] [1; 2]%Z)) true false 2 None
                   | 1 => mkTensor [2; 3] (Some (mkArr [2; 2] [1; 2; 3; 4]%Z)) false false 0 None
                   | _ => mkTensor [4; 5] (Some (mkArr [2] [1; 3]%Z)) true false 2 None
                   end)
         6 2 3 (fun _ => 0%Z) 0.
Lemma exb_net : wf_net exb [0; 1; 2].
Proof.
  apply Build_wf_net.
  - intros t Ht. enum Ht; apply Build_wf_tensor.
    all: try (simpl; lia).
    all: try (unfold legs_of; simpl; repeat constructor; simpl; intuition lia).
    all: try (intros l Hl; unfold legs_of in Hl; enum Hl; simpl; lia).
    all: try discriminate.
    all: try (now repeat split).
    all: intros _; split; [first [discriminate|reflexivity]|intros l Hl; unfold legs_of in Hl; enum Hl; reflexivity].
  - intros t Ht. enum Ht; intros l Hl; enum Hl; reflexivity.
  - repeat constructor; simpl; intuition lia.
  - unfold all_legs, legs_of. simpl. repeat constructor; simpl; intuition lia.
  - intros l b Hl Eb. unfold all_legs, legs_of in Hl. enum Hl; injection Eb as <-;
      first [exists 2; split; [first [now left|now right]|intros _; split; reflexivity]
            |exists 1; split; [first [now left|now right]|intros _; split; reflexivity]
            |exists 4; split; [first [now left|now right]|intros _; split; reflexivity]
            |exists 3; split; [first [now left|now right]|intros _; split; reflexivity]].
Qed.
Lemma exb_closed : closed_net exb [0; 1; 2].
Proof.
  intros t l l' Ht Hl LK. apply partner_Some in LK. unfold legs_of in Hl. enum Ht; enum Hl; vm_compute in LK; try discriminate LK; injection LK as <-;
    first [exists 0; split; [simpl; auto; fail|split; [lia|simpl; auto; fail]]|exists 1; split; [simpl; auto; fail|split; [lia|simpl; auto; fail]]|exists 2; split; [simpl; auto; fail|split; [lia|simpl; auto; fail]]].
Qed.
Theorem C32_brute_force_wrong : forall typ, typ = None \/ typ = Some 10 -> exists (h : heap Z) ts h' t0 n cur s,
  wf_net h ts /\ closed_net h ts /\ (forall t, In t ts -> t_like (tens h t) = false) /\ ts <> [] /\
  contractAndCost sd 0 ts None true typ true false h = (h', Ok (t0, n, cur)) /\
  Permutation (legs_of h' t0) (free_legs h ts) /\ in_bounds h (free_legs h ts) s /\ entry h' t0 s <> netval h ts s.
Proof.
  intros typ HT. 
  destruct (contractAndCost sd 0 [0; 1; 2] None true typ true false exb) as [h' [[[t0 n] cur]|e]] eqn:E.
  - exists exb, [0; 1; 2], h', t0, n, cur, (fun l => if Nat.eqb l 0 then 0 else 1).
    split; [exact exb_net|]. split; [exact exb_closed|]. split; [intros t Ht; enum Ht; reflexivity|]. split; [discriminate|]. split; [exact E|].
    destruct HT as [-> | ->].
    + cbv in E. injection E as <- <- _ _. split; [cbv; apply Permutation_refl|]. split; [intros l Hl; vm_compute in Hl; enum Hl; vm_compute; lia|]. vm_compute. discriminate.
    + cbv in E. injection E as <- <- _ _. split; [cbv; apply Permutation_refl|]. split; [intros l Hl; vm_compute in Hl; enum Hl; vm_compute; lia|]. vm_compute. discriminate.
  - exfalso. destruct HT as [-> | ->]; cbv in E; discriminate E.
Qed.
Print Assumptions C32_brute_force_wrong.
