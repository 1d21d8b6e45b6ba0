(** C46: the network of an Ising model on a graph has the partition function as its value. *)
From Coq Require Import List Arith Bool String Reals Permutation Lia Lra.
From Verif Require Import Base Sums HeapModel TensorModel ContractModel SearchModel GraphModel GraphSpec TensorSpec NetSpec RealSR IsingModel IsingSpec IsingMainProofs.
Import ListNotations.
Local Open Scope nat_scope.

(** the enumeration gives the partition function, for every graph without free edges and all couplings *)
Theorem C46_enumeration : forall n (ops : list (op R)) EE, added n ops = map bond_edge EE ->
  exactZFromGraphIsing (run n ops) = Ok (partition n EE).
Proof. exact @ising_exact. Qed.
Print Assumptions C46_enumeration.
Theorem C46_network : forall n (ops : list (op R)) EE (h : heap R), added n ops = map bond_edge EE -> ising_graph n EE ->
  exists h' ts g', IsingTNFromUndirectedGraph (run n ops) h = (h', Ok (ts, g')) /\ List.length ts = n /\ wf_net h' ts /\ free_legs h' ts = [] /\
    forall s, exactZFromGraphIsing (run n ops) = Ok (netval h' ts s).
Proof. exact @ising_network. Qed.
Print Assumptions C46_network.
(** contracting it along any sequence leaves a tensor without legs that holds the partition function *)
Theorem C46_contraction : forall n (ops : list (op R)) EE (h : heap R), added n ops = map bond_edge EE -> ising_graph n EE ->
  exists h' ts g', IsingTNFromUndirectedGraph (run n ops) h = (h', Ok (ts, g')) /\
    forall sq c, complete (fun _ _ => True) (group_cost h') (singles ts) sq c ->
    exists h2 t cur, contractWithSeq ts sq true h' = (h2, Ok (t, c, cur)) /\ legs_of h2 t = [] /\ forall s, exactZFromGraphIsing (run n ops) = Ok (entry h2 t s).
Proof. exact @ising_contract. Qed.
Print Assumptions C46_contraction.
Theorem C46_isolated_vertex : forall n (ops : list (op R)) EE (h : heap R) v, added n ops = map bond_edge EE -> v < n ->
  (forall a b w, In (a, b, w) EE -> v <> a /\ v <> b) ->
  snd (IsingTNFromUndirectedGraph (run n ops) h) = Err ValueError.
Proof. exact @ising_isolated. Qed.
Print Assumptions C46_isolated_vertex.
(** a self-loop leaves the network open: not the partition function, which has no free legs *)
Theorem C46_self_loop_refuted : forall (w : R) (h : heap R),
  exists h' ts g', IsingTNFromUndirectedGraph (run 1 [OEdge 0 0 w]) h = (h', Ok (ts, g')) /\ List.length (free_legs h' ts) = 2.
Proof. exact @ising_loop. Qed.
Print Assumptions C46_self_loop_refuted.

(** a triangle with a doubled edge; the partition function of a single edge *)
Definition exi : list (op R) := [OEdge 0 1 1%R; OEdge 1 2 2%R; OQuery; OEdge 2 0 0%R; OEdge 0 1 3%R].
Example C46_example : added 3 exi = map bond_edge [(0, 1, 1%R); (1, 2, 2%R); (2, 0, 0%R); (0, 1, 3%R)] /\
  ising_graph 3 [(0, 1, 1%R); (1, 2, 2%R); (2, 0, 0%R); (0, 1, 3%R)] /\
  complete (fun _ _ => True) (fun _ _ => 0) (singles [0; 1; 2]) [(2, 1); (0, 1)] 0 /\
  partition 2 [(0, 1, 1%R)] = (2 * exp 1 + 2 * exp (Ropp 1))%R.
Proof.
  split; [reflexivity|]. split; [|split].
  - constructor.
    + intros a b w H. simpl in H. repeat (destruct H as [H|H]; [injection H as <- <- <-; lia|]). destruct H.
    + intros a b w H. simpl in H. repeat (destruct H as [H|H]; [injection H as <- <- <-; lia|]). destruct H.
    + intros a b w H. simpl in H. repeat (destruct H as [H|H]; [injection H as <- <- <-; lra|]). destruct H.
    + intros v Hv. destruct v as [|[|[|v]]]; [exists 0, 1, 1%R|exists 0, 1, 1%R|exists 1, 2, 2%R|lia]; simpl; auto.
  - apply (complete_step _ (fun _ _ => 0) (singles [0; 1; 2]) [(0, [0])] 2 1 [2] [1] [(0, 1)] 0); [discriminate| |exact I|].
    + change (Permutation (rev [(2, [2]); (1, [1]); (0, [0])]) [(2, [2]); (1, [1]); (0, [0])]). symmetry. apply Permutation_rev.
    + apply (complete_step _ (fun _ _ => 0) _ [] 0 1 [0] [2; 1] [] 0); [discriminate|simpl; constructor|exact I|constructor].
  - unfold partition, Rsum. cbn [configs map app fold_right bond_energy nth Bool.eqb]. rewrite !Rplus_0_r. lra.
Qed.
