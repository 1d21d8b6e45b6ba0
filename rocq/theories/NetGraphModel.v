(** Model of src/CTL/tensor/contract/optimalContract.py lines 94-132 and 139-266 (from a list of tensors to a
    graph, a sequence and a contraction) and of the frame of TensorGraph.optimalContractSequence,
    src/CTL/tensor/contract/tensorGraph.py 112-172 and 414-419.

    The order in which Python lists a set ([symdiff]) and the number of passes allowed to the capped search
    ([fuel], out of fuel standing for running on) are parameters, as in SearchModel. *)
From Coq Require Import List Arith Bool ZArith.
From Verif Require Import Base NdModel HeapModel FuncsModel TensorModel ContractModel SearchModel GraphModel.
Import ListNotations.
Local Open Scope nat_scope.

Section NetGraph.
Context {A : Type} {HA : SR A}.
Notation heap := (heap A).
Notation M := (@M A).

(** optimalContract.py 122-129: one leg of tensor number [i]; the state is the graph and bondSet *)
Definition graphLeg (h : heap) (ts : list tid) (i : nat) (st : graph nat * list bid) (l : lid) : res (graph nat * list bid) :=
  let (g, bondSet) := st in
  match legbond h l with
  | None => letr g := addFreeEdge g i (legdim h l) in Ok (g, bondSet)
  | Some b =>
    if inb b bondSet then Ok (g, bondSet) else
    letr l' := bondAnotherSide h b l in
    match l_tensor (legs h l') with
    | None => Err KeyError
    | Some t' =>
      match dictGet (combine ts (seq 0 (List.length ts))) t' with
      | None => Err KeyError
      | Some j => letr g := addEdge g i j (legdim h l) in Ok (g, b :: bondSet)
      end
    end
  end.
(** optimalContract.py 94-132 [makeTensorGraph]; vertex names are dropped, the diagonal flags are kept apart
    ([diagFlags]) *)
Definition diagFlags (h : heap) (ts : list tid) : list bool := map (fun t => t_diag (tens h t)) ts.
Definition makeTensorGraph (h : heap) (ts : list tid) : res (graph nat) :=
  let n := List.length ts in
  letr st := rfold (fun st '(i, t) => rfold (graphLeg h ts i) (tlegs h t) st) (combine (seq 0 n) ts) (newGraph n, []) in
  Ok (addEdgeIndex (fst st)).

Variable symdiff : list nat -> list nat -> list nat.
Variable fuel : nat.

(** tensorGraph.py 149-172: what the searches read off the graph *)
Definition searchVerts (g : graph nat) (flags : list bool) : res (list vres) :=
  let g := addEdgeIndex g in
  letr ls := rmapM (vertexLists g) (seq 0 (g_n g)) in
  Ok (combine ls flags).

(** tensorGraph.py 112-419 [optimalContractSequence]; with the sequence comes the cost the search computed for
    it (the attribute optimalCost[full] or greedyCost) *)
Definition optimalContractSequence (g : graph nat) (flags : list bool) (bf greedy : bool) (typ : option nat)
  : res (list (nat * nat) * nat) :=
  letr verts := searchVerts g flags in
  if greedy then greedySearch symdiff verts
  else if bf then bruteForce symdiff verts typ
  else capping symdiff verts typ fuel.

(** optimalContract.py 139-161 [generateOptimalSequence], 163-180 [generateGreedySequence] *)
Definition generateOptimalSequence (h : heap) (ts : list tid) (bf : bool) (typ : option nat) : res (list (nat * nat) * nat) :=
  letr g := makeTensorGraph h ts in optimalContractSequence g (diagFlags h ts) bf false typ.
Definition generateGreedySequence (h : heap) (ts : list tid) : res (list (nat * nat) * nat) :=
  letr g := makeTensorGraph h ts in optimalContractSequence g (diagFlags h ts) false true None.

(** optimalContract.py 182-237 [contractAndCostWithSequence]: sequence given or searched for *)
Definition contractAndCost (ts : list tid) (sq : option (list (nat * nat))) (bf : bool) (typ : option nat)
    (inplace greedy : bool) : M (tid * nat * list tid)%type :=
  s <- match sq with
       | Some s => ret s
       | None => p <- readsR (fun h => if greedy then generateGreedySequence h ts else generateOptimalSequence h ts bf typ) ;;
                 ret (fst p)
       end ;;
  contractWithSeq ts s inplace.
(** optimalContract.py 239-249 [contractWithSequence] *)
Definition contractWithSequence (ts : list tid) (sq : option (list (nat * nat))) (bf : bool) (typ : option nat)
    (inplace : bool) : M tid :=
  '(t0, _, _) <- contractAndCost ts sq bf typ inplace false ;; ret t0.
(** optimalContract.py 251-266 [contractTensorList] *)
Definition contractTensorList (ts : list tid) : M tid := contractWithSequence ts None false (Some 10) false.
End NetGraph.
