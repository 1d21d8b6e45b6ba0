(** Model of src/CTL/models/Ising.py lines 163-310: the tensor network of an Ising model on a graph and its partition
    function by enumeration.

    Floating point numbers are real numbers here.  For negative couplings numpy's sqrt answers nan, Coq's answers 0; the
    properties assume non-negative couplings.  The graph's vertices are numbered by their position (graph.py 130-135), so
    [v.index] is the position. *)
From Coq Require Import List Arith Bool String ZArith Reals DecimalString.
From Verif Require Import Base Sums NdModel HeapModel FuncsModel TensorModel ContractModel SearchModel GraphModel RealSR.
Import ListNotations.
Local Open Scope nat_scope.

(** str(n) for a natural number *)
Definition strNat (n : nat) : string := NilEmpty.string_of_uint (Nat.to_uint n).

(** funcs.py [diagonalNDTensor] for a one-dimensional [a]: np.zeros((l,) * dim) with a written at the diagonal.  With
    dim = 0 the assignment res[()] = a does not fit: ValueError (l <> 1 in the only call). *)
Definition diagonalNDTensor {A} {HA : SR A} (a : arr A) (dim : nat) : res (arr A) :=
  let l := nth 0 (ashape a) 0 in
  if Nat.eqb dim 0 then Err ValueError
  else Ok (tab (repeat l dim) (fun idx => if all_eqb idx then aget a [nth 0 idx 0] else r0)).

(** np.tensordot(a, b, (0, 0)): sum over the first axis of both; the other axes of a, then those of b *)
Definition np_tensordot00 {A} {HA : SR A} (a b : arr A) : res (arr A) :=
  match ashape a, ashape b with
  | n :: sa, m :: sb =>
      if Nat.eqb n m
      then Ok (tab (sa ++ sb) (fun idx => sumN n (fun k =>
             rmul (aget a (k :: firstn (List.length sa) idx)) (aget b (k :: skipn (List.length sa) idx)))))
      else Err ValueError
  | _, _ => Err ValueError
  end.

(** Ising.py 163-179 *)
Definition IsingEdgeMatrix (betaJ : R) : arr R :=
  let diag := (sqrt (cosh betaJ * / 2) + sqrt (sinh betaJ * / 2))%R in
  let offDiag := (sqrt (cosh betaJ * / 2) - sqrt (sinh betaJ * / 2))%R in
  mkArr [2; 2] [diag; offDiag; offDiag; diag].

(** Ising.py 181-211; betaJ is a number or a list of numbers *)
Definition IsingSiteTensor (betaJ : R + list R) (dim : nat) (labels : option (list pname)) : @M R nat :=
  assert (match betaJ with inl _ => true | inr l => Nat.eqb (List.length l) dim end) ;;;
  assert (match labels with None => true | Some l => Nat.eqb (List.length l) dim end) ;;;
  a <- liftR (diagonalNDTensor (mkArr [2] [1%R; 1%R]) dim) ;;
  a <- liftR (rfold (fun a w => np_tensordot00 a (IsingEdgeMatrix w)) (match betaJ with inl w => repeat w dim | inr l => l end) a) ;;
  mkDense None labels (Some a) None None false.

(** an edge object of the graph *)
Definition edgeOf (g : graph R) (e : nat) : res (edge R) :=
  match nth_error (g_store g) e with Some x => Ok x | None => Err AttributeError end.
(** Ising.py 236-237 [getLegName]; [es] is the list of edges from which edgeIndex was made (232-234).  None.index is an
    AttributeError, a missing key a KeyError. *)
Definition getLegName (es : list nat) (e : nat) (toV : option nat) : res string :=
  match toV with
  | None => Err AttributeError
  | Some v => match index_of e es with
              | Some k => Ok (strNat v ++ "-" ++ strNat k)%string
              | None => Err KeyError
              end
  end.
(** Ising.py 238-239 [getLabels], 240-241 [getWeights] *)
Definition getLabels (g : graph R) (es : list nat) (v : nat) : res (list string) :=
  rmapM (fun e => letr x := edgeOf g e in letr u := edgeAnotherSide x v in getLegName es e u) (g_v g v).
Definition getWeights (g : graph R) (v : nat) : res (list R) := rmapM (edgeWeightOf g) (g_v g v).

(** one site: the list comprehension of Ising.py 243 *)
Definition siteTensor (g : graph R) (es : list nat) (v : nat) : @M R nat :=
  ws <- liftR (getWeights g v) ;;
  labs <- liftR (getLabels g es v) ;;
  IsingSiteTensor (inr ws) (degree g v) (Some (map NStr labs)).
(** one turn of the loop of Ising.py 245-248 *)
Definition linkEdge (g : graph R) (es ts : list nat) (e : nat) : @M R unit :=
  x <- liftR (edgeOf g e) ;;
  match e_b x with
  | None => raise AttributeError
  | Some v2 =>
      n1 <- liftR (getLegName es e (Some v2)) ;;
      n2 <- liftR (getLegName es e (Some (e_a x))) ;;
      t1 <- liftR (match nth_error ts (e_a x) with Some t => Ok t | None => Err IndexError end) ;;
      t2 <- liftR (match nth_error ts v2 with Some t => Ok t | None => Err IndexError end) ;;
      makeLink [RStr n1] [RStr n2] (Some t1) (Some t2) ;;; ret tt
  end.
(** Ising.py 213-250; also the graph object afterwards (getEdges fills its cache) *)
Definition IsingTNFromUndirectedGraph (g : graph R) : @M R (list nat * graph R) :=
  let '(g1, es) := getEdges g in
  ts <- mapM (siteTensor g1 es) (seq 0 (g_n g1)) ;;
  let '(g2, es2) := getEdges g1 in
  iterM (linkEdge g2 es ts) es2 ;;;
  ret (ts, g2).

(** Ising.py 252-282.  None as an end of an edge has no index: AttributeError. *)
Definition getIsingWeight (g : graph R) (S : Z) : res R :=
  let spin := intToBitList S (g_n g) in
  letr E := rfold (fun E e =>
    letr x := edgeOf g e in
    match e_b x with
    | None => Err AttributeError
    | Some v2 => match nth_error spin (e_a x), nth_error spin v2 with
                 | Some s1, Some s2 => Ok (if Z.eqb s1 s2 then (E - e_w x)%R else (E + e_w x)%R)
                 | _, _ => Err IndexError
                 end
    end) (snd (getEdges g)) 0%R in
  Ok (exp (- E)).
(** Ising.py 284-310.  getIsingWeight leaves the graph as it is except for the cache of getEdges, from which every later
    call answers the same list. *)
Definition exactZFromGraphIsing (g : graph R) : res R :=
  letr l := rmapM (getIsingWeight g) (map Z.of_nat (seq 0 (2 ^ g_n g))) in
  Ok (np_sum (mkArr [List.length l] l)).
