(** Model of src/CTL/funcs/graph.py (whole file), src/CTL/funcs/graphFuncs.py (whole file) and of the graph
    part of src/CTL/tensor/contract/tensorGraph.py (lines 10-73).

    An edge object is its position in the store of all edges ever created; vertices are their indices.
    Simplifications: vertex indices and lattice sizes are naturals (Python also gets negative ints, which
    [assertIndex] rejects and [addFreeEdge] would count from the end); names of vertices and edges are
    dropped; printing and the networkx export (tensorGraph.py 75-97) are not modelled. *)
From Coq Require Import List Arith Bool Lia ZArith.
From Verif Require Import Base FuncsModel SearchModel.
Import ListNotations.
Local Open Scope nat_scope.

Section Graph.
Context {W : Type}.

(** graph.py 8-29 [GraphEdge]: [vertices] = (a, b) and [weight]; b is None for a free edge (tensorGraph.py
    61) *)
Record edge := mkEdge { e_a : nat; e_b : option nat; e_w : W }.

(** graph.py 31-50 [GraphEdge.anotherSide] *)
Definition edgeAnotherSide (e : edge) (a : nat) : res (option nat) :=
  if Nat.eqb a (e_a e) then Ok (e_b e)
  else match e_b e with
       | Some b => if Nat.eqb a b then Ok (Some (e_a e)) else Err ValueError
       | None => Err ValueError
       end.

(** graph.py 55-79 [GraphVertex.__init__], 116-135 [Graph.__init__], 201-204 [UndirectedGraph.__init__],
    tensorGraph.py 42-48 [TensorGraph.__init__].  [g_v] are the edge lists of the vertices, [g_cache] and
    [g_updated] the fields edges and updated, [g_index] the attribute index of the edges (set by
    addEdgeIndex only). *)
Record graph := mkGraph {
  g_n : nat; g_store : list edge; g_v : nat -> list nat;
  g_cache : option (list nat); g_updated : bool; g_indexed : bool; g_index : nat -> option nat }.
Definition newGraph (n : nat) : graph := mkGraph n [] (fun _ => []) None false false (fun _ => None).

(** graph.py 84-102 [GraphVertex.addEdge]: a new edge, appended to the list of vertex [i] *)
Definition vertexAddEdge (g : graph) (i : nat) (b : option nat) (w : W) : graph * nat :=
  let e := List.length (g_store g) in
  (mkGraph (g_n g) (g_store g ++ [mkEdge i b w]) (upd (g_v g) i (g_v g i ++ [e]))
           (g_cache g) (g_updated g) (g_indexed g) (g_index g), e).

(** graph.py 138-152 [assertIndex], 206-229 [UndirectedGraph.addEdge] *)
Definition addEdge (g : graph) (i j : nat) (w : W) : res graph :=
  if i <? g_n g then
    if j <? g_n g then
      let '(g, e) := vertexAddEdge g i (Some j) w in
      Ok (mkGraph (g_n g) (g_store g) (upd (g_v g) j (g_v g j ++ [e])) (g_cache g) true (g_indexed g) (g_index g))
    else Err AssertionError
  else Err AssertionError.

(** tensorGraph.py 50-61 [addFreeEdge] *)
Definition addFreeEdge (g : graph) (i : nat) (w : W) : res graph :=
  if i <? g_n g then Ok (fst (vertexAddEdge g i None w)) else Err IndexError.

(** graph.py 235-257 [getEdges] *)
Definition collectEdges (g : graph) : list nat :=
  fold_left (fun res i => fold_left (fun res e => if inb e res then res else res ++ [e]) (g_v g i) res)
    (seq 0 (g_n g)) [].
Definition getEdges (g : graph) : graph * list nat :=
  match g_cache g, g_updated g with
  | Some es, false => (g, es)
  | _, _ => let es := collectEdges g in
            (mkGraph (g_n g) (g_store g) (g_v g) (Some es) false (g_indexed g) (g_index g), es)
  end.

(** tensorGraph.py 63-73 [addEdgeIndex] *)
Definition addEdgeIndex (g : graph) : graph :=
  if g_indexed g then g else
  let '(g, es) := getEdges g in
  mkGraph (g_n g) (g_store g) (g_v g) (g_cache g) (g_updated g) true
    (fold_left (fun f '(k, e) => upd f e (Some k)) (combine (seq 0 (List.length es)) es) (g_index g)).

(** graph.py 104-114 [degree] *)
Definition degree (g : graph) (i : nat) : nat := List.length (g_v g i).

(** tensorGraph.py 149-152: the index and weight lists the search starts from; an edge without the attribute
    index raises AttributeError *)
Definition edgeIndexOf (g : graph) (e : nat) : res nat :=
  match g_index g e with Some k => Ok k | None => Err AttributeError end.
Definition edgeWeightOf (g : graph) (e : nat) : res W :=
  match nth_error (g_store g) e with Some x => Ok (e_w x) | None => Err AttributeError end.
Definition vertexLists (g : graph) (i : nat) : res (list nat * list W) :=
  letr es := rmapM (edgeIndexOf g) (g_v g i) in
  letr ws := rmapM (edgeWeightOf g) (g_v g i) in
  Ok (es, ws).

(** ** Lattices, src/CTL/funcs/graphFuncs.py *)

(** graphFuncs.py 25-31 and its copies: a single weight is used for both directions, [m] defaults to [n] *)
Definition twoWeights (w : W + W * W) : W * W := match w with inl x => (x, x) | inr p => p end.
Definition orDefault (m : option nat) (n : nat) : nat := match m with Some m => m | None => n end.

(** graphFuncs.py 35-38, 79-81, 126-136: the three [getIndex] *)
Definition getIndexPBC (n m x y : nat) : res nat :=
  letr x := safeMod (Z.of_nat x) (Z.of_nat n) in
  letr y := safeMod (Z.of_nat y) (Z.of_nat m) in
  Ok (Z.to_nat (x * Z.of_nat m + y)).
Definition getIndexFBC (n m x y : nat) : res nat :=
  if (x <? n) && (y <? m) then Ok (x * m + y) else Err AssertionError.
Definition getIndexDouble (n m d x y : nat) : res nat :=
  if negb (negb (Nat.eqb d 0) || ((x <=? n) && (y <? m))) then Err AssertionError else
  if negb (negb (Nat.eqb d 1) || ((x <? n) && (y <=? m))) then Err AssertionError else
  if Nat.eqb d 0 then Ok (x * m + y) else Ok ((n + 1) * m + x * (m + 1) + y).

(** [g.addEdge(idx1 = .., idx2 = .., weight = ..)] with computed indices *)
Definition addEdgeAt (g : graph) (i j : res nat) (w : W) : res graph :=
  letr i := i in letr j := j in addEdge g i j w.

(** graphFuncs.py 4-46 [squareLatticePBC] *)
Definition squareLatticePBC (n : nat) (m : option nat) (w : W + W * W) : res graph :=
  let '(wV, wH) := twoWeights w in
  let m := orDefault m n in
  rfold (fun g x => rfold (fun g y =>
      letr g := addEdgeAt g (getIndexPBC n m x y) (getIndexPBC n m x (y + 1)) wH in
      addEdgeAt g (getIndexPBC n m x y) (getIndexPBC n m (x + 1) y) wV)
    (seq 0 m) g) (seq 0 n) (newGraph (n * m)).

(** graphFuncs.py 48-91 [squareLatticeFBC] *)
Definition squareLatticeFBC (n : nat) (m : option nat) (w : W + W * W) : res graph :=
  let '(wV, wH) := twoWeights w in
  let m := orDefault m n in
  rfold (fun g x => rfold (fun g y =>
      letr g := (if (Z.of_nat y <? Z.of_nat m - 1)%Z
                 then addEdgeAt g (getIndexFBC n m x y) (getIndexFBC n m x (y + 1)) wH else Ok g) in
      if (Z.of_nat x <? Z.of_nat n - 1)%Z
      then addEdgeAt g (getIndexFBC n m x y) (getIndexFBC n m (x + 1) y) wV else Ok g)
    (seq 0 m) g) (seq 0 n) (newGraph (n * m)).

(** graphFuncs.py 93-151 [doubleSquareLatticeFBC] *)
Definition doubleSquareLatticeFBC (n : nat) (m : option nat) (w : W + W * W) : res graph :=
  let '(wTTB, wBTT) := twoWeights w in
  let m := orDefault m n in
  rfold (fun g x => rfold (fun g y =>
      letr g := addEdgeAt g (getIndexDouble n m 1 x y) (getIndexDouble n m 0 x y) wBTT in
      letr g := addEdgeAt g (getIndexDouble n m 1 x y) (getIndexDouble n m 0 (x + 1) y) wTTB in
      letr g := addEdgeAt g (getIndexDouble n m 1 x (y + 1)) (getIndexDouble n m 0 x y) wTTB in
      addEdgeAt g (getIndexDouble n m 1 x (y + 1)) (getIndexDouble n m 0 (x + 1) y) wBTT)
    (seq 0 m) g) (seq 0 n) (newGraph (n * (m + 1) + m * (n + 1))).

(** graphFuncs.py 153-176 [completeGraph] *)
Definition completeGraph (n : nat) (w : W) : res graph :=
  rfold (fun g x => rfold (fun g y => addEdge g x y w) (seq (x + 1) (n - (x + 1))) g) (seq 0 n) (newGraph n).
End Graph.
Arguments edge : clear implicits.
Arguments graph : clear implicits.
