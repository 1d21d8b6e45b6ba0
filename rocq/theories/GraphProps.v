(** C39 and C40: edge lists and lattices. *)
From Coq Require Import List Arith Bool Lia ZArith Permutation.
From Verif Require Import Base SearchModel GraphModel GraphSpec GraphProofs LatticeProofs.
Import ListNotations.
Local Open Scope nat_scope.

(** ** C39: getEdges *)
(** complete and duplicate-free, provided no free edge was added after a query without an ordinary edge after it *)
Theorem C39_complete : forall W n ops, refreshed (W := W) n ops ->
  let g := run n ops in
  Permutation (snd (getEdges g)) (seq 0 (List.length (added n ops))) /\
  map (fun e => (e_a e, e_b e, e_w e)) (g_store g) = added n ops.
Proof. exact @getEdges_complete. Qed.
Print Assumptions C39_complete.
Theorem C39_never_twice : forall W n ops, NoDup (snd (getEdges (run (W := W) n ops))).
Proof. exact @getEdges_NoDup. Qed.
Print Assumptions C39_never_twice.
(** until the next ordinary edge the answer to a query is repeated, so a free edge added in between is missing *)
Theorem C39_stale : forall W n pre post, (forall o, In o post -> ~ two_ended (W := W) n o) ->
  snd (getEdges (run n (pre ++ OQuery :: post))) = snd (getEdges (run n pre)).
Proof. exact @getEdges_stale. Qed.
Print Assumptions C39_stale.
Theorem C39_free_edge_missing : forall W n pre i w post, (forall o, In o post -> ~ two_ended (W := W) n o) -> i < n ->
  let ops := pre ++ OQuery :: OFree i w :: post in
  nth_error (added n ops) (List.length (added n pre)) = Some (i, None, w) /\
  ~ In (List.length (added n pre)) (snd (getEdges (run n ops))).
Proof. exact @getEdges_misses. Qed.
Print Assumptions C39_free_edge_missing.
(** the edge lists of the vertices *)
Theorem C39_vertex_lists : forall W n ops i, g_v (run n ops) i = incident i 0 (added (W := W) n ops).
Proof. exact @vertex_edges. Qed.
Print Assumptions C39_vertex_lists.
(** indices: the positions at the first addEdgeIndex call; edges added later never get one *)
Theorem C39_indices : forall W n pre post, ~ In OIndex pre ->
  let g := run (W := W) n (pre ++ OIndex :: post) in
  (forall k e, nth_error (snd (getEdges (run n pre))) k = Some e -> g_index g e = Some k) /\
  (forall e, ~ In e (snd (getEdges (run n pre))) -> g_index g e = None).
Proof. exact @index_history. Qed.
Print Assumptions C39_indices.
Definition history : list (op nat) := [OEdge 2 0 7; OFree 1 5; OEdge 0 9 1; OQuery; OEdge 1 1 3].
Example C39_example : refreshed 3 history /\ added 3 history = [(2, Some 0, 7); (1, None, 5); (1, Some 1, 3)] /\
  snd (getEdges (run 3 history)) = [0; 1; 2] /\ g_v (run 3 history) 1 = [1; 2; 2] /\
  snd (getEdges (run 3 (history ++ [OQuery; OFree 2 4]))) = [0; 1; 2] /\
  snd (getEdges (run 3 (history ++ [OQuery; OFree 2 4; OEdge 0 1 4]))) = [0; 4; 1; 2; 3].
Proof.
  split; [|vm_compute; auto]. intros pre i w post E Hi (o & H & Q).
  destruct pre as [|a [|a1 [|a2 [|a3 [|a4 [|a5 pre]]]]]]; try discriminate E; try destruct pre; try discriminate E.
  injection E as <- <- <- <-. destruct H as [<-|[]]. destruct Q; discriminate.
Qed.

(** ** C40: lattices *)
Theorem C40_periodic : forall W n mo m w (wV wH : W), weights_are w wV wH -> width_is mo n m ->
  exists g, squareLatticePBC n mo w = Ok g /\ g_n g = n * m /\ List.length (g_store g) = 2 * (n * m) /\
    (forall k a b w, joins g k a b w -> exists x y x' y', x < n /\ y < m /\ x' < n /\ y' < m /\
       ((a = site m x y /\ b = site m x' y') \/ (a = site m x' y' /\ b = site m x y)) /\
       ((x' = x /\ ring_next m y y' /\ w = wH) \/ (ring_next n x x' /\ y' = y /\ w = wV))) /\
    (forall x y y', x < n -> y < m -> ring_next m y y' -> exists k, joins g k (site m x y) (site m x y') wH) /\
    (forall x x' y, x < n -> y < m -> ring_next n x x' -> exists k, joins g k (site m x y) (site m x' y) wV) /\
    (forall i, i < n * m -> degree g i = 4) /\
    (3 <= n -> 3 <= m -> (forall x y y', x < n -> y < m -> ring_next m y y' -> joined_once g (site m x y) (site m x y') wH) /\
                         (forall x x' y, x < n -> y < m -> ring_next n x x' -> joined_once g (site m x y) (site m x' y) wV)).
Proof. exact @pbc_ok. Qed.
Print Assumptions C40_periodic.
(** width 2 joins neighbours twice, width 1 joins a site to itself *)
Theorem C40_narrow_periodic_refuted :
  (exists g, squareLatticePBC 3 (Some 2) (inl 1) = Ok g /\ joins g 0 (site 2 0 0) (site 2 0 1) 1 /\ joins g 2 (site 2 0 0) (site 2 0 1) 1) /\
  (exists g, squareLatticePBC 3 (Some 1) (inl 1) = Ok g /\ joins g 0 (site 1 0 0) (site 1 0 0) 1).
Proof.
  split; eexists; (split; [vm_compute; reflexivity|]); [split|]; eexists; (split; [reflexivity|]); (split; [reflexivity|]); vm_compute; auto.
Qed.
Print Assumptions C40_narrow_periodic_refuted.
Theorem C40_open : forall W n mo m w (wV wH : W), weights_are w wV wH -> width_is mo n m ->
  exists g, squareLatticeFBC n mo w = Ok g /\ g_n g = n * m /\
    (1 <= n -> 1 <= m -> List.length (g_store g) = n * (m - 1) + m * (n - 1)) /\
    (forall k a b w, joins g k a b w -> exists x y x' y', x' < n /\ y' < m /\
       ((a = site m x y /\ b = site m x' y') \/ (a = site m x' y' /\ b = site m x y)) /\
       ((x' = x /\ y' = y + 1 /\ w = wH) \/ (x' = x + 1 /\ y' = y /\ w = wV))) /\
    (forall x y, x < n -> y + 1 < m -> joined_once g (site m x y) (site m x (y + 1)) wH) /\
    (forall x y, x + 1 < n -> y < m -> joined_once g (site m x y) (site m (x + 1) y) wV).
Proof. exact @fbc_ok. Qed.
Print Assumptions C40_open.
Theorem C40_double : forall W n mo m w (wT wB : W), weights_are w wT wB -> width_is mo n m ->
  exists g, doubleSquareLatticeFBC n mo w = Ok g /\ g_n g = n * (m + 1) + m * (n + 1) /\
    List.length (g_store g) = 4 * (n * m) /\
    (forall k a b w, joins g k a b w -> exists x y i j, x < n /\ y < m /\ i <= 1 /\ j <= 1 /\
       ((a = vsite n m x (y + j) /\ b = hsite m (x + i) y) \/ (b = vsite n m x (y + j) /\ a = hsite m (x + i) y)) /\
       w = if Nat.eqb i j then wB else wT) /\
    (forall x y i j, x < n -> y < m -> i <= 1 -> j <= 1 ->
       joined_once g (vsite n m x (y + j)) (hsite m (x + i) y) (if Nat.eqb i j then wB else wT)).
Proof. exact @dbl_ok. Qed.
Print Assumptions C40_double.
Theorem C40_complete_graph : forall W n (w : W), exists g, completeGraph n w = Ok g /\ g_n g = n /\
  2 * List.length (g_store g) = n * (n - 1) /\
  (forall k a b w', joins g k a b w' -> a <> b /\ a < n /\ b < n /\ w' = w) /\
  (forall a b, a < n -> b < n -> a <> b -> joined_once g a b w).
Proof. exact @cpl_ok. Qed.
Print Assumptions C40_complete_graph.
Example C40_example : weights_are (inr (1, 2)) 1 2 /\ width_is None 3 3 /\
  (exists g, squareLatticePBC 3 None (inr (1, 2)) = Ok g /\ map (fun e => (e_a e, e_b e, e_w e)) (firstn 6 (g_store g)) =
     [(0, Some 1, 2); (0, Some 3, 1); (1, Some 2, 2); (1, Some 4, 1); (2, Some 0, 2); (2, Some 5, 1)]).
Proof. split; [left; reflexivity|]. split; [right; auto|]. eexists. split; vm_compute; reflexivity. Qed.
