(** Vocabulary of the graph properties: histories of calls on a graph, the edges they add, lattice
    coordinates and neighbours. *)
From Coq Require Import List Arith Bool Lia.
From Verif Require Import Base GraphModel.
Import ListNotations.
Local Open Scope nat_scope.

Section Spec.
Context {W : Type}.

(** calls on a graph object; a call that raises leaves the graph as it is *)
Inductive op := OEdge (i j : nat) (w : W) | OFree (i : nat) (w : W) | OQuery | OIndex.
Definition call (g : graph W) (o : op) : graph W :=
  match o with
  | OEdge i j w => match addEdge g i j w with Ok g' => g' | Err _ => g end
  | OFree i w => match addFreeEdge g i w with Ok g' => g' | Err _ => g end
  | OQuery => fst (getEdges g)
  | OIndex => addEdgeIndex g
  end.
Definition run (n : nat) (ops : list op) : graph W := fold_left call ops (newGraph n).

(** the edges a history adds, in order: first end, other end (None for a free edge), weight *)
Definition adds (n : nat) (o : op) : list (nat * option nat * W) :=
  match o with
  | OEdge i j w => if (i <? n) && (j <? n) then [(i, Some j, w)] else []
  | OFree i w => if i <? n then [(i, None, w)] else []
  | _ => []
  end.
Definition added (n : nat) (ops : list op) : list (nat * option nat * W) := flat_map (adds n) ops.
Definition two_ended (n : nat) (o : op) : Prop := exists i j w, o = OEdge i j w /\ i < n /\ j < n.
Definition queries (o : op) : Prop := o = OQuery \/ o = OIndex.
(** every free edge added after a query is followed by an ordinary edge *)
Definition refreshed (n : nat) (ops : list op) : Prop :=
  forall pre i w post, ops = pre ++ OFree i w :: post -> i < n ->
  (exists o, In o pre /\ queries o) -> exists o, In o post /\ two_ended n o.

(** the edges at a vertex, by number, in order of addition; a self-loop is there twice *)
Fixpoint incident (i k : nat) (l : list (nat * option nat * W)) : list nat :=
  match l with
  | [] => []
  | (a, b, _) :: l' => (if Nat.eqb a i then [k] else []) ++
                       (match b with Some b => if Nat.eqb b i then [k] else [] | None => [] end) ++ incident i (S k) l'
  end.

(** edge number [k] joins [a] and [b] with weight [w] *)
Definition joins (g : graph W) (k a b : nat) (w : W) : Prop :=
  exists e, nth_error (g_store g) k = Some e /\ e_w e = w /\
    ((e_a e = a /\ e_b e = Some b) \/ (e_a e = b /\ e_b e = Some a)).
(** exactly one edge joins [a] and [b], with weight [w] *)
Definition joined_once (g : graph W) (a b : nat) (w : W) : Prop :=
  exists k, joins g k a b w /\ forall k' w', joins g k' a b w' -> k' = k.
End Spec.
Arguments op : clear implicits.

(** site [(x, y)] of an n by m lattice *)
Definition site (m x y : nat) : nat := x * m + y.
(** next coordinate on a ring of [k] places *)
Definition ring_next (k x y : nat) : Prop := (x + 1 < k /\ y = x + 1) \/ (x + 1 = k /\ y = 0).
(** the sites of [doubleSquareLatticeFBC]: on horizontal bonds (d = 0) and on vertical bonds (d = 1) of the
    n by m arrangement of squares *)
Definition hsite (m x y : nat) : nat := x * m + y.
Definition vsite (n m x y : nat) : nat := (n + 1) * m + x * (m + 1) + y.
(** the weights and sizes a lattice call stands for *)
Definition weights_are {W : Type} (w : W + W * W) (w1 w2 : W) : Prop := w = inr (w1, w2) \/ (w = inl w1 /\ w2 = w1).
Definition width_is (mo : option nat) (n m : nat) : Prop := mo = Some m \/ (mo = None /\ m = n).
