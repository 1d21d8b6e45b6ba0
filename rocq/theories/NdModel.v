(** Model of the numpy array operations the modelled code calls (through CTL.funcs.xplib).
    An array is its shape and its entries in row-major order.  Not modelled: dtypes, views and
    aliasing (the code never writes into an array it has handed out), numpy's limit of 32 axes. *)
From Coq Require Import List Arith Bool.
From Verif Require Import Base Sums.
Import ListNotations.

Record arr (A : Type) := mkArr { ashape : list nat; adata : list A }.
Arguments mkArr {A}. Arguments ashape {A}. Arguments adata {A}.

(** the entries fill the shape *)
Definition wfa {A} (a : arr A) : Prop := length (adata a) = prodn (ashape a).

(** all multi-indices of a shape in row-major order *)
Fixpoint indices (sh : list nat) : list (list nat) :=
  match sh with
  | [] => [[]]
  | s :: sh' => flat_map (fun i => map (cons i) (indices sh')) (seq 0 s)
  end.

(** row-major position of a multi-index *)
Fixpoint ravel (sh idx : list nat) : nat :=
  match sh, idx with
  | _ :: sh', i :: idx' => i * prodn sh' + ravel sh' idx'
  | _, _ => 0
  end.

Definition all_eqb (l : list nat) : bool :=
  match l with [] => true | x :: l' => forallb (Nat.eqb x) l' end.

Section Nd.
Context {A : Type} {HA : SR A}.
Local Open Scope sr_scope.

(** entry at a multi-index (only used for indices in range) *)
Definition aget (a : arr A) (idx : list nat) : A := nth (ravel (ashape a) idx) (adata a) 0.

(** the array of a given shape with entries [f idx] *)
Definition tab (sh : list nat) (f : list nat -> A) : arr A := mkArr sh (map f (indices sh)).

(** len(a.shape) *)
Definition ndim (a : arr A) : nat := length (ashape a).

(** np.transpose(a, order): axis k of the result is axis order[k] of a. *)
Definition np_transpose (a : arr A) (order : list nat) : arr A :=
  tab (map (fun ax => nth ax (ashape a) 0%nat) order)
      (fun idx => aget a (map (fun ax => match index_of ax order with
                                         | Some k => nth k idx 0%nat | None => 0%nat end)
                              (seq 0 (ndim a)))).

(** list.insert *)
Definition insert_at {X} (k : nat) (x : X) (l : list X) : list X := firstn k l ++ x :: skipn k l.

(** np.moveaxis(a, source, destination) as numpy implements it: the unmoved axes in order, then each
    source inserted at its destination in increasing order of destination, then transpose.
    Simplification: destinations are given in increasing order (all callers pass 0, 1, 2, ...).
    Repeated or out-of-range axes raise (numpy AxisError is a ValueError). *)
Definition np_moveaxis (a : arr A) (src dst : list nat) : res (arr A) :=
  if negb (forallb (fun s => Nat.ltb s (ndim a)) src) then Err ValueError
  else if existsb (fun s => Nat.ltb 1 (count s src)) src then Err ValueError
  else
    let rest := filter (fun n => negb (inb n src)) (seq 0 (ndim a)) in
    Ok (np_transpose a (fold_left (fun ord ds => insert_at (fst ds) (snd ds) ord) (combine dst src) rest)).

(** a.reshape(shape) for a shape without -1 *)
Definition np_reshape (a : arr A) (sh : list nat) : res (arr A) :=
  if Nat.eqb (prodn sh) (length (adata a)) then Ok (mkArr sh (adata a)) else Err ValueError.

(** a.reshape((-1,) + rest): the first size is deduced; impossible (ValueError) when the sizes of
    [rest] multiply to 0 or do not divide the number of entries. *)
Definition np_reshape_front (a : arr A) (rest : list nat) : res (arr A) :=
  let p := prodn rest in
  if Nat.eqb p 0 then Err ValueError
  else if Nat.eqb (length (adata a) mod p) 0
       then Ok (mkArr ((length (adata a) / p)%nat :: rest) (adata a)) else Err ValueError.

(** np.multiply.outer *)
Definition np_outer (a b : arr A) : arr A :=
  tab (ashape a ++ ashape b)
      (fun idx => aget a (firstn (ndim a) idx) * aget b (skipn (ndim a) idx)).

(** np.matmul of two matrices *)
Definition np_matmul (a b : arr A) : res (arr A) :=
  match ashape a, ashape b with
  | [n; k], [k'; m] =>
      if Nat.eqb k k'
      then Ok (tab [n; m] (fun idx => sumN k (fun j => aget a [nth 0 idx 0%nat; j] * aget b [j; nth 1 idx 0%nat])))
      else Err ValueError
  | _, _ => Err ValueError
  end.

(** np.sum(a) *)
Definition np_sum (a : arr A) : A := sumL (adata a) (fun x => x).

(** np.array(x) for a number x *)
Definition np_scalar (x : A) : arr A := mkArr [] [x].

(** np.ones(n) *)
Definition np_ones (n : nat) : arr A := mkArr [n] (repeat 1 n).

(** np.trace of a square matrix *)
Definition np_trace (a : arr A) : A := sumN (nth 0 (ashape a) 0%nat) (fun i => aget a [i; i]).

(** weights: None is the constant 1 *)
Definition wt (w : option (arr A)) (i : nat) : A := match w with None => 1 | Some v => aget v [i] end.

(** np.sum(a, axis = k), and the weighted variant through einsum (funcs.py 1346-1378) *)
Definition np_sum_axis (a : arr A) (k : nat) (f : nat -> A -> A) : arr A :=
  tab (firstn k (ashape a) ++ skipn (S k) (ashape a))
      (fun idx => sumN (nth k (ashape a) 0%nat)
                       (fun i => f i (aget a (firstn k idx ++ i :: skipn k idx)))).

(** np.einsum('...jj..j->...j', a) with k letters j (k >= 1): diagonal of the last k axes.
    Mismatching sizes raise ValueError. *)
Definition np_diag_last (k : nat) (a : arr A) : res (arr A) :=
  let n := (ndim a - k)%nat in
  let last := skipn n (ashape a) in
  if Nat.ltb (ndim a) k then Err ValueError
  else if negb (all_eqb last) then Err ValueError
  else Ok (tab (firstn n (ashape a) ++ [nth 0 last 0%nat])
               (fun idx => aget a (firstn n idx ++ repeat (nth n idx 0%nat) k))).

(** data * v with v one-dimensional: broadcast along the last axis.
    Simplification: numpy would also stretch an axis of size 1; here unequal sizes raise ValueError. *)
Definition np_mul_last (a v : arr A) : res (arr A) :=
  let n := (ndim a - 1)%nat in
  match ashape v with
  | [l] => if Nat.ltb 0 (ndim a) && Nat.eqb l (nth n (ashape a) 0%nat)
           then Ok (tab (ashape a) (fun idx => aget a idx * aget v [nth n idx 0%nat]))
           else Err ValueError
  | _ => Err ValueError
  end.

(** np.sum(a, axis = -1) *)
Definition np_sum_last (a : arr A) : arr A :=
  let n := (ndim a - 1)%nat in
  tab (firstn n (ashape a)) (fun idx => sumN (nth n (ashape a) 0%nat) (fun j => aget a (idx ++ [j]))).

(** z = np.zeros(a.shape + (a.shape[-1],) * (k - 1)); np.einsum('...jj..j->...j', z)[...] = a *)
Definition np_embed_last (k : nat) (a : arr A) : arr A :=
  let n := (ndim a - 1)%nat in
  tab (ashape a ++ repeat (nth n (ashape a) 0%nat) (k - 1))
      (fun idx => if all_eqb (skipn n idx) then aget a (firstn n idx ++ [nth n idx 0%nat]) else 0).

(** z = np.zeros(shape); np.einsum('jj..j...->j...', z)[...] = a with k letters j.
    With k = 0 the letter j of the output does not occur in the input: ValueError. *)
Definition np_embed_first (sh : list nat) (k : nat) (a : arr A) : res (arr A) :=
  if Nat.eqb k 0 then Err ValueError
  else if negb (all_eqb (firstn k sh)) then Err ValueError
  else Ok (tab sh (fun idx => if all_eqb (firstn k idx)
                              then aget a (nth 0 idx 0%nat :: skipn k idx) else 0)).

(** a * b for arrays of at most one axis, with numpy broadcasting *)
Definition np_mul_small (a b : arr A) : res (arr A) :=
  match ashape a, ashape b with
  | [], _ => Ok (mkArr (ashape b) (map (fun y => aget a [] * y) (adata b)))
  | _, [] => Ok (mkArr (ashape a) (map (fun x => x * aget b []) (adata a)))
  | [n], [m] =>
      if Nat.eqb n m then Ok (tab [n] (fun idx => aget a idx * aget b idx))
      else if Nat.eqb n 1 then Ok (tab [m] (fun idx => aget a [0%nat] * aget b idx))
      else if Nat.eqb m 1 then Ok (tab [n] (fun idx => aget a idx * aget b [0%nat]))
      else Err ValueError
  | _, _ => Err ValueError
  end.

(** data[np.diag_indices(d, l)] (funcs.py and diagonalTensor.py 239): advanced indexing of the first
    l axes by 0..d-1 simultaneously; l = 0 cannot occur.  Out-of-range indexing is an IndexError. *)
Definition np_diag_extract (a : arr A) (d l : nat) : res (arr A) :=
  if Nat.ltb (ndim a) l then Err IndexError
  else if negb (forallb (fun s => Nat.leb d s) (firstn l (ashape a))) then Err IndexError
  else Ok (tab (d :: skipn l (ashape a))
               (fun idx => aget a (repeat (nth 0 idx 0%nat) l ++ skipn 1 idx))).

(** funcs.py 1079-1101 [diagonalNDTensor]: zeros((l,)*dim) with the diagonal set to [a];
    for a 0-d array [a.shape[0]] is an IndexError; dim = 0 makes np.diag_indices(l, 0) return () and
    the assignment of a vector into a 0-d array fails unless it has length 1 (not modelled:
    ValueError). *)
Definition diagonalNDTensor (a : arr A) (dim : nat) : res (arr A) :=
  match ashape a with
  | [] => Err IndexError
  | l :: _ => if Nat.eqb dim 0 then Err ValueError
              else Ok (tab (repeat l dim)
                         (fun idx => if all_eqb idx then aget a [nth 0 idx 0%nat] else 0))
  end.
End Nd.
