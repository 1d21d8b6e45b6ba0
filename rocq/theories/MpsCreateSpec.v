(** Vocabulary for the conversion of a tensor into a matrix product state. *)
From Coq Require Import List Arith Bool String ZArith Permutation.
From Verif Require Import Base Sums NdModel HeapModel TensorSpec NetSpec GroupSpec SvdModel SvdSpec MpsSpec.
Import ListNotations.

Section Sp.
Context {A : Type} {HA : SR A}.
Notation heap := (heap A).
Local Open Scope sr_scope.
Variable lib : linalg A.

(** the number of singular values of the r x c matrix [m] kept under the bound [chi] (None: no bound) *)
Definition rank (chi : option nat) (m : arr A) (r c : nat) : nat :=
  let n := Nat.min (above lib m) (Nat.min r c) in match chi with None => n | Some x => Nat.min x n end.
(** diag(s) vh cut to the first [k] values: what remains of [m] when u is split off *)
Definition remainder (m : arr A) (k c : nat) : list A :=
  flat_map (fun i => map (fun j => aget (svd_s lib m) [i] * aget (svd_v lib m) [i; j]) (seq 0 c)) (seq 0 k).

(** [P m r c k rest] holds of every matrix that is decomposed when the indices of sizes [dims] are split off one by one from the entries
    [data], given in row-major order for the sizes [d :: dims].  [k] is the number of values kept, [rest] the sizes left. *)
Fixpoint each_split (P : arr A -> nat -> nat -> nat -> list nat -> Prop) (chi : option nat) (d : nat) (dims : list nat) (data : list A) : Prop :=
  match dims with
  | x :: ((_ :: _) as rest) =>
      let r := (d * x)%nat in let c := prodn rest in let m := mkArr [r; c] data in let k := rank chi m r c in
      P m r c k rest /\ each_split P chi k rest (remainder m k c)
  | _ => True
  end.
(** a value is kept in every decomposition but the last one *)
Definition ranks_positive (chi : option nat) (d : nat) (dims : list nat) (data : list A) : Prop :=
  each_split (fun m r c k rest => (1 < List.length rest)%nat -> (0 < k)%nat) chi d dims data.
(** every decomposition is exact and only zeros are discarded *)
Definition splits_exact (chi : option nat) (d : nat) (dims : list nat) (data : list A) : Prop :=
  each_split (fun m r c k rest => svd_exact lib m r c /\ lossless lib m k) chi d dims data.

(** [chi] leaves room at every cut of the indices of sizes [dims] *)
Definition room_for (chi : option nat) (dims : list nat) : Prop :=
  match chi with None => True | Some n => forall pre post, dims = pre ++ post -> (Nat.min (prodn pre) (prodn post) <= n)%nat end.
(** the bound [chi] holds of the dimension [k] *)
Definition bounded (chi : option nat) (k : nat) : Prop := match chi with Some c => (k <= c)%nat | None => True end.
(** some entry of the tensor is not 0 *)
Definition nonzero (h : heap) (t : tid) : Prop := exists s, in_bounds h (legs_of h t) s /\ entry h t s <> 0.
(** no singular value of a matrix of zeros passes the threshold *)
Definition zero_small : Prop := forall m r c, wfa m -> ashape m = [r; c] -> (forall i, nth i (adata m) 0 = 0) -> above lib m = 0%nat.

(** [data] are the entries of the tensor in row-major order *)
Definition row_major (h : heap) (t : tid) (data : list A) : Prop :=
  List.length data = prodn (map (dim_of h) (legs_of h t)) /\
  forall s, in_bounds h (legs_of h t) s -> nth (ravel (map (dim_of h) (legs_of h t)) (map s (legs_of h t))) data 0 = entry h t s.
End Sp.
