(** Vocabulary for many steps on the triangular pattern. *)
From Coq Require Import List Arith Bool.
From Verif Require Import Base Sums NdModel HeapModel TensorSpec ContractModel SvdModel SvdSpec FtnModel TrgModel TrgSpec TriTrgModel TriTrgSpec TriLatSpec.
Import ListNotations.
Local Open Scope nat_scope.

Section Sp.
Context {A B : Type} {HA : SR A}.
Notation heap := (heap A).
Notation world := (world A).
Notation tri := (tri A).
Local Open Scope sr_scope.
Variable num : numerics A B.
Variable symdiff : list nat -> list nat -> list nat.
Variable fuel : nat.

(** [n] calls of iterate() that return; the matrix of every step satisfies [ok].  [D] is the dimension of the legs at the end *)
Inductive tri_run (ok : arr A -> nat -> nat -> Prop) (w0 : world) (g0 : tri) (D0 : nat) : nat -> world -> tri -> nat -> Prop :=
| tr_start : tri_run ok w0 g0 D0 0 w0 g0 D0
| tr_step n w g D w' g' : tri_run ok w0 g0 D0 n w g D -> iterateTri symdiff fuel num g w = (w', Ok g') -> ok (tri_mat (w_heap w) g D) (D * D)%nat (p_chi g) ->
    tri_run ok w0 g0 D0 (S n) w' g' (Nat.min (p_chi g) (D * D)).
(** the decomposition has the right shape *)
Definition shaped (m : arr A) (n chi : nat) : Prop := svd_shape (nu_lib num) m n n.
(** the norms of both tensors, step by step *)
Definition pair_norms (g : tri) : list A := map (fun p => fst p * snd p) (combine (p_aNorms g) (p_bNorms g)).

(** the archive of [g] holds copies of the two tensors of step [i] *)
Definition holds (w : world) (g : tri) (i : nat) (wi : world) (gi : tri) (Di : nat) : Prop :=
  exists ca cb, nth_error (p_aArchive g) i = Some (ca, 3 ^ i)%nat /\ nth_error (p_bArchive g) i = Some (cb, 3 ^ i)%nat /\
    triangle (w_heap w) ca Di /\ triangle (w_heap w) cb Di /\
    (forall x y z, entry3 (w_heap w) ca x y z = entry3 (w_heap wi) (p_a gi) x y z) /\ (forall x y z, entry3 (w_heap w) cb x y z = entry3 (w_heap wi) (p_b gi) x y z).

(** the logarithms of the first [n] norms, divided by powers of [base], and of a last number *)
Fixpoint log_sum (base : nat) (ns : list A) (n : nat) : B :=
  match n with 0%nat => nu_zero num | S j => nu_plus num (log_sum base ns j) (nu_share num (nu_log num (nth j ns 0)) (base ^ j)) end.
Definition log_density (base : nat) (ns : list A) (n : nat) (z : A) : B := nu_plus num (log_sum base ns (S n)) (nu_share num (nu_log num z) (base ^ n)).
(** logarithms of the numbers in [pos] and their division by integers follow the usual rules *)
Record log3_ok (pos : A -> Prop) : Prop := {
  l3_mul : forall x y, pos x -> pos y -> pos (x * y) /\ nu_log num (x * y) = nu_plus num (nu_log num x) (nu_log num y);
  l3_one : forall x, nu_plus num (nu_zero num) x = x;
  l3_share : forall x y n, nu_share num (nu_plus num x y) n = nu_plus num (nu_share num x n) (nu_share num y n);
  l3_third : forall x n, nu_share num (nu_plus num x (nu_plus num x x)) (3 * n) = nu_share num x n }.
End Sp.
