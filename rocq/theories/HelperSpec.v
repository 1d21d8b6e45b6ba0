(** Vocabulary for the helpers of funcs.py: written without the model. *)
From Coq Require Import List Arith QArith Qabs.
Import ListNotations.
Local Open Scope nat_scope.

(** [d] has exactly the keys [ks], each once, in the order of first occurrence, and every key has
    the value [v]. [nodup] of the standard library keeps last occurrences, hence the two [rev]s. *)
Definition const_dict {K V} (eqd : forall x y : K, {x = y} + {x <> y}) (ks : list K) (v : V) (d : list (K * V)) : Prop :=
  NoDup (map fst d) /\
  map fst d = rev (nodup eqd (rev ks)) /\
  (forall k w, In (k, w) d <-> In k ks /\ w = v).

(** two numbers closer than [eps] *)
Definition closer (eps a b : Q) : Prop := (Qabs (a - b) < eps)%Q.

(** [r] is the inverse of the first [c] elements of [s], and zero at the others *)
Definition inverse_of_first (c : nat) (s r : list Q) : Prop :=
  length r = length s /\
  forall i x y, nth_error s i = Some x -> nth_error r i = Some y ->
    (i < c -> (x * y == 1)%Q) /\ (c <= i -> (y == 0)%Q).

(** the first element below the threshold is at position [c], or there is none and [c] is the length *)
Definition first_below (t : Q) (s : list Q) (c : nat) : Prop :=
  c <= length s /\
  (forall i x, i < c -> nth_error s i = Some x -> (t <= x)%Q) /\
  (forall x, nth_error s c = Some x -> (x < t)%Q).
