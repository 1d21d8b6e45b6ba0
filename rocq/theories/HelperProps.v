(** C71: the dict, comparison and inversion helpers of funcs.py. *)
From Coq Require Import List Arith Bool Lia ZArith QArith Qabs String.
From Verif Require Import Base FuncsModel HelperModel HelperSpec HelperProofs.
Import ListNotations.
Local Open Scope list_scope.
Local Open Scope nat_scope.

(** Both dict builders give every key the same, whole value. *)
Theorem C71_dicts : forall {K V} `{Dec K} (ks : list K) (x : V),
  const_dict dec ks x (mapToDict ks x) /\ const_dict dec ks x (identicalTensorDict x ks).
Proof. intros; split; [apply mapToDict_const|apply identicalTensorDict_const]. Qed.
Print Assumptions C71_dicts.
Example C71_dicts_example :
  mapToDict ["a"; "b"; "a"]%string [1; 2] = [("a", [1; 2]); ("b", [1; 2])]%string.
Proof. reflexivity. Qed.

(** The docstring of [mapToDict] reads as pairing the keys with the elements of [x]; it does not,
    even for as many values as keys, all different. Values are lists so that an element and the
    whole of [x] can be compared: [embed] is any way to read an element as a value. *)
Theorem C71_pairing_refuted : exists (ks : list nat) (x : list nat),
  NoDup ks /\ NoDup x /\ List.length ks = List.length x /\
  forall embed : nat -> list nat, (forall i j, embed i = embed j -> i = j) ->
    ~ (forall i k v, nth_error ks i = Some k -> nth_error x i = Some v -> In (k, embed v) (mapToDict ks x)).
Proof.
  exists [0; 1], [5; 6]. repeat split; try (repeat constructor; cbn; intuition discriminate).
  intros embed J A.
  pose proof (A 0 0 5 eq_refl eq_refl) as A0. pose proof (A 1 1 6 eq_refl eq_refl) as A1.
  destruct (mapToDict_const [0; 1] [5; 6]) as (_ & _ & V).
  apply V in A0 as [_ A0]. apply V in A1 as [_ A1].
  assert (5 = 6) by (apply J; congruence). discriminate.
Qed.
Print Assumptions C71_pairing_refuted.

(** [tupleSwap] swaps exactly the pairs, and raises ValueError for everything else. *)
Theorem C71_swap : forall {X} (tp : list X),
  (forall r, tupleSwap tp = Ok r <-> exists a b, tp = [a; b] /\ r = [b; a]) /\
  (forall e, tupleSwap tp = Err e <-> e = ValueError /\ List.length tp <> 2).
Proof. intros; split; intros; [apply tupleSwap_ok|apply tupleSwap_err]. Qed.
Print Assumptions C71_swap.
Example C71_swap_example : tupleSwap [1; 2] = Ok [2; 1] /\ tupleSwap [1; 2; 3] = Err ValueError.
Proof. split; reflexivity. Qed.

(** What the comparisons decide. *)
Theorem C71_compare : forall a b eps : Q,
  (floatEqual a b eps = true <-> closer eps a b) /\
  floatEqual a b eps = floatEqual b a eps /\
  (floatRelativeEqual a b eps = true <-> closer (eps * ((a + b) / 2)) a b) /\
  (getInRangeFunc a b eps = true <-> (a < eps /\ eps < b)%Q).
Proof.
  intros; split; [apply floatEqual_iff|]. split; [apply floatEqual_sym|].
  split; [apply floatRelativeEqual_iff|apply inRange_iff].
Qed.
Print Assumptions C71_compare.
Example C71_compare_example :
  floatEqual 1 (11 # 10) (1 # 5) = true /\ floatEqual 1 2 (1 # 5) = false /\
  floatRelativeEqual 100 101 (1 # 50) = true /\ getInRangeFunc 0 1 (1 # 2) = true /\
  getInRangeFunc 0 1 1 = false.
Proof. repeat split. Qed.

(** Two arrays are equal when their shapes are and every two elements are close. The hypothesis
    says that the number of elements of an array depends on its shape only. *)
Theorem C71_arrays : forall sa a sb b eps,
  (sa = sb -> List.length a = List.length b) ->
  (floatArrayEqual sa a sb b eps = true <->
   sa = sb /\ forall i x y, nth_error a i = Some x -> nth_error b i = Some y -> closer eps x y).
Proof. exact @floatArrayEqual_iff. Qed.
Print Assumptions C71_arrays.
Example C71_arrays_example :
  floatArrayEqual [2] [1; 2]%Q [2] [1; 2]%Q (1 # 10) = true /\
  floatArrayEqual [2] [1; 2]%Q [2] [1; 3]%Q (1 # 10) = false /\
  floatArrayEqual [2; 1] [1; 2]%Q [2] [1; 2]%Q (1 # 10) = false.
Proof. repeat split. Qed.

(** [floatRelativeEqual] of a number with itself is true only for positive numbers (with a positive
    tolerance), and it is false for all numbers whose sum is not positive. *)
Theorem C71_relative_negative : forall a b eps : Q,
  (floatRelativeEqual a a eps = true <-> (0 < eps * a)%Q) /\
  ((0 <= eps)%Q -> (a + b <= 0)%Q -> floatRelativeEqual a b eps = false).
Proof. intros; split; [apply floatRelativeEqual_self|apply floatRelativeEqual_neg]. Qed.
Print Assumptions C71_relative_negative.
Theorem C71_relative_refuted : exists a eps : Q, (0 < eps)%Q /\ ~ (a == 0)%Q /\ floatRelativeEqual a a eps = false.
Proof. exists (-1)%Q, (1 # 10)%Q. repeat split; discriminate. Qed.
Print Assumptions C71_relative_refuted.

(** [partialInverse] inverts the first [c] elements and leaves zeros; it fails exactly when one of
    them is zero (ZeroDivisionError) or, with none, there are fewer than [c] (IndexError). *)
Theorem C71_inverse : forall s c,
  (c <= List.length s /\ (forall i x, i < c -> nth_error s i = Some x -> ~ (x == 0)%Q) /\
     exists r, partialInverse s c = Ok r /\ inverse_of_first c s r) \/
  (partialInverse s c = Err ZeroDivisionError /\
     exists i x, i < c /\ nth_error s i = Some x /\ (x == 0)%Q) \/
  (partialInverse s c = Err IndexError /\ List.length s < c /\
     (forall i x, i < c -> nth_error s i = Some x -> ~ (x == 0)%Q)).
Proof. exact @partialInverse_total. Qed.
Print Assumptions C71_inverse.

(** With the position [getCutoff] finds for a positive threshold it never fails. *)
Theorem C71_cutoff : forall t s, (0 < t)%Q ->
  first_below t s (getCutoff (fun x => Qltb x t) s) /\
  exists r, partialInverse s (getCutoff (fun x => Qltb x t) s) = Ok r /\
    inverse_of_first (getCutoff (fun x => Qltb x t) s) s r.
Proof. intros; split; [apply getCutoff_first|apply partialInverse_cutoff; assumption]. Qed.
Print Assumptions C71_cutoff.
Example C71_inverse_example :
  partialInverse [2; 4; 0]%Q 2 = Ok [1 # 2; 1 # 4; 0]%Q /\
  partialInverse [2; 4; 0]%Q 3 = Err ZeroDivisionError /\ partialInverse [2]%Q 2 = Err IndexError /\
  getCutoff (fun x => Qltb x (1 # 100)) [2; 4; 0]%Q = 2.
Proof. repeat split. Qed.
