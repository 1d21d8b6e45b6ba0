(** C72: the error measures, ndEye and priorDataType of funcs.py. *)
From Coq Require Import List Arith Bool Lia ZArith Reals Lra.
From Verif Require Import Base MeasureModel MeasureSpec MeasureProofs.
Import ListNotations.
Local Open Scope list_scope.
Local Open Scope nat_scope.

(** Each measure vanishes exactly on what it measures; the relative ones need a matrix that is not
    zero (the code divides by its norm). *)
Theorem C72_measures : forall h w (a b : nat -> nat -> R),
  (identityError h w a = 0%R <-> is_identity h w a) /\
  (projectorError h w a = 0%R <-> orthonormal_columns h w a) /\
  (~ is_zero h w a -> (matDiffError h w a b = 0%R <-> entries_equal h w a b)) /\
  (~ is_zero h h a -> (diagError h a = 0%R <-> is_diagonal h a)) /\
  (~ is_zero h h a -> (symmetricError h a = 0%R <-> is_symmetric h a)).
Proof.
  intros; split; [apply identityError_zero|]. split; [apply projectorError_zero|].
  split; [apply matDiffError_zero|]. split; [apply diagError_zero|apply symmetricError_zero].
Qed.
Print Assumptions C72_measures.
Example C72_measures_example :
  ~ is_zero 2 2 (fun i j => INR (i + j)) /\ is_symmetric 2 (fun i j => INR (i + j)) /\
  ~ is_diagonal 2 (fun i j => INR (i + j)) /\ orthonormal_columns 2 1 (fun i j => INR i).
Proof.
  repeat split.
  - intros Z. specialize (Z 1 0 ltac:(lia) ltac:(lia)). cbn in Z; lra.
  - intros i j _ _; rewrite Nat.add_comm; reflexivity.
  - intros D. specialize (D 1 0 ltac:(lia) ltac:(lia) ltac:(lia)). cbn in D; lra.
  - intros _; unfold column_product; cbn; lra.
  - intros; lia.
Qed.

(** Their exact values: the measures are not negative, and their squares are the squared distance to
    the matrix they compare with, divided by the squared norm for the relative ones. *)
Theorem C72_values : forall h w (a b : nat -> nat -> R),
  ((0 <= identityError h w a)%R /\
   (identityError h w a ^ 2)%R = distance_square h w a (fun i j => if i =? j then 1%R else 0%R)) /\
  (~ is_zero h w a -> (0 <= matDiffError h w a b)%R /\
   (matDiffError h w a b ^ 2 * distance_square h w a (fun _ _ => 0) = distance_square h w a b)%R) /\
  (~ is_zero h h a -> (0 <= diagError h a)%R /\
   (diagError h a ^ 2 * distance_square h h a (fun _ _ => 0))%R
     = distance_square h h a (fun i j => if i =? j then a i i else 0%R)) /\
  (~ is_zero h h a -> (0 <= symmetricError h a)%R /\
   (symmetricError h a ^ 2 * distance_square h h a (fun _ _ => 0))%R
     = distance_square h h a (fun i j => a j i)).
Proof. exact @measure_values. Qed.
Print Assumptions C72_values.
Theorem C72_projector_value : forall h w (a : nat -> nat -> R),
  (0 <= projectorError h w a)%R /\
  (projectorError h w a ^ 2)%R = distance_square w w (column_product h a) (fun i j => if i =? j then 1%R else 0%R).
Proof. exact @projector_value. Qed.
Print Assumptions C72_projector_value.
Theorem C72_check_value : forall h w (a : nat -> nat -> R) eps, (0 < eps)%R ->
  (checkIdentity h w a eps = true <->
   (distance_square h w a (fun i j => if i =? j then 1 else 0) < eps ^ 2)%R).
Proof. exact @check_value. Qed.
Print Assumptions C72_check_value.
Example C72_values_example :
  distance_square 2 2 (fun i j => INR (i + j)) (fun _ _ => 0%R) = 6%R /\
  distance_square 2 2 (fun i j => INR (i + j)) (fun i j => if i =? j then 1%R else 0%R) = 4%R.
Proof. split; unfold distance_square; cbn; ring. Qed.

(** The products of a matrix with its transpose, entry by entry. *)
Theorem C72_products : forall h w (a : nat -> nat -> R) i j,
  aDaggerAProduct h w a i j = column_product h a i j /\
  aADaggerProduct h w a i j = column_product w (fun x y => a y x) i j.
Proof. intros; split; [apply aDaggerA_entry|apply aADagger_entry]. Qed.
Print Assumptions C72_products.

(** [checkIdentity] accepts the identity, and what it accepts differs by less than eps everywhere. *)
Theorem C72_check : forall h w (a : nat -> nat -> R) eps,
  ((0 < eps)%R -> is_identity h w a -> checkIdentity h w a eps = true) /\
  (checkIdentity h w a eps = true -> forall i j, i < h -> j < w ->
     (i = j -> Rabs (a i j - 1) < eps)%R /\ (i <> j -> Rabs (a i j) < eps)%R).
Proof. intros; split; [apply checkIdentity_identity|apply checkIdentity_bound]. Qed.
Print Assumptions C72_check.
Example C72_check_example : checkIdentity 2 2 (fun i j => if i =? j then 1%R else 0%R) 1%R = true.
Proof.
  apply C72_check; [lra|]. intros i j _ _; split; intros E; [apply Nat.eqb_eq in E|apply Nat.eqb_neq in E]; rewrite E; reflexivity.
Qed.

(** [getDiffError] of two 1 x 1 matrices is the square of the difference of the absolute values. *)
Theorem C72_diff : forall a b : nat -> nat -> R,
  getDiffError 1 1 a b = ((Rabs (a 0%nat 0%nat) - Rabs (b 0%nat 0%nat)) ^ 2)%R.
Proof. exact @getDiffError_single. Qed.
Print Assumptions C72_diff.
(** So it is not the sum of the squared differences its docstring promises. *)
Theorem C72_diff_refuted : exists (h w : nat) (a b : nat -> nat -> R),
  getDiffError h w a b = 0%R /\ distance_square h w a b = 4%R.
Proof.
  exists 1, 1, (fun _ _ => 1%R), (fun _ _ => (-1)%R). split.
  - rewrite C72_diff. replace (-1)%R with (- (1))%R by ring. rewrite Rabs_Ropp; ring.
  - unfold distance_square; cbn; ring.
Qed.
Print Assumptions C72_diff_refuted.

(** [normalizeInfinity] scales so that the largest absolute value is 1; an array of zeros gives nan
    everywhere, an empty one raises. *)
Theorem C72_normalize : forall a : list R,
  ((exists x, In x a /\ x <> 0%R) -> exists b, normalizeInfinity a = Ok (map Some b) /\ normalized a b) /\
  (a <> [] -> (forall x, In x a -> x = 0%R) -> normalizeInfinity a = Ok (map (fun _ => None) a)) /\
  (a = [] -> normalizeInfinity a = Err ValueError).
Proof.
  intros; split; [apply normalize_ok|]. split; [apply normalize_zero|]. intros ->; reflexivity.
Qed.
Print Assumptions C72_normalize.
Example C72_normalize_example :
  (exists x, In x [1; -4; 2]%R /\ x <> 0%R) /\ normalized [1; -4; 2]%R [1 / 4; -1; 1 / 2]%R.
Proof.
  split; [exists 1%R; split; [left; reflexivity|lra]|]. split; [|split].
  - exists 4%R; split; [lra|]. cbn; repeat f_equal; lra.
  - intros y [<-|[<-|[<-|[]]]]; unfold Rabs; destruct (Rcase_abs _); lra.
  - exists (-1)%R; split; [right; left; reflexivity|]. unfold Rabs; destruct (Rcase_abs _); lra.
Qed.

(** [ndEye] is 1 on the diagonal and 0 elsewhere, for any number of dimensions but one. *)
Theorem C72_eye : forall n l, n <> 1 -> exists e, ndEye n l = Ok e /\
  forall ix, index_of n l ix -> (on_diagonal ix -> e ix = 1%Z) /\ (~ on_diagonal ix -> e ix = 0%Z).
Proof. exact @ndEye_ok. Qed.
Print Assumptions C72_eye.
(** With one dimension only the first element is 1, although all are on the diagonal. *)
Theorem C72_eye_one : forall l,
  (l = 0 -> ndEye 1 l = Err IndexError) /\
  (l <> 0 -> exists e, ndEye 1 l = Ok e /\ e [0] = 1%Z /\ forall i, 0 < i < l -> e [i] = 0%Z).
Proof. exact @ndEye_one. Qed.
Print Assumptions C72_eye_one.
Theorem C72_eye_refuted : exists l e ix,
  ndEye 1 l = Ok e /\ index_of 1 l ix /\ on_diagonal ix /\ e ix = 0%Z.
Proof.
  destruct (C72_eye_one 2) as [_ H]. destruct H as (e & E & _ & Z); [lia|].
  exists 2, e, [1]. split; [exact E|]. split; [split; [reflexivity|repeat constructor]|].
  split; [|apply Z; lia]. intros i j [<-|[]] [<-|[]]; reflexivity.
Qed.
Print Assumptions C72_eye_refuted.
Example C72_eye_example : exists e, ndEye 3 2 = Ok e /\ e [1; 1; 1] = 1%Z /\ e [1; 0; 1] = 0%Z.
Proof. eexists; repeat split. Qed.

(** For float and complex types [priorDataType] returns the type with the larger components that is
    complex if one of the two is; it does not depend on their order. *)
Theorem C72_dtype : forall d1 d2,
  priorDataType d1 d2 = priorDataType d2 d1 /\
  (In d1 std_types -> In d2 std_types ->
   exists d, priorDataType d1 d2 = Ok d /\ In d std_types /\
    (kind d = KComplex <-> kind d1 = KComplex \/ kind d2 = KComplex) /\
    component_bytes d = Nat.max (component_bytes d1) (component_bytes d2)).
Proof. intros; split; [apply prior_comm|apply prior_std]. Qed.
Print Assumptions C72_dtype.
(** An integer type counts as complex: int64 and float64 give complex128, int8 twice raises. *)
Theorem C72_dtype_int_refuted :
  (exists d1 d2 d, kind d1 <> KComplex /\ kind d2 <> KComplex /\ priorDataType d1 d2 = Ok d /\ kind d = KComplex) /\
  (exists d, kind d = KInt /\ priorDataType d d = Err ValueError).
Proof.
  split; [exists (mk_dtype KInt 8), (mk_dtype KFloat 8), (mk_dtype KComplex 16)|exists (mk_dtype KInt 1)];
    repeat split; discriminate.
Qed.
Print Assumptions C72_dtype_int_refuted.
Example C72_dtype_example : In (mk_dtype KFloat 8) std_types /\ In (mk_dtype KComplex 8) std_types /\
  priorDataType (mk_dtype KFloat 8) (mk_dtype KComplex 8) = Ok (mk_dtype KComplex 16).
Proof. cbn; tauto. Qed.
