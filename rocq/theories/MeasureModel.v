(** Model of the error measures, [ndEye] and [priorDataType] of src/CTL/funcs/funcs.py.
    Simplification: floats are real numbers; matrices are real, so that [conjugate] is the identity,
    and given by their two dimensions and a function of row and column. *)
From Coq Require Import List Arith Bool ZArith Reals.
From Verif Require Import Base.
Import ListNotations.
Local Open Scope list_scope.
Local Open Scope nat_scope.

Definition mat := nat -> nat -> R.

Fixpoint rsum (n : nat) (f : nat -> R) : R :=
  match n with
  | 0 => 0%R
  | S n' => (rsum n' f + f n')%R
  end.

(** [xp.linalg.norm] of an h x w matrix: the Frobenius norm (numpy's default) *)
Definition norm (h w : nat) (a : mat) : R :=
  sqrt (rsum h (fun i => rsum w (fun j => (a i j * a i j)%R))).

(** [xp.eye(h, w)] *)
Definition eye : mat := fun i j => if i =? j then 1%R else 0%R.

(** funcs.py 328-341 [identityError] *)
Definition identityError (h w : nat) (a : mat) : R := norm h w (fun i j => (a i j - eye i j)%R).

(** funcs.py 343-356 [diagError]; for square matrices ([diag(diagonal(a))] is square) *)
Definition diagError (n : nat) (a : mat) : R :=
  (norm n n (fun i j => (a i j - (if i =? j then a i i else 0))%R) / norm n n a)%R.

(** funcs.py 358-374 [checkIdentity] *)
Definition checkIdentity (h w : nat) (a : mat) (eps : R) : bool :=
  if Rlt_dec (identityError h w a) eps then true else false.

(** funcs.py 376-389 [symmetricError], for square matrices *)
Definition symmetricError (n : nat) (a : mat) : R :=
  (norm n n (fun i j => (a i j - a j i)%R) / norm n n a)%R.

(** funcs.py 391-404 [transposeConjugate] *)
Definition transposeConjugate (a : mat) : mat := fun i j => a j i.

(** [xp.matmul] with inner dimension k *)
Definition matmul (k : nat) (a b : mat) : mat := fun i j => rsum k (fun x => (a i x * b x j)%R).

(** funcs.py 406-419 [aDaggerAProduct], 421-434 [aADaggerProduct], for a of shape (h, w) *)
Definition aDaggerAProduct (h w : nat) (a : mat) : mat := matmul h (transposeConjugate a) a.
Definition aADaggerProduct (h w : nat) (a : mat) : mat := matmul w a (transposeConjugate a).

(** funcs.py 436-449 [projectorError] *)
Definition projectorError (h w : nat) (a : mat) : R := identityError w w (aDaggerAProduct h w a).

(** funcs.py 451-466 [getDiffError] (the warning it prints is not modelled) *)
Definition getDiffError (h w : nat) (a b : mat) : R :=
  (norm h w (fun i j => a i j * a i j) + norm h w (fun i j => b i j * b i j)
   - norm h w (fun i j => a i j * b i j) * 2)%R.

(** funcs.py 468-482 [matDiffError] *)
Definition matDiffError (h w : nat) (a b : mat) : R :=
  (norm h w (fun i j => (a i j - b i j)%R) / norm h w a)%R.

(** funcs.py 713-727 [normalizeInfinity] on the elements of the array: [max] of no elements raises
    ValueError; if all are zero every element is 0 / 0, which is nan ([None]). *)
Definition normalizeInfinity (a : list R) : res (list (option R)) :=
  match a with
  | [] => Err ValueError
  | x :: a' =>
      let m := fold_left (fun m y => Rmax m (Rabs y)) a' (Rabs x) in
      Ok (map (fun y => if Req_EM_T m 0 then None else Some (y / m)%R) a)
  end.

(** funcs.py 1127-1148 [ndEye]: zeros of shape (l,)*n; for n = 1 only [res[0] = 1.0] (IndexError if
    l = 0); otherwise 1 at [diag_indices(l, n)], the tuples of n equal indices. The array is a
    function of the index tuple, read only at tuples of n indices below l. *)
Definition all_same (ix : list nat) : bool :=
  match ix with
  | [] => true
  | i :: ix' => forallb (Nat.eqb i) ix'
  end.
Definition ndEye (n l : nat) : res (list nat -> Z) :=
  if n =? 1
  then if l =? 0 then Err IndexError
       else Ok (fun ix => if hd 0 ix =? 0 then 1%Z else 0%Z)
  else Ok (fun ix => if all_same ix then 1%Z else 0%Z).

(** numpy dtypes: kind and size of one item in bytes *)
Inductive dkind := KFloat | KComplex | KInt.
Record dtype := mk_dtype { kind : dkind; itemsize : nat }.
Definition isFloating (d : dtype) : bool := match kind d with KFloat => true | _ => false end.

(** funcs.py 1263-1313 [priorDataType]. float128 has itemsize 16, complex64/128/256 have 8/16/32. *)
Definition accuracy (d : dtype) : nat := if isFloating d then itemsize d else itemsize d / 2.
Definition priorDataType (d1 d2 : dtype) : res dtype :=
  let isFloat := isFloating d1 && isFloating d2 in
  let acc := Nat.max (accuracy d1) (accuracy d2) in
  if isFloat
  then if inb acc [2; 4; 8; 16] then Ok (mk_dtype KFloat acc) else Err ValueError
  else if inb acc [4; 8; 16] then Ok (mk_dtype KComplex (2 * acc)) else Err ValueError.
