(** Model of tensor/tensorFunc.py isIsometry and examples/MPS.py FreeBoundaryMPS.checkCanonical. *)
From Coq Require Import List Arith Bool String ZArith.
From Verif Require Import Base Sums NdModel HeapModel FuncsModel TensorModel SvdModel MpsModel.
Import ListNotations.

Section Canon.
Context {A : Type} {HA : SR A}.
Notation heap := (heap A).
(** np.conjugate of a number, and funcs.checkIdentity (funcs.py 328-341, 358-374): is the norm of m - eye(rows, columns) below eps;
    both are parameters, the latter because the model has no norm *)
Variable cj : A -> A.
Variable nearIdentity : arr A -> bool.

(** funcs.py 391-404 [transposeConjugate] of a matrix *)
Definition transposeConjugate (m : arr A) : res (arr A) :=
  match ashape m with
  | [r; c] => Ok (tab [c; r] (fun idx => cj (aget m [nth 1 idx 0%nat; nth 0 idx 0%nat])))
  | _ => Err ValueError
  end.

(** tensorFunc.py 10-39 [isIsometry]; the warning is not modelled *)
Definition isIsometry (h : heap) (t : tid) (labs : list string) : res bool :=
  if labelsInTensor h t labs then
    if t_like (tens h t) then Ok true else
    letr mat := toMatrix h t None (Some (map RStr labs)) in
    letr mc := transposeConjugate mat in
    letr iden := np_matmul mat mc in
    Ok (nearIdentity iden)
  else Err AssertionError.

(** MPS.py 183-188: the labels to sum over at position i *)
Definition sumLabels (n i e : Z) : list string :=
  if Z.eqb i 0 || Z.eqb i (n - 1) then ["o"%string]
  else if Z.ltb i e then ["l"; "o"]%string else ["r"; "o"]%string.
(** MPS.py 180-193: the loop, left at the first tensor that fails *)
Fixpoint checkSites (h : heap) (m : mps) (e : Z) (is : list Z) : res bool :=
  match is with
  | [] => Ok true
  | i :: is' =>
      if Z.eqb i e then checkSites h m e is' else
      letr b := isIsometry h (site m i) (sumLabels (mlen m) i e) in
      if b then checkSites h m e is' else Ok false
  end.
(** MPS.py 165-193 [checkCanonical]; lines 176-178 are not reached because the assertion before them fails for n = 0 *)
Definition checkCanonical (h : heap) (m : mps) (excepIdx : option Z) : res bool :=
  match excepIdx, m_active m with
  | None, None => Err AssertionError
  | Some e, _ | None, Some e => if isIndex m e then checkSites h m e (rangeUp 0 (mlen m)) else Err AssertionError
  end.
End Canon.
