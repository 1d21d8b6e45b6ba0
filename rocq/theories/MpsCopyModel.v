(** Model of examples/MPS.py 255-259: FreeBoundaryMPS.copyOfTensors. *)
From Coq Require Import List Arith Bool String ZArith.
From Verif Require Import Base Sums NdModel HeapModel FuncsModel TensorModel ContractModel MpsModel.
Import ListNotations.

Section Mc.
Context {A : Type} {HA : SR A}.
Notation M := (@M A).

(** MPS.py 257-258: the loop over neighbours *)
Fixpoint linkChain (ts : list tid) : M unit :=
  match ts with
  | ta :: ((tb :: _) as ts') =>
      makeLink [RStr "r"] [RStr "l"] (Some ta) (Some tb) ;;;
      linkChain ts'
  | _ => ret tt
  end.

(** MPS.py 255-259 [copyOfTensors]; getTensor(i) (MPS.py 154-155) is self._tensors[i] for the indices used here *)
Definition copyOfTensors (m : mps) : M (list tid) :=
  cs <- mapM copy (m_ts m) ;;
  linkChain cs ;;;
  ret cs.
End Mc.
