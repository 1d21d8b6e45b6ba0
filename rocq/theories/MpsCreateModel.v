(** Model of examples/MPS.py 487-544: createMPSFromTensor. *)
From Coq Require Import List Arith Bool String ZArith.
From Verif Require Import Base Sums NdModel HeapModel FuncsModel TensorModel ContractModel SvdModel MpsModel.
Import ListNotations.

Section Create.
Context {A : Type} {HA : SR A}.
Notation heap := (heap A).
Notation M := (@M A).
Variable lib : linalg A.

(** MPS.py 515-538: the rounds of the loop with i > 0 and the statements after the loop.  [a] is the matrix that is left,
    [lastDim] and [lastRight] are lastDim and lastRightLeg, [ls] the legs not yet used (never empty). *)
Fixpoint splitLegs (chi : option nat) (a : arr A) (lastDim : nat) (lastRight : lid) (ls : list lid) : M (list tid) :=
  match ls with
  | [] => raise IndexError
  | [l] =>
      left <- newLeg None lastDim (NStr "l") ;;
      d <- reads (fun h => legdim h l) ;;
      t <- mkDense (Some [lastDim; d]) None (Some a) None (Some [left; l]) false ;;
      makeLink [RLeg left] [RLeg lastRight] None None ;;;
      ret [t]
  | l :: ls' =>
      d <- reads (fun h => legdim h l) ;;
      '(u, v) <- liftR (matrixSchimdt lib a d chi) ;;
      let k := last (ashape u) 0 in
      left <- newLeg None lastDim (NStr "l") ;;
      right <- newLeg None k (NStr "r") ;;
      t <- mkDense (Some [lastDim; d; k]) None (Some u) None (Some [left; l; right]) false ;;
      makeLink [RLeg left] [RLeg lastRight] None None ;;;
      ts <- splitLegs chi v k right ls' ;;
      ret (t :: ts)
  end.

(** MPS.py 487-544 [createMPSFromTensor]; chi = None is no bound and a negative chi is outside the model.  The flag is the one
    of [newMps]; the warning for a tensor with one leg is dropped. *)
Definition createMPSFromTensor (t : tid) (chi : option nat) : M (mps * bool) :=
  ls <- reads (fun h => tlegs h t) ;;
  match ls with
  | [] => raise AssertionError
  | [_] => newMps [t] (option_map Z.of_nat chi)
  | l :: ls' =>
      a0 <- toTensor t None ;;
      a <- liftR (np_reshape a0 [prodn (ashape a0)]) ;;
      d <- reads (fun h => legdim h l) ;;
      '(u, v) <- liftR (matrixSchimdt lib a d chi) ;;
      let k := nth 1 (ashape u) 0 in
      right <- newLeg None k (NStr "r") ;;
      t0 <- mkDense (Some [d; k]) None (Some u) None (Some [l; right]) false ;;
      ts <- splitLegs chi v k right ls' ;;
      newMps (t0 :: ts) (option_map Z.of_nat chi)
  end.
End Create.
