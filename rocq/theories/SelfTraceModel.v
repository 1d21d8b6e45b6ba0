(** Model of selfTrace of contractExp.py. *)
From Coq Require Import List Arith Bool.
From Verif Require Import Base Sums NdModel HeapModel TensorModel ContractModel.
Import ListNotations.
Local Open Scope nat_scope.

Section St.
Context {A : Type} {HA : SR A}.
Notation M := (@M A).
(** contractExp.py 324-329 [selfTrace]; copyN is two calls of copy (tensor.py 686-695), a @ b is contractTwoTensors(a, b) (tensor.py 429-430, diagonalTensor.py 466-467) *)
Definition selfTrace (t : tid) : M tid :=
  bind (copy t) (fun a => bind (copy t) (fun b =>
  bind (reads (fun h => combine (t_legs (tens h a)) (t_legs (tens h b)))) (fun ps =>
  bind (iterM (fun p => bind (makeLink [RLeg (fst p)] [RLeg (snd p)] None None) (fun _ => ret tt)) ps) (fun _ =>
  contractTwoTensors a b)))).
End St.
