(** Property C66: selfTrace. *)
From Coq Require Import List Arith Bool String ZArith Lia.
From Verif Require Import Base Sums NdModel HeapModel TensorModel TensorSpec ContractModel NetSpec SelfTraceModel SelfTraceProofs ContractProps.
Import ListNotations.
Local Open Scope nat_scope.

(** ** C66 selfTrace returns the sum of the squares of the stored numbers *)
Theorem C66_value : forall A (HA : SR A) (h : heap A) t a, wf_tensor h t -> t_like (tens h t) = false -> t_arr (tens h t) = Some a -> ~ (t_diag (tens h t) = true /\ legs_of h t = []) ->
  exists h' r, selfTrace t h = (h', Ok r) /\ (forall u, u < ntens h -> tens h' u = tens h u) /\ (forall l, l < nleg h -> legs h' l = legs h l) /\ single h' r = Ok (sumL (adata a) (fun x => rmul x x)).
Proof. exact @selfTrace_ok. Qed.
Print Assumptions C66_value.
(** a diagonal tensor without legs cannot be copied *)
Theorem C66_scalar_diagonal_raises : forall A (HA : SR A) (h : heap A) t, wf_tensor h t -> t_like (tens h t) = false -> t_diag (tens h t) = true -> legs_of h t = [] -> selfTrace t h = (h, Err IndexError).
Proof. exact @selfTrace_scalar. Qed.
Print Assumptions C66_scalar_diagonal_raises.
Example C66_example : wf_tensor exn 0 /\ t_diag (tens exn 0) = false /\ wf_tensor exn 3 /\ t_diag (tens exn 3) = true /\ legs_of exn 3 <> [] /\
  (let '(h', r) := selfTrace 0 exn in match r with Ok t => single h' t = Ok 506%Z | Err _ => False end) /\
  (let '(h', r) := selfTrace 3 exn in match r with Ok t => single h' t = Ok 5%Z | Err _ => False end).
Proof.
  split; [apply exn_wf; lia|]. split; [reflexivity|]. split; [apply exn_wf; lia|]. split; [reflexivity|]. split; [discriminate|]. split; vm_compute; reflexivity.
Qed.
Example C66_scalar_example : wf_tensor exn 5 /\ t_like (tens exn 5) = false /\ t_diag (tens exn 5) = true /\ legs_of exn 5 = [].
Proof. split; [apply exn_wf; lia|]. repeat split. Qed.
