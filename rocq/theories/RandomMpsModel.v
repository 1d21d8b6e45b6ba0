(** Model of examples/MPS.py 261-323: makeRandomMPS. *)
From Coq Require Import List Arith Bool String ZArith.
From Verif Require Import Base Sums NdModel HeapModel FuncsModel TensorModel ContractModel SvdModel TrgModel MpsModel.
Import ListNotations.
Local Open Scope nat_scope.
Local Open Scope string_scope.
Local Open Scope list_scope.

Section Rm.
Context {A B : Type} {HA : SR A}.
Notation M := (@M A).
Variable num : numerics A B.

(** MPS.py 287-290, 292-295: an int stands for a list of equal numbers, a list must have the right length *)
Definition expand (d : dshape) (n : nat) : M (list nat) :=
  match d with
  | DInt k => ret (repeat k n)
  | DList l => bind (assert (Nat.eqb (List.length l) n)) (fun _ => ret l)
  end.
(** MPS.py 300-312: labels and shapes of the tensors; the lists have the lengths n - 1 and n *)
Definition shapes (n : nat) (vd pd : list nat) : list (list (string * nat)) :=
  [("p", nth 0 pd 0); ("v", nth 0 vd 0)] ::
  map (fun i => [("p", nth (i + 1) pd 0); ("vl", nth i vd 0); ("vr", nth (i + 1) vd 0)]) (seq 0 (n - 2)) ++
  [[("p", last pd 0); ("v", last vd 0)]].
(** makeLink(a, b, ta, tb); the answer is not used *)
Definition link1 (a b : string) (ta tb : tid) : M unit := bind (makeLink [RStr a] [RStr b] (Some ta) (Some tb)) (fun _ => ret tt).
(** MPS.py 316-322 *)
Definition randomLinks (n : nat) (ts : list tid) : M unit :=
  if Nat.eqb n 2 then link1 "v" "v" (nth 0 ts 0) (last ts 0)
  else
    bind (link1 "v" "vl" (nth 0 ts 0) (nth 1 ts 0)) (fun _ =>
    bind (link1 "v" "vr" (last ts 0) (nth (n - 2) ts 0)) (fun _ =>
    iterM (fun i => link1 "vr" "vl" (nth i ts 0) (nth (i + 1) ts 0)) (seq 1 (n - 3)))).
(** MPS.py 261-323 [makeRandomMPS]; n, the dimensions and the random numbers (the stream of the heap) are arbitrary; the flag is that of newMps *)
Definition makeRandomMPS (n : nat) (virtualDim physicalDim : dshape) (chi : Z) : M (mps * bool) :=
  bind (assert (Nat.ltb 1 n)) (fun _ =>
  bind (expand virtualDim (n - 1)) (fun vd =>
  bind (expand physicalDim n) (fun pd =>
  let chi' := if Z.eqb chi (-1) then Z.of_nat (nth 0 vd 0) else chi in
  bind (mapM (fun m => mkDense (Some (map snd m)) (Some (map NStr (map fst m))) None None None false) (shapes n vd pd)) (fun ts =>
  bind (iterM (fun t => bind (divideByNorm num t) (fun _ => ret tt)) ts) (fun _ =>
  bind (randomLinks n ts) (fun _ =>
  newMps ts (Some chi'))))))).
End Rm.
