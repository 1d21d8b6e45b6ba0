(** Model of src/CTL/models/Ising.py lines 11-139: the tensors of the square lattice Ising model.

    Floating point numbers are real numbers here. *)
From Coq Require Import List Arith Bool String ZArith Reals.
From Verif Require Import Base Sums NdModel HeapModel FuncsModel TensorModel SearchModel NetsModel RealSR.
Import ListNotations.
Local Open Scope nat_scope.
Local Open Scope string_scope.

(** data[idx] = x *)
Definition aset (a : arr R) (idx : list nat) (x : R) : arr R :=
  let k := ravel (ashape a) idx in mkArr (ashape a) (firstn k (adata a) ++ x :: skipn (S k) (adata a)).
(** funcs.py 210-226 [intToBitTuple] *)
Definition intToBitTuple (x dim : nat) : list nat := map Z.to_nat (intToBitList (Z.of_nat x) dim).
(** the loops of Ising.py 39-46 ([w] is always 1), 80-86 and 121-126: subtract w[i % 2] where the i-th spin and the next one are equal, add it elsewhere *)
Definition localEnergy (w : nat -> R) (idx : list nat) : R :=
  fold_left (fun e i => if Nat.eqb (nth i idx 0) (nth ((i + 1) mod 4) idx 0) then (e - w (i mod 2))%R else (e + w (i mod 2))%R) (seq 0 4) 0%R.
(** Ising.py 11-50 [squareTensorMeasure]; [idx] has four entries *)
Definition squareTensorMeasure (idx : list nat) (obs : option string) : res R :=
  match obs with
  | None => Ok 1%R
  | Some o =>
      letr _ := assertInSet o ["M"; "E"] in
      if dec o "M" then Ok (fold_left (fun m x => if Nat.eqb x 0 then (m - / 2)%R else (m + / 2)%R) idx 0%R)
      else if dec o "E" then Ok (localEnergy (fun _ => 1%R) idx)
      else Ok 1%R
  end.
(** np.zeros((2, 2, 2, 2)) *)
Definition zeros4 : arr R := mkArr [2; 2; 2; 2] (repeat 0%R 16).
(** Ising.py 52-98 [squareIsingTensor].  The answer is the tensor and its degreeOfFreedom *)
Definition squareIsingTensor (beta : R) (obs : option string) (symmetryBroken : R) : @M R (tid * option nat) :=
  bind (liftR (rfold (fun data s =>
    let idx := intToBitTuple s 4 in
    letr m := squareTensorMeasure idx obs in
    let data := aset data idx (m * exp (- beta * localEnergy (fun _ => 1) idx))%R in
    letr m := squareTensorMeasure idx (Some "M") in
    Ok (aset data idx (aget data idx * exp (symmetryBroken * m))%R)) (seq 0 16) zeros4)) (fun data =>
  bind (mkDense None (Some (map NStr ["u"; "l"; "d"; "r"])) (Some data) None None false) (fun t => ret (t, Some 2))).
(** Ising.py 100-139 [plaquetteIsingTensor]; the weight is a number or a sequence of numbers.
    Simplification: something without a length (an int) raises a TypeError in the code and is not an argument here *)
Definition plaquetteIsingTensor (weight : R + list R) (diamondForm : bool) : @M R (tid * option nat) :=
  bind (match weight with inl w => ret [w; w] | inr ws => bind (assert (Nat.eqb (List.length ws) 2)) (fun _ => ret ws) end) (fun ws =>
  let data := fold_left (fun data s => let idx := intToBitTuple s 4 in aset data idx (exp (- localEnergy (fun i => nth i ws 0%R) idx))) (seq 0 16) zeros4 in
  let labs := if diamondForm then ["r"; "d"; "l"; "u"] else ["ru"; "rd"; "ld"; "lu"] in
  bind (mkDense None (Some (map NStr labs)) (Some data) None None false) (fun t => ret (t, Some 2))).
