(** Model of funcs/linalg.py and examples/HOTRG.py.  What the code takes from numpy is a record of functions, as in TrgModel. *)
From Coq Require Import List Arith Bool String.
From Verif Require Import Base Sums NdModel HeapModel FuncsModel TensorModel SvdModel CanonModel ContractModel FtnModel NetsModel TrgModel.
Import ListNotations.
Local Open Scope nat_scope.
Local Open Scope string_scope.
Local Open Scope list_scope.

(** eigh (the values ascending, the vectors as columns), the test > threshold, subtraction and comparison of floating point numbers *)
Record eigen (A : Type) := mkEigen {
  ei_eigh : arr A -> list A * arr A;
  ei_big : A -> bool;
  ei_minus : A -> A -> A;
  ei_less : A -> A -> bool;
  ei_neg : A -> bool }.
Arguments mkEigen {A}. Arguments ei_eigh {A}. Arguments ei_big {A}. Arguments ei_minus {A}. Arguments ei_less {A}. Arguments ei_neg {A}.

Section Hotrg.
Context {A B : Type} {HA : SR A}.
Notation heap := (heap A).
Notation M := (@M A).
Notation WM := (@WM A).
Variable symdiff : list nat -> list nat -> list nat.
Variable fuel : nat.
Variable num : numerics A B.
Variable eig : eigen A.
Local Notation "x <- m ;; k" := (wbind m (fun x => k)) (at level 100, m at next level, right associativity).
Local Notation "m ;;; k" := (wbind m (fun _ => k)) (at level 100, right associativity).

(** l[-n:] : -0 is 0, so n = 0 means all *)
Definition lastN {X} (n : nat) (l : list X) : list X := if Nat.eqb n 0 then l else skipn (List.length l - n) l.
(** np.flip(v[:, -k:], axis = 1) of a matrix *)
Definition lastColsFlipped (v : arr A) (k : nat) : arr A :=
  let m := nth 1 (ashape v) 0 in
  let k' := if Nat.eqb k 0 then m else Nat.min k m in
  tab [nth 0 (ashape v) 0; k'] (fun idx => aget v [nth 0 idx 0; m - 1 - nth 1 idx 0]).
(** linalg.py 4-29 [solveEnv].  Simplifications: chi is not negative; an array that is not a square matrix raises ValueError (LinAlgError in the code) *)
Definition solveEnv (a : arr A) (chi : nat) : res (arr A * A) :=
  match ashape a with
  | [n; m] =>
      if Nat.eqb n m then
        let '(vals, vecs) := ei_eigh eig a in
        let eigenExist := List.length (filter (ei_big eig) vals) in
        let error := if Nat.ltb eigenExist chi then r0
                     else ei_minus eig r1 (nu_div num (sumL (lastN chi vals) (fun x => x)) (sumL vals (fun x => x))) in
        Ok (lastColsFlipped vecs (Nat.min chi eigenExist), error)
      else Err ValueError
  | _ => Err ValueError
  end.

(** the attributes of a HOTRG object.  [o_dof] is degreeOfFreedom of self.a, an archived tensor is stored with its own; impurityParts is always 2.
    Simplification: the state of the object after an exception is not kept *)
Record hotrg := mkHotrg {
  o_a : tid; o_dof : nat; o_chiH : nat; o_chiV : nat;
  o_hi : nat; o_vi : nat; o_hl : nat; o_hr : nat; o_vu : nat; o_vd : nat;
  o_norms : list A; o_errors : list A; o_archive : list (tid * nat); o_choices : list string; o_projs : list (arr A) }.

(** HOTRG.py 49-56 [appendToArchive], [normalizeTensors] *)
Definition appendToArchiveH (g : hotrg) : WM hotrg :=
  n <- lift (divideByNorm num (o_a g)) ;;
  c <- lift (copy (o_a g)) ;;
  wret (mkHotrg (o_a g) (o_dof g) (o_chiH g) (o_chiV g) (o_hi g) (o_vi g) (o_hl g) (o_hr g) (o_vu g) (o_vd g)
    (o_norms g ++ [n]) (o_errors g) (o_archive g ++ [(c, o_dof g)]) (o_choices g) (o_projs g)).
(** HOTRG.py 17-47 [__init__]; the first argument is an optional tensor or array *)
Definition newHotrg (a : option (trgArg A)) (chiH : nat) (chiV : option nat) : WM hotrg :=
  match a with
  | None => wraise AssertionError
  | Some a =>
    hi <- HOTRGHorizontalContractFTN ;;
    vi <- HOTRGVerticalContractFTN ;;
    hl <- squareHorizontalContractFTN "l" ;;
    hr <- squareHorizontalContractFTN "r" ;;
    vu <- squareVerticalContractFTN "u" ;;
    vd <- squareVerticalContractFTN "d" ;;
    p <- lift (ownTensor a) ;;
    appendToArchiveH (mkHotrg (fst p) (snd p) chiH (match chiV with Some c => c | None => chiH end) hi vi hl hr vu vd [] [] [] [] [])
  end.
(** HOTRG.py 58-86 [directedIterateTrial] *)
Definition directedIterateTrial (g : hotrg) (d : string) : WM (A * arr A) :=
  wliftR (assertInSet d ["u"; "d"; "l"; "r"]) ;;;
  let f := if dec d "l" then o_hl g else if dec d "r" then o_hr g else if dec d "u" then o_vu g else o_vd g in
  let chi := if dec d "l" then o_chiH g else if dec d "r" then o_chiH g else o_chiV g in
  t <- contract symdiff fuel f (makeSquareTensorDict (o_a g) None) true ;;
  opd <- wliftR (oppositeDirection d) ;;
  m <- lift (readsR (fun h => toMatrix h t (Some [RStr d]) (Some [RStr opd]))) ;;
  p <- wliftR (solveEnv m chi) ;;
  wret (snd p, fst p).
(** shapeOfLabel of a tensor (tensor.py 756-774).  Simplification: without the label the answer -1 becomes a ValueError here,
    at the latest it does when the tensor is made or contracted *)
Definition dimOfLabel (t : tid) (lab : string) : M nat :=
  readsR (fun h => match shapeOfLabel h t (NStr lab) false with Some d => Ok d | None => Err ValueError end).
(** HOTRG.py 88-112 [directedIterate]; the tensors are given (91-96 replace None by self.a) *)
Definition directedIterate (g : hotrg) (d : string) (prj : arr A) (t1 t2 : tid) : WM tid :=
  wliftR (assertInSet d ["u"; "d"; "l"; "r"]) ;;;
  chiH <- lift (dimOfLabel t1 "l") ;;
  chiV <- lift (dimOfLabel t1 "u") ;;
  let k := nth 1 (ashape prj) 0 in
  if inb d ["l"; "r"] then
    lt <- lift (mkDense (Some [chiH; chiH; k]) (Some (map NStr ["u"; "d"; "o"])) (Some prj) None None false) ;;
    tc <- wliftR (transposeConjugate (nu_conj num) prj) ;;
    rt <- lift (mkDense (Some [k; chiH; chiH]) (Some (map NStr ["o"; "u"; "d"])) (Some tc) None None false) ;;
    let (lt, rt) := if dec d "r" then (rt, lt) else (lt, rt) in
    contract symdiff fuel (o_hi g) [("u", t1); ("d", t2); ("l", lt); ("r", rt)] true
  else
    ut <- lift (mkDense (Some [chiV; chiV; k]) (Some (map NStr ["l"; "r"; "o"])) (Some prj) None None false) ;;
    tc <- wliftR (transposeConjugate (nu_conj num) prj) ;;
    dt <- lift (mkDense (Some [k; chiV; chiV]) (Some (map NStr ["o"; "l"; "r"])) (Some tc) None None false) ;;
    let (ut, dt) := if dec d "d" then (dt, ut) else (ut, dt) in
    contract symdiff fuel (o_vi g) [("u", ut); ("d", dt); ("l", t1); ("r", t2)] true.
(** HOTRG.py 119-131: the loop over the directions.  The best so far is None for minimumError = -1.0 *)
Definition better (best : option (A * string * arr A)) (e : A) : bool :=
  match best with None => true | Some (m, _, _) => ei_neg eig m || ei_less eig e m end.
Fixpoint tryDirections (g : hotrg) (ds : list string) (best : option (A * string * arr A)) : WM (option (A * string * arr A)) :=
  match ds with
  | [] => wret best
  | d :: ds' =>
      p <- directedIterateTrial g d ;;
      tryDirections g ds' (if better best (fst p) then Some (fst p, d, snd p) else best)
  end.
(** HOTRG.py 114-139 [iterate] *)
Definition iterateH (g : hotrg) : WM hotrg :=
  best <- tryDirections g ["u"; "d"; "l"; "r"] None ;;
  match best with
  | None => wraise AssertionError
  | Some (e, d, prj) =>
      a <- directedIterate g d prj (o_a g) (o_a g) ;;
      g <- appendToArchiveH (mkHotrg a (o_dof g * 2) (o_chiH g) (o_chiV g) (o_hi g) (o_vi g) (o_hl g) (o_hr g) (o_vu g) (o_vd g)
             (o_norms g) (o_errors g) (o_archive g) (o_choices g) (o_projs g)) ;;
      wret (mkHotrg (o_a g) (o_dof g) (o_chiH g) (o_chiV g) (o_hi g) (o_vi g) (o_hl g) (o_hr g) (o_vu g) (o_vd g)
             (o_norms g) (o_errors g ++ [e]) (o_archive g) (o_choices g ++ [d]) (o_projs g ++ [prj]))
  end.
(** HOTRG.py 141-143 [getNorm], 145-150 [impurityIterate], 164-168 [tensorTrace], [pureTensorTrace].  Simplification: the indices are not negative *)
Definition getNorm (g : hotrg) (idx : nat) : res A := match nth_error (o_norms g) idx with Some n => Ok n | None => Err AssertionError end.
Definition impurityIterate (g : hotrg) (ts : list tid) (idx : nat) : WM tid :=
  match ts with
  | [t1; t2] => match nth_error (o_choices g) idx, nth_error (o_projs g) idx with
                | Some d, Some p => directedIterate g d p t1 t2
                | None, _ => wraise AssertionError
                | _, None => wraise IndexError
                end
  | _ => wraise AssertionError
  end.
Definition tensorTrace (h : heap) (t : tid) : res A := trace h t (Some [RStr "u"; RStr "l"]) (Some [RStr "d"; RStr "r"]).
Definition pureTensorTrace (h : heap) (g : hotrg) (idx : nat) : res A :=
  match nth_error (o_archive g) idx with Some p => tensorTrace h (fst p) | None => Err IndexError end.
(** HOTRG.py 170-187 [logZDensity]: the same loop as in TRG.py *)
Definition logZDensityH (h : heap) (g : hotrg) : res (list B) := logZAux num h (nu_zero num) (o_norms g) (o_archive g).
End Hotrg.
Arguments hotrg : clear implicits.
