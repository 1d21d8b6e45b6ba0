(** Model of examples/impurity.py, with a HOTRG object as the renormalization group. *)
From Coq Require Import List Arith Bool String ZArith.
From Verif Require Import Base Sums NdModel HeapModel FuncsModel TensorModel SvdModel CanonModel ContractModel FtnModel NetsModel TrgModel HotrgModel.
Import ListNotations.
Local Open Scope nat_scope.
Local Open Scope string_scope.
Local Open Scope list_scope.

Section Impurity.
Context {A B : Type} {HA : SR A}.
Notation heap := (heap A).
Notation M := (@M A).
Notation WM := (@WM A).
Variable symdiff : list nat -> list nat -> list nat.
Variable fuel : nat.
Variable num : numerics A B.
(** the floating point number 0.5 *)
Variable half : A.
Local Notation "x <- m ;; k" := (wbind m (fun x => k)) (at level 100, m at next level, right associativity).
Local Notation "m ;;; k" := (wbind m (fun _ => k)) (at level 100, right associativity).

(** an int as a floating point number; the ints here are not negative *)
Fixpoint ofNat (n : nat) : A := match n with O => r0 | S n' => radd r1 (ofNat n') end.

(** the attributes of an ImpurityTensorNetwork object.  A tensor is stored with its degreeOfFreedom.
    Simplification: the state of the object after an exception is not kept *)
Record impurityTN := mkImp {
  i_imps : list (option (tid * option nat)); i_order : nat; i_rg : option (hotrg A);
  i_archive : list (list tid); i_norms : list A; i_idx : nat; i_init : bool }.

(** impurity.py 11: the copies *)
Fixpoint copyTensors (ts : list (tid * option nat)) : M (list (tid * option nat)) :=
  match ts with
  | [] => ret []
  | (t, dof) :: ts' => bind (copy t) (fun c => bind (copyTensors ts') (fun cs => ret ((c, dof) :: cs)))
  end.
(** impurity.py 10-25 [__init__].  Simplification: highestOrder is not negative *)
Definition newImpurityTN (ts : list (tid * option nat)) (highestOrder : option nat) : WM impurityTN :=
  cs <- lift (copyTensors ts) ;;
  let imps := map Some cs in
  let order := match highestOrder with Some n => n | None => List.length ts end in
  let imps := if Nat.ltb order (List.length imps) then firstn order imps else imps ++ repeat None (order - List.length imps) in
  wret (mkImp imps order None [] [] 0 false).
(** impurity.py 27-28 [setRG].  Simplification: the RG is kept as it is at this moment; in the code later steps of the RG are seen through the reference *)
Definition setRG (s : impurityTN) (g : hotrg A) : impurityTN :=
  mkImp (i_imps s) (i_order s) (Some g) (i_archive s) (i_norms s) (i_idx s) (i_init s).
(** a.a /= norm (impurity.py 34-35); None has no attribute a *)
Definition divideBy (n : A) (x : option (tid * option nat)) : M unit :=
  match x with
  | None => raise AttributeError
  | Some (t, _) => bind (reads (fun h => tens h t)) (fun r =>
      match t_arr r with
      | None => raise TypeError
      | Some a => setArr t (Some (mkArr (ashape a) (map (fun x => nu_div num x n) (adata a))))
      end)
  end.
Fixpoint divideAll (n : A) (l : list (option (tid * option nat))) : M unit :=
  match l with [] => ret tt | x :: l' => bind (divideBy n x) (fun _ => divideAll n l') end.
(** impurity.py 37: [a.copy() for a in self.impurities] *)
Fixpoint copyAll (l : list (option (tid * option nat))) : M (list tid) :=
  match l with
  | [] => ret []
  | None :: _ => raise AttributeError
  | Some (t, _) :: l' => bind (copy t) (fun c => bind (copyAll l') (fun cs => ret (c :: cs)))
  end.
(** impurity.py 32-37 [appendToArchive] *)
Definition appendToArchiveI (s : impurityTN) (n : A) : WM impurityTN :=
  lift (divideAll n (i_imps s)) ;;;
  cs <- lift (copyAll (i_imps s)) ;;
  wret (mkImp (i_imps s) (i_order s) (i_rg s) (i_archive s ++ [cs]) (i_norms s ++ [n]) (i_idx s) (i_init s)).
(** impurity.py 39-44 [initialize] *)
Definition initializeI (s : impurityTN) : WM impurityTN :=
  match i_rg s with
  | None => wraise AssertionError
  | Some g =>
      n <- wliftR (getNorm g 0) ;;
      s <- appendToArchiveI s n ;;
      wret (mkImp (i_imps s) (i_order s) (i_rg s) (i_archive s) (i_norms s) (i_idx s) true)
  end.
(** impurity.py 60-63, 69-71: the tensors of one division; None if one of them does not exist *)
Fixpoint partTensors (imps : list (option (tid * option nat))) (parts : list nat) : res (option (list tid)) :=
  match parts with
  | [] => Ok (Some [])
  | j :: parts' =>
      match nth_error imps j with
      | None => Err IndexError
      | Some x => letr ts := partTensors imps parts' in
          Ok (match x, ts with Some (t, _), Some ts => Some (t :: ts) | _, _ => None end)
      end
  end.
(** array * number, array += array (of the same shape).  Simplification: there is no broadcasting, other shapes raise ValueError *)
Definition arrScale (a : arr A) (c : A) : arr A := mkArr (ashape a) (map (fun x => rmul x c) (adata a)).
Definition arrAdd (a b : arr A) : res (arr A) :=
  if dec (ashape a) (ashape b) then Ok (mkArr (ashape a) (map (fun p => radd (fst p) (snd p)) (combine (adata a) (adata b)))) else Err ValueError.
Definition arrDiv (a : arr A) (c : A) : arr A := mkArr (ashape a) (map (fun x => nu_div num x c) (adata a)).
(** res.a *)
Definition getArr (t : tid) : M (arr A) := bind (reads (fun h => tens h t)) (fun r => match t_arr r with Some a => ret a | None => raise TypeError end).
(** impurity.py 59-79: the loop over the divisions; the state is totalWeight and resLabels with resA *)
Fixpoint divisionLoop (g : hotrg A) (imps : list (option (tid * option nat))) (idx : nat) (weight : A) (divisions : list (list nat))
    (acc : A * option (list pname * arr A)) : WM (A * option (list pname * arr A)) :=
  match divisions with
  | [] => wret acc
  | parts :: ds' =>
      ts <- wliftR (partTensors imps parts) ;;
      match ts with
      | None => divisionLoop g imps idx weight ds' acc
      | Some ts =>
          let partWeight := rmul (ofNat (Z.to_nat (calculateDivisionTimes parts))) weight in
          let total := radd (fst acc) partWeight in
          res <- impurityIterate symdiff fuel num g ts idx ;;
          match snd acc with
          | None =>
              labs <- lift (reads (fun h => labels h res)) ;;
              a <- lift (getArr res) ;;
              divisionLoop g imps idx weight ds' (total, Some (labs, arrScale a partWeight))
          | Some (labs, resA) =>
              lift (reArrange res labs) ;;;
              a <- lift (getArr res) ;;
              resA <- wliftR (arrAdd resA (arrScale a partWeight)) ;;
              divisionLoop g imps idx weight ds' (total, Some (labs, resA))
          end
      end
  end.
(** impurity.py 54-83: the loop over the orders; None /= totalWeight is a TypeError *)
Fixpoint orderLoop (g : hotrg A) (imps : list (option (tid * option nat))) (idx newDOF : nat) (is : list nat) : WM (list (option (tid * option nat))) :=
  match is with
  | [] => wret []
  | i :: is' =>
      ds <- wliftR (divideIntoKParts i 2) ;;
      p <- divisionLoop g imps idx (np_pow half i) ds (r0, None) ;;
      match snd p with
      | None => wraise TypeError
      | Some (labs, resA) =>
          t <- lift (mkDense None (Some labs) (Some (arrDiv resA (fst p))) None None false) ;;
          rest <- orderLoop g imps idx newDOF is' ;;
          wret (Some (t, Some newDOF) :: rest)
      end
  end.
(** impurity.py 46-87 [iterate]; impurityParts is 2 *)
Definition iterateI (s : impurityTN) : WM impurityTN :=
  s <- (if i_init s then wret s else initializeI s) ;;
  match i_rg s with
  | None => wraise AttributeError
  | Some g =>
      n <- wliftR (getNorm g (i_idx s + 1)) ;;
      newDOF <- match i_imps s with
                | [] => wraise IndexError
                | None :: _ => wraise AttributeError
                | Some (_, None) :: _ => wraise TypeError
                | Some (_, Some d) :: _ => wret (2 * d)
                end ;;
      imps <- orderLoop g (i_imps s) (i_idx s) newDOF (seq 0 (i_order s)) ;;
      appendToArchiveI (mkImp imps (i_order s) (i_rg s) (i_archive s) (i_norms s) (i_idx s + 1) (i_init s)) n
  end.
(** the loop calling iterate() n times *)
Fixpoint iteratesI (n : nat) (s : impurityTN) : WM impurityTN :=
  match n with O => wret s | S n' => s <- iterateI s ;; iteratesI n' s end.

(** impurity.py 89-96 [measureObservables] *)
Fixpoint measureRow (h : heap) (g : hotrg A) (i : nat) (ts : list tid) : res (list A) :=
  match ts with
  | [] => Ok []
  | t :: ts' =>
      letr x := tensorTrace h t in
      letr y := pureTensorTrace h g i in
      letr xs := measureRow h g i ts' in
      Ok (nu_div num x y :: xs)
  end.
Fixpoint measureAux (h : heap) (g : hotrg A) (i : nat) (ar : list (list tid)) : res (list (list A)) :=
  match ar with
  | [] => Ok []
  | ts :: ar' => letr xs := measureRow h g i ts in letr xss := measureAux h g (S i) ar' in Ok (xs :: xss)
  end.
(** Without an RG only a nonempty archive would matter, and there is none *)
Definition measureObservables (h : heap) (s : impurityTN) : res (list (list A)) :=
  match i_rg s with Some g => measureAux h g 0 (i_archive s) | None => match i_archive s with [] => Ok [] | _ :: _ => Err AttributeError end end.
End Impurity.
Arguments impurityTN : clear implicits.
