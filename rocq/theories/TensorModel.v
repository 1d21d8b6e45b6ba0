(** Model of tensor/tensor.py (class Tensor), tensor/diagonalTensor.py (class DiagonalTensor),
    tensor/leg.py, tensor/bond.py.  Methods overridden by DiagonalTensor dispatch on [t_diag].
    Warnings are not modelled.  Python lists of legs are modelled by value: the aliasing of the list
    object passed as [legs] with [self.legs] is not modelled. *)
From Coq Require Import List Arith Bool String Ascii.
From Verif Require Import Base Sums NdModel HeapModel FuncsModel.
Import ListNotations.

#[global] Instance Dec_option {X} `{Dec X} : Dec (option X).
Proof. unfold Dec in *. decide equality. Defined.

Section Tensor.
Context {A : Type} {HA : SR A}.
Notation heap := (heap A).
Notation tensor := (tensor A).
Notation M := (@M A).

Definition legdim (h : heap) (l : lid) : nat := l_dim (legs h l).
Definition legname (h : heap) (l : lid) : pname := l_name (legs h l).
Definition legbond (h : heap) (l : lid) : option bid := l_bond (legs h l).
Definition tlegs (h : heap) (t : tid) : list lid := t_legs (tens h t).

(** leg.py 27-31 [Leg.__init__] *)
Definition newLeg (tensor : option tid) (dim : nat) (name : pname) : M lid :=
  allocs (fun h => alloc_leg h (mkLeg tensor dim name None)).

(** bond.py 39-65 [Bond.anotherSide] *)
Definition bondAnotherSide (h : heap) (b : bid) (l : lid) : res lid :=
  let bd := bonds h b in
  if Nat.eqb (b0 bd) l then Ok (b1 bd)
  else if Nat.eqb (b1 bd) l then Ok (b0 bd)
  else Err AssertionError.

(** leg.py 34-46 [Leg.anotherSide]; None when there is no bond *)
Definition anotherSide (h : heap) (l : lid) : res (option lid) :=
  match legbond h l with
  | None => Ok None
  | Some b => letr l' := bondAnotherSide h b l in Ok (Some l')
  end.

(** bond.py 67-91 [Bond.sideLeg] *)
Definition sideLeg (h : heap) (b : bid) (t : tid) : res lid :=
  if inb (b0 (bonds h b)) (tlegs h t) then Ok (b0 (bonds h b))
  else if inb (b1 (bonds h b)) (tlegs h t) then Ok (b1 (bonds h b))
  else Err ValueError.

(** field updates *)
Definition setLegTensor (l : lid) (t : option tid) : M unit :=
  modify (fun h => let g := legs h l in set_leg h l (mkLeg t (l_dim g) (l_name g) (l_bond g))).
Definition setLegName (l : lid) (n : pname) : M unit :=
  modify (fun h => let g := legs h l in set_leg h l (mkLeg (l_tensor g) (l_dim g) n (l_bond g))).
Definition setLegBond (l : lid) (b : option bid) : M unit :=
  modify (fun h => let g := legs h l in set_leg h l (mkLeg (l_tensor g) (l_dim g) (l_name g) b)).
Definition setLegs (t : tid) (ls : list lid) : M unit :=
  modify (fun h => let r := tens h t in
    set_tens h t (mkTensor ls (t_arr r) (t_diag r) (t_like r) (t_len r) (t_name r))).
Definition setArr (t : tid) (a : option (arr A)) : M unit :=
  modify (fun h => let r := tens h t in
    set_tens h t (mkTensor (t_legs r) a (t_diag r) (t_like r) (t_len r) (t_name r))).
Definition setLen (t : tid) (n : nat) : M unit :=
  modify (fun h => let r := tens h t in
    set_tens h t (mkTensor (t_legs r) (t_arr r) (t_diag r) (t_like r) n (t_name r))).

(** bond.py 27-34 [Bond.__init__] *)
Definition newBond (l1 l2 : lid) : M bid :=
  d1 <- reads (fun h => legdim h l1) ;;
  d2 <- reads (fun h => legdim h l2) ;;
  assert (Nat.eqb d1 d2) ;;;
  b <- allocs (fun h => alloc_bond h (mkBond l1 l2)) ;;
  setLegBond l1 (Some b) ;;;
  setLegBond l2 (Some b) ;;;
  ret b.

(** tensor.py 370-372, diagonalTensor.py 427-429 [labels] *)
Definition labels (h : heap) (t : tid) : list pname := map (legname h) (tlegs h t).

(** tensor.py 385-392, diagonalTensor.py 423-425 [shape] *)
Definition shape (h : heap) (t : tid) : list nat :=
  let r := tens h t in
  if t_diag r then repeat (t_len r) (List.length (t_legs r))
  else match t_arr r with
       | None => map (legdim h) (t_legs r)
       | Some a => ashape a
       end.

(** tensor.py 378-383, diagonalTensor.py 419-421 [dim] *)
Definition tdim (h : heap) (t : tid) : nat := List.length (shape h t).

(** ** Constructor of Tensor *)

(** tensor.py 150-179 [checkLegsLabelsCompatible] (labels given as a list or tuple) *)
Definition checkLegsLabelsCompatible (h : heap) (ls : list lid) (labs : option (list pname)) : bool :=
  match labs with
  | None => true
  | Some labs => if dec (map (legname h) ls) labs then true else false
  end.
(** tensor.py 181-208 [checkLegsShapeCompatible] (shape given as a list or tuple) *)
Definition checkLegsShapeCompatible (h : heap) (ls : list lid) (sh : option (list nat)) : bool :=
  match sh with
  | None => true
  | Some sh => if dec (map (legdim h) ls) sh then true else false
  end.
(** tensor.py 210-229 [checkShapeDataCompatible] *)
Definition checkShapeDataCompatible (sh : list nat) (data : option (arr A)) : bool :=
  match data with None => true | Some a => Nat.eqb (prodn (ashape a)) (prodn sh) end.
(** tensor.py 231-249 [checkShapeLabelsCompatible] *)
Definition checkShapeLabelsCompatible (sh : list nat) (labs : option (list pname)) : bool :=
  match labs with None => true | Some labs => Nat.eqb (List.length labs) (List.length sh) end.

(** tensor.py 446-463 [generateLabels] *)
Definition generateLabels (n : nat) : res (list pname) :=
  if Nat.leb n 26
  then Ok (map (fun i => NStr (String (ascii_of_nat (97 + i)) EmptyString)) (seq 0 n))
  else Err AssertionError.

(** tensor.py 251-283 [generateData]: random entries when data is None, else a reshaped copy *)
Definition generateData (sh : list nat) (data : option (arr A)) (like : bool) : M (option (arr A)) :=
  if like then ret None else
  match data with
  | None => l <- allocs (fun h => draw h (prodn sh)) ;; ret (Some (mkArr sh l))
  | Some a => if dec (ashape a) sh then ret (Some a)
              else a' <- liftR (np_reshape a sh) ;; ret (Some a')
  end.

(** tensor.py 359-366 and diagonalTensor.py 384-391: create the legs, or take over the given ones *)
Fixpoint makeLegs (t : tid) (labs : list pname) (sh : list nat) : M (list lid) :=
  match labs, sh with
  | n :: labs', d :: sh' => l <- newLeg (Some t) d n ;; ls <- makeLegs t labs' sh' ;; ret (l :: ls)
  | _, _ => ret []
  end.

(** tensor.py 96-116 [Tensor.__init__] with 285-368 [deduction], diagonalFlag = False.
    The branch tensor.py 352-353 (a TensorLike described by labels only, whose dimensions are None)
    is outside the model and answers OutOfFuel. *)
Definition mkDense (sh : option (list nat)) (labs : option (list pname)) (data : option (arr A))
  (name : option string) (ls : option (list lid)) (like : bool) : M tid :=
  '(sh', labs') <-
    (match ls, sh, data with
     | Some ls, _, _ =>
         ok1 <- reads (fun h => checkLegsLabelsCompatible h ls labs) ;; check ok1 ValueError ;;;
         ok2 <- reads (fun h => checkLegsShapeCompatible h ls sh) ;; check ok2 ValueError ;;;
         sh' <- reads (fun h => map (legdim h) ls) ;;
         check (checkShapeDataCompatible sh' data) ValueError ;;;
         labs' <- reads (fun h => map (legname h) ls) ;;
         ret (sh', labs')
     | None, Some sh, _ =>
         check (checkShapeLabelsCompatible sh labs) ValueError ;;;
         labs' <- (match labs with Some l => ret l | None => liftR (generateLabels (List.length sh)) end) ;;
         check (checkShapeDataCompatible sh data) ValueError ;;;
         ret (sh, labs')
     | None, None, Some a =>
         check (checkShapeLabelsCompatible (ashape a) labs) ValueError ;;;
         labs' <- (match labs with Some l => ret l | None => liftR (generateLabels (ndim a)) end) ;;
         ret (ashape a, labs')
     | None, None, None =>
         match like, labs with
         | true, Some _ => raise OutOfFuel
         | _, _ => raise ValueError
         end
     end) ;;
  data' <- generateData sh' data like ;;
  t <- reads ntens ;;
  ls' <- (match ls with
          | Some ls => iterM (fun l => setLegTensor l (Some t)) ls ;;; ret ls
          | None => makeLegs t labs' sh'
          end) ;;
  allocs (fun h => alloc_tens h (mkTensor ls' data' false like 1 name)).

(** ** Constructor of DiagonalTensor *)

(** shape argument of DiagonalTensor: an int or a list/tuple *)
Inductive dshape := DInt (n : nat) | DList (l : list nat).

(** diagonalTensor.py 145-186 [checkLegsDiagonalCompatible], [checkShapeDiagonalCompatible] *)
Definition checkShapeDiagonalCompatible (sh : list nat) : bool := all_eqb sh.
Definition checkLegsDiagonalCompatible (h : heap) (ls : list lid) : bool := all_eqb (map (legdim h) ls).

(** diagonalTensor.py 188-205 [checkLegsShapeCompatible] *)
Definition checkLegsShapeCompatibleD (h : heap) (ls : list lid) (sh : option dshape) : bool :=
  match sh with
  | None => true
  | Some (DInt n) => if dec (map (legdim h) ls) (repeat n (List.length ls)) then true else false
  | Some (DList sh) => if dec (map (legdim h) ls) sh then true else false
  end.

(** diagonalTensor.py 207-216 [checkShapeDataCompatible] (the caller has already expanded an int shape) *)
Definition checkShapeDataCompatibleD (sh : list nat) (data : option (arr A)) : bool :=
  match data with
  | None => true
  | Some a =>
      (match ashape a, sh with [n], d :: _ => Nat.eqb n d | _, _ => false end)
      || Nat.eqb (prodn (ashape a)) (prodn sh)
  end.

(** diagonalTensor.py 85-115 [deduceDimension] *)
Definition deduceDimension (data : option (arr A)) (labs : option (list pname)) : res nat :=
  let bad := match data, labs with
             | Some a, Some labs => negb (Nat.eqb (ndim a) 1) && negb (Nat.eqb (List.length labs) (ndim a))
             | _, _ => false end in
  if bad then Err ValueError else
  match labs, data with
  | Some labs, _ => Ok (List.length labs)
  | None, Some a => Ok (ndim a)
  | None, None => Err ValueError
  end.

(** diagonalTensor.py 218-240 [generateData] *)
Definition generateDataD (sh : list nat) (data : option (arr A)) (like : bool) : res (option (arr A)) :=
  if like then Ok None else
  match data with
  | None => match sh with [] => Err IndexError | d :: _ => Ok (Some (np_ones d)) end
  | Some a => if Nat.eqb (ndim a) 1 then Ok (Some a) else
              match sh with
              | [] => Err IndexError
              | d :: _ => letr a' := np_diag_extract a d (List.length sh) in Ok (Some a')
              end
  end.

Definition is_scalar_shape (sh : option dshape) : bool :=
  match sh with Some (DList []) => true | _ => false end.
Definition is_scalar_data (data : option (arr A)) : bool :=
  match data with Some a => match ashape a with [] => true | _ => false end | None => false end.

(** diagonalTensor.py 398-417 [DiagonalTensor.__init__] with 242-393 [deduction].
    deduction's scalar shortcut (256-259) is the first branch; it hands back [data] unchecked
    (the model does not distinguish the list [] from the tuple () as shape). *)
Definition mkDiag (sh : option dshape) (labs : option (list pname)) (data : option (arr A))
  (name : option string) (ls : option (list lid)) (like : bool) : M tid :=
  if (match ls, labs with None, None => is_scalar_shape sh || is_scalar_data data | _, _ => false end)
  then
    let data' := match data with
                 | None => if like then None else Some (np_scalar r1)
                 | Some a => Some a end in
    allocs (fun h => alloc_tens h (mkTensor [] data' true like 1 name))
  else
  '(sh', labs') <-
    (match ls, sh, data with
     | Some ls, _, _ =>
         ok0 <- reads (fun h => checkLegsDiagonalCompatible h ls) ;; check ok0 ValueError ;;;
         ok1 <- reads (fun h => checkLegsLabelsCompatible h ls labs) ;; check ok1 ValueError ;;;
         ok2 <- reads (fun h => checkLegsShapeCompatibleD h ls sh) ;; check ok2 ValueError ;;;
         sh' <- reads (fun h => map (legdim h) ls) ;;
         check (checkShapeDataCompatibleD sh' data) ValueError ;;;
         labs' <- reads (fun h => map (legname h) ls) ;;
         ret (sh', labs')
     | None, Some sh, _ =>
         sh' <- (match sh with
                 | DInt n => dim <- liftR (deduceDimension data labs) ;; ret (repeat n dim)
                 | DList l => ret l
                 end) ;;
         check (checkShapeDiagonalCompatible sh') ValueError ;;;
         check (checkShapeLabelsCompatible sh' labs) ValueError ;;;
         labs' <- (match labs with Some l => ret l | None => liftR (generateLabels (List.length sh')) end) ;;
         check (checkShapeDataCompatibleD sh' data) ValueError ;;;
         ret (sh', labs')
     | None, None, Some a =>
         check (checkShapeDiagonalCompatible (ashape a)) ValueError ;;;
         dim <- liftR (deduceDimension data labs) ;;
         let sh' := match ashape a with
                    | [d] => if Nat.ltb 1 dim then repeat d dim else ashape a
                    | _ => ashape a end in
         check (checkShapeLabelsCompatible sh' labs) ValueError ;;;
         labs' <- (match labs with Some l => ret l | None => liftR (generateLabels (List.length sh')) end) ;;
         ret (sh', labs')
     | None, None, None => raise ValueError
     end) ;;
  data' <- liftR (generateDataD sh' data like) ;;
  t <- reads ntens ;;
  ls' <- (match ls with
          | Some ls => iterM (fun l => setLegTensor l (Some t)) ls ;;; ret ls
          | None => makeLegs t labs' sh'
          end) ;;
  let len := match sh' with [] => 1 | d :: _ => d end in
  allocs (fun h => alloc_tens h (mkTensor ls' data' true like len name)).

(** ** Looking up legs *)

(** tensor.py 465-490 [indexOfLabel]; -1 is None *)
Definition indexOfLabel (h : heap) (t : tid) (lab : pname) (backward : bool) : option nat :=
  let labs := labels h t in
  if backward
  then option_map (fun k => List.length labs - k - 1) (index_of lab (rev labs))
  else index_of lab labs.

(** tensor.py 522-541 [getLeg] *)
Definition getLeg (h : heap) (t : tid) (lab : pname) (backward : bool) : option lid :=
  match indexOfLabel h t lab backward with
  | None => None
  | Some i => nth_error (tlegs h t) i
  end.

(** tensor.py 856-861 [getLegsByLabel] *)
Definition getLegsByLabel (h : heap) (t : tid) (labs : list pname) : res (list lid) :=
  rmapM (fun i => match i with
                  | None => Err ValueError
                  | Some k => match nth_error (tlegs h t) k with
                              | Some l => Ok l | None => Err IndexError end
                  end)
        (generateIndices (labels h t) labs).

(** tensor.py 643-656 [complementLegs] *)
Definition complementLegs (h : heap) (t : tid) (ls : list lid) : res (list lid) :=
  listDifference (tlegs h t) ls.

(** ** Reordering *)

(** tensor.py 551-581 and diagonalTensor.py 480-510 [moveLegsToFront].
    The removal loop mutates self.legs before a missing leg raises. *)
Definition moveFromIndices (cur ls : list lid) : list nat :=
  flat_map (fun l => match index_of l cur with Some i => [i] | None => [] end) ls.

Definition removeLeg (t : tid) (l : lid) : M unit :=
  cur <- reads (fun h => tlegs h t) ;;
  match remove_one l cur with
  | None => raise ValueError
  | Some r => setLegs t r
  end.

Definition moveLegsToFront (t : tid) (ls : list lid) : M unit :=
  moveFrom <- reads (fun h => moveFromIndices (tlegs h t) ls) ;;
  iterM (removeLeg t) ls ;;;
  rest <- reads (fun h => tlegs h t) ;;
  setLegs t (ls ++ rest) ;;;
  r <- reads (fun h => tens h t) ;;
  if t_diag r then ret tt
  else if t_like r then ret tt
  else match t_arr r with
       | None => raise AttributeError
       | Some a => a' <- liftR (np_moveaxis a moveFrom (seq 0 (List.length moveFrom))) ;;
                   setArr t (Some a')
       end.

(** tensor.py 863-875, diagonalTensor.py 606-617 [moveLabelsToFront] *)
Definition moveLabelsToFront (t : tid) (labs : list pname) : M unit :=
  ls <- readsR (fun h => getLegsByLabel h t labs) ;;
  moveLegsToFront t ls.

(** tensor.py 953-963 [reArrange] *)
Definition reArrange (t : tid) (labs : list pname) : M unit :=
  cur <- reads (fun h => labels h t) ;;
  assert (compareLists cur labs) ;;;
  moveLabelsToFront t labs.

(** ** Matrices *)

(** rows / cols argument: a list of Leg objects or of labels *)
Inductive legref := RLeg (l : lid) | RStr (s : string).

(** tensor.py 618-621: the first element decides how the list is read; a name without a leg, or an
    element of the other kind, becomes an object that is not a leg of the tensor (None here).
    The empty list raises IndexError at [rows[0]]. *)
Definition resolveRefs (h : heap) (t : tid) (rs : list legref) : res (list (option lid)) :=
  match rs with
  | [] => Err IndexError
  | RStr _ :: _ => Ok (map (fun r => match r with RStr s => getLeg h t (NStr s) false | RLeg _ => None end) rs)
  | RLeg _ :: _ => Ok (map (fun r => match r with RLeg l => Some l | RStr _ => None end) rs)
  end.

Definition resolveOpt (h : heap) (t : tid) (rs : option (list legref)) : res (option (list (option lid))) :=
  match rs with None => Ok None | Some rs => letr x := resolveRefs h t rs in Ok (Some x) end.

(** index of a resolved leg (tensor.py 492-521 [indexOfLeg], [getLegIndices]) *)
Definition indexOfLeg (h : heap) (t : tid) (l : option lid) : res nat :=
  match index_of l (map Some (tlegs h t)) with Some i => Ok i | None => Err ValueError end.

(** common part of tensor.py 616-637 and diagonalTensor.py 553-575: the leg indices of rows and cols *)
Definition matrixIndices (h : heap) (t : tid) (rows cols : option (list legref))
  : res (list nat * list nat) :=
  if t_like (tens h t) then Err AssertionError else
  match rows, cols with
  | None, None => Err AssertionError
  | _, _ =>
    letr rows1 := resolveOpt h t rows in
    letr cols1 := resolveOpt h t cols in
    let all := map Some (tlegs h t) in
    letr cols2 := match cols1, rows1 with
                  | Some c, _ => Ok c
                  | None, Some r => listDifference all r
                  | None, None => Err AssertionError end in
    letr rows2 := match rows1 with Some r => Ok r | None => listDifference all cols2 end in
    if negb (compareLists (rows2 ++ cols2) all) then Err AssertionError else
    letr ci := rmapM (indexOfLeg h t) cols2 in
    letr ri := rmapM (indexOfLeg h t) rows2 in
    Ok (ri, ci)
  end.

Definition sizesAt (sh : list nat) (ix : list nat) : list nat := map (fun k => nth k sh 0) ix.

(** tensor.py 597-641 and diagonalTensor.py 533-579 [toMatrix] *)
Definition toMatrix (h : heap) (t : tid) (rows cols : option (list legref)) : res (arr A) :=
  letr p := matrixIndices h t rows cols in
  let (ri, ci) := p in
  let sh := shape h t in
  let rt := prodn (sizesAt sh ri) in
  let ct := prodn (sizesAt sh ci) in
  let r := tens h t in
  match t_arr r with
  | None => Err AttributeError
  | Some a =>
    if t_diag r
    then letr d := diagonalNDTensor a (List.length (t_legs r)) in np_reshape d [rt; ct]
    else letr a' := np_moveaxis a (ri ++ ci) (seq 0 (List.length (ri ++ ci))) in
         np_reshape a' [rt; ct]
  end.

(** tensor.py 977-996, diagonalTensor.py 662-677 [trace] *)
Definition trace (h : heap) (t : tid) (rows cols : option (list legref)) : res A :=
  let r := tens h t in
  if t_like r then Err AssertionError
  else if t_diag r
       then match t_arr r with Some a => Ok (np_sum a) | None => Err TypeError end
       else letr m := toMatrix h t rows cols in
            match ashape m with
            | [n; k] => if Nat.eqb n k then Ok (np_trace m) else Err AssertionError
            | _ => Err ValueError
            end.

(** tensor.py 998-1012, diagonalTensor.py 679-696 [single] *)
Definition single (h : heap) (t : tid) : res A :=
  let r := tens h t in
  if t_like r then Err AssertionError
  else if t_diag r && negb (Nat.eqb (t_len r) 1) then Err AssertionError
  else match shape h t with
       | [] => match t_arr r with Some a => Ok (aget a []) | None => Err AttributeError end
       | _ => Err AssertionError
       end.

(** tensor.py 1014-1031, diagonalTensor.py 698-715 [toTensor] *)
Definition toTensor (t : tid) (labs : option (list pname)) : M (arr A) :=
  like <- reads (fun h => t_like (tens h t)) ;;
  assert (negb like) ;;;
  (match labs with Some l => reArrange t l | None => ret tt end) ;;;
  r <- reads (fun h => tens h t) ;;
  match t_arr r with
  | None => raise AttributeError
  | Some a => if t_diag r then liftR (diagonalNDTensor a (List.length (t_legs r))) else ret a
  end.

(** ** Copies *)

(** tensor.py 658-669, diagonalTensor.py 581-590 [copy] *)
Definition copy (t : tid) : M tid :=
  r <- reads (fun h => tens h t) ;;
  sh <- reads (fun h => shape h t) ;;
  labs <- reads (fun h => labels h t) ;;
  if t_diag r
  then mkDiag (Some (DList sh)) (Some labs) (t_arr r) (t_name r) None (t_like r)
  else mkDense (Some sh) (Some labs) (t_arr r) (t_name r) None (t_like r).

(** tensor.py 672-684, diagonalTensor.py 592-604 [toTensorLike] *)
Definition toTensorLike (t : tid) : M tid :=
  r <- reads (fun h => tens h t) ;;
  if t_like r then copy t else
  sh <- reads (fun h => shape h t) ;;
  labs <- reads (fun h => labels h t) ;;
  if t_diag r
  then mkDiag (Some (DList sh)) (Some labs) None (t_name r) None true
  else mkDense (Some sh) (Some labs) None (t_name r) None true.

(** ** Labels *)

(** tensor.py 724-741 [renameLabel] *)
Definition renameLabel (t : tid) (cf ct : pname) : M unit :=
  l <- reads (fun h => getLeg h t cf false) ;;
  match l with None => ret tt | Some l => setLegName l ct end.

(** tensor.py 743-754 [renameLabels] *)
Definition renameLabels (t : tid) (cf ct : list pname) : M unit :=
  assert (Nat.eqb (List.length cf) (List.length ct)) ;;;
  iterM (fun p => renameLabel t (fst p) (snd p)) (combine cf ct).

(** str.find('-') *)
Fixpoint findDash (s : string) : option nat :=
  match s with
  | EmptyString => None
  | String c s' => if Ascii.eqb c "-" then Some 0 else option_map S (findDash s')
  end.
(** s[(k + 1):] *)
Fixpoint dropChars (n : nat) (s : string) : string :=
  match n, s with
  | O, _ => s
  | S _, EmptyString => EmptyString
  | S n', String _ s' => dropChars n' s'
  end.

(** tensor.py 826-842 [addTensorTag]: names that are not strings have no .find (AttributeError) *)
Definition addTensorTag (t : tid) (tag : string) : M unit :=
  ls <- reads (fun h => tlegs h t) ;;
  iterM (fun l =>
    n <- reads (fun h => legname h l) ;;
    match n with
    | NStr s => match findDash s with
                | Some _ => raise AssertionError
                | None => setLegName l (NStr (tag ++ "-" ++ s))
                end
    | _ => raise AttributeError
    end) ls.

(** tensor.py 844-854 [removeTensorTag] *)
Definition removeTensorTag (t : tid) : M unit :=
  ls <- reads (fun h => tlegs h t) ;;
  iterM (fun l =>
    n <- reads (fun h => legname h l) ;;
    match n with
    | NStr s => match findDash s with
                | None => ret tt
                | Some k => setLegName l (NStr (dropChars (k + 1) s))
                end
    | _ => raise AttributeError
    end) ls.

(** tensor.py 756-774 [shapeOfLabel]; -1 is None *)
Definition shapeOfLabel (h : heap) (t : tid) (lab : pname) (backward : bool) : option nat :=
  option_map (legdim h) (getLeg h t lab backward).

(** ** Merging and summing legs *)

(** tensor.py 915-951 and diagonalTensor.py 640-648 [outProduct] for a list of legs *)
Definition outProduct (t : tid) (ls : list lid) (newLabel : pname) : M lid :=
  rr <- reads (fun h => tens h t) ;;
  if t_diag rr then raise TypeError else
  assert (Nat.ltb 0 (List.length ls)) ;;;
  moveLegsToFront t ls ;;;
  let n := List.length ls in
  sh <- reads (fun h => shape h t) ;;
  r <- reads (fun h => tens h t) ;;
  newDim <-
    (if t_like r
     then reads (fun h => fold_left Nat.mul (map (legdim h) (firstn n (t_legs r))) 1)
     else match t_arr r with
          | None => raise AttributeError
          | Some a => a' <- liftR (np_reshape_front a (skipn n sh)) ;;
                      setArr t (Some a') ;;;
                      ret (nth 0 (ashape a') 0)
          end) ;;
  l <- newLeg (Some t) newDim newLabel ;;
  setLegs t (l :: skipn n (t_legs r)) ;;;
  ret l.

(** tensor.py 931-932: the same for a list of labels; a name without a leg (None) is not in self.legs,
    so moveLegsToFront raises ValueError after removing the legs listed before it *)
Definition outProductLabels (t : tid) (labs : list pname) (newLabel : pname) : M lid :=
  rr <- reads (fun h => tens h t) ;;
  if t_diag rr then raise TypeError else
  assert (Nat.ltb 0 (List.length labs)) ;;;
  ls <- reads (fun h => map (fun n => getLeg h t n false) labs) ;;
  match List.find (fun o => match o with None => true | _ => false end) ls with
  | None => outProduct t (flat_map (fun o => match o with Some l => [l] | None => [] end) ls) newLabel
  | Some _ =>
      iterM (fun o => match o with Some l => removeLeg t l | None => raise ValueError end) ls ;;;
      raise ValueError
  end.

(** funcs.py 1346-1378 [sumOnAxis].  A weights array whose length differs from the axis is a ValueError
    (numpy's stretching of length-1 weights is not modelled). *)
Definition sumOnAxis (a : arr A) (axis : nat) (w : option (arr A)) : res (arr A) :=
  match w with
  | None => Ok (np_sum_axis a axis (fun _ x => x))
  | Some v => if Nat.ltb 25 (ndim a) then Err AssertionError
              else match ashape v with
                   | [n] => if Nat.eqb n (nth axis (ashape a) 0)
                            then Ok (np_sum_axis a axis (fun i x => rmul x (aget v [i])))
                            else Err ValueError
                   | _ => Err ValueError
                   end
  end.

(** tensor.py 1079-1100, diagonalTensor.py 717-748 [sumOutLeg].
    On a TensorLike (a is None): Tensor fails inside numpy; DiagonalTensor only drops the leg unless
    data is needed (then numpy fails or stores an object array: modelled as TypeError). *)
Definition sumOutLeg (t : tid) (l : lid) (w : option (arr A)) : M unit :=
  r <- reads (fun h => tens h t) ;;
  match index_of l (t_legs r) with
  | None => ret tt
  | Some idx =>
    let ls' := firstn idx (t_legs r) ++ skipn (S idx) (t_legs r) in
    if t_diag r then
      setLegs t ls' ;;;
      match ls' with
      | [] => match t_arr r with
              | None => raise TypeError
              | Some a => a' <- (match w with None => ret a | Some v => liftR (np_mul_small a v) end) ;;
                          setArr t (Some (np_scalar (np_sum a'))) ;;; setLen t 1
              end
      | _ => match w with
             | None => ret tt
             | Some v => match t_arr r with
                         | None => raise TypeError
                         | Some a => a' <- liftR (np_mul_small a v) ;; setArr t (Some a')
                         end
             end
      end
    else match t_arr r with
         | None => raise (match w with None => ValueError | Some _ => AttributeError end)
         | Some a => a' <- liftR (sumOnAxis a idx w) ;; setArr t (Some a') ;;; setLegs t ls'
         end
  end.

(** tensor.py 1102-1123 [sumOutLegByLabel] for one label; a missing label ends in sumOutLeg(None): no-op *)
Definition sumOutLegByLabel (t : tid) (lab : pname) (backward : bool) (w : option (arr A)) : M unit :=
  l <- reads (fun h => getLeg h t lab backward) ;;
  match l with None => ret tt | Some l => sumOutLeg t l w end.
(** ... and for a list of labels: the weights are not passed on *)
Definition sumOutLegsByLabel (t : tid) (labs : list pname) (backward : bool) (w : option (arr A)) : M unit :=
  iterM (fun lab => sumOutLegByLabel t lab backward None) labs.

(** tensor.py 432-444, diagonalTensor.py 469-478 [bondDimension] *)
Definition bondDimension (h : heap) (t : tid) : res nat :=
  if t_diag (tens h t) then Ok (t_len (tens h t))
  else match shape h t with [] => Err IndexError | d :: _ => Ok d end.
End Tensor.
