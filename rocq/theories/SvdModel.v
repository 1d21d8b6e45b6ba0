(** Model of the truncated singular value decompositions: merge of tensor/contract/contract.py, and
    examples/Schimdt.py.  numpy.linalg.svd, numpy.sqrt and the comparison with the threshold of
    nonZeroElementN are arguments (a record of three functions), never axioms: the theorems hold for all of them, or for
    all that satisfy the equations they state. *)
From Coq Require Import List Arith Bool String ZArith.
From Verif Require Import Base Sums NdModel HeapModel FuncsModel TensorModel ContractModel.
Import ListNotations.

(** what the code takes from numpy: [np_svd m] is (u, s, vh), [np_big x] is abs(x) > eps.
    Simplification: the threshold is the same for all calls (every call uses the default 1e-10). *)
Record linalg (A : Type) := mkLinalg {
  np_svd : arr A -> arr A * arr A * arr A;
  np_sqrt : A -> A;
  np_big : A -> bool }.
Arguments mkLinalg {A}. Arguments np_svd {A}. Arguments np_sqrt {A}. Arguments np_big {A}.

Section Svd.
Context {A : Type} {HA : SR A}.
Notation heap := (heap A).
Notation M := (@M A).
Variable lib : linalg A.
Local Open Scope sr_scope.

(** funcs.py 1150-1171 [nonZeroElementN] *)
Definition nonZeroElementN (s : arr A) : nat := List.length (filter (np_big lib) (adata s)).

(** funcs.py 1173-1187 [rightDiagonalProduct]: columns times the entries of d.
    Simplification: numpy would also stretch an axis of size 1; here unequal sizes raise ValueError. *)
Definition rightDiagonalProduct (a d : arr A) : res (arr A) := np_mul_last a d.
(** funcs.py 1188-1204 [leftDiagonalProduct]: rows times the entries of d *)
Definition leftDiagonalProduct (a d : arr A) : res (arr A) :=
  letr b := np_mul_last (np_transpose a [1%nat; 0%nat]) d in Ok (np_transpose b [1%nat; 0%nat]).

(** u[:, :k], s[:k], vh[:k] for k >= 0 *)
Definition firstCols (u : arr A) (k : nat) : arr A :=
  let sh := ashape u in tab [nth 0 sh 0%nat; Nat.min k (nth 1 sh 0%nat)] (fun idx => aget u idx).
Definition firstRows (v : arr A) (k : nat) : arr A :=
  let sh := ashape v in tab [Nat.min k (nth 0 sh 0%nat); nth 1 sh 0%nat] (fun idx => aget v idx).
Definition firstEntries (s : arr A) (k : nat) : arr A :=
  tab [Nat.min k (nth 0 (ashape s) 0%nat)] (fun idx => aget s idx).
(** np.sqrt(s) *)
Definition np_sqrts (s : arr A) : arr A := mkArr (ashape s) (map (np_sqrt lib) (adata s)).

(** min([chi] + ns).  A negative chi makes negative slices and legs of negative dimension.  For a Tensor the size of the
    data then differs from the product of the dimensions (or numpy cannot broadcast): ValueError in both cases, raised by the
    constructor of the first result.  Simplification: this is answered at once, before the two legs
    are made, and a matrix without rows is not treated apart. *)
Definition minDim (chi : Z) (ns : list nat) : Z := fold_left (fun m n => Z.min m (Z.of_nat n)) ns chi.
Definition denseDim (chi : Z) (ns : list nat) : res nat :=
  let m := minDim chi ns in if Z.ltb m 0 then Err ValueError else Ok (Z.to_nat m).
(** A TensorLike accepts a negative dimension; dimensions are natural numbers here, so this case is outside the model
    and answers OutOfFuel. *)
Definition likeDim (chi : Z) (ns : list nat) : res nat :=
  let m := minDim chi ns in if Z.ltb m 0 then Err OutOfFuel else Ok (Z.to_nat m).

(** a // b *)
Definition floorDiv (a b : nat) : res nat := if Nat.eqb b 0 then Err ZeroDivisionError else Ok (a / b)%nat.
(** tensor.py 395-396 [totalSize] *)
Definition totalSize (h : heap) (t : tid) : nat := prodn (shape h t).

(** contract.py 181-274 [merge]; bondName as in mergeLink.  Warnings are dropped. *)
Definition merge (ta tb : tid) (chi : option Z) (bondName : option pname) : M (tid * tid) :=
  la <- reads (fun h => t_like (tens h ta)) ;;
  lb <- reads (fun h => t_like (tens h tb)) ;;
  assert (Bool.eqb la lb) ;;;
  mergeLink ta tb bondName ;;;
  match chi with
  | None => ret (ta, tb)
  | Some chi =>
    sb <- shareBonds ta tb ;;
    match sb with
    | [] => ret (ta, tb)
    | [b] =>
      legA <- readsR (fun h => sideLeg h b ta) ;;
      legB <- readsR (fun h => sideLeg h b tb) ;;
      nameA <- reads (fun h => legname h legA) ;;
      nameB <- reads (fun h => legname h legB) ;;
      ra <- readsR (fun h => complementLegs h ta [legA]) ;;
      rb <- readsR (fun h => complementLegs h tb [legB]) ;;
      if la then
        da <- reads (fun h => legdim h legA) ;;
        db <- reads (fun h => legdim h legB) ;;
        na <- readsR (fun h => floorDiv (totalSize h ta) da) ;;
        nb <- readsR (fun h => floorDiv (totalSize h tb) db) ;;
        k <- liftR (likeDim chi [da; na; nb]) ;;
        uOut <- newLeg None k nameA ;;
        vOut <- newLeg None k nameB ;;
        u <- mkDense None None None None (Some (ra ++ [uOut])) true ;;
        v <- mkDense None None None None (Some (vOut :: rb)) true ;;
        makeLink [RLeg uOut] [RLeg vOut] None None ;;;
        ret (u, v)
      else
        matA <- readsR (fun h => toMatrix h ta None (Some [RLeg legA])) ;;
        matB <- readsR (fun h => toMatrix h tb (Some [RLeg legB]) None) ;;
        mat <- liftR (np_matmul matA matB) ;;
        let '(mu, ms, mv) := np_svd lib mat in
        k <- liftR (denseDim chi [nonZeroElementN ms; nth 0 (ashape matA) 0%nat; nth 1 (ashape matB) 0%nat]) ;;
        uOut <- newLeg None k nameA ;;
        vOut <- newLeg None k nameB ;;
        let sq := np_sqrts (firstEntries ms k) in
        uS <- liftR (rightDiagonalProduct (firstCols mu k) sq) ;;
        vS <- liftR (leftDiagonalProduct (firstRows mv k) sq) ;;
        u <- mkDense None None (Some uS) None (Some (ra ++ [uOut])) false ;;
        v <- mkDense None None (Some vS) None (Some (vOut :: rb)) false ;;
        makeLink [RLeg uOut] [RLeg vOut] None None ;;;
        ret (u, v)
    | _ => raise AssertionError
    end
  end.

(** tensor.py 1060-1077 [labelsInTensor] *)
Definition labelsInTensor (h : heap) (t : tid) (labs : list string) : bool :=
  forallb (fun s => inb (NStr s) (labels h t)) labs.

(** leg.name.startswith(c + '-') ; a name that is not a string is an AttributeError *)
Definition startsWith (pre : string) (n : pname) : res bool :=
  match n with NStr s => Ok (prefix pre s) | _ => Err AttributeError end.
(** [leg for leg in ls if leg.name.startswith(pre)] *)
Fixpoint legsWith (h : heap) (pre : string) (ls : list lid) : res (list lid) :=
  match ls with
  | [] => Ok []
  | l :: ls' => letr b := startsWith pre (legname h l) in
                letr r := legsWith h pre ls' in
                Ok (if b then l :: r else r)
  end.
(** Schimdt.py 120-126: drop the two characters of the prefix again *)
Definition dropTag (pre : string) (l : lid) : M unit :=
  n <- reads (fun h => legname h l) ;;
  match n with
  | NStr s => if prefix pre s then setLegName l (NStr (dropChars 2 s)) else ret tt
  | _ => raise AttributeError
  end.

(** the label of a leg as an argument of toMatrix (labels are strings here, see [legsWith]) *)
Definition labelRef (n : pname) : legref := match n with NStr s => RStr s | _ => RStr EmptyString end.

(** Schimdt.py 12-166 [SchimdtDecomposition]; [root] is squareRootSeparation *)
Definition schimdt (ta tb : tid) (chi : Z) (root : bool) (swapA swapB : list string) : M (tid * option tid * tid) :=
  sb <- shareBonds ta tb ;;
  match sb with
  | [] => raise AssertionError
  | b :: _ =>
    la <- reads (fun h => t_like (tens h ta)) ;;
    lb <- reads (fun h => t_like (tens h tb)) ;;
    assert (Bool.eqb la lb) ;;;
    sbDim <- reads (fun h => prodn (map (fun b => legdim h (b0 (bonds h b))) sb)) ;;
    legA0 <- readsR (fun h => sideLeg h b ta) ;;
    legB0 <- readsR (fun h => sideLeg h b tb) ;;
    nameA <- reads (fun h => legname h legA0) ;;
    nameB <- reads (fun h => legname h legB0) ;;
    assert (Nat.eqb (List.length swapA) (List.length swapB)) ;;;
    okA <- reads (fun h => labelsInTensor h ta swapA) ;; assert okA ;;;
    okB <- reads (fun h => labelsInTensor h tb swapB) ;; assert okB ;;;
    addTensorTag ta "a" ;;;
    addTensorTag tb "b" ;;;
    iterM (fun s => renameLabel ta (NStr ("a-" ++ s)) (NStr ("b-" ++ s))) swapA ;;;
    iterM (fun s => renameLabel tb (NStr ("b-" ++ s)) (NStr ("a-" ++ s))) swapB ;;;
    tot <- contractTwoTensors ta tb ;;
    legA <- readsR (fun h => legsWith h "a-" (tlegs h tot)) ;;
    legB <- readsR (fun h => legsWith h "b-" (tlegs h tot)) ;;
    labA <- reads (fun h => map (legname h) legA) ;;
    labB <- reads (fun h => map (legname h) legB) ;;
    shA <- reads (fun h => map (legdim h) legA) ;;
    shB <- reads (fun h => map (legdim h) legB) ;;
    '(k, mu, ms, mv) <-
      (if la then k <- liftR (likeDim chi [prodn shA; prodn shB; sbDim]) ;; ret (k, None, None, None)
       else
         mat <- readsR (fun h => toMatrix h tot (Some (map labelRef labA)) (Some (map labelRef labB))) ;;
         let '(mu, ms, mv) := np_svd lib mat in
         k <- liftR (denseDim chi [prodn shA; prodn shB; nonZeroElementN ms]) ;;
         ret (k, Some (firstCols mu k), Some (firstEntries ms k), Some (firstRows mv k))) ;;
    if root then
      uS <- liftR (match mu, ms with
                   | Some u, Some s => letr r := rightDiagonalProduct u (np_sqrts s) in Ok (Some r)
                   | _, _ => Ok None end) ;;
      vS <- liftR (match mv, ms with
                   | Some v, Some s => letr r := leftDiagonalProduct v (np_sqrts s) in Ok (Some r)
                   | _, _ => Ok None end) ;;
      uOut <- newLeg None k nameA ;;
      vOut <- newLeg None k nameB ;;
      u <- mkDense (Some (shA ++ [k])) None uS None (Some (legA ++ [uOut])) la ;;
      v <- mkDense (Some (k :: shB)) None vS None (Some (vOut :: legB)) la ;;
      iterM (dropTag "a-") legA ;;;
      iterM (dropTag "b-") legB ;;;
      makeLink [RLeg uOut] [RLeg vOut] None None ;;;
      ret (u, None, v)
    else
      uOut <- newLeg None k nameA ;;
      uIn <- newLeg None k nameB ;;
      vIn <- newLeg None k nameA ;;
      vOut <- newLeg None k nameB ;;
      u <- mkDense (Some (shA ++ [k])) None mu None (Some (legA ++ [uOut])) la ;;
      s <- mkDiag (Some (DList [k; k])) None ms None (Some [uIn; vIn]) la ;;
      v <- mkDense (Some (k :: shB)) None mv None (Some (vOut :: legB)) la ;;
      iterM (dropTag "a-") legA ;;;
      iterM (dropTag "b-") legB ;;;
      makeLink [RLeg uOut] [RLeg uIn] None None ;;;
      makeLink [RLeg vOut] [RLeg vIn] None None ;;;
      ret (u, Some s, v)
  end.

(** Schimdt.py 168-214 [matrixSchimdtDecomposition]; chi = None is no bound.
    A negative chi is outside the model. *)
Definition minDims (chi : option nat) (ns : list nat) : nat :=
  match ns with
  | [] => 0%nat
  | n :: ns' => fold_left Nat.min (match chi with None => ns' | Some c => c :: ns' end) n
  end.
Definition matrixSchimdt (a : arr A) (dim : nat) (chi : option nat) : res (arr A * arr A) :=
  match ashape a with
  | [l] =>
      if negb (negb (Nat.eqb dim 0) && Nat.eqb (l mod dim) 0) then Err AssertionError else
      letr m := np_reshape a [dim; (l / dim)%nat] in
      let '(u, s, vh) := np_svd lib m in
      let k := minDims chi [nth 0 (ashape u) 0%nat; nth 1 (ashape vh) 0%nat; nonZeroElementN s] in
      letr v := leftDiagonalProduct (firstRows vh k) (firstEntries s k) in
      Ok (firstCols u k, v)
  | [s0; s1] =>
      if negb (negb (Nat.eqb dim 0) && Nat.eqb (s1 mod dim) 0) then Err AssertionError else
      letr m := (if Nat.eqb (s0 * dim) 0 then Err ValueError else np_reshape a [(s0 * dim)%nat; (s0 * s1 / (s0 * dim))%nat]) in
      let '(u, s, vh) := np_svd lib m in
      let k := minDims chi [nth 0 (ashape u) 0%nat; nth 1 (ashape vh) 0%nat; nonZeroElementN s] in
      letr u' := np_reshape (firstCols u k) [s0; dim; k] in
      letr v := leftDiagonalProduct (firstRows vh k) (firstEntries s k) in
      Ok (u', v)
  | _ => Err AssertionError
  end.
End Svd.
