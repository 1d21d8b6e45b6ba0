(** Model of tensor/contract/link.py and tensor/contract/contract.py (merge is in SvdModel.v) and of
    copyTensorList, contractCost and contractAndCostWithSequence of optimalContract.py.
    Warnings and dtypes are not modelled.  contractTwoTensors is always called with bonds = None. *)
From Coq Require Import List Arith Bool String ZArith.
From Verif Require Import Base Sums NdModel HeapModel FuncsModel TensorModel.
Import ListNotations.

Section Contract.
Context {A : Type} {HA : SR A}.
Notation heap := (heap A).
Notation M := (@M A).

(** ** link.py *)

(** link.py 7-24 [getLeg]; a name no leg carries gives None *)
Definition linkLeg (h : heap) (tensor : option tid) (r : legref) : res (option lid) :=
  match r with
  | RLeg l => Ok (Some l)
  | RStr s => match tensor with
              | None => Err AssertionError
              | Some t => Ok (getLeg h t (NStr s) false)
              end
  end.

(** link.py 56-58: one pair of the loop; [None.dim] is an AttributeError *)
Definition linkPair (p : option lid * option lid) : M bid :=
  match p with
  | (Some l1, Some l2) =>
      d1 <- reads (fun h => legdim h l1) ;;
      d2 <- reads (fun h => legdim h l2) ;;
      assert (Nat.eqb d1 d2) ;;;
      newBond l1 l2
  | _ => raise AttributeError
  end.

(** link.py 26-60 [makeLink]; a single leg or name is passed as a list of one *)
Definition makeLink (legA legB : list legref) (tensorA tensorB : option tid) : M (list bid) :=
  la <- readsR (fun h => rmapM (linkLeg h tensorA) legA) ;;
  lb <- readsR (fun h => rmapM (linkLeg h tensorB) legB) ;;
  assert (Nat.eqb (List.length la) (List.length lb)) ;;;
  mapM linkPair (combine la lb).

(** '|'.join(names); a name that is not a string is a TypeError *)
Fixpoint strNames (ns : list pname) : res (list string) :=
  match ns with
  | [] => Ok []
  | NStr s :: ns' => letr r := strNames ns' in Ok (s :: r)
  | _ => Err TypeError
  end.
Definition joinNames (ns : list pname) : res string := letr ss := strNames ns in Ok (String.concat "|" ss).

(** link.py 84-87: the legs of [ta] whose other side belongs to [tb], with the other side *)
Definition mergePairs (h : heap) (ta tb : tid) : res (list (lid * lid)) :=
  letr ps := rmapM (fun l =>
    match legbond h l with
    | None => Ok []
    | Some b => letr l' := bondAnotherSide h b l in
                Ok (match l_tensor (legs h l') with
                    | Some t' => if Nat.eqb t' tb then [(l, l')] else []
                    | None => [] end)
    end) (tlegs h ta) in
  Ok (List.concat ps).

(** link.py 62-120 [mergeLink]; bondName is None, a string or a pair of strings *)
Definition mergeLink (ta tb : tid) (bondName : option pname) : M unit :=
  ps <- readsR (fun h => mergePairs h ta tb) ;;
  match ps with
  | [] => ret tt
  | [(la, lb)] =>
      match bondName with
      | None => ret tt
      | Some n => setLegName la n ;;; setLegName lb n
      end
  | _ =>
      '(na, nb) <- (match bondName with
                    | None => a <- readsR (fun h => joinNames (map (fun p => legname h (fst p)) ps)) ;;
                              b <- readsR (fun h => joinNames (map (fun p => legname h (snd p)) ps)) ;;
                              ret (NStr a, NStr b)
                    | Some (NPair a b) => ret (NStr a, NStr b)
                    | Some n => ret (n, n)
                    end) ;;
      la <- outProduct ta (map fst ps) na ;;
      lb <- outProduct tb (map snd ps) nb ;;
      makeLink [RLeg la] [RLeg lb] None None ;;;
      ret tt
  end.

(** ** contract.py *)

(** contract.py 22-27: one leg of [ta] *)
Definition shareLeg (tb : tid) (l : lid) : M (list bid) :=
  o <- readsR (fun h => anotherSide h l) ;;
  tbl <- reads (fun h => tlegs h tb) ;;
  bo <- reads (fun h => legbond h l) ;;
  match o, bo with
  | Some l', Some b =>
      if inb l' tbl
      then bd <- reads (fun h => bonds h b) ;;
           (if Nat.eqb l (b1 bd) then modify (fun h => set_bond h b (mkBond (b1 bd) (b0 bd))) else ret tt) ;;;
           ret [b]
      else ret []
  | _, _ => ret []
  end.
(** contract.py 8-28 [shareBonds] *)
Definition shareBonds (ta tb : tid) : M (list bid) :=
  ls <- reads (fun h => tlegs h ta) ;;
  bs <- mapM (shareLeg tb) ls ;;
  ret (List.concat bs).

(** the data attribute, when numpy is about to use it; None fails there *)
Definition getArr (t : tid) : M (arr A) :=
  o <- reads (fun h => t_arr (tens h t)) ;;
  match o with Some a => ret a | None => raise TypeError end.

(** contract.py 68-98: no shared bonds *)
Definition contractOuter (ta tb : tid) (like : bool) : M tid :=
  labs <- reads (fun h => labels h ta ++ labels h tb) ;;
  sh <- reads (fun h => shape h ta ++ shape h tb) ;;
  ls <- reads (fun h => tlegs h ta ++ tlegs h tb) ;;
  da <- reads (fun h => t_diag (tens h ta)) ;;
  db <- reads (fun h => t_diag (tens h tb)) ;;
  if da && db then
    if like then mkDiag (Some (DList sh)) (Some labs) None None (Some ls) true
    else a <- getArr ta ;; b <- getArr tb ;;
         d <- liftR (np_mul_small a b) ;;
         mkDiag (Some (DList sh)) (Some labs) (Some d) None (Some ls) false
  else if da then
    if like then mkDense (Some sh) (Some labs) None None (Some ls) true
    else a <- getArr ta ;; b <- getArr tb ;;
         dim <- reads (fun h => tdim h ta) ;;
         d <- liftR (np_embed_first sh dim (np_outer a b)) ;;
         mkDense (Some sh) (Some labs) (Some d) None (Some ls) false
  else
    if like then mkDense (Some sh) (Some labs) None None (Some ls) true
    else a <- getArr ta ;; b <- getArr tb ;;
         mkDense (Some sh) (Some labs) (Some (np_outer a b)) None (Some ls) false.

(** contract.py 107-179: at least one shared bond *)
Definition contractBonds (ta tb : tid) (like : bool) (bs : list bid) : M tid :=
  ca <- reads (fun h => map (fun b => b0 (bonds h b)) bs) ;;
  cb <- reads (fun h => map (fun b => b1 (bonds h b)) bs) ;;
  ra <- readsR (fun h => complementLegs h ta ca) ;;
  rb <- readsR (fun h => complementLegs h tb cb) ;;
  let newLegs := ra ++ rb in
  sh <- reads (fun h => map (legdim h) newLegs) ;;
  da <- reads (fun h => t_diag (tens h ta)) ;;
  db <- reads (fun h => t_diag (tens h tb)) ;;
  if da && db then
    if like then mkDiag (Some (DList sh)) None None None (Some newLegs) true
    else
      a <- getArr ta ;; b <- getArr tb ;;
      d <- liftR (np_mul_small a b) ;;
      if Nat.eqb (List.length newLegs) 0
      then mkDiag None None (Some (np_scalar (np_sum d))) None None false
      else mkDiag (Some (DList sh)) None (Some d) None (Some newLegs) false
  else if da then
    if like then mkDense (Some sh) None None None (Some newLegs) true
    else
      moveLegsToFront tb rb ;;;
      b <- getArr tb ;; a <- getArr ta ;;
      d0 <- liftR (np_diag_last (List.length cb) b) ;;
      d <- liftR (np_mul_last d0 a) ;;
      let newData := if Nat.eqb (List.length ra) 0 then np_sum_last d else np_embed_last (List.length ra) d in
      let newLegs' := rb ++ ra in
      sh' <- reads (fun h => map (legdim h) newLegs') ;;
      mkDense (Some sh') None (Some newData) None (Some newLegs') false
  else
    if like then mkDense (Some sh) None None None (Some newLegs) true
    else
      dataA <- readsR (fun h => toMatrix h ta None (Some (map RLeg ca))) ;;
      dataB <- readsR (fun h => toMatrix h tb (Some (map RLeg cb)) None) ;;
      m <- liftR (np_matmul dataA dataB) ;;
      m' <- liftR (np_reshape m sh) ;;
      mkDense (Some sh) None (Some m') None (Some newLegs) false.

(** contract.py 60-179 *)
Definition contractOrdered (ta tb : tid) : M tid :=
  bs <- shareBonds ta tb ;;
  la <- reads (fun h => t_like (tens h ta)) ;;
  lb <- reads (fun h => t_like (tens h tb)) ;;
  if negb (Bool.eqb la lb) then raise TypeError else
  if Nat.eqb (List.length bs) 0 then contractOuter ta tb la else contractBonds ta tb la bs.

(** contract.py 36-179 [contractTwoTensors]: a diagonal second argument is swapped to the front *)
Definition contractTwoTensors (ta tb : tid) : M tid :=
  da <- reads (fun h => t_diag (tens h ta)) ;;
  db <- reads (fun h => t_diag (tens h tb)) ;;
  if negb da && db then contractOrdered tb ta else contractOrdered ta tb.

(** ** optimalContract.py *)

(** optimalContract.py 62-92 [contractCost] *)
Definition contractCost (ta tb : tid) : M (nat * Z) :=
  da <- reads (fun h => t_diag (tens h ta)) ;;
  db <- reads (fun h => t_diag (tens h tb)) ;;
  if da && db then d <- readsR (fun h => bondDimension h ta) ;; ret (d, 1%Z) else
  bs <- shareBonds ta tb ;;
  inter <- reads (fun h => map (fun b => legdim h (b0 (bonds h b))) bs) ;;
  sa <- reads (fun h => shape h ta) ;;
  sb <- reads (fun h => shape h tb) ;;
  let k := if negb (da || db) then 1 else 2 in
  let den := prodn inter ^ k in
  if Nat.eqb den 0 then raise ZeroDivisionError else
  ret (prodn sa * prodn sb / den,
       (Z.of_nat (List.length sa) + Z.of_nat (List.length sb) - Z.of_nat k * Z.of_nat (List.length inter))%Z).

(** dict lookup; later entries of [m] win *)
Fixpoint dictGet {X Y} `{Dec X} (m : list (X * Y)) (x : X) : option Y :=
  match m with
  | [] => None
  | (y, v) :: m' => match dictGet m' x with
                    | Some w => Some w
                    | None => if dec x y then Some v else None
                    end
  end.

(** optimalContract.py 41-56: one pair (leg, newLeg1); the result is the new set addedBonds.
    Simplification: linkOutgoingBonds = False (its only non-default use is not modelled). *)
Definition copyLeg (ts : list tid) (tmap : list (tid * tid)) (added : list bid) (p : lid * lid) : M (list bid) :=
  let (l, n1) := p in
  bo <- reads (fun h => legbond h l) ;;
  match bo with
  | None => ret added
  | Some b =>
    if inb b added then ret added else
    l2 <- readsR (fun h => bondAnotherSide h b l) ;;
    t2 <- reads (fun h => l_tensor (legs h l2)) ;;
    let added' := b :: added in
    match t2 with
    | None => ret added'
    | Some t2 =>
      if negb (inb t2 ts) then ret added' else
      match dictGet tmap t2 with
      | None => raise KeyError
      | Some nt2 =>
        k <- readsR (fun h => match index_of l2 (tlegs h t2) with Some k => Ok k | None => Err ValueError end) ;;
        n2 <- readsR (fun h => match nth_error (tlegs h nt2) k with Some n2 => Ok n2 | None => Err IndexError end) ;;
        makeLink [RLeg n1] [RLeg n2] None None ;;;
        ret added'
      end
    end
  end.

Fixpoint foldM {X S} (f : S -> X -> M S) (l : list X) (s : S) : M S :=
  match l with
  | [] => ret s
  | x :: l' => s' <- f s x ;; foldM f l' s'
  end.

(** optimalContract.py 40-56: the legs of one tensor *)
Definition copyTensorLegs (ts : list tid) (tmap : list (tid * tid)) (added : list bid) (t : tid) : M (list bid) :=
  match dictGet tmap t with
  | None => raise KeyError
  | Some nt =>
    ps <- reads (fun h => combine (tlegs h t) (tlegs h nt)) ;;
    foldM (copyLeg ts tmap) ps added
  end.

(** optimalContract.py 8-60 [copyTensorList] *)
Definition copyTensorList (ts : list tid) (like : bool) : M (list tid) :=
  cs <- mapM (fun t => if like then toTensorLike t else copy t) ts ;;
  let tmap := combine ts cs in
  foldM (copyTensorLegs ts tmap) ts [] ;;;
  ret cs.

(** optimalContract.py 230-235: one step of the loop on the list of tensors; out-of-range positions are
    IndexErrors (negative positions are not modelled) *)
Definition seqStep (st : list tid * nat) (p : nat * nat) : M (list tid * nat) :=
  let (ts, cost) := st in
  let (s, t) := p in
  match nth_error ts s, nth_error ts t with
  | Some ta, Some tb =>
      '(c, _) <- contractCost ta tb ;;
      tc <- contractTwoTensors ta tb ;;
      ret (set_nth (Nat.min s t) tc ts, cost + c)
  | _, _ => raise IndexError
  end.

(** optimalContract.py 182-237 [contractAndCostWithSequence] for a given sequence; the list after the
    loop is returned too (with inplace the caller's list object holds it).  totalCost is a float in
    Python: exact here. *)
Definition contractWithSeq (ts : list tid) (seq : list (nat * nat)) (inplace : bool) : M (tid * nat * list tid) :=
  ts0 <- (if inplace then ret ts else copyTensorList ts false) ;;
  '(ts', cost) <- foldM seqStep seq (ts0, 0) ;;
  match ts' with
  | [] => raise IndexError
  | t0 :: _ => ret (t0, cost, ts')
  end.
End Contract.
