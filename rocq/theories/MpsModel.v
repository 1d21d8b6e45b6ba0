(** Model of examples/MPS.py: class FreeBoundaryMPS (checkMPSProperty, getChi, renameBonds, __init__, canonicalize, setTensor, swap,
    isIndex, moveTensor, makeAdjacent, mergeTensor).
    An MPS object is a value that the methods take and return; the attribute internalBonds is only read by __init__.  After an
    exception the heap is modelled but not the MPS object.  The list given to __init__ with inplace = True is the attribute
    itself in Python (the caller sees the changes); inplace = False is not modelled. *)
From Coq Require Import List Arith Bool String ZArith.
From Verif Require Import Base Sums NdModel HeapModel FuncsModel TensorModel ContractModel SvdModel.
Import ListNotations.

(** MPS.py 78-93: the attributes _tensors, chi, activeIdx *)
Record mps := mkMps { m_ts : list tid; m_chi : Z; m_active : option Z }.

Section Mps.
Context {A : Type} {HA : SR A}.
Notation heap := (heap A).
Notation M := (@M A).
Variable lib : linalg A.

(** MPS.py 33-35: the loop over neighbours, left by the first pair that does not share exactly one bond *)
Fixpoint sharedOnce (ts : list tid) : M bool :=
  match ts with
  | ta :: ((tb :: _) as ts') =>
      bs <- shareBonds ta tb ;;
      if Nat.eqb (List.length bs) 1 then sharedOnce ts' else ret false
  | _ => ret true
  end.
(** MPS.py 24-44 [checkMPSProperty] *)
Definition checkMPSProperty (ts : list tid) : M bool :=
  match ts with
  | [] => ret false
  | _ =>
    ok <- sharedOnce ts ;;
    if negb ok then ret false else
    ds <- reads (fun h => map (tdim h) ts) ;;
    if Nat.ltb 1 (List.length ts) && (negb (Nat.eqb (hd 0 ds) 2) || negb (Nat.eqb (last ds 0) 2)) then ret false else
    ret (forallb (Nat.eqb 3) (removelast (tl ds)))
  end.

(** MPS.py 50-53: the minimum starting from -1 *)
Fixpoint bondChi (ts : list tid) (c : Z) : M Z :=
  match ts with
  | ta :: ((tb :: _) as ts') =>
      bs <- shareBonds ta tb ;;
      match bs with
      | [] => raise IndexError
      | b :: _ => d <- reads (fun h => legdim h (b0 (bonds h b))) ;; bondChi ts' (Z.min c (Z.of_nat d))
      end
  | _ => ret c
  end.
(** MPS.py 46-61 [getChi]; the flag tells whether the warning is issued *)
Definition getChi (ts : list tid) (chi : option Z) : M (Z * bool) :=
  bc <- bondChi ts (-1)%Z ;;
  match chi with
  | None => ret (bc, false)
  | Some c => if Z.ltb c bc then ret (bc, true) else ret (c, false)
  end.

(** MPS.py 66-71; the bonds seen are returned *)
Fixpoint renamePairs (ts : list tid) : M (list bid) :=
  match ts with
  | ta :: ((tb :: _) as ts') =>
      bs <- shareBonds ta tb ;;
      match bs with
      | [] => raise IndexError
      | b :: _ =>
          la <- readsR (fun h => sideLeg h b ta) ;; setLegName la (NStr "r") ;;;
          lb <- readsR (fun h => sideLeg h b tb) ;; setLegName lb (NStr "l") ;;;
          r <- renamePairs ts' ;;
          ret (b :: r)
      end
  | _ => ret []
  end.
(** MPS.py 63-76 [renameBonds] *)
Definition renameBonds (ts : list tid) : M unit :=
  inn <- renamePairs ts ;;
  iterM (fun t =>
    ls <- reads (fun h => tlegs h t) ;;
    iterM (fun l =>
      b <- reads (fun h => legbond h l) ;;
      if inb b (map Some inn) then ret tt else setLegName l (NStr "o")) ls) ts.

(** MPS.py 78-93 [__init__] with inplace = True; the flag is that of getChi *)
Definition newMps (ts : list tid) (chi : option Z) : M (mps * bool) :=
  ok <- checkMPSProperty ts ;;
  check ok ValueError ;;;
  '(c, w) <- getChi ts chi ;;
  renameBonds ts ;;;
  ret (mkMps ts c None, w).

(** MPS.py 95-97 [n] and 208-209 [isIndex] (the arguments are ints) *)
Definition mlen (m : mps) : Z := Z.of_nat (List.length (m_ts m)).
Definition isIndex (m : mps) (i : Z) : bool := Z.leb 0 i && Z.ltb i (mlen m).
(** self._tensors[i] for an index in [0, n) *)
Definition site (m : mps) (i : Z) : tid := nth (Z.to_nat i) (m_ts m) 0.
Definition setSite (i : Z) (t : tid) (ts : list tid) : list tid := set_nth (Z.to_nat i) t ts.

(** MPS.py 150-153 [setTensor] *)
Definition setTensor (i : Z) (t : tid) (m : mps) : M mps :=
  assert (isIndex m i) ;;;
  ret (mkMps (setSite i t (m_ts m)) (m_chi m) None).

(** MPS.py 157-163 [swap] *)
Definition swap (a b : Z) (m : mps) : M mps :=
  assert (isIndex m a && isIndex m b && Z.eqb (Z.abs (a - b)) 1) ;;;
  '(u, _, v) <- schimdt lib (site m a) (site m b) (m_chi m) true ["o"%string] ["o"%string] ;;
  ret (mkMps (setSite b v (setSite a u (m_ts m))) (m_chi m) None).

(** range(i, j) and range(i, j, -1) *)
Definition rangeUp (i j : Z) : list Z := map (fun k => i + Z.of_nat k)%Z (seq 0 (Z.to_nat (j - i))).
Definition rangeDown (i j : Z) : list Z := map (fun k => i - Z.of_nat k)%Z (seq 0 (Z.to_nat (i - j))).

(** the loops of swaps *)
Fixpoint swaps (ps : list (Z * Z)) (m : mps) : M mps :=
  match ps with
  | [] => ret m
  | (a, b) :: ps' => m' <- swap a b m ;; swaps ps' m'
  end.

(** MPS.py 211-228 [moveTensor]; the warning for equal positions is not modelled *)
Definition moveTensor (i j : Z) (m : mps) : M mps :=
  assert (isIndex m i && isIndex m j) ;;;
  if Z.eqb i j then ret m
  else if Z.ltb i j then swaps (map (fun k => (k, k + 1)%Z) (rangeUp i j)) m
  else swaps (map (fun k => (k, k - 1)%Z) (rangeDown i j)) m.

(** MPS.py 230-238 [makeAdjacent] *)
Definition makeAdjacent (i j : Z) (m : mps) : M (mps * Z * Z) :=
  assert (isIndex m i && isIndex m j) ;;;
  assert (negb (Z.eqb i j)) ;;;
  let (i', j') := if Z.ltb j i then (j, i) else (i, j) in
  m' <- swaps (map (fun k => (k, k + 1)%Z) (rangeUp i' (j' - 1))) m ;;
  ret (m', (j' - 1)%Z, j').

(** MPS.py 240-244 [mergeTensor] *)
Definition mergeTensor (i : Z) (t : tid) (m : mps) : M mps :=
  assert (isIndex m i && isIndex m (i + 1)) ;;;
  ret (mkMps (firstn (Z.to_nat i) (m_ts m) ++ [t] ++ skipn (Z.to_nat i + 2) (m_ts m)) (m_chi m) (m_active m)).

(** MPS.py 135-139, 141-146: one step of canonicalize *)
Definition canonStep (a b : Z) (m : mps) : M mps :=
  '(u, s, v) <- schimdt lib (site m a) (site m b) (m_chi m) false [] [] ;;
  match s with
  | None => raise OutOfFuel     (* not reached: without square roots s is a tensor *)
  | Some s =>
      sv <- contractTwoTensors s v ;;
      ret (mkMps (setSite b sv (setSite a u (m_ts m))) (m_chi m) (m_active m))
  end.
Fixpoint canonSteps (ps : list (Z * Z)) (m : mps) : M mps :=
  match ps with
  | [] => ret m
  | (a, b) :: ps' => m' <- canonStep a b m ;; canonSteps ps' m'
  end.
(** MPS.py 126-148 [canonicalize] *)
Definition canonicalize (i : Z) (m : mps) : M mps :=
  assert (isIndex m i) ;;;
  m1 <- canonSteps (map (fun k => (k, k + 1)%Z) (rangeUp 0 i)) m ;;
  m2 <- canonSteps (map (fun k => (k, k - 1)%Z) (rangeDown (mlen m - 1) i)) m1 ;;
  ret (mkMps (m_ts m2) (m_chi m2) (Some i)).
End Mps.
