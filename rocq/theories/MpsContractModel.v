(** Model of examples/MPS.py 246-253 and 325-482, 546-580: hasTensor, tensorIndex, toTensor, commonLegs, commonBonds, contractMPS,
    doubleMerge, getBondTensorIndices, doubleMergeByBond, mergeMPS, contractWithMPS.
    MPS objects are values (see MpsModel): a function that changes its arguments returns the changed objects.  contractMPS also
    changes its arguments, but its only caller drops both of them; the changed objects are not returned here.
    Warnings are not modelled. *)
From Coq Require Import List Arith Bool String ZArith.
From Verif Require Import Base Sums NdModel HeapModel FuncsModel TensorModel ContractModel SvdModel MpsModel MpsCreateModel
  SearchModel NetGraphModel.
Import ListNotations.

(** what the list mpses of contractWithMPS can hold: a FreeBoundaryMPS, a Tensor (the result of contractMPS when nothing is left
    outside) or None *)
Inductive mobj := OMps (m : mps) | OTensor (t : tid) | ONone.

Section Contract.
Context {A : Type} {HA : SR A}.
Notation heap := (heap A).
Notation M := (@M A).
Variable lib : linalg A.

(** MPS.py 154-155 [getTensor]: self._tensors[idx], negative indices count from the end *)
Definition getTensor (i : Z) (m : mps) : res tid :=
  if Z.leb 0 i && Z.ltb i (mlen m) then Ok (site m i)
  else if Z.leb (- mlen m) i && Z.ltb i 0 then Ok (site m (i + mlen m))
  else Err IndexError.

(** MPS.py 246-250 [hasTensor], [tensorIndex]; tensors are compared by identity.  The argument may be None (a leg without tensor).
    Tensor and None have no such methods. *)
Definition hasTensor (o : mobj) (t : option tid) : res bool :=
  match o with OMps m => Ok (inb t (map Some (m_ts m))) | _ => Err AttributeError end.
Definition tensorIndex (o : mobj) (t : option tid) : res nat :=
  match o with
  | OMps m => match index_of t (map Some (m_ts m)) with Some i => Ok i | None => Err ValueError end
  | _ => Err AttributeError
  end.

(** leg.anotherSide().tensor *)
Definition otherTensor (h : heap) (l : lid) : res (option tid) :=
  letr o := anotherSide h l in
  match o with Some l' => Ok (l_tensor (legs h l')) | None => Err AttributeError end.
(** tensor.getLeg('o'), whose bond is then read *)
Definition outLeg (h : heap) (t : tid) : res lid :=
  match getLeg h t (NStr "o") false with Some l => Ok l | None => Err AttributeError end.

(** MPS.py 325-336 [commonLegs]; the two lists are returned as a list of pairs *)
Fixpoint commonLegsFrom (h : heap) (i : nat) (ts : list tid) (o : mobj) : res (list (nat * nat)) :=
  match ts with
  | [] => Ok []
  | t :: ts' =>
      letr l := outLeg h t in
      match legbond h l with
      | None => commonLegsFrom h (S i) ts' o
      | Some _ =>
          letr t' := otherTensor h l in
          letr b := hasTensor o t' in
          if b then letr j := tensorIndex o t' in letr r := commonLegsFrom h (S i) ts' o in Ok ((i, j) :: r)
          else commonLegsFrom h (S i) ts' o
      end
  end.
Definition commonLegs (h : heap) (m : mps) (o : mobj) : res (list (nat * nat)) := commonLegsFrom h 0 (m_ts m) o.

(** MPS.py 338-347 [commonBonds] *)
Fixpoint commonBonds (h : heap) (ts : list tid) (o : mobj) : res (list bid) :=
  match ts with
  | [] => Ok []
  | t :: ts' =>
      letr l := outLeg h t in
      match legbond h l with
      | None => commonBonds h ts' o
      | Some bd =>
          letr t' := otherTensor h l in
          letr b := hasTensor o t' in
          letr r := commonBonds h ts' o in
          Ok (if b then bd :: r else r)
      end
  end.

(** MPS.py 381-401: the rest of contractMPS once the positions of the common leg are known *)
Definition contractAt (i j : nat) (a b : mps) : M mobj :=
  a <- moveTensor lib (Z.of_nat i) (mlen a - 1) a ;;
  b <- moveTensor lib (Z.of_nat j) 0 b ;;
  ta <- liftR (getTensor (mlen a - 1) a) ;;
  tb <- liftR (getTensor 0 b) ;;
  t <- contractTwoTensors ta tb ;;
  d <- reads (fun h => tdim h t) ;;
  if Nat.eqb d 0 then ret (OTensor t) else
  ts <- (if Z.ltb 1 (mlen a) then
           t2 <- liftR (getTensor (-2) a) ;;
           t' <- contractTwoTensors t2 t ;;
           ret (firstn (List.length (m_ts a) - 2) (m_ts a) ++ [t'] ++ skipn 1 (m_ts b))
         else
           t2 <- liftR (getTensor 1 b) ;;
           t' <- contractTwoTensors t t2 ;;
           ret (firstn (List.length (m_ts a) - 1) (m_ts a) ++ [t'] ++ skipn 2 (m_ts b))) ;;
  '(m, _) <- newMps ts (Some (Z.min (m_chi a) (m_chi b))) ;;
  ret (OMps m).
(** MPS.py 349-401 [contractMPS] *)
Definition contractMPS (oa ob : mobj) : M mobj :=
  match oa with
  | OMps a =>
      ps <- readsR (fun h => commonLegs h a ob) ;;
      match ps with
      | [(i, j)] => match ob with OMps b => contractAt i j a b | _ => raise AttributeError end
      | _ => raise AssertionError
      end
  | _ => raise AttributeError
  end.

(** MPS.py 403-423 [doubleMerge] *)
Definition doubleMerge (a b : mps) (ia ib : Z) : M (mps * mps * bid) :=
  a1 <- liftR (getTensor ia a) ;; a2 <- liftR (getTensor (ia + 1) a) ;; ta <- contractTwoTensors a1 a2 ;;
  b1 <- liftR (getTensor ib b) ;; b2 <- liftR (getTensor (ib + 1) b) ;; tb <- contractTwoTensors b1 b2 ;;
  '(ta, tb) <- merge lib ta tb None (Some (NStr "o")) ;;
  a <- mergeTensor ia ta a ;;
  b <- mergeTensor ib tb b ;;
  a <- canonicalize lib ia a ;;
  b <- canonicalize lib ib b ;;
  ta <- liftR (getTensor ia a) ;; tb <- liftR (getTensor ib b) ;;
  '(ta, tb) <- merge lib ta tb (Some (Z.min (m_chi a) (m_chi b))) (Some (NStr "o")) ;;
  a <- setTensor ia ta a ;;
  b <- setTensor ib tb b ;;
  sb <- shareBonds ta tb ;;
  match sb with [x] => ret (a, b, x) | _ => raise AssertionError end.

(** MPS.py 425-435 [getBondTensorIndices] *)
Definition getBondTensorIndices (h : heap) (a b : mps) (bd : bid) : res (nat * nat) :=
  let ta := l_tensor (legs h (b0 (bonds h bd))) in
  let tb := l_tensor (legs h (b1 (bonds h bd))) in
  let '(ta, tb) := if inb ta (map Some (m_ts a)) then (ta, tb) else (tb, ta) in
  if negb (inb ta (map Some (m_ts a))) then Err AssertionError else
  if negb (inb tb (map Some (m_ts b))) then Err AssertionError else
  letr i := tensorIndex (OMps a) ta in
  letr j := tensorIndex (OMps b) tb in
  Ok (i, j).

(** MPS.py 437-449 [doubleMergeByBond] *)
Definition doubleMergeByBond (a b : mps) (bd1 bd2 : bid) : M (mps * mps * bid) :=
  '(ia1, ib1) <- readsR (fun h => getBondTensorIndices h a b bd1) ;;
  '(ia2, ib2) <- readsR (fun h => getBondTensorIndices h a b bd2) ;;
  '(a, ia1, ia2) <- makeAdjacent lib (Z.of_nat ia1) (Z.of_nat ia2) a ;;
  '(b, ib1, ib2) <- makeAdjacent lib (Z.of_nat ib1) (Z.of_nat ib2) b ;;
  assert (Z.eqb (ia1 + 1) ia2 && Z.eqb (ib1 + 1) ib2) ;;;
  doubleMerge a b ia1 ib1.

(** MPS.py 479-482: the loop, with the first bond apart *)
Fixpoint mergeBonds (a b : mps) (bd : bid) (bds : list bid) : M (mps * mps) :=
  match bds with
  | [] => ret (a, b)
  | bd' :: bds' => '(a, b, x) <- doubleMergeByBond a b bd bd' ;; mergeBonds a b x bds'
  end.
(** MPS.py 451-482 [mergeMPS]; at most one common bond: nothing happens.  With a common bond the second argument is an MPS (else
    hasTensor has raised). *)
Definition mergeMPS (oa ob : mobj) (begin : bool) : M (mobj * mobj) :=
  match oa with
  | OMps a =>
      bds <- readsR (fun h => commonBonds h (m_ts a) ob) ;;
      match bds with
      | bd :: ((_ :: _) as bds') =>
          assert (begin || Nat.eqb (List.length bds) 2) ;;;
          match ob with
          | OMps b => '(a, b) <- mergeBonds a b bd bds' ;; ret (OMps a, OMps b)
          | _ => raise AttributeError
          end
      | _ => ret (oa, ob)
      end
  | _ => raise AttributeError
  end.

Variable symdiff : list nat -> list nat -> list nat.
Variable fuel : nat.

(** MPS.py 252-253 [toTensor] *)
Definition mpsToTensor (m : mps) : M tid := contractWithSequence symdiff fuel (m_ts m) None false (Some 10) false.

(** mergeMPS(mpses[i], mpses[j]) *)
Definition mergePair (begin : bool) (i j : nat) (ms : list mobj) : M (list mobj) :=
  '(a, b) <- mergeMPS (nth i ms ONone) (nth j ms ONone) begin ;;
  ret (set_nth j b (set_nth i a ms)).
(** MPS.py 558-560: i < j < n in lexicographic order *)
Definition orderedPairs (n : nat) : list (nat * nat) :=
  flat_map (fun i => map (fun j => (i, j)) (seq (S i) (n - S i))) (seq 0 n).
Fixpoint mergeAll (ps : list (nat * nat)) (ms : list mobj) : M (list mobj) :=
  match ps with
  | [] => ret ms
  | (i, j) :: ps' => ms <- mergePair true i j ms ;; mergeAll ps' ms
  end.
(** MPS.py 571-573: the rounds for the positions [js] *)
Fixpoint mergeOthers (loc : nat) (js : list nat) (ms : list mobj) : M (list mobj) :=
  match js with
  | [] => ret ms
  | j :: js' =>
      match Nat.eqb j loc, nth j ms ONone with
      | false, ONone | true, _ => mergeOthers loc js' ms
      | false, _ => ms <- mergePair false loc j ms ;; mergeOthers loc js' ms
      end
  end.
(** MPS.py 562-573: one pair of the sequence (the indices are natural numbers) *)
Definition contractPair (n s t : nat) (ms : list mobj) : M (list mobj) :=
  let loc := Nat.min s t in
  a <- liftR (match nth_error ms s with Some a => Ok a | None => Err IndexError end) ;;
  b <- liftR (match nth_error ms t with Some b => Ok b | None => Err IndexError end) ;;
  c <- contractMPS a b ;;
  mergeOthers loc (seq 0 n) (set_nth (s + t - loc) ONone (set_nth loc c ms)).
Fixpoint contractPairs (n : nat) (sq : list (nat * nat)) (ms : list mobj) : M (list mobj) :=
  match sq with
  | [] => ret ms
  | (s, t) :: sq' => ms <- contractPair n s t ms ;; contractPairs n sq' ms
  end.
(** MPS.py 577-580: a Tensor, or None if the sequence has left nothing at position 0 *)
Definition finalTensor (ms : list mobj) : M (option tid) :=
  match ms with
  | [] => raise IndexError
  | OMps m :: _ => t <- mpsToTensor m ;; ret (Some t)
  | OTensor t :: _ => ret (Some t)
  | ONone :: _ => ret None
  end.
(** MPS.py 546-580 [contractWithMPS]; chi is a natural number *)
Definition contractWithMPS (tl : list tid) (chi : nat) (sq : option (list (nat * nat))) (greedyFlag : bool) : M (option tid) :=
  s <- match sq with
       | Some s => ret s
       | None => p <- readsR (fun h => if greedyFlag then generateGreedySequence symdiff fuel h tl
                                       else generateOptimalSequence symdiff fuel h tl false (Some 10)) ;;
                 ret (fst p)
       end ;;
  ms <- mapM (fun t => '(m, _) <- createMPSFromTensor lib t (Some chi) ;; ret (OMps m)) tl ;;
  let n := List.length tl in
  ms <- mergeAll (orderedPairs n) ms ;;
  ms <- contractPairs n s ms ;;
  finalTensor ms.
End Contract.
