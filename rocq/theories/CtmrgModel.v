(** Model of tensorSVDDecomposition of tensor/tensorFunc.py and of examples/CTMRG.py. *)
From Coq Require Import List Arith Bool String.
From Verif Require Import Base Sums NdModel HeapModel FuncsModel TensorModel SvdModel CanonModel ContractModel FtnModel NetsModel TrgModel.
Import ListNotations.
Local Open Scope nat_scope.
Local Open Scope string_scope.
Local Open Scope list_scope.

(** xp.exp, and the product of an int and a float *)
Record exponential (A B : Type) := mkExp { ex_exp : B -> A; ex_times : nat -> B -> B }.
Arguments mkExp {A B}. Arguments ex_exp {A B}. Arguments ex_times {A B}.

(** the seven networks of a CTMRG object (CTMRG.py 39-47) *)
Record cnets := mkCnets { c_hExt : nat; c_vExt : nat; c_cExt : nat; c_vBuild : nat; c_hBuild : nat; c_even : nat; c_odd : nat }.
(** the attributes of a CTMRG object: self.tensors, self.logScale and self.records have the keys corner, hEdge and vEdge.
    Simplification: the state of the object after an exception is not kept *)
Record ctmrg (A B : Type) := mkCtmrg {
  m_a : tid; m_chi : nat; m_nets : cnets;
  m_corner : tid; m_hEdge : tid; m_vEdge : tid;
  m_cLog : B; m_hLog : B; m_vLog : B;
  m_cRec : list (tid * B); m_hRec : list (tid * B); m_vRec : list (tid * B);
  m_errors : list A }.
Arguments mkCtmrg {A B}. Arguments m_a {A B}. Arguments m_chi {A B}. Arguments m_nets {A B}. Arguments m_corner {A B}. Arguments m_hEdge {A B}. Arguments m_vEdge {A B}.
Arguments m_cLog {A B}. Arguments m_hLog {A B}. Arguments m_vLog {A B}. Arguments m_cRec {A B}. Arguments m_hRec {A B}. Arguments m_vRec {A B}. Arguments m_errors {A B}.

Section Ctmrg.
Context {A B : Type} {HA : SR A}.
Notation heap := (heap A).
Notation M := (@M A).
Notation WM := (@WM A).
Notation ctmrg := (ctmrg A B).
Variable symdiff : list nat -> list nat -> list nat.
Variable fuel : nat.
Variable num : numerics A B.
Variable ex : exponential A B.
Local Notation "x <- m ;; k" := (wbind m (fun x => k)) (at level 100, m at next level, right associativity).
Local Notation "m ;;; k" := (wbind m (fun _ => k)) (at level 100, right associativity).

(** '|'.join(names); None is a TypeError *)
Definition joined (names : option (list string)) : res string := match names with Some l => Ok (String.concat "|" l) | None => Err TypeError end.
(** tensorFunc.py 41-114 [tensorSVDDecomposition]; the answer is (u, s, v, error).  preserveLegs is set to False by line 74.
    Simplification: innerLabels is None or a pair (anything else is an AssertionError) *)
Definition tensorSVDDecomposition (a : tid) (rows cols : option (list string)) (innerLabels : option (string * string)) (chi errorOrder : nat) : WM (tid * tid * tid * A) :=
  aMat <- lift (readsR (fun h => toMatrix h a (option_map (map RStr) rows) (option_map (map RStr) cols))) ;;
  rowName <- wliftR (joined rows) ;;
  colName <- wliftR (joined cols) ;;
  let (rowLabel, colLabel) := match innerLabels with Some p => p | None => ("inner:" ++ rowName, "inner:" ++ colName)%string end in
  p <- wliftR (svdCut num aMat chi errorOrder) ;;
  let '(u, s, vh, error) := p in
  uT <- lift (mkDense None (Some (map NStr [rowName; rowLabel])) (Some u) None None false) ;;
  sT <- lift (mkDiag None (Some (map NStr [rowName; colName])) (Some s) None None false) ;;
  vT <- lift (mkDense None (Some (map NStr [colLabel; colName])) (Some vh) None None false) ;;
  wret (uT, sT, vT, error).

(** CTMRG.py 39-47 [setFTNs] *)
Definition setFTNs : WM cnets :=
  he <- CTMRGHEdgeExtendFTN ;; ve <- CTMRGVEdgeExtendFTN ;; ce <- CTMRGCornerExtendFTN ;;
  vb <- CTMRGVEdgeBuildFTN ;; hb <- CTMRGHEdgeBuildFTN ;;
  ev <- CTMRGEvenZFTN ;; od <- CTMRGOddFTN ;;
  wret (mkCnets he ve ce vb hb ev od).
(** CTMRG.py 59-88 [reduceDimension]: corner, hEdge, vEdge and the error *)
Definition reduceDimension (chi : nat) (fs : cnets) (corner hEdge vEdge : tid) : WM (tid * tid * tid * A) :=
  p <- tensorSVDDecomposition corner (Some ["u"]) (Some ["r"]) (Some ("d", "l")) chi 4 ;;
  let '(u, s, v, error) := p in
  au <- lift (copy u) ;; ad <- lift (copy u) ;;
  al <- lift (copy v) ;; ar <- lift (copy v) ;;
  newV <- contract symdiff fuel (c_vBuild fs) [("au", au); ("ad", ad); ("p", vEdge)] true ;;
  newH <- contract symdiff fuel (c_hBuild fs) [("al", al); ("ar", ar); ("p", hEdge)] true ;;
  h <- lift (copy newH) ;;
  lift (reArrange h [NStr "u"; NStr "l"; NStr "r"]) ;;;
  wret (s, newH, newV, error).
(** CTMRG.py 49-57 [__init__] with 14-26 [setInitialTensors] and 28-33 [setRecords].  Simplification: chi is not negative *)
Definition newCtmrg (a : tid) (chi : nat) : WM ctmrg :=
  own <- lift (copy a) ;;
  labs <- wreads (fun w => labels (w_heap w) a) ;;
  (if compareLists labs (map NStr ["l"; "r"; "u"; "d"]) then wret tt else wraise AssertionError) ;;;
  fs <- setFTNs ;;
  corner <- lift (copy own) ;; hEdge <- lift (copy own) ;; vEdge <- lift (copy own) ;;
  lift (sumOutLegsByLabel corner (map NStr ["d"; "l"]) false None) ;;;
  lift (sumOutLegByLabel hEdge (NStr "d") false None) ;;;
  lift (sumOutLegByLabel vEdge (NStr "l") false None) ;;;
  p <- reduceDimension chi fs corner hEdge vEdge ;;
  let '(c, h, v, error) := p in
  wret (mkCtmrg own chi fs c h v (nu_zero num) (nu_zero num) (nu_zero num) [] [] [] [error]).
(** CTMRG.py 35-37 [pushTensors] *)
Definition pushTensors (g : ctmrg) : WM ctmrg :=
  c <- lift (copy (m_corner g)) ;; h <- lift (copy (m_hEdge g)) ;; v <- lift (copy (m_vEdge g)) ;;
  wret (mkCtmrg (m_a g) (m_chi g) (m_nets g) (m_corner g) (m_hEdge g) (m_vEdge g) (m_cLog g) (m_hLog g) (m_vLog g)
    (m_cRec g ++ [(c, m_cLog g)]) (m_hRec g ++ [(h, m_hLog g)]) (m_vRec g ++ [(v, m_vLog g)]) (m_errors g)).
(** CTMRG.py 90-121 [iterate].  The local variables cornerNorm, hEdgeNorm and vEdgeNorm are part of the answer, for use in theorems *)
Definition iterateC (g : ctmrg) : WM (ctmrg * (A * A * A)) :=
  g <- pushTensors g ;;
  corner <- lift (copy (m_corner g)) ;; hEdge <- lift (copy (m_hEdge g)) ;; vEdge <- lift (copy (m_vEdge g)) ;;
  let fs := m_nets g in
  newH <- contract symdiff fuel (c_hExt fs) [("p", hEdge); ("w", m_a g)] true ;;
  newV <- contract symdiff fuel (c_vExt fs) [("p", vEdge); ("w", m_a g)] true ;;
  newC <- contract symdiff fuel (c_cExt fs) [("ph", hEdge); ("pv", vEdge); ("w", m_a g); ("c", corner)] true ;;
  p <- reduceDimension (m_chi g) fs newC newH newV ;;
  let '(c, h, v, error) := p in
  nc <- lift (divideByNorm num c) ;; nh <- lift (divideByNorm num h) ;; nv <- lift (divideByNorm num v) ;;
  let plus := nu_plus num in
  let cl := plus (plus (plus (nu_log num nc) (m_cLog g)) (m_hLog g)) (m_vLog g) in
  let vl := plus (nu_log num nv) (m_vLog g) in
  let hl := plus (nu_log num nh) (m_hLog g) in
  wret (mkCtmrg (m_a g) (m_chi g) fs c h v cl hl vl (m_cRec g) (m_hRec g) (m_vRec g) (m_errors g ++ [error]), (nc, nh, nv)).

(** CTMRG.py 142-145 [getTensorAndScale] *)
Definition getTensorAndScale (l : list (tid * B)) (idx : option nat) : WM (tid * B) :=
  match (match idx with Some i => nth_error l i | None => nth_error (rev l) 0 end) with
  | None => wraise IndexError
  | Some (t, x) => c <- lift (copy t) ;; wret (c, x)
  end.
(** CTMRG.py 156-157: one iteration adds one record, so [order] turns are enough *)
Fixpoint growTo (turns order : nat) (g : ctmrg) : WM ctmrg :=
  match turns with
  | 0 => wret g
  | S turns' => if Nat.ltb (List.length (m_cRec g) + 1) order then p <- iterateC g ;; growTo turns' order (fst p) else wret g
  end.
(** CTMRG.py 147-186 [getZ]; the object changes.  Simplification: L is not negative.  For L = 0 the index is -1, the last record (None here) *)
Definition getZ (g : ctmrg) (L : nat) : WM (ctmrg * A) :=
  if Nat.eqb L 1 then
    a <- lift (copy (m_a g)) ;;
    lift (sumOutLegsByLabel a (map NStr ["l"; "r"; "u"; "d"]) false None) ;;;
    z <- lift (readsR (fun h => single h a)) ;;
    wret (g, z)
  else
    let order := L / 2 in
    g <- growTo order order g ;;
    let now := Nat.eqb (List.length (m_cRec g) + 1) order in
    let idx := if Nat.eqb order 0 then None else Some (order - 1) in
    let get := fun t x l => if now : bool then c <- lift (copy t) ;; wret (c, x) else getTensorAndScale l idx in
    pc <- get (m_corner g) (m_cLog g) (m_cRec g) ;;
    let (corner, cLog) := (pc : tid * B) in
    if Nat.eqb (L mod 2) 1 then
      ph <- get (m_hEdge g) (m_hLog g) (m_hRec g) ;;
      pv <- get (m_vEdge g) (m_vLog g) (m_vRec g) ;;
      let (hEdge, hLog) := (ph : tid * B) in let (vEdge, vLog) := (pv : tid * B) in
      res <- contract symdiff fuel (c_odd (m_nets g)) [("alu", corner); ("ald", corner); ("aru", corner); ("ard", corner);
               ("pl", vEdge); ("pr", vEdge); ("pd", hEdge); ("pu", hEdge); ("w", m_a g)] true ;;
      z <- lift (readsR (fun h => single h res)) ;;
      wret (g, rmul z (ex_exp ex (nu_plus num (nu_plus num (ex_times ex 4 cLog) (ex_times ex 2 hLog)) (ex_times ex 2 vLog))))
    else
      res <- contract symdiff fuel (c_even (m_nets g)) [("alu", corner); ("ald", corner); ("aru", corner); ("ard", corner)] true ;;
      z <- lift (readsR (fun h => single h res)) ;;
      wret (g, rmul z (ex_exp ex (ex_times ex 4 cLog))).
End Ctmrg.
