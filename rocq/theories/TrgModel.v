(** Model of funcs/decompose.py and of SquareTRG of examples/TRG.py.  What the code takes from numpy (singular values, roots, norm, division, conjugation,
    logarithm) is a record of functions: the theorems hold for all of them, or for all that satisfy the equations they state. *)
From Coq Require Import List Arith Bool String.
From Verif Require Import Base Sums NdModel HeapModel FuncsModel TensorModel SvdModel CanonModel ContractModel FtnModel NetsModel.
Import ListNotations.
Local Open Scope nat_scope.
Local Open Scope string_scope.
Local Open Scope list_scope.

(** numbers with logarithms in [B]; [nu_share x n] is x / n for an integer n *)
Record numerics (A B : Type) := mkNum {
  nu_lib : linalg A;
  nu_conj : A -> A;
  nu_norm : arr A -> A;
  nu_div : A -> A -> A;
  nu_log : A -> B;
  nu_zero : B;
  nu_plus : B -> B -> B;
  nu_share : B -> nat -> B }.
Arguments mkNum {A B}. Arguments nu_lib {A B}. Arguments nu_conj {A B}. Arguments nu_norm {A B}. Arguments nu_div {A B}.
Arguments nu_log {A B}. Arguments nu_zero {A B}. Arguments nu_plus {A B}. Arguments nu_share {A B}.

Section Trg.
Context {A B : Type} {HA : SR A}.
Notation heap := (heap A).
Notation M := (@M A).
Notation WM := (@WM A).
Variable symdiff : list nat -> list nat -> list nat.
Variable fuel : nat.
Variable num : numerics A B.
Local Notation "x <- m ;; k" := (wbind m (fun x => k)) (at level 100, m at next level, right associativity).
Local Notation "m ;;; k" := (wbind m (fun _ => k)) (at level 100, right associativity).

(** x ** n of a number *)
Fixpoint np_pow (x : A) (n : nat) : A := match n with O => r1 | S n' => rmul x (np_pow x n') end.
(** np.diag of a vector *)
Definition np_diagm (s : arr A) : arr A :=
  let n := List.length (adata s) in
  tab [n; n] (fun idx => let i := nth 0 idx 0 in if Nat.eqb i (nth 1 idx 0) then aget s [i] else r0).

(** decompose.py 31-44: the decomposition, cut to chi values, with the error.  Simplifications: chi is not negative (a negative chi would cut from the end);
    an array that is not a matrix raises ValueError (LinAlgError in the code); a sum over no values is 0 *)
Definition svdCut (a : arr A) (chi errorOrder : nat) : res (arr A * arr A * arr A * A) :=
  match ashape a with
  | [_; _] =>
      let '(u, s, vh) := np_svd (nu_lib num) a in
      let sLen := List.length (adata s) in
      let power := fun l : list A => sumL l (fun x => np_pow x errorOrder) in
      let error := if Nat.leb sLen chi then r0
                   else nu_div num (power (skipn chi (adata s))) (power (adata s)) in
      let k := Nat.min chi sLen in
      Ok (firstCols u k, firstEntries s k, firstRows vh k, error)
  | _ => Err ValueError
  end.
(** decompose.py 5-53 [SVDDecomposition] with returnSV = False *)
Definition SVDDecomposition (a : arr A) (chi errorOrder : nat) : res (arr A * arr A * A) :=
  letr p := svdCut a chi errorOrder in
  let '(u, s, vh, error) := p in
  let sqrtSMat := np_diagm (np_sqrts (nu_lib num) s) in
  letr uRes := np_matmul u sqrtSMat in
  letr sv := np_matmul sqrtSMat vh in
  letr vRes := transposeConjugate (nu_conj num) sv in
  Ok (uRes, vRes, error).

(** tensor.py 697-722, 780-823 [getLabelIndices] and [shapeOfLabels] with backward = False: a label that comes for the second time is searched from the back;
    a label that does not exist has index -1, which stands for the last leg *)
Fixpoint shapeOfLabelsAux (h : heap) (t : tid) (seen labs : list pname) : res (list nat) :=
  match labs with
  | [] => Ok []
  | lab :: labs' =>
      letr d := (match indexOfLabel h t lab (inb lab seen) with
                 | Some i => match nth_error (shape h t) i with Some d => Ok d | None => Err IndexError end
                 | None => match rev (shape h t) with d :: _ => Ok d | [] => Err IndexError end
                 end) in
      letr ds := shapeOfLabelsAux h t (lab :: seen) labs' in Ok (d :: ds)
  end.
Definition shapeOfLabels (h : heap) (t : tid) (labs : list pname) : res (list nat) := shapeOfLabelsAux h t [] labs.

(** the attributes of a SquareTRG object.  aNorms, errors and aArchive exist from line 132 on (None before).  [g_dof] is degreeOfFreedom of self.a,
    an archived tensor is stored with its own.  Simplification: the state of the object after an exception is not kept *)
Record trg := mkTrg {
  g_a : tid; g_b : tid; g_dof : nat; g_chi : nat; g_net : option nat;
  g_norms : option (list A); g_errors : option (list (A * A)); g_archive : option (list (tid * nat)) }.

(** t.a /= t.norm() of a tensor; the norm is the answer (TRG.py 144-145, tensor.py 965-975) *)
Definition divideByNorm (t : tid) : M A :=
  bind (reads (fun h => tens h t)) (fun r =>
  bind (assert (negb (t_like r))) (fun _ =>
  match t_arr r with
  | None => raise AttributeError
  | Some a => let n := nu_norm num a in bind (setArr t (Some (mkArr (ashape a) (map (fun x => nu_div num x n) (adata a))))) (fun _ => ret n)
  end)).
(** self.xs.append(x) *)
Definition append {X} (xs : option (list X)) (x : X) : WM (list X) := match xs with Some l => wret (l ++ [x]) | None => wraise AttributeError end.
(** TRG.py 143-146 [normalizeTensors] *)
Definition normalizeTensors (g : trg) : WM trg :=
  n <- lift (divideByNorm (g_a g)) ;;
  ns <- append (g_norms g) n ;;
  wret (mkTrg (g_a g) (g_b g) (g_dof g) (g_chi g) (g_net g) (Some ns) (g_errors g) (g_archive g)).
(** TRG.py 139-141 [appendToArchive] *)
Definition appendToArchive (g : trg) : WM trg :=
  g <- normalizeTensors g ;;
  match g_archive g with
  | None => wraise AttributeError
  | Some ar => c <- lift (copy (g_a g)) ;;
      wret (mkTrg (g_a g) (g_b g) (g_dof g) (g_chi g) (g_net g) (g_norms g) (g_errors g) (Some (ar ++ [(c, g_dof g)])))
  end.
(** Tensor(shape = (vDim, hDim, m.shape[1]), labels = [...], data = m) (TRG.py 177-180) *)
Definition halfTensor (v h : nat) (m : arr A) (labs : list string) : M tid :=
  mkDense (Some [v; h; nth 1 (ashape m) 0]) (Some (map NStr labs)) (Some m) None None false.
(** TRG.py 152-186 [iterate] *)
Definition iterate (g : trg) : WM trg :=
  f <- match g_net g with Some f => wret f | None => squareContractOutFTN end ;;
  dims <- lift (readsR (fun h => shapeOfLabels h (g_a g) [NStr "u"; NStr "l"])) ;;
  let v := nth 0 dims 0 in let hd := nth 1 dims 0 in
  aMat <- lift (readsR (fun h => toMatrix h (g_a g) (Some [RStr "u"; RStr "l"]) (Some [RStr "d"; RStr "r"]))) ;;
  bMat <- lift (readsR (fun h => toMatrix h (g_b g) (Some [RStr "u"; RStr "r"]) (Some [RStr "d"; RStr "l"]))) ;;
  pa <- wliftR (SVDDecomposition aMat (g_chi g) 2) ;;
  pb <- wliftR (SVDDecomposition bMat (g_chi g) 2) ;;
  let '(uA, vA, errorA) := pa in let '(uB, vB, errorB) := pb in
  dr <- lift (halfTensor v hd uA ["u"; "l"; "o"]) ;;
  ul <- lift (halfTensor v hd vA ["d"; "r"; "o"]) ;;
  dl <- lift (halfTensor v hd uB ["u"; "r"; "o"]) ;;
  ur <- lift (halfTensor v hd vB ["d"; "l"; "o"]) ;;
  a <- contract symdiff fuel f [("ul", ul); ("ur", ur); ("dl", dl); ("dr", dr)] true ;;
  g <- appendToArchive (mkTrg a a (g_dof g * 2) (g_chi g) (Some f) (g_norms g) (g_errors g) (g_archive g)) ;;
  es <- append (g_errors g) (errorA, errorB) ;;
  wret (mkTrg (g_a g) (g_b g) (g_dof g) (g_chi g) (g_net g) (g_norms g) (Some es) (g_archive g)).

(** an argument of the constructor: a tensor with its degreeOfFreedom, or an array *)
Inductive trgArg := TTensor (t : tid) (dof : option nat) | TArray (a : arr A).
(** TRG.py 115-118 *)
Definition ownTensor (x : trgArg) : M (tid * nat) :=
  match x with
  | TTensor t dof => bind (copy t) (fun c => ret (c, match dof with Some d => d | None => 1 end))
  | TArray a => bind (makeSquareTensor a ["u"; "l"; "d"; "r"]) (fun c => ret (c, 1))
  end.
(** TRG.py 111-137 [__init__]; a = None is an AssertionError *)
Definition newTrg (a b : option trgArg) (chi : nat) : WM trg :=
  match a with
  | None => wraise AssertionError
  | Some a =>
    p <- lift (ownTensor a) ;;
    g <- match b with
         | Some b => q <- lift (ownTensor b) ;; iterate (mkTrg (fst p) (fst q) (snd p) chi None None None None)
         | None => wret (mkTrg (fst p) (fst p) (snd p) chi None None None None)
         end ;;
    appendToArchive (mkTrg (g_a g) (g_b g) (g_dof g) (g_chi g) (g_net g) (Some []) (Some []) (Some []))
  end.
(** the loop calling iterate() n times *)
Fixpoint iterates (n : nat) (g : trg) : WM trg :=
  match n with O => wret g | S n' => g <- iterate g ;; iterates n' g end.

(** TRG.py 188-206 [logZDensity] *)
Fixpoint logZAux (h : heap) (acc : B) (norms : list A) (ar : list (tid * nat)) : res (list B) :=
  match ar with
  | [] => Ok []
  | (t, dof) :: ar' =>
      match norms with
      | [] => Err IndexError
      | n :: ns =>
          let acc := nu_plus num acc (nu_share num (nu_log num n) dof) in
          letr tr := trace h t (Some [RStr "u"; RStr "l"]) (Some [RStr "d"; RStr "r"]) in
          letr rest := logZAux h acc ns ar' in
          Ok (nu_plus num acc (nu_share num (nu_log num tr) dof) :: rest)
      end
  end.
Definition logZDensity (h : heap) (g : trg) : res (list B) :=
  match g_archive g, g_norms g with
  | Some ar, Some ns => logZAux h (nu_zero num) ns ar
  | _, _ => Err AttributeError
  end.
End Trg.
Arguments trgArg : clear implicits. Arguments trg : clear implicits.
