(** Model of TriangleTRG of examples/TRG.py.  The numerical functions are those of TrgModel. *)
From Coq Require Import List Arith Bool String.
From Verif Require Import Base Sums NdModel HeapModel FuncsModel TensorModel SvdModel ContractModel FtnModel NetsModel TrgModel.
Import ListNotations.
Local Open Scope nat_scope.
Local Open Scope string_scope.
Local Open Scope list_scope.

Section Tri.
Context {A B : Type} {HA : SR A}.
Notation heap := (heap A).
Notation M := (@M A).
Notation WM := (@WM A).
Variable symdiff : list nat -> list nat -> list nat.
Variable fuel : nat.
Variable num : numerics A B.
Local Notation "x <- m ;; k" := (wbind m (fun x => k)) (at level 100, m at next level, right associativity).
Local Notation "m ;;; k" := (wbind m (fun _ => k)) (at level 100, right associativity).

(** the attributes of a TriangleTRG object.  [p_dofA] and [p_dofB] are degreeOfFreedom of self.a and self.b; an archived tensor is stored with its own.
    Simplifications: the state of the object after an exception is not kept; alpha, which is not used after the constructor, is not stored *)
Record tri := mkTri {
  p_a : tid; p_b : tid; p_dofA : nat; p_dofB : nat; p_chi : nat; p_net : option nat;
  p_aNorms : list A; p_bNorms : list A; p_errors : list A; p_aArchive : list (tid * nat); p_bArchive : list (tid * nat) }.

(** TRG.py 49-55 [normalizeTensors] *)
Definition normalizeTri (g : tri) : WM tri :=
  na <- lift (divideByNorm num (p_a g)) ;;
  nb <- lift (divideByNorm num (p_b g)) ;;
  wret (mkTri (p_a g) (p_b g) (p_dofA g) (p_dofB g) (p_chi g) (p_net g) (p_aNorms g ++ [na]) (p_bNorms g ++ [nb]) (p_errors g) (p_aArchive g) (p_bArchive g)).
(** TRG.py 44-47 [appendToArchive] *)
Definition appendTri (g : tri) : WM tri :=
  g <- normalizeTri g ;;
  ca <- lift (copy (p_a g)) ;;
  cb <- lift (copy (p_b g)) ;;
  wret (mkTri (p_a g) (p_b g) (p_dofA g) (p_dofB g) (p_chi g) (p_net g) (p_aNorms g) (p_bNorms g) (p_errors g)
    (p_aArchive g ++ [(ca, p_dofA g)]) (p_bArchive g ++ [(cb, p_dofB g)])).

(** TRG.py 26-28: the data of both tensors *)
Definition triData (alpha : A) : arr A := mkArr [2; 2; 2] [r1; alpha; alpha; r0; alpha; r0; r0; r0].
(** TRG.py 18-42 [__init__] and [prepareInitialTensor]; the default labels of makeTriangleTensor are '1', '2', '3' (tensorFactory.py 3) *)
Definition newTri (alpha : A) (chi : nat) : WM tri :=
  a <- lift (makeTriangleTensor (triData alpha) ["1"; "2"; "3"]) ;;
  b <- lift (makeTriangleTensor (triData alpha) ["1"; "2"; "3"]) ;;
  appendTri (mkTri a b 1 1 chi None [] [] [] [] []).

(** tensor.getLeg(label) as an argument of makeLink: iterating over a missing leg (None) is a TypeError (link.py 51-54) *)
Definition legArg (t : tid) (lab : string) : M lid :=
  readsR (fun h => match getLeg h t (NStr lab) false with Some l => Ok l | None => Err TypeError end).
(** TRG.py 57-90 [iterate] *)
Definition iterateTri (g : tri) : WM tri :=
  f <- match p_net g with Some f => wret f | None => triangleContractFTN end ;;
  lift (addTensorTag (p_a g) "a") ;;;
  lift (addTensorTag (p_b g) "b") ;;;
  la <- lift (legArg (p_a g) "a-1") ;;
  lb <- lift (legArg (p_b g) "b-1") ;;
  lift (makeLink [RLeg la] [RLeg lb] None None) ;;;
  i <- lift (contractTwoTensors (p_a g) (p_b g)) ;;
  dims <- lift (readsR (fun h => shapeOfLabels h i [NStr "a-2"; NStr "b-2"; NStr "a-3"; NStr "b-3"])) ;;
  iMat <- lift (readsR (fun h => toMatrix h i (Some [RStr "a-2"; RStr "b-2"]) (Some [RStr "a-3"; RStr "b-3"]))) ;;
  p <- wliftR (SVDDecomposition num iMat (p_chi g) 2) ;;
  let '(u, v, error) := p in
  u3 <- wliftR (np_reshape u [nth 0 dims 0; nth 1 dims 0; nth 1 (ashape u) 0]) ;;
  v3 <- wliftR (np_reshape v [nth 2 dims 0; nth 3 dims 0; nth 1 (ashape v) 0]) ;;
  uT <- lift (makeTriangleTensor u3 ["2"; "3"; "1"]) ;;
  vT <- lift (makeTriangleTensor v3 ["2"; "3"; "1"]) ;;
  a <- contract symdiff fuel f (makeTriangleTensorDict uT) true ;;
  b <- contract symdiff fuel f (makeTriangleTensorDict vT) true ;;
  appendTri (mkTri a b (p_dofA g * 3) (p_dofA g * 3) (p_chi g) (Some f) (p_aNorms g) (p_bNorms g) (p_errors g ++ [error]) (p_aArchive g) (p_bArchive g)).
(** the loop calling iterate() n times *)
Fixpoint iteratesTri (n : nat) (g : tri) : WM tri :=
  match n with O => wret g | S n' => g <- iterateTri g ;; iteratesTri n' g end.

(** TRG.py 92-107 [logZDensity]; [single] is tensor.py 998-1012 *)
Fixpoint logZTriAux (acc : B) (nas nbs : list A) (ar br : list (tid * nat)) : M (list B) :=
  match ar with
  | [] => ret []
  | (ta, da) :: ar' =>
      match br, nas, nbs with
      | (tb, db) :: br', na :: nas', nb :: nbs' =>
          let dof := da * db in
          let acc := nu_plus num acc (nu_share num (nu_log num (rmul na nb)) dof) in
          bind (triangleTensorTrace ta tb) (fun tr =>
          bind (readsR (fun h => single h tr)) (fun z =>
          bind (logZTriAux acc nas' nbs' ar' br') (fun rest =>
          ret (nu_plus num acc (nu_share num (nu_log num z) dof) :: rest))))
      | _, _, _ => raise IndexError
      end
  end.
Definition logZDensityTri (g : tri) : M (list B) := logZTriAux (nu_zero num) (p_aNorms g) (p_bNorms g) (p_aArchive g) (p_bArchive g).
End Tri.
Arguments tri : clear implicits.
