(** Model of src/CTL/tensor/contract/contractExp.py (the ready-made networks of the lattice algorithms), of
    src/CTL/tensor/tensorFactory.py and of the directions of src/CTL/funcs/funcs.py. *)
From Coq Require Import List Arith Bool String Ascii.
From Verif Require Import Base NdModel HeapModel FuncsModel TensorModel ContractModel GraphModel NetGraphModel FtnModel.
Import ListNotations.
Local Open Scope nat_scope.
Local Open Scope string_scope.
Local Open Scope list_scope.

(** funcs.py 506-518 [assertInSet] *)
Definition assertInSet {X} `{Dec X} (x : X) (xs : list X) : res unit := if inb x xs then Ok tt else Err AssertionError.
(** funcs.py 841-863 [oppositeSingleDirection]; the assertion excludes falling off the end *)
Definition oppositeSingleDirection (x : string) : res string :=
  letr _ := assertInSet x ["l"; "r"; "u"; "d"] in
  if dec x "l" then Ok "r" else if dec x "r" then Ok "l" else if dec x "u" then Ok "d" else Ok "u".
(** funcs.py 822-839 [oppositeDirection]: character by character *)
Fixpoint oppositeDirection (x : string) : res string :=
  match x with
  | EmptyString => Ok EmptyString
  | String c x' => letr y := oppositeSingleDirection (String c EmptyString) in letr r := oppositeDirection x' in Ok (y ++ r)%string
  end.

(** contractExp.py 9-43 [makeTriangleTensorDict], [makeSquareTensorDict] *)
Definition makeTriangleTensorDict (a : tid) : list (string * tid) := [("u", a); ("l", a); ("r", a)].
Definition makeSquareTensorDict (a : tid) (b : option tid) : list (string * tid) :=
  let b := match b with Some b => b | None => a end in [("ul", a); ("ur", b); ("dr", a); ("dl", b)].

Section Lattice.
Context {A : Type} {HA : SR A}.
Notation heap := (heap A).
Notation M := (@M A).
Notation WM := (@WM A).
Local Notation "x <- m ;; k" := (wbind m (fun x => k)) (at level 100, m at next level, right associativity).
Local Notation "m ;;; k" := (wbind m (fun _ => k)) (at level 100, right associativity).
Definition wliftR {X} (r : res X) : WM X := fun w => (w, r).

(** tensorFactory.py 3-39 [makeTriangleTensor], [makeSquareTensor] *)
Definition makeTriangleTensor (data : arr A) (labs : list string) : M tid :=
  bind (assert (Nat.eqb (List.length (ashape data)) 3)) (fun _ => mkDense None (Some (map NStr labs)) (Some data) None None false).
Definition makeSquareTensor (data : arr A) (labs : list string) : M tid :=
  bind (assert (Nat.eqb (List.length (ashape data)) 4)) (fun _ => mkDense None (Some (map NStr labs)) (Some data) None None false).
(** tensorFactory.py 41-69 [makeSquareOutTensor] *)
Definition makeSquareOutTensor (data : arr A) (loc : string) : M tid :=
  bind (liftR (assertInSet loc ["ul"; "ur"; "dl"; "dr"])) (fun _ =>
  let labs := if dec loc "ul" then ["d"; "r"; "o"] else if dec loc "ur" then ["d"; "l"; "o"]
              else if dec loc "dl" then ["u"; "r"; "o"] else ["u"; "l"; "o"] in
  mkDense None (Some (map NStr labs)) (Some data) None None false).

(** FiniteTensorNetwork(tensorNames = [...]) with the default realCost = True *)
Definition makeFtn (names : list string) : WM nat := n <- newList names ;; newFtn (Some n) true 10.
Definition outP (f : nat) (labs : list string) (new : string) : WM unit := addOut f (map NStr labs) new.

(** contractExp.py 45-64 *)
Definition triangleContractFTN : WM nat :=
  f <- makeFtn ["u"; "l"; "r"] ;;
  addLink f "u" "2" "l" "3" ;;; addLink f "u" "3" "r" "2" ;;; addLink f "l" "2" "r" "3" ;;;
  addPost f "u" "1" "1" ;;; addPost f "l" "1" "2" ;;; addPost f "r" "1" "3" ;;; wret f.
(** contractExp.py 66-87 *)
Definition squareContractFTN : WM nat :=
  f <- makeFtn ["ul"; "ur"; "dr"; "dl"] ;;
  addLink f "ul" "d" "dl" "u" ;;; addLink f "ul" "r" "ur" "l" ;;; addLink f "ur" "d" "dr" "u" ;;; addLink f "dl" "r" "dr" "l" ;;;
  outP f ["ul-u"; "ur-u"] "u" ;;; outP f ["ul-l"; "dl-l"] "l" ;;; outP f ["dl-d"; "dr-d"] "d" ;;; outP f ["ur-r"; "dr-r"] "r" ;;; wret f.
(** contractExp.py 89-111 *)
Definition squareContractOutFTN : WM nat :=
  f <- makeFtn ["ul"; "ur"; "dr"; "dl"] ;;
  addLink f "ul" "d" "dl" "u" ;;; addLink f "ul" "r" "ur" "l" ;;; addLink f "ur" "d" "dr" "u" ;;; addLink f "dl" "r" "dr" "l" ;;;
  addPost f "ul" "o" "u" ;;; addPost f "ur" "o" "r" ;;; addPost f "dl" "o" "l" ;;; addPost f "dr" "o" "d" ;;; wret f.
(** contractExp.py 113-125 *)
Definition CTMRGHEdgeExtendFTN : WM nat :=
  f <- makeFtn ["p"; "w"] ;; addLink f "p" "u" "w" "d" ;;; outP f ["p-l"; "w-l"] "l" ;;; outP f ["p-r"; "w-r"] "r" ;;; wret f.
(** contractExp.py 127-139 *)
Definition CTMRGVEdgeExtendFTN : WM nat :=
  f <- makeFtn ["p"; "w"] ;; addLink f "p" "r" "w" "l" ;;; outP f ["p-u"; "w-u"] "u" ;;; outP f ["p-d"; "w-d"] "d" ;;; wret f.
(** contractExp.py 141-152 *)
Definition CTMRGCornerExtendFTN : WM nat :=
  f <- makeFtn ["c"; "ph"; "pv"; "w"] ;;
  addLink f "c" "u" "pv" "d" ;;; addLink f "c" "r" "ph" "l" ;;; addLink f "pv" "r" "w" "l" ;;; addLink f "ph" "u" "w" "d" ;;;
  outP f ["pv-u"; "w-u"] "u" ;;; outP f ["ph-r"; "w-r"] "r" ;;; wret f.
(** contractExp.py 154-161 *)
Definition CTMRGHEdgeBuildFTN : WM nat :=
  f <- makeFtn ["p"; "al"; "ar"] ;; addLink f "al" "r" "p" "l" ;;; addLink f "ar" "r" "p" "r" ;;; addPost f "ar" "l" "r" ;;; wret f.
(** contractExp.py 163-170 *)
Definition CTMRGVEdgeBuildFTN : WM nat :=
  f <- makeFtn ["p"; "au"; "ad"] ;; addLink f "ad" "u" "p" "d" ;;; addLink f "au" "u" "p" "u" ;;; addPost f "au" "d" "u" ;;; wret f.
(** contractExp.py 172-179 *)
Definition CTMRGEvenZFTN : WM nat :=
  f <- makeFtn ["alu"; "ald"; "aru"; "ard"] ;;
  addLink f "alu" "u" "ald" "u" ;;; addLink f "aru" "u" "ard" "u" ;;; addLink f "alu" "r" "aru" "r" ;;; addLink f "ald" "r" "ard" "r" ;;; wret f.
(** contractExp.py 181-199 *)
Definition CTMRGOddFTN : WM nat :=
  f <- makeFtn ["alu"; "ald"; "aru"; "ard"; "pu"; "pd"; "pl"; "pr"; "w"] ;;
  addLink f "pu" "l" "alu" "r" ;;; addLink f "pu" "r" "aru" "r" ;;; addLink f "pd" "l" "ald" "r" ;;; addLink f "pd" "r" "ard" "r" ;;;
  addLink f "pl" "u" "alu" "u" ;;; addLink f "pl" "d" "ald" "u" ;;; addLink f "pr" "u" "aru" "u" ;;; addLink f "pr" "d" "ard" "u" ;;;
  addLink f "pl" "r" "w" "l" ;;; addLink f "pr" "r" "w" "r" ;;; addLink f "pd" "u" "w" "d" ;;; addLink f "pu" "u" "w" "u" ;;; wret f.
(** contractExp.py 226-242 *)
Definition squareHorizontalContractFTN (d : string) : WM nat :=
  wliftR (assertInSet d ["l"; "r"]) ;;;
  opd <- wliftR (oppositeSingleDirection d) ;;
  f <- makeFtn ["ul"; "ur"; "dr"; "dl"] ;;
  addLink f "ul" "d" "dl" "u" ;;; addLink f "ul" opd "ur" opd ;;; addLink f "ur" "d" "dr" "u" ;;; addLink f "dl" opd "dr" opd ;;;
  addLink f "ul" "u" "ur" "u" ;;; addLink f "dl" "d" "dr" "d" ;;;
  outP f ["u" ++ d ++ "-" ++ d; "d" ++ d ++ "-" ++ d]%string d ;;;
  outP f ["u" ++ opd ++ "-" ++ d; "d" ++ opd ++ "-" ++ d]%string opd ;;; wret f.
(** contractExp.py 244-259 *)
Definition squareVerticalContractFTN (d : string) : WM nat :=
  wliftR (assertInSet d ["u"; "d"]) ;;;
  opd <- wliftR (oppositeSingleDirection d) ;;
  f <- makeFtn ["ul"; "ur"; "dr"; "dl"] ;;
  addLink f "ul" opd "dl" opd ;;; addLink f "ul" "r" "ur" "l" ;;; addLink f "ur" opd "dr" opd ;;; addLink f "dl" "r" "dr" "l" ;;;
  addLink f "ul" "l" "dl" "l" ;;; addLink f "ur" "r" "dr" "r" ;;;
  outP f [d ++ "l-" ++ d; d ++ "r-" ++ d]%string d ;;;
  outP f [opd ++ "l-" ++ d; opd ++ "r-" ++ d]%string opd ;;; wret f.
(** contractExp.py 261-273 *)
Definition HOTRGHorizontalContractFTN : WM nat :=
  f <- makeFtn ["u"; "d"; "l"; "r"] ;;
  addLink f "u" "l" "l" "u" ;;; addLink f "u" "r" "r" "u" ;;; addLink f "d" "l" "l" "d" ;;; addLink f "d" "r" "r" "d" ;;;
  addLink f "u" "d" "d" "u" ;;; addPost f "l" "o" "l" ;;; addPost f "r" "o" "r" ;;; wret f.
(** contractExp.py 275-287 *)
Definition HOTRGVerticalContractFTN : WM nat :=
  f <- makeFtn ["u"; "d"; "l"; "r"] ;;
  addLink f "u" "l" "l" "u" ;;; addLink f "u" "r" "r" "u" ;;; addLink f "d" "l" "l" "d" ;;; addLink f "d" "r" "r" "d" ;;;
  addLink f "l" "r" "r" "l" ;;; addPost f "u" "o" "u" ;;; addPost f "d" "o" "d" ;;; wret f.
(** contractExp.py 292-315 *)
Definition EvenblyTNRQEnvFTN : WM nat :=
  f <- makeFtn ["uul"; "uur"; "udl"; "udr"; "dul"; "dur"; "ddl"; "ddr"] ;;
  addLink f "udl" "r" "dul" "r" ;;; addLink f "udl" "d" "dul" "d" ;;; addLink f "udr" "r" "dur" "r" ;;; addLink f "udr" "d" "dur" "d" ;;;
  addLink f "udl" "l" "udr" "l" ;;; addLink f "dul" "l" "dur" "l" ;;; addLink f "uur" "l" "ddr" "l" ;;; addLink f "uur" "u" "ddr" "u" ;;;
  addLink f "udr" "u" "uur" "d" ;;; addLink f "dur" "u" "ddr" "d" ;;; addLink f "uul" "r" "uur" "r" ;;; addLink f "uul" "d" "udl" "u" ;;;
  addLink f "ddl" "r" "ddr" "r" ;;; addLink f "ddl" "d" "dul" "u" ;;;
  outP f ["uul-l"; "uul-u"] "1" ;;; outP f ["ddl-l"; "ddl-u"] "2" ;;; wret f.

(** contractExp.py 289-290 [squareTrace] *)
Definition squareTrace (h : heap) (a : tid) : res A := trace h a (Some [RStr "u"; RStr "l"]) (Some [RStr "d"; RStr "r"]).
(** contractExp.py 201-224 [triangleTensorTrace]; the bonds handed to contractTwoTensors are exactly the shared ones *)
Definition triangleTensorTrace (a b : tid) : M tid :=
  bind (copy a) (fun ta => bind (copy b) (fun tb =>
  bind (iterM (fun lab => bind (makeLink [RStr lab] [RStr lab] (Some ta) (Some tb)) (fun _ => ret tt)) ["1"; "2"; "3"]) (fun _ =>
  contractTwoTensors ta tb))).
End Lattice.
