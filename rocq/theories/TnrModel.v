(** Model of the networks of examples/TNR.py 20-74. *)
From Coq Require Import List String.
From Verif Require Import Base HeapModel FtnModel NetsModel.
Import ListNotations.
Local Open Scope string_scope.
Local Open Scope list_scope.
Section Tnr.
Context {A : Type} {HA : SR A}.
Notation WM := (@WM A).
Local Notation "x <- m ;; k" := (wbind m (fun x => k)) (at level 100, m at next level, right associativity).
Local Notation "m ;;; k" := (wbind m (fun _ => k)) (at level 100, right associativity).
(** TNR.py 20-29 *)
Definition createQxAFTN : WM nat :=
  f <- makeFtn ["q"; "A"] ;;
  addLink f "q" "h" "A" "l" ;;; addLink f "q" "v" "A" "u" ;;; addPost f "A" "r" "h" ;;; addPost f "A" "d" "v" ;;; wret f.
(** TNR.py 31-42 *)
Definition createCFTN : WM nat :=
  f <- makeFtn ["ul"; "ur"; "dl"; "dr"] ;;
  addLink f "ul" "v" "dl" "v" ;;; addLink f "ur" "v" "dr" "v" ;;; addLink f "ul" "h" "ur" "h" ;;; addLink f "dl" "h" "dr" "h" ;;; addPost f "ul" "o" "ul" ;;; addPost f "ur" "o" "ur" ;;; addPost f "dl" "o" "dl" ;;; addPost f "dr" "o" "dr" ;;; wret f.
(** TNR.py 44-53 *)
Definition createCCFTN : WM nat :=
  f <- makeFtn ["u"; "d"] ;;
  addLink f "u" "dl" "d" "dl" ;;; addLink f "u" "dr" "d" "dr" ;;; addPost f "d" "ul" "dl" ;;; addPost f "d" "ur" "dr" ;;; wret f.
(** TNR.py 58-74 *)
Definition createSCEnvSFTN : WM nat :=
  f <- makeFtn ["CC"; "ql"; "qr"; "u"; "yl"; "yr"] ;;
  addLink f "CC" "dl" "ql" "o" ;;; addLink f "CC" "dr" "qr" "o" ;;; addLink f "ql" "h" "yl" "h" ;;; addLink f "qr" "h" "yr" "h" ;;; addLink f "ql" "v" "u" "or" ;;; addLink f "qr" "v" "u" "ol" ;;; addLink f "yl" "v" "u" "ir" ;;; addLink f "yr" "v" "u" "il" ;;; addPost f "yl" "o" "dl" ;;; addPost f "yr" "o" "dr" ;;; wret f.
End Tnr.
