(** Vocabulary for the networks of the tensor network renormalization (C70). *)
From Coq Require Import List String.
From Verif Require Import Base Sums NdModel HeapModel TensorSpec FtnNetSpec NamedSpec NetsSpec.
Import ListNotations.
Local Open Scope string_scope.
Local Open Scope list_scope.

(** a projector is put on two legs of the tensor *)
Definition tnr_qa_net : net := mkNet ["q"; "A"]
  [(("q", "h"), ("A", "l")); (("q", "v"), ("A", "u"))]
  [] [("A", "r", "h"); ("A", "d", "v")].
(** four of them around a plaquette *)
Definition tnr_cc4_net : net := mkNet ["ul"; "ur"; "dl"; "dr"]
  [(("ul", "v"), ("dl", "v")); (("ur", "v"), ("dr", "v")); (("ul", "h"), ("ur", "h")); (("dl", "h"), ("dr", "h"))]
  [] [("ul", "o", "ul"); ("ur", "o", "ur"); ("dl", "o", "dl"); ("dr", "o", "dr")].
(** two plaquettes joined at their lower corners *)
Definition tnr_dub_net : net := mkNet ["u"; "d"]
  [(("u", "dl"), ("d", "dl")); (("u", "dr"), ("d", "dr"))]
  [] [("d", "ul", "dl"); ("d", "ur", "dr")].
(** the environment of the matrix s *)
Definition tnr_senv_net : net := mkNet ["CC"; "ql"; "qr"; "u"; "yl"; "yr"]
  [(("CC", "dl"), ("ql", "o")); (("CC", "dr"), ("qr", "o")); (("ql", "h"), ("yl", "h")); (("qr", "h"), ("yr", "h")); (("ql", "v"), ("u", "or")); (("qr", "v"), ("u", "ol")); (("yl", "v"), ("u", "ir")); (("yr", "v"), ("u", "il"))]
  [] [("yl", "o", "dl"); ("yr", "o", "dr")].

Section Sp.
Context {A : Type} {HA : SR A}.
Notation heap := (heap A).
(** exchanging left and right does not change the disentangler *)
Definition mirror_symmetric (h : heap) (t : tid) (O I : nat) : Prop :=
  forall a b c d, (a < O)%nat -> (b < O)%nat -> (c < I)%nat -> (d < I)%nat ->
    at_ h t [("ol", a); ("or", b); ("il", c); ("ir", d)] = at_ h t [("ol", b); ("or", a); ("il", d); ("ir", c)].
(** the formula in the comments in TNR.py 76 and 149: ncon([Cdub,qM,qM,uM,yM,yM],[[-1,-3,7,8],[1,3,7],[4,6,8],[3,6,2,5],[1,2,-2],[4,5,-4]]) with the axes
    ul, ur, dl, dr of Cdub, h, v, o of q and y and ol, or, il, ir of u; x1, ..., x8 stand for the numbers 7, 8, 1, 4, 3, 6, 2, 5 *)
Definition env_ncon (h : heap) (CC ql qr u yl yr : tid) (D1 D2 D3 D4 D5 D7 i1 i2 i3 i4 : nat) : A :=
  (sumN D1 (fun x1 => sumN D2 (fun x2 => sumN D3 (fun x3 => sumN D4 (fun x4 => sumN D5 (fun x5 => sumN D5 (fun x6 => sumN D7 (fun x7 => sumN D7 (fun x8 =>
    at_ h CC [("ul", i1); ("ur", i2); ("dl", x1); ("dr", x2)] * at_ h ql [("h", x3); ("v", x5); ("o", x1)] * at_ h qr [("h", x4); ("v", x6); ("o", x2)] *
    at_ h u [("ol", x5); ("or", x6); ("il", x7); ("ir", x8)] * at_ h yl [("h", x3); ("v", x7); ("o", i3)] * at_ h yr [("h", x4); ("v", x8); ("o", i4)])))))))))%sr.
End Sp.
