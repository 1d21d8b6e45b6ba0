(** The real numbers as the entries of tensors. *)
From Coq Require Import Reals.
From Verif Require Import Base.
#[global] Program Instance SR_R : SR R := {| r0 := 0%R; r1 := 1%R; radd := Rplus; rmul := Rmult |}.
Solve Obligations with (intros; ring).
