(** Model of infiniteIsingExactM of models/Ising.py. *)
From Coq Require Import Reals.
From Verif Require Import Base.
Local Open Scope R_scope.

(** Ising.py 156 [criticalT] *)
Definition criticalT : R := 2.0 / ln (1.0 + sqrt 2).
(** a number to the power 0.125; None is nan, the power of a negative number.  [Rpower] is the power of positive numbers only *)
Definition pow_eighth (x : R) : option R :=
  if Rlt_dec x 0 then None else if Req_EM_T x 0 then Some 0 else Some (Rpower x 0.125).
(** Ising.py 141-162 [infiniteIsingExactM].  Simplifications: real numbers instead of floating point numbers (no rounding, no overflow of sinh);
    T and V are Python numbers, whose division by zero raises (with numpy numbers it warns and returns inf or nan) *)
Definition infiniteIsingExactM (T V : R) : res (option R) :=
  if Req_EM_T V 0 then Err ZeroDivisionError
  else if Rlt_dec criticalT (T / V) then Ok (Some 0.0)
  else if Req_EM_T T 0 then Err ZeroDivisionError
  else Ok (pow_eighth (1.0 - / (sinh (2 * V / T)) ^ 4)).
