(** The spontaneous magnetization of the square lattice Ising model. *)
From Coq Require Import Reals.
Local Open Scope R_scope.
(** the solution of Onsager and Yang for K = J / T: the eighth power of the magnetization is 1 - sinh(2K)^(-4) as long as this is positive *)
Definition spontaneous (K m : R) : Prop := 0 <= m /\ m ^ 8 = Rmax 0 (1 - / (sinh (2 * K)) ^ 4).
