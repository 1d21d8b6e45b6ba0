(** Vocabulary for runs of CTMRG that lose nothing. *)
From Coq Require Import List Arith Bool String.
From Verif Require Import Base Sums NdModel HeapModel TensorSpec ContractModel SvdModel SvdSpec FtnModel NamedSpec NetsSpec DiagNetSpec TrgModel TrgSpec CtmrgModel CtmrgSpec.
Import ListNotations.
Local Open Scope nat_scope.

Section Sp.
Context {A B : Type} {HA : SR A}.
Notation world := (world A).
Notation ctmrg := (ctmrg A B).
Variable symdiff : list nat -> list nat -> list nat.
Variable fuel : nat.
Variable num : numerics A B.
Variable ex : exponential A B.
Local Open Scope sr_scope.
(** np.exp on the logarithms *)
Record exp_ok : Prop := {
  ex_zero : ex_exp ex (nu_zero num) = 1;
  ex_plus : forall x y, ex_exp ex (nu_plus num x y) = ex_exp ex x * ex_exp ex y;
  ex_pow : forall n x, ex_exp ex (ex_times ex n x) = pow (ex_exp ex x) n }.
(** one can divide by [n], and its logarithm is right *)
Definition good_norm (n : A) : Prop := invertible num n /\ ex_exp ex (nu_log num n) = n.
(** ** The life of an object made from a tensor with entries [T], all reductions so far being exact.  The number counts the sites along the corner *)
Inductive exact_run (H V : nat) (T : nat -> nat -> nat -> nat -> A) (chi : nat) : nat -> world -> ctmrg -> Prop :=
| er_new w w' a g : newCtmrg symdiff fuel num a chi w = (w', Ok g) -> site_tensor (w_heap w) a H V ->
    (forall l r u d, site_entry (w_heap w) a l r u d = T l r u d) -> exact_cut H V T no_sites (nu_lib num) chi -> exact_run H V T chi 1 w' g
| er_iterate n w w' g g' k nc nh nv : exact_run H V T chi n w g -> iterateC symdiff fuel num g w = (w', Ok (g', (nc, nh, nv))) ->
    env_tensors (w_heap w) (m_corner g) (m_hEdge g) (m_vEdge g) H V k -> exact_cut H V T (genv w g k) (nu_lib num) chi ->
    good_norm nc -> good_norm nh -> good_norm nv -> exact_run H V T chi (S n) w' g'
| er_getZ n w w' g g' L z : exact_run H V T chi n w g -> (1 <= L)%nat -> (L / 2 <= n)%nat -> getZ symdiff fuel num ex g L w = (w', Ok (g', z)) -> exact_run H V T chi n w' g'.
End Sp.
