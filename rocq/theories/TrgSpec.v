(** Vocabulary for the tensor renormalization group. *)
From Coq Require Import List Arith Bool String.
From Verif Require Import Base Sums NdModel HeapModel TensorSpec ContractModel SvdModel SvdSpec FtnModel NamedSpec NetsSpec TorusSpec TrgModel.
Import ListNotations.
Local Open Scope nat_scope.
Local Open Scope string_scope.
Local Open Scope list_scope.

Fixpoint pow {A} {HA : SR A} (x : A) (n : nat) : A := match n with O => r1 | S n' => rmul x (pow x n') end.

Section Sp.
Context {A B : Type} {HA : SR A}.
Notation heap := (heap A).
Notation world := (world A).
Notation trg := (trg A).
Notation fun4 := (nat -> nat -> nat -> nat -> A).
Local Open Scope sr_scope.
Variable num : numerics A B.

(** a dense tensor with legs u, l, d, r (in any order) and equal dimensions of opposite legs *)
Definition square (h : heap) (t : tid) (V H : nat) : Prop := dense_legs h t [("u", V); ("l", H); ("d", V); ("r", H)].
Definition entry4 (h : heap) (t : tid) : fun4 := fun u l d r => at_ h t [("u", u); ("l", l); ("d", d); ("r", r)].
(** the same with the roles of l and r exchanged *)
Definition flipped (T : fun4) : fun4 := fun u r d l => T u l d r.
(** rows: the first two indices, columns: the last two *)
Definition mat4 (V H : nat) (T : fun4) : arr A :=
  tab [(V * H)%nat; (V * H)%nat] (fun idx => let i := nth 0 idx 0%nat in let j := nth 1 idx 0%nat in T (i / H)%nat (i mod H)%nat (j / H)%nat (j mod H)%nat).

(** ** The truncated decomposition of a matrix *)
Notation svdu := (svd_u (nu_lib num)).
Notation svds := (svd_s (nu_lib num)).
Notation svdv := (svd_v (nu_lib num)).
Definition half_u (m : arr A) (i o : nat) : A := aget (svdu m) [i; o] * np_sqrt (nu_lib num) (aget (svds m) [o]).
Definition half_v (m : arr A) (j o : nat) : A := nu_conj num (np_sqrt (nu_lib num) (aget (svds m) [o]) * aget (svdv m) [o; j]).
(** the weight of the values cut off, relative to all [n] values *)
Definition cut_error (m : arr A) (n chi order : nat) : A :=
  if Nat.leb n chi then 0 else
  nu_div num (sumN (n - chi) (fun i => pow (aget (svds m) [(chi + i)%nat]) order)) (sumN n (fun i => pow (aget (svds m) [i]) order)).
(** the decomposition of this n x n matrix is exact and nothing is lost by keeping [chi] values *)
Definition faithful (m : arr A) (n chi : nat) : Prop := svd_exact (nu_lib num) m n n /\ lossless (nu_lib num) m chi.

(** ** One step *)
(** the new tensor made from the halves of the matrices [mA] and [mB] *)
Definition coarse (V H : nat) (mA mB : arr A) : fun4 := fun u l d r =>
  sumN V (fun x => sumN H (fun y => sumN V (fun z => sumN H (fun w =>
    half_v mA (x * H + y)%nat u * half_v mB (z * H + y)%nat r * half_u mB (x * H + w)%nat l * half_u mA (z * H + w)%nat d)))).
(** dividing by [n] can be undone *)
Definition invertible (n : A) : Prop := forall x, nu_div num x n * n = x.
(** the data of [t] were divided by their norm [n] *)
Definition normalized (h : heap) (t : tid) (n : A) : Prop :=
  exists sh d, n = nu_norm num (mkArr sh d) /\ t_arr (tens h t) = Some (mkArr sh (map (fun x => nu_div num x n) d)).
(** a copy: another tensor with the same legs and entries *)
Definition archived (h : heap) (t c : tid) (V H : nat) : Prop := c <> t /\ square h c V H /\ forall u l d r, entry4 h c u l d r = entry4 h t u l d r.
(** all tensors that existed are as before *)
Definition preserved (h h' : heap) : Prop :=
  forall t m, dense_legs h t m -> dense_legs h' t m /\ (forall g, at_ h' t g = at_ h t g).
Definition net_ready (w : world) (g : trg) : Prop := match g_net g with Some f => is_net w f square_out_net | None => True end.
Definition mat_a (h : heap) (g : trg) (V H : nat) : arr A := mat4 V H (entry4 h (g_a g)).
Definition mat_b (h : heap) (g : trg) (V H : nat) : arr A := mat4 V H (flipped (entry4 h (g_b g))).

(** the lists of the object *)
Definition ready (g : trg) (ns : list A) (es : list (A * A)) (ar : list (tid * nat)) : Prop := g_norms g = Some ns /\ g_errors g = Some es /\ g_archive g = Some ar.
(** the object holds one tensor, with vertical dimension [V] and horizontal dimension [H] *)
Record state (w : world) (g : trg) (V H : nat) : Prop := { st_net : net_ready w g; st_same : g_b g = g_a g; st_square : square (w_heap w) (g_a g) V H }.

(** ** Many steps *)
Variable symdiff : list nat -> list nat -> list nat.
Variable fuel : nat.
(** [n] calls of iterate() that return, each of them without loss; [V] and [H] are the dimensions of the tensor at the end *)
Inductive exact_run (w0 : world) (g0 : trg) (V0 H0 : nat) : nat -> world -> trg -> nat -> nat -> Prop :=
| er_start : exact_run w0 g0 V0 H0 0 w0 g0 V0 H0
| er_step n w g V H w' g' : exact_run w0 g0 V0 H0 n w g V H -> iterate symdiff fuel num g w = (w', Ok g') ->
    faithful (mat_a (w_heap w) g V H) (V * H) (g_chi g) -> faithful (mat_b (w_heap w) g V H) (V * H) (g_chi g) ->
    exact_run w0 g0 V0 H0 (S n) w' g' (Nat.min (g_chi g) (V * H)) (Nat.min (g_chi g) (V * H)).
(** every norm counts twice for every later step *)
Fixpoint norm_product (ns : list A) : A := match ns with [] => 1 | n :: ns' => pow n (2 ^ List.length ns') * norm_product ns' end.

(** logarithms of the numbers in [pos] and their division by integers follow the usual rules *)
Record log_ok (pos : A -> Prop) : Prop := {
  lo_mul : forall x y, pos x -> pos y -> pos (x * y) /\ nu_log num (x * y) = nu_plus num (nu_log num x) (nu_log num y);
  lo_assoc : forall x y z, nu_plus num x (nu_plus num y z) = nu_plus num (nu_plus num x y) z;
  lo_zero : forall x, nu_plus num (nu_zero num) x = x;
  lo_share : forall x y n, nu_share num (nu_plus num x y) n = nu_plus num (nu_share num x n) (nu_share num y n);
  lo_half : forall x n, nu_share num (nu_plus num x x) (2 * n) = nu_share num x n }.

(** the tensor given to the constructor: its degree of freedom (1 if there is none), dimensions and entries *)
Inductive given (h : heap) : trgArg A -> nat -> nat -> nat -> fun4 -> Prop :=
| gi_tensor t dof V H : square h t V H -> given h (TTensor t dof) (match dof with Some d => d | None => 1 end) V H (entry4 h t)
| gi_array a V H : wfa a -> ashape a = [V; H; V; H] -> given h (TArray a) 1 V H (fun u l d r => aget a [u; l; d; r]).
End Sp.
