(** Vocabulary for impurity tensor networks. *)
From Coq Require Import List Arith Bool String.
From Verif Require Import Base Sums FuncsSpec NdModel HeapModel TensorModel TensorSpec SvdModel ContractModel NetSpec FtnModel FtnNetSpec NamedSpec NetsModel NetsSpec TorusSpec DoubleSpec TrgModel TrgSpec HotrgModel HotrgSpec MomentSpec ImpurityModel.
Import ListNotations.
Local Open Scope nat_scope.
Local Open Scope string_scope.
Local Open Scope list_scope.

Section Sp.
Context {A B : Type} {HA : SR A}.
Local Open Scope sr_scope.
Notation heap := (heap A).
Notation world := (world A).
Notation fun4 := (nat -> nat -> nat -> nat -> A).
Notation hotrg := (hotrg A).
Notation impurityTN := (impurityTN A).
Variable num : numerics A B.
Variable half : A.

(** for two tensors above each other: projecting the left legs and going back changes nothing *)
Definition lossless_pair (V H k : nat) (T1 T2 : fun4) (P Q : nat -> nat -> A) : Prop :=
  forall u a b d c e, (u < V)%nat -> (a < H)%nat -> (b < H)%nat -> (d < V)%nat -> (c < H)%nat -> (e < H)%nat ->
    sumN k (fun o => sumN H (fun a' => sumN H (fun b' => pillar V T1 T2 u a' b' d c e * P (a' * H + b')%nat o)) * Q (a * H + b)%nat o) = pillar V T1 T2 u a b d c e.

(** the tensors given to the constructor *)
Definition given_all (h : heap) (ts : list (tid * option nat)) (V H : nat) : Prop := forall t, In t ts -> square h (fst t) V H.
Definition given_entry (h : heap) (ts : list (tid * option nat)) (i : nat) : fun4 := entry4 h (fst (nth i ts (O, None))).
(** the number of orders *)
Definition order_of (highestOrder : option nat) (ts : list (tid * option nat)) : nat := match highestOrder with Some n => n | None => List.length ts end.
(** the tensor of order [i] *)
Definition imp (s : impurityTN) (i : nat) : tid := match nth_error (i_imps s) i with Some (Some p) => fst p | _ => O end.
Definition imp_entry (h : heap) (s : impurityTN) (i : nat) : fun4 := entry4 h (imp s i).
(** an object with all its tensors, which are different and have the dimensions [V] and [H]; the degree of freedom of the first is [dof] *)
Record istate (w : world) (s : impurityTN) (g : hotrg) (dof V H : nat) : Prop := {
  is_rg : i_rg s = Some g; is_nets : nets_ready w g;
  is_order : List.length (i_imps s) = i_order s;
  is_all : forall i, (i < i_order s)%nat -> exists df, nth_error (i_imps s) i = Some (Some (imp s i, df)) /\ square (w_heap w) (imp s i) V H;
  is_dof : exists t, nth_error (i_imps s) 0 = Some (Some (t, Some dof));
  is_diff : forall i j, (i < i_order s)%nat -> (j < i_order s)%nat -> imp s i = imp s j -> i = j }.
(** the copies in the archive *)
Definition archived_all (h : heap) (s : impurityTN) (cs : list tid) (V H : nat) : Prop :=
  List.length cs = i_order s /\ forall i c, nth_error cs i = Some c -> archived h (imp s i) c V H.

(** the sum of the fused pairs of tensors of orders [j] and [i - j], with the weights that are used, and the sum of these weights *)
Definition weight (i j : nat) : A := natA (binom i j) * pow half i.
Definition mixed (h : heap) (s : impurityTN) (V H : nat) (d : string) (P : arr A) (i : nat) : fun4 := fun u l dd r =>
  sumN (S i) (fun j => unturn d (fused (kept d V H) (cut d V H) (turn d (imp_entry h s j)) (turn d (imp_entry h s (i - j))) (fun x o => aget P [x; o]) (fun x o => nu_conj num (aget P [x; o]))) u l dd r * weight i j).
Definition total_weight (i : nat) : A := sumN (S i) (weight i).

(** ** Many steps *)
Variable symdiff : list nat -> list nat -> list nat.
Variable fuel : nat.
(** [n] calls of iterate() that return, all of them without loss; [V] and [H] are the dimensions of the tensors at the end *)
Inductive exact_runI (g : hotrg) (w0 : world) (s0 : impurityTN) (V0 H0 : nat) : nat -> world -> impurityTN -> nat -> nat -> Prop :=
| ei_start : exact_runI g w0 s0 V0 H0 0 w0 s0 V0 H0
| ei_step n w s V H d P k w' s' : exact_runI g w0 s0 V0 H0 n w s V H -> iterateI symdiff fuel num half s w = (w', Ok s') ->
    nth_error (o_choices g) n = Some d -> nth_error (o_projs g) n = Some P -> wfa P -> ashape P = [(cut d V H * cut d V H)%nat; k] ->
    (forall i j, (i + j < i_order s)%nat -> lossless_pair (kept d V H) (cut d V H) k (turn d (imp_entry (w_heap w) s i)) (turn d (imp_entry (w_heap w) s j))
       (fun x o => aget P [x; o]) (fun x o => nu_conj num (aget P [x; o]))) ->
    exact_runI g w0 s0 V0 H0 (S n) w' s' (newV d V k) (newH d H k).
End Sp.
