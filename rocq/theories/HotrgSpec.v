(** Vocabulary for the higher-order tensor renormalization group.  The step in direction l projects the left legs of two rows;
    the other directions are described by turning the tensor until they become direction l. *)
From Coq Require Import List Arith Bool String.
From Verif Require Import Base Sums NdModel HeapModel TensorModel TensorSpec SvdModel ContractModel NetSpec FtnModel FtnNetSpec NamedSpec NetsModel NetsSpec TorusSpec DoubleSpec TrgModel TrgSpec HotrgModel.
Import ListNotations.
Local Open Scope nat_scope.
Local Open Scope string_scope.
Local Open Scope list_scope.

(** ** Directions *)
Definition dirs : list string := ["u"; "d"; "l"; "r"].
(** two rows are fused in the directions l and r, two columns in the directions u and d *)
Definition rows (d : string) : bool := String.eqb d "l" || String.eqb d "r".
(** the dimension of the legs that are projected, and of the others *)
Definition cut (d : string) (V H : nat) : nat := if rows d then H else V.
Definition kept (d : string) (V H : nat) : nat := if rows d then V else H.
(** the dimensions after projecting to dimension [k] *)
Definition newV (d : string) (V k : nat) : nat := if rows d then V else k.
Definition newH (d : string) (H k : nat) : nat := if rows d then k else H.
(** the lattice before two rows or columns were fused *)
Definition double (d : string) (L : lattice) : lattice := if rows d then stack L else beside L.
(** the lattice the algorithm started from, if the directions [ds] were chosen one after the other *)
Fixpoint fine (ds : list string) (L : lattice) : lattice := match ds with [] => L | d :: ds' => double d (fine ds' L) end.
(** how many times two rows (columns) were fused *)
Definition row_steps (ds : list string) : nat := List.length (filter rows ds).
Definition col_steps (ds : list string) : nat := List.length (filter (fun d => negb (rows d)) ds).

Section Sp.
Context {A B : Type} {HA : SR A}.
Local Open Scope sr_scope.
Notation heap := (heap A).
Notation world := (world A).
Notation fun4 := (nat -> nat -> nat -> nat -> A).
Notation hotrg := (hotrg A).

(** the tensor turned so that direction [d] becomes l, and back *)
Definition turn (d : string) (T : fun4) : fun4 :=
  if String.eqb d "l" then T else
  if String.eqb d "r" then fun u l dd r => T u r dd l else
  if String.eqb d "u" then fun u l dd r => T l u r dd else
  fun u l dd r => T r u l dd.
Definition unturn (d : string) (T : fun4) : fun4 :=
  if String.eqb d "l" then T else
  if String.eqb d "r" then fun u l dd r => T u r dd l else
  if String.eqb d "u" then fun u l dd r => T l u r dd else
  fun u l dd r => T l dd r u.
(** the product with itself that the projector is computed from: rows and columns are the left legs of the upper and the lower tensor *)
Definition env (V H : nat) (T : fun4) : arr A :=
  mat4 H H (fun a b a' b' => sumN V (fun u => sumN V (fun d => sumN H (fun c => sumN H (fun e => pillar V T T u a b d c e * pillar V T T u a' b' d c e))))).
(** both tensors contracted, with projector P on the left and Q on the right *)
Definition fused (V H : nat) (T1 T2 : fun4) (P Q : nat -> nat -> A) : fun4 := fun u l d r =>
  sumN H (fun a => sumN H (fun b => sumN H (fun c => sumN H (fun e => pillar V T1 T2 u a b d c e * P (a * H + b)%nat l * Q (c * H + e)%nat r)))).
(** projecting the left legs and going back changes nothing *)
Definition lossless_projector (V H k : nat) (T : fun4) (P Q : nat -> nat -> A) : Prop :=
  forall u a b d c e, (u < V)%nat -> (a < H)%nat -> (b < H)%nat -> (d < V)%nat -> (c < H)%nat -> (e < H)%nat ->
    sumN k (fun o => sumN H (fun a' => sumN H (fun b' => pillar V T T u a' b' d c e * P (a' * H + b')%nat o)) * Q (a * H + b)%nat o) = pillar V T T u a b d c e.

(** ** Eigenvalues *)
Variable eig : eigen A.
Variable num : numerics A B.
Definition vals (m : arr A) : list A := fst (ei_eigh eig m).
Definition vecs (m : arr A) : arr A := snd (ei_eigh eig m).
Definition eigh_shape (m : arr A) (n : nat) : Prop := List.length (vals m) = n /\ wfa (vecs m) /\ ashape (vecs m) = [n; n].
(** the columns of vecs are eigenvectors, and together they are complete *)
Record eigh_exact (m : arr A) (n : nat) : Prop := {
  ex_shape : eigh_shape m n;
  ex_eigen : forall i o, (i < n)%nat -> (o < n)%nat -> sumN n (fun j => aget m [i; j] * aget (vecs m) [j; o]) = nth o (vals m) 0 * aget (vecs m) [i; o];
  ex_complete : forall i j, (i < n)%nat -> (j < n)%nat -> sumN n (fun o => aget (vecs m) [i; o] * aget (vecs m) [j; o]) = if Nat.eqb i j then 1 else 0 }.
(** the values above the threshold *)
Definition big_count (m : arr A) : nat := List.length (filter (ei_big eig) (vals m)).
(** the number of columns of the projector: [chi], or the number of values above the threshold; all if that is 0 *)
Definition kept_count (m : arr A) (n chi : nat) : nat := let k := Nat.min chi (big_count m) in if Nat.eqb k 0 then n else k.
(** the projector: the last columns in reverse order; its conjugate *)
Definition proj (m : arr A) (n : nat) (i o : nat) : A := aget (vecs m) [i; (n - 1 - o)%nat].
Definition proj_conj (m : arr A) (n : nat) (i o : nat) : A := nu_conj num (proj m n i o).
(** the reported error: the share of the values that are not among the last [chi] *)
Definition env_error (m : arr A) (n chi : nat) : A :=
  if Nat.ltb (big_count m) chi then 0 else
  ei_minus eig 1 (nu_div num (sumN (if Nat.eqb chi 0 then n else chi) (fun i => nth (n - 1 - i) (vals m) 0)) (sumN n (fun i => nth i (vals m) 0))).
(** every value that is dropped is zero *)
Definition no_loss (m : arr A) (n chi : nat) : Prop := forall i, (i + kept_count m n chi < n)%nat -> nth i (vals m) 0 = 0.
(** the values above the threshold come last, and the others are zero *)
Definition clear_cut (m : arr A) (n : nat) : Prop :=
  (forall i j, (i <= j)%nat -> (j < n)%nat -> ei_big eig (nth i (vals m) 0) = true -> ei_big eig (nth j (vals m) 0) = true) /\
  (forall i, (i < n)%nat -> ei_big eig (nth i (vals m) 0) = false -> nth i (vals m) 0 = 0).
(** real numbers: a sum of squares is zero only if all of them are *)
Definition squares_real : Prop := forall l : list A, sumL l (fun x => x * x) = 0 -> forall x, In x l -> x = 0.

(** comparison of floating point numbers *)
Record order_ok : Prop := {
  or_irrefl : forall x, ei_less eig x x = false;
  or_trans : forall x y z, ei_less eig x y = true -> ei_less eig y z = true -> ei_less eig x z = true;
  or_cotrans : forall x y z, ei_less eig x y = false -> ei_less eig y z = false -> ei_less eig x z = false }.
(** [d] is the first of the directions with the smallest error *)
Definition first_best (err : string -> A) (d : string) : Prop :=
  exists before after, dirs = before ++ d :: after /\ (forall d', In d' before -> ei_less eig (err d) (err d') = true) /\ (forall d', In d' after -> ei_less eig (err d') (err d) = false).

(** ** The object *)
(** the six networks *)
Record nets_ready (w : world) (g : hotrg) : Prop := {
  nr_hi : is_net w (o_hi g) hotrg_h_net; nr_vi : is_net w (o_vi g) hotrg_v_net;
  nr_hl : is_net w (o_hl g) horizontal_l_net; nr_hr : is_net w (o_hr g) horizontal_r_net;
  nr_vu : is_net w (o_vu g) vertical_u_net; nr_vd : is_net w (o_vd g) vertical_d_net;
  nr_distinct : NoDup [o_hi g; o_vi g; o_hl g; o_hr g; o_vu g; o_vd g] }.
Record hstate (w : world) (g : hotrg) (V H : nat) : Prop := { hs_nets : nets_ready w g; hs_square : square (w_heap w) (o_a g) V H }.
(** the bound for the legs that are projected *)
Definition chi_of (g : hotrg) (d : string) : nat := if rows d then o_chiH g else o_chiV g.
(** the matrix of the trial in direction [d] *)
Definition env_of (h : heap) (g : hotrg) (V H : nat) (d : string) : arr A := env (kept d V H) (cut d V H) (turn d (entry4 h (o_a g))).
(** the dimension the trial in direction [d] projects to, and its error *)
Definition proj_dim (h : heap) (g : hotrg) (V H : nat) (d : string) : nat := kept_count (env_of h g V H d) (cut d V H * cut d V H) (chi_of g d).
Definition err_of (h : heap) (g : hotrg) (V H : nat) (d : string) : A := env_error (env_of h g V H d) (cut d V H * cut d V H) (chi_of g d).
Definition eigh_ok (h : heap) (g : hotrg) (V H : nat) : Prop := forall d, In d dirs -> eigh_shape (env_of h g V H d) (cut d V H * cut d V H).

(** ** Many steps *)
Variable symdiff : list nat -> list nat -> list nat.
Variable fuel : nat.
(** calls of iterate() that return and choose the directions [ds], without loss; [V] and [H] are the dimensions of the tensor at the end *)
Inductive exact_runH (w0 : world) (g0 : hotrg) (V0 H0 : nat) : list string -> world -> hotrg -> nat -> nat -> Prop :=
| eh_start : exact_runH w0 g0 V0 H0 [] w0 g0 V0 H0
| eh_step ds w g V H d w' g' : exact_runH w0 g0 V0 H0 ds w g V H -> iterateH symdiff fuel num eig g w = (w', Ok g') ->
    eigh_ok (w_heap w) g V H -> o_choices g' = o_choices g ++ [d] ->
    lossless_projector (kept d V H) (cut d V H) (proj_dim (w_heap w) g V H d) (turn d (entry4 (w_heap w) (o_a g)))
      (proj (env_of (w_heap w) g V H d) (cut d V H * cut d V H)) (proj_conj (env_of (w_heap w) g V H d) (cut d V H * cut d V H)) ->
    exact_runH w0 g0 V0 H0 (ds ++ [d]) w' g' (newV d V (proj_dim (w_heap w) g V H d)) (newH d H (proj_dim (w_heap w) g V H d)).
End Sp.
