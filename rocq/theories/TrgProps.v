(** The tensor renormalization group on the square lattice. *)
From Coq Require Import List Arith Bool String ZArith Lia QArith Qcanon.
From Verif Require Import Base Sums NdModel HeapModel TensorModel TensorSpec ContractModel SvdModel SvdSpec SearchSpec FtnModel FtnNetSpec NamedSpec NetsModel NetsSpec TorusSpec TrgModel TrgSpec
  TorusProofs TorusIsoProofs TrgProofs TrgExampleProofs SearchProps.
Import ListNotations.
Local Open Scope nat_scope.
Local Open Scope string_scope.
Local Open Scope list_scope.

(** ** C59 Tensor renormalization without truncation computes the partition function *)
(** SVDDecomposition: both factors, cut to min(chi, rank bound) columns, and the relative weight of what was cut off *)
Theorem C59_decomposition : forall A B (HA : SR A) (num : numerics A B) m r c chi order, svd_shape (nu_lib num) m r c -> ashape m = [r; c] -> let k := Nat.min chi (Nat.min r c) in
  exists u v, SVDDecomposition num m chi order = Ok (u, v, cut_error num m (Nat.min r c) chi order) /\ wfa u /\ ashape u = [r; k] /\ wfa v /\ ashape v = [c; k] /\
    (forall i o, i < r -> o < k -> aget u [i; o] = half_u num m i o) /\ (forall j o, j < c -> o < k -> aget v [j; o] = half_v num m j o).
Proof. exact @svd_spec. Qed.
Print Assumptions C59_decomposition.
Example C59_decomposition_example : svd_shape (nu_lib num_Z) (mkArr [2; 2] [1; 2; 3; 6]%Z) 2 2.
Proof. apply (sx_shape (nu_lib num_Z)). apply (faithfulb_ok num_Z _ 2 1). vm_compute. reflexivity. Qed.
(** the constructor with one tensor: a normalized copy, archived with its degree of freedom *)
Theorem C59_init : forall A B (HA : SR A) symdiff fuel (num : numerics A B) (w w' : world A) x chi dof V H T g,
  newTrg symdiff fuel num (Some x) None chi w = (w', Ok g) -> given (w_heap w) x dof V H T ->
  exists n c, state w' g V H /\ g_chi g = chi /\ g_dof g = dof /\ ready g [n] [] [(c, dof)] /\
    normalized num (w_heap w') (g_a g) n /\ archived (w_heap w') (g_a g) c V H /\ preserved (w_heap w) (w_heap w') /\ 
    forall u l d r, u < V -> l < H -> d < V -> r < H -> entry4 (w_heap w') (g_a g) u l d r = nu_div num (T u l d r) n.
Proof. exact @init_spec. Qed.
Print Assumptions C59_init.
(** the constructor with two tensors never returns: it calls iterate() before the lists exist *)
Theorem C59_two_tensors_refuted : forall A B (HA : SR A) symdiff fuel (num : numerics A B) (w w' : world A) x y chi g, newTrg symdiff fuel num (Some x) (Some y) chi w <> (w', Ok g).
Proof. exact @two_given. Qed.
Print Assumptions C59_two_tensors_refuted.
Definition array2 : arr Z := mkArr [1; 2; 1; 2] [1; 2; 3; 6]%Z.
Example C59_two_tensors_error : snd (newTrg sd 40 num_Z (Some (TArray array2)) (Some (TArray array2)) 2 (empty 0%Z)) = Err AttributeError.
Proof. vm_compute. reflexivity. Qed.
(** one call of iterate(): the new tensor is made from the halves of both tensors, normalized and archived; the errors are recorded; everything that existed stays *)
Theorem C59_iterate : forall A B (HA : SR A) symdiff, symdiff_ok symdiff -> forall fuel (num : numerics A B) (w w' : world A) g g' V H ns es ar,
  iterate symdiff fuel num g w = (w', Ok g') -> net_ready w g -> square (w_heap w) (g_a g) V H -> square (w_heap w) (g_b g) V H -> ready g ns es ar ->
  svd_shape (nu_lib num) (mat_a (w_heap w) g V H) (V * H) (V * H) -> svd_shape (nu_lib num) (mat_b (w_heap w) g V H) (V * H) (V * H) ->
  let k := Nat.min (g_chi g) (V * H) in
  exists n c, state w' g' k k /\ g_chi g' = g_chi g /\ g_dof g' = 2 * g_dof g /\
    ready g' (ns ++ [n]) (es ++ [(cut_error num (mat_a (w_heap w) g V H) (V * H) (g_chi g) 2, cut_error num (mat_b (w_heap w) g V H) (V * H) (g_chi g) 2)]) (ar ++ [(c, 2 * g_dof g)]) /\
    normalized num (w_heap w') (g_a g') n /\ archived (w_heap w') (g_a g') c k k /\ preserved (w_heap w) (w_heap w') /\ 
    forall u l d r, u < k -> l < k -> d < k -> r < k ->
      entry4 (w_heap w') (g_a g') u l d r = nu_div num (coarse num V H (mat_a (w_heap w) g V H) (mat_b (w_heap w) g V H) u l d r) n.
Proof. exact @iterate_spec. Qed.
Print Assumptions C59_iterate.
(** an exact step halves the number of sites of any torus and keeps its value, up to the power of the norm *)
Theorem C59_step : forall A B (HA : SR A) symdiff, symdiff_ok symdiff -> forall fuel (num : numerics A B) (w w' : world A) g g' V H ns es ar L,
  iterate symdiff fuel num g w = (w', Ok g') -> net_ready w g -> square (w_heap w) (g_a g) V H -> square (w_heap w) (g_b g) V H -> ready g ns es ar ->
  faithful num (mat_a (w_heap w) g V H) (V * H) (g_chi g) -> faithful num (mat_b (w_heap w) g V H) (V * H) (g_chi g) ->
  (forall x, nu_conj num x = x) -> torus L -> let k := Nat.min (g_chi g) (V * H) in
  exists n, g_norms g' = Some (ns ++ [n]) /\ (invertible num n ->
    partition (refine L) H V (fun q => if snd q then entry4 (w_heap w) (g_b g) else entry4 (w_heap w) (g_a g)) =
    (pow n (List.length (sites L)) * partition L k k (fun _ => entry4 (w_heap w') (g_a g')))%sr).
Proof. exact @one_step. Qed.
Print Assumptions C59_step.
(** the object after n exact steps *)
Theorem C59_run : forall A B (HA : SR A) symdiff, symdiff_ok symdiff -> forall fuel (num : numerics A B) (w w0 wn : world A) x chi dof V0 H0 T g0 g n V H,
  newTrg symdiff fuel num (Some x) None chi w = (w0, Ok g0) -> given (w_heap w) x dof V0 H0 T -> exact_run num symdiff fuel w0 g0 V0 H0 n wn g V H ->
  state wn g V H /\ g_chi g = chi /\ g_dof g = 2 ^ n * dof /\ (n = 0 \/ (V <= chi /\ H = V)) /\ preserved (w_heap w) (w_heap wn) /\
  exists ns es ar, ready g ns es ar /\ List.length ns = S n /\ List.length es = n /\ List.length ar = S n.
Proof. exact @run_spec. Qed.
Print Assumptions C59_run.
(** the value of the network that was started from *)
Theorem C59_value : forall A B (HA : SR A) symdiff, symdiff_ok symdiff -> forall fuel (num : numerics A B) (w w0 wn : world A) x chi dof V0 H0 T g0 g n V H L ns,
  newTrg symdiff fuel num (Some x) None chi w = (w0, Ok g0) -> given (w_heap w) x dof V0 H0 T -> exact_run num symdiff fuel w0 g0 V0 H0 n wn g V H ->
  (forall x, nu_conj num x = x) -> g_norms g = Some ns -> (forall x, In x ns -> invertible num x) -> torus L ->
  List.length ns = S n /\ partition (refined n L) H0 V0 (fun _ => T) = (pow (norm_product ns) (List.length (sites L)) * partition L H V (fun _ => entry4 (w_heap wn) (g_a g)))%sr.
Proof. exact @trg_value. Qed.
Print Assumptions C59_value.
(** 2m steps and a trace: the partition function of the torus with 2^m * 2^m sites *)
Theorem C59_torus : forall A B (HA : SR A) symdiff, symdiff_ok symdiff -> forall fuel (num : numerics A B) (w w0 wn : world A) x chi dof V0 H0 T g0 g m V H ns v,
  newTrg symdiff fuel num (Some x) None chi w = (w0, Ok g0) -> given (w_heap w) x dof V0 H0 T -> exact_run num symdiff fuel w0 g0 V0 H0 (2 * m) wn g V H ->
  (forall x, nu_conj num x = x) -> g_norms g = Some ns -> (forall x, In x ns -> invertible num x) ->
  trace (w_heap wn) (g_a g) (Some [RStr "u"; RStr "l"]) (Some [RStr "d"; RStr "r"]) = Ok v ->
  partition (grid (2 ^ m) (2 ^ m)) H0 V0 (fun _ => T) = (norm_product ns * v)%sr.
Proof. exact @trg_torus. Qed.
Print Assumptions C59_torus.
(** every archived tensor has the value of the network it stands for *)
Theorem C59_archive : forall A B (HA : SR A) symdiff, symdiff_ok symdiff -> forall fuel (num : numerics A B) (w w0 wn : world A) x chi dof V0 H0 T g0 g n V H ns ar,
  newTrg symdiff fuel num (Some x) None chi w = (w0, Ok g0) -> given (w_heap w) x dof V0 H0 T -> exact_run num symdiff fuel w0 g0 V0 H0 n wn g V H ->
  (forall x, nu_conj num x = x) -> g_norms g = Some ns -> (forall x, In x ns -> invertible num x) -> g_archive g = Some ar ->
  List.length ar = S n /\ forall i, i <= n -> exists c Vi Hi, nth_error ar i = Some (c, 2 ^ i * dof) /\ square (w_heap wn) c Vi Hi /\
    forall L, torus L -> partition (refined i L) H0 V0 (fun _ => T) = (pow (norm_product (firstn (S i) ns)) (List.length (sites L)) * partition L Hi Vi (fun _ => entry4 (w_heap wn) c))%sr.
Proof. exact @trg_archive. Qed.
Print Assumptions C59_archive.
(** logZDensity: the logarithm of the partition function per degree of freedom, for every number of steps *)
Theorem C59_density : forall A B (HA : SR A) symdiff, symdiff_ok symdiff -> forall fuel (num : numerics A B) pos (w w0 wn : world A) x chi dof V0 H0 T g0 g n V H ns ar,
  log_ok num pos -> newTrg symdiff fuel num (Some x) None chi w = (w0, Ok g0) -> given (w_heap w) x dof V0 H0 T -> exact_run num symdiff fuel w0 g0 V0 H0 n wn g V H ->
  (forall x, nu_conj num x = x) -> g_norms g = Some ns -> g_archive g = Some ar -> (forall x, In x ns -> invertible num x /\ pos x) ->
  (forall c d v, In (c, d) ar -> trace (w_heap wn) c (Some [RStr "u"; RStr "l"]) (Some [RStr "d"; RStr "r"]) = Ok v -> pos v) ->
  exists xs, logZDensity num (w_heap wn) g = Ok xs /\ List.length xs = S n /\
    forall i, i <= n -> nth_error xs i = Some (nu_share num (nu_log num (partition (refined i (grid 1 1)) H0 V0 (fun _ => T))) (2 ^ i * dof)).
Proof. exact @trg_density. Qed.
Print Assumptions C59_density.
(** the lattices of these statements: tori with 2^n times as many sites; after an even number of steps, square grids *)
Theorem C59_lattices : (forall n L, torus L -> torus (refined n L)) /\ (forall n L, List.length (sites (refined n L)) = 2 ^ n * List.length (sites L)) /\ (forall n m, torus (grid n m)) /\
  (forall n m p, In p (sites (grid n m)) <-> fst p < n /\ snd p < m) /\ forall k n, exists f g, same_lattice (refined (2 * k) (grid n n)) (grid (2 ^ k * n) (2 ^ k * n)) f g.
Proof. exact (conj refined_torus (conj refined_count (conj grid_torus (conj in_grid refined_grid)))). Qed.
Print Assumptions C59_lattices.

(** *** Examples *)
(** a matrix of rank one, cut to one value *)
Definition z0 := after (newTrg sd 40 num_Z (Some (TArray array2)) None 1 (empty 0%Z)).
Definition z1 := after (iterate sd 40 num_Z (snd z0) (fst z0)).
Lemma z0_ok : newTrg sd 40 num_Z (Some (TArray array2)) None 1 (empty 0%Z) = (fst z0, Ok (snd z0)).
Proof. unfold z0. apply after_ok. vm_compute. reflexivity. Qed.
Lemma z1_ok : iterate sd 40 num_Z (snd z0) (fst z0) = (fst z1, Ok (snd z1)).
Proof. unfold z1. apply after_ok. vm_compute. reflexivity. Qed.
Lemma z0_chi : g_chi (snd z0) = 1. Proof. vm_compute. reflexivity. Qed.
Example C59_truncated_example :
  newTrg sd 40 num_Z (Some (TArray array2)) None 1 (empty 0%Z) = (fst z0, Ok (snd z0)) /\ given (w_heap (empty 0%Z)) (TArray array2) 1 1 2 (fun u l d r => aget array2 [u; l; d; r]) /\
  exact_run num_Z sd 40 (fst z0) (snd z0) 1 2 1 (fst z1) (snd z1) 1 1 /\ g_norms (snd z1) = Some [1; 1]%Z /\ (forall x, In x [1; 1]%Z -> invertible num_Z x) /\ torus (grid 1 1) /\
  partition (refined 1 (grid 1 1)) 2 1 (fun _ u l d r => aget array2 [u; l; d; r]) = 49%Z /\ partition (grid 1 1) 1 1 (fun _ => entry4 (w_heap (fst z1)) (g_a (snd z1))) = 49%Z.
Proof.
  split; [exact z0_ok|]. split; [now constructor|]. split.
  - assert (X := er_step num_Z sd 40 (fst z0) (snd z0) 1 2 0 (fst z0) (snd z0) 1 2 (fst z1) (snd z1) (er_start _ _ _ _ _ _ _) z1_ok). rewrite z0_chi in X. apply X; apply faithfulb_ok; vm_compute; reflexivity.
  - split; [vm_compute; reflexivity|]. split; [|split; [apply grid_torus|split; vm_compute; reflexivity]]. intros x Hx y. destruct Hx as [<-|[<-|[]]]; apply Z.mul_1_r.
Qed.
(** a step with maxima and sums, where the norms matter *)
Definition array_t : arr trop := mkArr [1; 2; 1; 2] [Some 1; Some 5; None; Some (-2)]%Z.
Definition t0 := after (newTrg sd 40 num_trop (Some (TArray array_t)) None 4 (empty (None : trop))).
Definition t1 := after (iterate sd 40 num_trop (snd t0) (fst t0)).
Definition listed {X} (x : option (list X)) : list X := match x with Some l => l | None => [] end.
Definition norms_t : list trop := listed (g_norms (snd t1)).
Definition archive_t : list (tid * nat) := listed (g_archive (snd t1)).
Lemma t0_ok : newTrg sd 40 num_trop (Some (TArray array_t)) None 4 (empty (None : trop)) = (fst t0, Ok (snd t0)).
Proof. unfold t0. apply after_ok. vm_compute. reflexivity. Qed.
Lemma t1_ok : iterate sd 40 num_trop (snd t0) (fst t0) = (fst t1, Ok (snd t1)).
Proof. unfold t1. apply after_ok. vm_compute. reflexivity. Qed.
Lemma t0_chi : g_chi (snd t0) = 4. Proof. vm_compute. reflexivity. Qed.
Example C59_density_example :
  log_ok num_trop (fun x => x <> None) /\ newTrg sd 40 num_trop (Some (TArray array_t)) None 4 (empty (None : trop)) = (fst t0, Ok (snd t0)) /\
  given (w_heap (empty (None : trop))) (TArray array_t) 1 1 2 (fun u l d r => aget array_t [u; l; d; r]) /\
  exact_run num_trop sd 40 (fst t0) (snd t0) 1 2 1 (fst t1) (snd t1) 2 2 /\ (forall x, nu_conj num_trop x = x) /\ g_norms (snd t1) = Some norms_t /\ g_archive (snd t1) = Some archive_t /\
  norms_t = [Some 5; Some (-4)]%Z /\ (forall x, In x norms_t -> invertible num_trop x /\ x <> None) /\
  (forall c d v, In (c, d) archive_t -> trace (w_heap (fst t1)) c (Some [RStr "u"; RStr "l"]) (Some [RStr "d"; RStr "r"]) = Ok v -> v <> None).
Proof.
  assert (EN : norms_t = [Some 5; Some (-4)]%Z) by (vm_compute; reflexivity).
  split; [exact log_trop|]. split; [exact t0_ok|]. split; [now constructor|]. split; [|split; [reflexivity|split; [vm_compute; reflexivity|split; [vm_compute; reflexivity|split; [exact EN|split]]]]].
  - assert (X := er_step num_trop sd 40 (fst t0) (snd t0) 1 2 0 (fst t0) (snd t0) 1 2 (fst t1) (snd t1) (er_start _ _ _ _ _ _ _) t1_ok). rewrite t0_chi in X. apply X; apply faithfulb_ok; vm_compute; reflexivity.
  - rewrite EN. intros x Hx. assert (NN : x <> None) by (destruct Hx as [<-|[<-|[]]]; discriminate). split; [now apply div_trop|exact NN].
  - intros c d v Hc. assert (EA : archive_t = [(1, 1); (13, 2)]) by (vm_compute; reflexivity). rewrite EA in Hc. intros Ev ->. revert Ev.
    destruct Hc as [Ec|[Ec|[]]]; injection Ec as <- <-; vm_compute; discriminate.
Qed.
(** with complex numbers an exact run computes something else: SVDDecomposition conjugates its second factor *)
Definition array_g : arr gauss := mkArr [1; 2; 1; 2] [(0, 0); (1, 0); (0, 1); (0, 0)]%Z.
Definition q0 := after (newTrg sd 40 num_gauss (Some (TArray array_g)) None 2 (empty ((0, 0)%Z : gauss))).
Definition q1 := after (iterate sd 40 num_gauss (snd q0) (fst q0)).
Lemma q0_ok : newTrg sd 40 num_gauss (Some (TArray array_g)) None 2 (empty ((0, 0)%Z : gauss)) = (fst q0, Ok (snd q0)).
Proof. unfold q0. apply after_ok. vm_compute. reflexivity. Qed.
Lemma q1_ok : iterate sd 40 num_gauss (snd q0) (fst q0) = (fst q1, Ok (snd q1)).
Proof. unfold q1. apply after_ok. vm_compute. reflexivity. Qed.
Lemma q0_chi : g_chi (snd q0) = 2. Proof. vm_compute. reflexivity. Qed.
Theorem C59_complex_refuted : exists (num : numerics gauss unit) (w w0 wn : world gauss) x chi dof V0 H0 T g0 g n V H L ns,
  newTrg sd 40 num (Some x) None chi w = (w0, Ok g0) /\ given (w_heap w) x dof V0 H0 T /\ exact_run num sd 40 w0 g0 V0 H0 n wn g V H /\
  g_norms g = Some ns /\ (forall x, In x ns -> invertible num x) /\ torus L /\ (forall x, nu_conj num x = (fst x, - snd x)%Z) /\
  partition (refined n L) H0 V0 (fun _ => T) <> (pow (norm_product ns) (List.length (sites L)) * partition L H V (fun _ => entry4 (w_heap wn) (g_a g)))%sr.
Proof.
  exists num_gauss, (empty ((0, 0)%Z : gauss)), (fst q0), (fst q1), (TArray array_g), 2, 1, 1, 2, (fun u l d r => aget array_g [u; l; d; r]), (snd q0), (snd q1), 1, 2, 2, (grid 1 1), [(1, 0); (1, 0)]%Z.
  split; [exact q0_ok|]. split; [now constructor|]. split.
  - assert (X := er_step num_gauss sd 40 (fst q0) (snd q0) 1 2 0 (fst q0) (snd q0) 1 2 (fst q1) (snd q1) (er_start _ _ _ _ _ _ _) q1_ok). rewrite q0_chi in X. apply X; apply faithfulb_ok; vm_compute; reflexivity.
  - split; [vm_compute; reflexivity|]. split; [|split; [apply grid_torus|split; [reflexivity|vm_compute; discriminate]]].
    intros x Hx [a b]. assert (x = (1, 0)%Z) as -> by (destruct Hx as [<-|[<-|[]]]; reflexivity). cbn [num_gauss nu_div rmul SR_gauss gmul fst snd]. unfold gmul. cbn [fst snd]. apply f_equal2; ring.
Qed.
Print Assumptions C59_complex_refuted.
