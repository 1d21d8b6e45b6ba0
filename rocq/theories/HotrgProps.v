(** The higher-order tensor renormalization group on the square lattice. *)
From Coq Require Import List Arith Bool String ZArith Lia QArith Qcanon.
From Verif Require Import Base Sums NdModel HeapModel TensorModel TensorSpec ContractModel SvdModel SvdSpec SearchSpec FtnModel FtnNetSpec NamedSpec NetsModel NetsSpec TorusSpec DoubleSpec TrgModel TrgSpec HotrgModel HotrgSpec
  TorusProofs TorusIsoProofs DoubleProofs DoubleGridProofs TrgExampleProofs HotrgProofs HotrgRunProofs HotrgRealProofs HotrgExampleProofs SearchProps HotrgSpec.
Import ListNotations.
Local Open Scope nat_scope.
Local Open Scope string_scope.
Local Open Scope list_scope.

(** ** C60 Higher-order tensor renormalization without loss computes the partition function *)
(** solveEnv: the last eigenvectors in reverse order, and the share of the values that are left out *)
Theorem C60_solveEnv : forall A B (HA : SR A) (eig : eigen A) (num : numerics A B) m n chi, ashape m = [n; n] -> eigh_shape eig m n ->
  exists P, solveEnv num eig m chi = Ok (P, env_error eig num m n chi) /\ wfa P /\ ashape P = [n; kept_count eig m n chi] /\
    forall i o, i < n -> o < kept_count eig m n chi -> aget P [i; o] = proj eig m n i o.
Proof. exact @solveEnv_spec. Qed.
Print Assumptions C60_solveEnv.
Theorem C60_solveEnv_error : forall A B (HA : SR A) (eig : eigen A) (num : numerics A B) m chi, ~ (exists n, ashape m = [n; n]) -> solveEnv num eig m chi = Err ValueError.
Proof. exact @solveEnv_error. Qed.
Print Assumptions C60_solveEnv_error.
(** the number of columns is at most chi *)
Theorem C60_bound : forall A (eig : eigen A) m n chi, 0 < chi -> 0 < big_count eig m -> 0 < kept_count eig m n chi <= chi.
Proof. exact @kept_bound. Qed.
Print Assumptions C60_bound.
(** but all columns are kept if no value is above the threshold *)
Definition zeros : arr Z := mkArr [4; 4] (repeat 0%Z 16).
Theorem C60_bound_refuted : exists (eig : eigen Z) m n chi P e, ashape m = [n; n] /\ eigh_shape eig m n /\ 0 < chi /\ solveEnv num_Z eig m chi = Ok (P, e) /\ chi < nth 1 (ashape P) 0.
Proof.
  eexists eig_Z, zeros, 4, 2, _, _. split; [reflexivity|]. split; [apply diag_shape; reflexivity|]. split; [lia|]. split; [vm_compute; reflexivity|]. cbn. lia.
Qed.
Print Assumptions C60_bound_refuted.
(** the constructor: a normalized copy, archived with its degree of freedom, and six networks *)
Theorem C60_init : forall A B (HA : SR A) (num : numerics A B) (w w' : world A) x chiH chiV dof V H T g,
  newHotrg num (Some x) chiH chiV w = (w', Ok g) -> given (w_heap w) x dof V H T ->
  exists n c, hstate w' g V H /\ o_chiH g = chiH /\ o_chiV g = (match chiV with Some c => c | None => chiH end) /\ o_dof g = dof /\
    o_norms g = [n] /\ o_errors g = [] /\ o_archive g = [(c, dof)] /\ o_choices g = [] /\ o_projs g = [] /\
    normalized num (w_heap w') (o_a g) n /\ archived (w_heap w') (o_a g) c V H /\ preserved (w_heap w) (w_heap w') /\
    forall u l d r, u < V -> l < H -> d < V -> r < H -> entry4 (w_heap w') (o_a g) u l d r = nu_div num (T u l d r) n.
Proof. exact @initH_spec. Qed.
Print Assumptions C60_init.
Theorem C60_init_none : forall A B (HA : SR A) (num : numerics A B) (w : world A) chiH chiV, newHotrg num None chiH chiV w = (w, Err AssertionError).
Proof. exact @initH_none. Qed.
Print Assumptions C60_init_none.
(** one call of iterate(): two tensors are fused in one of the directions with the projector of that direction; the result is normalized and archived *)
Theorem C60_iterate : forall A B (HA : SR A) symdiff, symdiff_ok symdiff -> forall fuel (num : numerics A B) (eig : eigen A) (w w' : world A) g g' V H,
  iterateH symdiff fuel num eig g w = (w', Ok g') -> hstate w g V H -> eigh_ok eig (w_heap w) g V H ->
  exists d n c P, let k := proj_dim eig (w_heap w) g V H d in let cc := cut d V H * cut d V H in let m := env_of (w_heap w) g V H d in let T := turn d (entry4 (w_heap w) (o_a g)) in
    In d dirs /\ hstate w' g' (newV d V k) (newH d H k) /\ o_chiH g' = o_chiH g /\ o_chiV g' = o_chiV g /\ o_dof g' = 2 * o_dof g /\
    o_norms g' = o_norms g ++ [n] /\ o_errors g' = o_errors g ++ [err_of eig num (w_heap w) g V H d] /\ o_archive g' = o_archive g ++ [(c, 2 * o_dof g)] /\ o_choices g' = o_choices g ++ [d] /\
    o_projs g' = o_projs g ++ [P] /\ wfa P /\ ashape P = [cc; k] /\ (forall i o, i < cc -> o < k -> aget P [i; o] = proj eig m cc i o) /\
    normalized num (w_heap w') (o_a g') n /\ archived (w_heap w') (o_a g') c (newV d V k) (newH d H k) /\ preserved (w_heap w) (w_heap w') /\
    forall u l dd r, u < newV d V k -> l < newH d H k -> dd < newV d V k -> r < newH d H k ->
      entry4 (w_heap w') (o_a g') u l dd r = nu_div num (unturn d (fused (kept d V H) (cut d V H) T T (proj eig m cc) (proj_conj eig num m cc)) u l dd r) n.
Proof. exact @iterateH_spec. Qed.
Print Assumptions C60_iterate.
(** the direction is the first with the smallest error, if no error is negative *)
Theorem C60_choice : forall A B (HA : SR A) symdiff, symdiff_ok symdiff -> forall fuel (num : numerics A B) (eig : eigen A) (w w' : world A) g g' V H d,
  iterateH symdiff fuel num eig g w = (w', Ok g') -> hstate w g V H -> eigh_ok eig (w_heap w) g V H -> o_choices g' = o_choices g ++ [d] ->
  order_ok eig -> (forall d', In d' dirs -> ei_neg eig (err_of eig num (w_heap w) g V H d') = false) -> first_best eig (err_of eig num (w_heap w) g V H) d.
Proof. exact @choiceH. Qed.
Print Assumptions C60_choice.
(** exact eigenvectors and no value dropped that is not zero: the projector loses nothing *)
Theorem C60_projector : forall A (HA : SR A) B (eig : eigen A) (num : numerics A B) V H (T : nat -> nat -> nat -> nat -> A) chi, @squares_real A HA -> (forall x, nu_conj num x = x) ->
  eigh_exact eig (env V H T) (H * H) -> no_loss eig (env V H T) (H * H) chi ->
  lossless_projector V H (kept_count eig (env V H T) (H * H) chi) T (proj eig (env V H T) (H * H)) (proj_conj eig num (env V H T) (H * H)).
Proof. exact @real_projector. Qed.
Print Assumptions C60_projector.
Theorem C60_no_loss : forall A (HA : SR A) (eig : eigen A) m n chi, List.length (vals eig m) = n -> clear_cut eig m n -> big_count eig m <= chi -> no_loss eig m n chi.
Proof. exact @clear_no_loss. Qed.
Print Assumptions C60_no_loss.
(** a step without loss halves the number of rows or columns of any torus and keeps its value, up to the power of the norm *)
Theorem C60_step : forall A B (HA : SR A) symdiff, symdiff_ok symdiff -> forall fuel (num : numerics A B) (eig : eigen A) (w w' : world A) g g' V H d,
  iterateH symdiff fuel num eig g w = (w', Ok g') -> hstate w g V H -> eigh_ok eig (w_heap w) g V H -> o_choices g' = o_choices g ++ [d] ->
  let k := proj_dim eig (w_heap w) g V H d in let c := cut d V H * cut d V H in let m := env_of (w_heap w) g V H d in
  lossless_projector (kept d V H) (cut d V H) k (turn d (entry4 (w_heap w) (o_a g))) (proj eig m c) (proj_conj eig num m c) ->
  exists n, o_norms g' = o_norms g ++ [n] /\ forall L, torus L -> invertible num n ->
    partition (double d L) H V (fun _ => entry4 (w_heap w) (o_a g)) = (pow n (List.length (sites L)) * partition L (newH d H k) (newV d V k) (fun _ => entry4 (w_heap w') (o_a g')))%sr.
Proof. exact @one_stepH. Qed.
Print Assumptions C60_step.
(** the object after a run *)
Theorem C60_run : forall A B (HA : SR A) symdiff, symdiff_ok symdiff -> forall fuel (num : numerics A B) (eig : eigen A) (w w0 wn : world A) x chiH chiV dof V0 H0 T g0 g ds V H,
  newHotrg num (Some x) chiH chiV w = (w0, Ok g0) -> given (w_heap w) x dof V0 H0 T -> exact_runH eig num symdiff fuel w0 g0 V0 H0 ds wn g V H ->
  hstate wn g V H /\ o_chiH g = chiH /\ o_chiV g = (match chiV with Some c => c | None => chiH end) /\ o_dof g = 2 ^ List.length ds * dof /\ o_choices g = ds /\ (forall d, In d ds -> In d dirs) /\
  List.length (o_norms g) = S (List.length ds) /\ List.length (o_errors g) = List.length ds /\ List.length (o_archive g) = S (List.length ds) /\ List.length (o_projs g) = List.length ds /\ preserved (w_heap w) (w_heap wn).
Proof. exact @runH_spec. Qed.
Print Assumptions C60_run.
(** the value of the network that was started from *)
Theorem C60_value : forall A B (HA : SR A) symdiff, symdiff_ok symdiff -> forall fuel (num : numerics A B) (eig : eigen A) (w w0 wn : world A) x chiH chiV dof V0 H0 T g0 g ds V H L,
  newHotrg num (Some x) chiH chiV w = (w0, Ok g0) -> given (w_heap w) x dof V0 H0 T -> exact_runH eig num symdiff fuel w0 g0 V0 H0 ds wn g V H ->
  (forall x, In x (o_norms g) -> invertible num x) -> torus L ->
  List.length (o_norms g) = S (List.length ds) /\
  partition (fine ds L) H0 V0 (fun _ => T) = (pow (norm_product (o_norms g)) (List.length (sites L)) * partition L H V (fun _ => entry4 (w_heap wn) (o_a g)))%sr.
Proof. exact @hotrg_value. Qed.
Print Assumptions C60_value.
(** a run and a trace: the partition function of the torus with one column (row) for every time that columns (rows) were fused, to the power of two *)
Theorem C60_torus : forall A B (HA : SR A) symdiff, symdiff_ok symdiff -> forall fuel (num : numerics A B) (eig : eigen A) (w w0 wn : world A) x chiH chiV dof V0 H0 T g0 g ds V H v,
  newHotrg num (Some x) chiH chiV w = (w0, Ok g0) -> given (w_heap w) x dof V0 H0 T -> exact_runH eig num symdiff fuel w0 g0 V0 H0 ds wn g V H ->
  (forall x, In x (o_norms g) -> invertible num x) -> tensorTrace (w_heap wn) (o_a g) = Ok v ->
  partition (grid (2 ^ col_steps ds) (2 ^ row_steps ds)) H0 V0 (fun _ => T) = (norm_product (o_norms g) * v)%sr.
Proof. exact @hotrg_torus. Qed.
Print Assumptions C60_torus.
(** every archived tensor has the value of the network it stands for *)
Theorem C60_archive : forall A B (HA : SR A) symdiff, symdiff_ok symdiff -> forall fuel (num : numerics A B) (eig : eigen A) (w w0 wn : world A) x chiH chiV dof V0 H0 T g0 g ds V H,
  newHotrg num (Some x) chiH chiV w = (w0, Ok g0) -> given (w_heap w) x dof V0 H0 T -> exact_runH eig num symdiff fuel w0 g0 V0 H0 ds wn g V H ->
  (forall x, In x (o_norms g) -> invertible num x) ->
  List.length (o_archive g) = S (List.length ds) /\ forall i, i <= List.length ds -> exists c Vi Hi, nth_error (o_archive g) i = Some (c, 2 ^ i * dof) /\ square (w_heap wn) c Vi Hi /\
    forall L, torus L -> partition (fine (firstn i ds) L) H0 V0 (fun _ => T) = (pow (norm_product (firstn (S i) (o_norms g))) (List.length (sites L)) * partition L Hi Vi (fun _ => entry4 (w_heap wn) c))%sr.
Proof. exact @hotrg_archive. Qed.
Print Assumptions C60_archive.
(** logZDensity: the logarithm of the partition function per degree of freedom, for every number of steps *)
Theorem C60_density : forall A B (HA : SR A) symdiff, symdiff_ok symdiff -> forall fuel (num : numerics A B) (eig : eigen A) pos (w w0 wn : world A) x chiH chiV dof V0 H0 T g0 g ds V H,
  log_ok num pos -> newHotrg num (Some x) chiH chiV w = (w0, Ok g0) -> given (w_heap w) x dof V0 H0 T -> exact_runH eig num symdiff fuel w0 g0 V0 H0 ds wn g V H ->
  (forall x, In x (o_norms g) -> invertible num x /\ pos x) ->
  (forall c d v, In (c, d) (o_archive g) -> trace (w_heap wn) c (Some [RStr "u"; RStr "l"]) (Some [RStr "d"; RStr "r"]) = Ok v -> pos v) ->
  exists xs, logZDensityH num (w_heap wn) g = Ok xs /\ List.length xs = S (List.length ds) /\
    forall i, i <= List.length ds -> nth_error xs i = Some (nu_share num (nu_log num (partition (fine (firstn i ds) (grid 1 1)) H0 V0 (fun _ => T))) (2 ^ i * dof)).
Proof. exact @hotrg_density. Qed.
Print Assumptions C60_density.
(** impurityIterate: the same step, with the projector of step idx, for two other tensors *)
Theorem C60_impurity : forall A B (HA : SR A) symdiff, symdiff_ok symdiff -> forall fuel (num : numerics A B) (w w' : world A) g V H t1 t2 idx d P k a,
  impurityIterate symdiff fuel num g [t1; t2] idx w = (w', Ok a) -> nets_ready w g ->
  nth_error (o_choices g) idx = Some d -> nth_error (o_projs g) idx = Some P -> wfa P -> ashape P = [cut d V H * cut d V H; k] -> square (w_heap w) t1 V H -> square (w_heap w) t2 V H ->
  In d dirs /\ square (w_heap w') a (newV d V k) (newH d H k) /\ nets_ready w' g /\ preserved (w_heap w) (w_heap w') /\
  forall u l dd r, u < newV d V k -> l < newH d H k -> dd < newV d V k -> r < newH d H k ->
    entry4 (w_heap w') a u l dd r = unturn d (fused (kept d V H) (cut d V H) (turn d (entry4 (w_heap w) t1)) (turn d (entry4 (w_heap w) t2)) (fun i o => aget P [i; o]) (fun i o => nu_conj num (aget P [i; o]))) u l dd r.
Proof. exact @impurityH_spec. Qed.
Print Assumptions C60_impurity.
Theorem C60_impurity_error : forall A B (HA : SR A) symdiff fuel (num : numerics A B) (w : world A) g ts idx, List.length ts <> 2 \/ List.length (o_choices g) <= idx ->
  impurityIterate symdiff fuel num g ts idx w = (w, Err AssertionError).
Proof. exact @impurityH_error. Qed.
Print Assumptions C60_impurity_error.
Theorem C60_direction_error : forall A B (HA : SR A) symdiff fuel (num : numerics A B) (eig : eigen A) (w : world A) g d P t1 t2, ~ In d dirs ->
  directedIterate symdiff fuel num g d P t1 t2 w = (w, Err AssertionError) /\ directedIterateTrial symdiff fuel num eig g d w = (w, Err AssertionError).
Proof. exact @directedH_error. Qed.
Print Assumptions C60_direction_error.
(** the lattices of these statements *)
Theorem C60_lattices : (forall ds L, torus L -> torus (fine ds L)) /\ (forall ds L, List.length (sites (fine ds L)) = 2 ^ List.length ds * List.length (sites L)) /\
  forall ds n m, exists f g, same_lattice (fine ds (grid n m)) (grid (2 ^ col_steps ds * n) (2 ^ row_steps ds * m)) f g.
Proof. exact (conj fine_torus (conj fine_size fine_grid)). Qed.
Print Assumptions C60_lattices.

(** *** Examples *)
(** two steps, the first of them with a projector from four columns to one *)
Definition array4 : arr Z := mkArr [2; 1; 2; 1] [0; 0; 0; 3]%Z.
Definition z0 := afterH (newHotrg num_Z (Some (TArray array4)) 5 (Some 2) (empty 0%Z)).
Definition z1 := afterH (iterateH sd 40 num_Z eig_Z (snd z0) (fst z0)).
Definition z2 := afterH (iterateH sd 40 num_Z eig_Z (snd z1) (fst z1)).
Lemma z0_ok : newHotrg num_Z (Some (TArray array4)) 5 (Some 2) (empty 0%Z) = (fst z0, Ok (snd z0)).
Proof. unfold z0. apply afterH_ok. vm_compute. reflexivity. Qed.
Lemma z1_ok : iterateH sd 40 num_Z eig_Z (snd z0) (fst z0) = (fst z1, Ok (snd z1)).
Proof. unfold z1. apply afterH_ok. vm_compute. reflexivity. Qed.
Lemma z2_ok : iterateH sd 40 num_Z eig_Z (snd z1) (fst z1) = (fst z2, Ok (snd z2)).
Proof. unfold z2. apply afterH_ok. vm_compute. reflexivity. Qed.
Lemma eigh_ok_Z h g V H : eigh_ok eig_Z h g V H.
Proof. intros d _. apply diag_shape. reflexivity. Qed.
Lemma k1_ok : proj_dim eig_Z (w_heap (fst z0)) (snd z0) 2 1 "u" = 1. Proof. vm_compute. reflexivity. Qed.
Lemma k2_ok : proj_dim eig_Z (w_heap (fst z1)) (snd z1) 1 1 "u" = 1. Proof. vm_compute. reflexivity. Qed.
(** the projector of the first step is exact by C60_projector *)
Example C60_projector_example :
  eigh_exact eig_Z (env_of (w_heap (fst z0)) (snd z0) 2 1 "u") 4 /\ no_loss eig_Z (env_of (w_heap (fst z0)) (snd z0) 2 1 "u") 4 2 /\ clear_cut eig_Z (env_of (w_heap (fst z0)) (snd z0) 2 1 "u") 4 /\
  @squares_real Z _ /\ vals eig_Z (env_of (w_heap (fst z0)) (snd z0) 2 1 "u") = [0; 0; 0; 81]%Z.
Proof.
  assert (EV : vals eig_Z (env_of (w_heap (fst z0)) (snd z0) 2 1 "u") = [0; 0; 0; 81]%Z) by (vm_compute; reflexivity).
  split; [apply (exactb_ok Z.eqb (fun x y => proj1 (Z.eqb_eq x y))); [apply diag_shape; reflexivity|vm_compute; reflexivity]|].
  assert (CC : clear_cut eig_Z (env_of (w_heap (fst z0)) (snd z0) 2 1 "u") 4).
  { split; rewrite EV.
    - intros i j Hi Hj. destruct j as [|[|[|[|j]]]]; try lia; (destruct i as [|[|[|[|i]]]]; try lia); cbn; auto; discriminate.
    - intros i Hi. destruct i as [|[|[|[|i]]]]; try lia; cbn; auto; discriminate. }
  split; [|split; [exact CC|split; [exact squares_Z|exact EV]]]. apply C60_no_loss; [now rewrite EV|exact CC|]. unfold big_count. rewrite EV. cbn. lia.
Qed.
Lemma run_Z : exact_runH eig_Z num_Z sd 40 (fst z0) (snd z0) 2 1 ["u"; "u"] (fst z2) (snd z2) 1 1.
Proof.
  assert (X1 := eh_step eig_Z num_Z sd 40 (fst z0) (snd z0) 2 1 [] (fst z0) (snd z0) 2 1 "u" (fst z1) (snd z1) (eh_start _ _ _ _ _ _ _ _) z1_ok (eigh_ok_Z _ _ _ _)). rewrite k1_ok in X1.
  assert (X2 := eh_step eig_Z num_Z sd 40 (fst z0) (snd z0) 2 1 ["u"] (fst z1) (snd z1) 1 1 "u" (fst z2) (snd z2)). rewrite k2_ok in X2.
  apply X2; [apply X1| | | |].
  - vm_compute. reflexivity.
  - destruct C60_projector_example as (E1 & E2 & _). pose proof (C60_projector Z _ unit eig_Z num_Z 1 2 (turn "u" (entry4 (w_heap (fst z0)) (o_a (snd z0)))) 2 squares_Z (fun x => eq_refl) E1 E2) as P.
    change (lossless_projector 1 2 (kept_count eig_Z (env_of (w_heap (fst z0)) (snd z0) 2 1 "u") 4 2) (turn "u" (entry4 (w_heap (fst z0)) (o_a (snd z0)))) (proj eig_Z (env_of (w_heap (fst z0)) (snd z0) 2 1 "u") 4) (proj_conj eig_Z num_Z (env_of (w_heap (fst z0)) (snd z0) 2 1 "u") 4)) in P.
    replace (kept_count eig_Z (env_of (w_heap (fst z0)) (snd z0) 2 1 "u") 4 2) with 1 in P by (vm_compute; reflexivity). exact P.
  - exact z2_ok.
  - apply eigh_ok_Z.
  - vm_compute. reflexivity.
  - apply (losslessb_ok Z.eqb (fun x y => proj1 (Z.eqb_eq x y))). vm_compute. reflexivity.
Qed.
Example C60_run_example :
  newHotrg num_Z (Some (TArray array4)) 5 (Some 2) (empty 0%Z) = (fst z0, Ok (snd z0)) /\ given (w_heap (empty 0%Z)) (TArray array4) 1 2 1 (fun u l d r => aget array4 [u; l; d; r]) /\
  exact_runH eig_Z num_Z sd 40 (fst z0) (snd z0) 2 1 ["u"; "u"] (fst z2) (snd z2) 1 1 /\ (forall x, In x (o_norms (snd z2)) -> invertible num_Z x) /\ torus (grid 1 1) /\
  tensorTrace (w_heap (fst z2)) (o_a (snd z2)) = Ok 81%Z.
Proof.
  split; [exact z0_ok|]. split; [now constructor|]. split; [exact run_Z|]. split; [|split; [apply grid_torus|vm_compute; reflexivity]].
  assert (EN : o_norms (snd z2) = [1; 1; 1]%Z) by (vm_compute; reflexivity). rewrite EN. intros x Hx y. destruct Hx as [<-|[<-|[<-|[]]]]; apply Z.mul_1_r.
Qed.
Example C60_choice_example : iterateH sd 40 num_Z eig_Z (snd z0) (fst z0) = (fst z1, Ok (snd z1)) /\ eigh_ok eig_Z (w_heap (fst z0)) (snd z0) 2 1 /\ o_choices (snd z1) = o_choices (snd z0) ++ ["u"] /\ order_ok eig_Z /\
  (forall d', In d' dirs -> ei_neg eig_Z (err_of eig_Z num_Z (w_heap (fst z0)) (snd z0) 2 1 d') = false).
Proof. split; [exact z1_ok|]. split; [apply eigh_ok_Z|]. split; [vm_compute; reflexivity|]. split; [exact order_Z|]. intros d [<-|[<-|[<-|[<-|[]]]]]; vm_compute; reflexivity. Qed.
(** an impurity *)
Definition i1 := impurityIterate sd 40 num_Z (snd z1) [o_a (snd z0); 1] 0 (fst z1).
Example C60_impurity_example : okH i1 = true /\ nth_error (o_choices (snd z1)) 0 = Some "u" /\ option_map (@ashape Z) (nth_error (o_projs (snd z1)) 0) = Some [cut "u" 2 1 * cut "u" 2 1; 1] /\ o_a (snd z0) <> 1.
Proof. split; [vm_compute; reflexivity|]. split; [vm_compute; reflexivity|]. split; [vm_compute; reflexivity|]. vm_compute. discriminate. Qed.
(** a negative error, the smallest there is, is replaced by that of the next direction whatever it is *)
Definition array_n : arr Z := mkArr [2; 1; 2; 1] [2; 3; 0; 0]%Z.
Definition y0 := afterH (newHotrg num_Z (Some (TArray array_n)) 1 None (empty 0%Z)).
Definition y1 := afterH (iterateH sd 40 num_Z eig_Z (snd y0) (fst y0)).
Lemma y0_ok : newHotrg num_Z (Some (TArray array_n)) 1 None (empty 0%Z) = (fst y0, Ok (snd y0)).
Proof. unfold y0. apply afterH_ok. vm_compute. reflexivity. Qed.
Lemma y1_ok : iterateH sd 40 num_Z eig_Z (snd y0) (fst y0) = (fst y1, Ok (snd y1)).
Proof. unfold y1. apply afterH_ok. vm_compute. reflexivity. Qed.
Theorem C60_choice_refuted : exists (num : numerics Z unit) (eig : eigen Z) (w w' : world Z) g g' V H d, iterateH sd 40 num eig g w = (w', Ok g') /\ hstate w g V H /\ eigh_ok eig (w_heap w) g V H /\
  o_choices g' = o_choices g ++ [d] /\ order_ok eig /\ ~ first_best eig (err_of eig num (w_heap w) g V H) d /\ ei_less eig (err_of eig num (w_heap w) g V H "u") (err_of eig num (w_heap w) g V H d) = true.
Proof.
  exists num_Z, eig_Z, (fst y0), (fst y1), (snd y0), (snd y1), 2, 1, "r". split; [exact y1_ok|]. split.
  { destruct (C60_init _ _ _ _ _ _ _ _ _ _ _ _ _ _ y0_ok (gi_array _ array_n 2 1 eq_refl eq_refl)) as (n & c & ST & _). exact ST. }
  split; [apply eigh_ok_Z|]. split; [vm_compute; reflexivity|]. split; [exact order_Z|].
  assert (EL : ei_less eig_Z (err_of eig_Z num_Z (w_heap (fst y0)) (snd y0) 2 1 "u") (err_of eig_Z num_Z (w_heap (fst y0)) (snd y0) 2 1 "r") = true) by (vm_compute; reflexivity).
  split; [|exact EL]. intros (be & af & E & B & _). assert (HU : In "u" be).
  { destruct be as [|b be]; [discriminate|]. injection E as <- _. now left. }
  specialize (B "u" HU). revert B. vm_compute. discriminate.
Qed.
Print Assumptions C60_choice_refuted.
(** with complex numbers a value is lost although no eigenvalue is: the environment is built without a conjugate *)
Definition eig_gauss : eigen gauss :=
  mkEigen (diag_eigh (fun x : gauss => (Z.eqb (fst x) 0 && Z.eqb (snd x) 0)%bool)) (fun x : gauss => negb (Z.eqb (fst x) 0 && Z.eqb (snd x) 0)%bool)
    (fun x y : gauss => (fst x - fst y, snd x - snd y)%Z) (fun x y : gauss => Z.ltb (fst x) (fst y)) (fun x : gauss => Z.ltb (fst x) 0).
Definition array_c : arr gauss := mkArr [3; 1; 3; 1] [(1, 0); (0, 0); (0, 0); (0, 0); (1, 0); (0, 1); (0, 0); (0, 0); (0, 0)]%Z.
Definition q0 := afterH (newHotrg num_gauss (Some (TArray array_c)) 5 (Some 2) (empty ((0, 0)%Z : gauss))).
Lemma q0_ok : newHotrg num_gauss (Some (TArray array_c)) 5 (Some 2) (empty ((0, 0)%Z : gauss)) = (fst q0, Ok (snd q0)).
Proof. unfold q0. apply afterH_ok. vm_compute. reflexivity. Qed.
(** everything about this step in one computation *)
Definition q_test (r : world gauss * res (hotrg gauss)) : bool :=
  let q := afterH r in
  okH r && (if list_eq_dec string_dec (o_choices (snd q)) ["u"] then true else false) && match o_norms (snd q) with [a; b] => eqA a ((1, 0)%Z : gauss) && eqA b ((1, 0)%Z : gauss) | _ => false end &&
  negb (eqA (partition (double "u" (grid 1 1)) 1 3 (fun _ u l d r => aget array_c [u; l; d; r])) (norm_product (o_norms (snd q)) * partition (grid 1 1) 1 1 (fun _ => entry4 (w_heap (fst q)) (o_a (snd q))))%sr).
Lemma q_sound r : q_test r = true -> exists q, q = afterH r /\ r = (fst q, Ok (snd q)) /\ o_choices (snd q) = ["u"] /\ o_norms (snd q) = [(1, 0); (1, 0)]%Z /\
  partition (double "u" (grid 1 1)) 1 3 (fun _ u l d r => aget array_c [u; l; d; r]) <> (norm_product (o_norms (snd q)) * partition (grid 1 1) 1 1 (fun _ => entry4 (w_heap (fst q)) (o_a (snd q))))%sr.
Proof.
  unfold q_test. cbv zeta. intros TT. apply andb_prop in TT as (TT & TV). apply andb_prop in TT as (TT & TN). apply andb_prop in TT as (TK & TC). exists (afterH r). split; [reflexivity|]. split; [now apply afterH_ok|].
  split. { destruct (list_eq_dec string_dec (o_choices (snd (afterH r))) ["u"]) as [E|E]; [exact E|discriminate TC]. }
  split. { destruct (o_norms (snd (afterH r))) as [|a [|b [|c l]]]; try discriminate TN. apply andb_prop in TN as (T1 & T2). apply eqA_ok in T1, T2. now rewrite T1, T2. }
  intros E. rewrite E in TV. unfold eqA in TV. match type of TV with negb (if ?D then _ else _) = true => destruct D as [_|NE]; [discriminate TV|apply NE; reflexivity] end.
Qed.
Lemma q_tested : q_test (iterateH sd 40 num_gauss eig_gauss (snd q0) (fst q0)) = true.
Proof. vm_compute. reflexivity. Qed.
Theorem C60_complex_refuted : exists (num : numerics gauss unit) (eig : eigen gauss) (w w0 w1 : world gauss) x dof V H T g0 g d,
  newHotrg num (Some x) 5 (Some 2) w = (w0, Ok g0) /\ given (w_heap w) x dof V H T /\ iterateH sd 40 num eig g0 w0 = (w1, Ok g) /\ o_choices g = [d] /\ (forall x, In x (o_norms g) -> invertible num x) /\
  let m := env_of (w_heap w0) g0 V H d in let n := cut d V H * cut d V H in let k := proj_dim eig (w_heap w0) g0 V H d in
  eigh_exact eig m n /\ no_loss eig m n 2 /\
  partition (double d (grid 1 1)) H V (fun _ => T) <> (norm_product (o_norms g) * partition (grid 1 1) (newH d H k) (newV d V k) (fun _ => entry4 (w_heap w1) (o_a g)))%sr.
Proof.
  destruct (q_sound _ q_tested) as (q & _ & q1_ok & EC & EN & NE).
  exists num_gauss, eig_gauss, (empty ((0, 0)%Z : gauss)), (fst q0), (fst q), (TArray array_c), 1, 3, 1, (fun u l d r => aget array_c [u; l; d; r]), (snd q0), (snd q), "u".
  split; [exact q0_ok|]. split; [now constructor|]. split; [exact q1_ok|]. split; [exact EC|]. split.
  - rewrite EN. intros x Hx [a b]. assert (x = (1, 0)%Z) as -> by (destruct Hx as [<-|[<-|[]]]; reflexivity).
    cbn [num_gauss nu_div rmul SR_gauss gmul fst snd]. unfold gmul. cbn [fst snd]. apply f_equal2; ring.
  - cbv zeta. split; [apply (exactb_ok (eqA (A := gauss)) (@eqA_ok gauss _)); [apply diag_shape; reflexivity|vm_compute; reflexivity]|]. split.
    + intros i Hi. assert (EK : kept_count eig_gauss (env_of (w_heap (fst q0)) (snd q0) 3 1 "u") (cut "u" 3 1 * cut "u" 3 1) 2 = 1) by (vm_compute; reflexivity). rewrite EK in Hi.
      change (i + 1 < 9) in Hi. assert (EV : vals eig_gauss (env_of (w_heap (fst q0)) (snd q0) 3 1 "u") = repeat (0, 0)%Z 8 ++ [(1, 0)%Z]) by (vm_compute; reflexivity). rewrite EV.
      do 8 (destruct i as [|i]; [reflexivity|]). lia.
    + replace (proj_dim eig_gauss (w_heap (fst q0)) (snd q0) 3 1 "u") with 1 by (vm_compute; reflexivity). exact NE.
Qed.
Print Assumptions C60_complex_refuted.
(** maxima and sums, where the norms matter *)
Definition eig_trop : eigen trop := mkEigen (diag_eigh (fun x : trop => match x with None => true | _ => false end)) (fun x : trop => negb (match x with None => true | _ => false end)) (fun x y => x) (fun _ _ => false) (fun _ => false).
Definition array_t : arr trop := mkArr [1; 2; 1; 2] [Some 3; None; None; Some 5]%Z.
Definition t0 := afterH (newHotrg num_trop (Some (TArray array_t)) 5 (Some 2) (empty (None : trop))).
Definition t1 := afterH (iterateH sd 40 num_trop eig_trop (snd t0) (fst t0)).
Lemma t0_ok : newHotrg num_trop (Some (TArray array_t)) 5 (Some 2) (empty (None : trop)) = (fst t0, Ok (snd t0)).
Proof. unfold t0. apply afterH_ok. vm_compute. reflexivity. Qed.
Lemma t1_ok : iterateH sd 40 num_trop eig_trop (snd t0) (fst t0) = (fst t1, Ok (snd t1)).
Proof. unfold t1. apply afterH_ok. vm_compute. reflexivity. Qed.
Lemma kt_ok : proj_dim eig_trop (w_heap (fst t0)) (snd t0) 1 2 "u" = 1. Proof. vm_compute. reflexivity. Qed.
Example C60_density_example :
  log_ok num_trop (fun x => x <> None) /\ newHotrg num_trop (Some (TArray array_t)) 5 (Some 2) (empty (None : trop)) = (fst t0, Ok (snd t0)) /\
  given (w_heap (empty (None : trop))) (TArray array_t) 1 1 2 (fun u l d r => aget array_t [u; l; d; r]) /\
  exact_runH eig_trop num_trop sd 40 (fst t0) (snd t0) 1 2 ["u"] (fst t1) (snd t1) 1 2 /\ o_norms (snd t1) = [Some 5; Some 0]%Z /\ (forall x, In x (o_norms (snd t1)) -> invertible num_trop x /\ x <> None) /\
  (forall c d v, In (c, d) (o_archive (snd t1)) -> trace (w_heap (fst t1)) c (Some [RStr "u"; RStr "l"]) (Some [RStr "d"; RStr "r"]) = Ok v -> v <> None).
Proof.
  assert (EN : o_norms (snd t1) = [Some 5; Some 0]%Z) by (vm_compute; reflexivity).
  split; [exact log_trop|]. split; [exact t0_ok|]. split; [now constructor|]. split; [|split; [exact EN|split]].
  - assert (X1 := eh_step eig_trop num_trop sd 40 (fst t0) (snd t0) 1 2 [] (fst t0) (snd t0) 1 2 "u" (fst t1) (snd t1) (eh_start _ _ _ _ _ _ _ _) t1_ok). rewrite kt_ok in X1.
    apply X1; [intros d _; apply diag_shape; reflexivity|vm_compute; reflexivity|]. apply (losslessb_ok (eqA (A := trop)) (@eqA_ok trop _)). vm_compute. reflexivity.
  - rewrite EN. intros x Hx. assert (NN : x <> None) by (destruct Hx as [<-|[<-|[]]]; discriminate). split; [now apply div_trop|exact NN].
  - intros c d v Hc. assert (EA : o_archive (snd t1) = [(1, 1); (39, 2)]) by (vm_compute; reflexivity). rewrite EA in Hc. intros Ev ->. revert Ev.
    destruct Hc as [Ec|[Ec|[]]]; injection Ec as <- <-; vm_compute; discriminate.
Qed.
