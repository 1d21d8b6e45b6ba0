(** Property C65: the renormalization group on the triangular pattern. *)
From Coq Require Import List Arith Bool String ZArith Lia QArith Qcanon.
From Verif Require Import Base Sums NdModel HeapModel TensorModel TensorSpec ContractModel SvdModel SvdSpec FtnModel NetsModel NetsSpec SearchModel SearchSpec TorusSpec TrgModel TrgSpec TrgProofs TriTrgModel TriTrgSpec TriLatSpec TriRunSpec TriStepProofs TriTraceProofs TriLatProofs TriRunProofs TrgExampleProofs SearchProps.
Import ListNotations.
Local Open Scope nat_scope.
Local Open Scope string_scope.
Local Open Scope list_scope.

Section Props.
Context {A B : Type} {HA : SR A}.
Notation heap := (heap A).
Notation world := (world A).
Notation tri := (tri A).
Variable num : numerics A B.
Variable symdiff : list nat -> list nat -> list nat.
Hypothesis Hsd : symdiff_ok symdiff.
Variable fuel : nat.

(** the constructor makes the two triangles of the hard core gas, divided by their norms, and archives copies *)
Theorem C65_init (w w' : world) alpha chi g : newTri num alpha chi w = (w', Ok g) ->
  exists a b na nb ca cb, g = mkTri a b 1 1 chi None [na] [nb] [] [(ca, 1)] [(cb, 1)] /\ tri_state w' g 2 /\ normalized num (w_heap w') a na /\ normalized num (w_heap w') b nb /\
    tri_copy (w_heap w') g a ca 2 /\ tri_copy (w_heap w') g b cb 2 /\ preserved (w_heap w) (w_heap w') /\
    forall i j k, (i < 2) -> (j < 2) -> (k < 2) -> entry3 (w_heap w') a i j k = nu_div num (hard alpha i j k) na /\ entry3 (w_heap w') b i j k = nu_div num (hard alpha i j k) nb.
Proof. exact (@newTri_ok A B HA num w w' alpha chi g). Qed.

(** one step: the two triangles are joined, cut the other way, and three halves are put around a vertex *)
Theorem C65_iterate (w w' : world) (g g' : tri) D : iterateTri symdiff fuel num g w = (w', Ok g') -> tri_state w g D ->
  svd_shape (nu_lib num) (tri_mat (w_heap w) g D) (D * D) (D * D) ->
  let k := Nat.min (p_chi g) (D * D) in let m := tri_mat (w_heap w) g D in
  exists a b f na nb ca cb, g' = mkTri a b (3 * p_dofA g) (3 * p_dofA g) (p_chi g) (Some f) (p_aNorms g ++ [na]) (p_bNorms g ++ [nb])
      (p_errors g ++ [cut_error num m (D * D) (p_chi g) 2]) (p_aArchive g ++ [(ca, 3 * p_dofA g)]) (p_bArchive g ++ [(cb, 3 * p_dofA g)]) /\
    tri_state w' g' k /\ normalized num (w_heap w') a na /\ normalized num (w_heap w') b nb /\ tri_copy (w_heap w') g' a ca k /\ tri_copy (w_heap w') g' b cb k /\
    tri_kept (w_heap w) (w_heap w') g g' /\
    forall i1 i2 i3, (i1 < k) -> (i2 < k) -> (i3 < k) ->
      entry3 (w_heap w') a i1 i2 i3 = nu_div num (around D (half_u num m) i1 i2 i3) na /\ entry3 (w_heap w') b i1 i2 i3 = nu_div num (around D (half_v num m) i1 i2 i3) nb.
Proof. exact (@iterateTri_ok A B HA num symdiff Hsd fuel w w' g g' D). Qed.

(** triangleTensorTrace closes two triangles along equal legs and leaves them as they were *)
Theorem C65_trace (h : heap) a b D : triangle h a D -> triangle h b D ->
  exists h' t, triangleTensorTrace a b h = (h', Ok t) /\ preserved h h' /\ single h' t = Ok (theta D (entry3 h a) (entry3 h b)).
Proof. intros Ha Hb. destruct (trace_ok h a b D Ha Hb) as (h' & t & E & G & S). exists h', t. split; [exact E|]. split; [now apply grown_preserved|exact S]. Qed.

(** what the object holds after any number of steps *)
Theorem C65_archive (ok : arr A -> nat -> nat -> Prop) w w0 alpha chi g0 n wn g D : (forall m n chi, ok m n chi -> svd_shape (nu_lib num) m n n) ->
  newTri num alpha chi w = (w0, Ok g0) -> tri_run num symdiff fuel ok w0 g0 2 n wn g D ->
  tri_state wn g D /\ p_chi g = chi /\ p_dofA g = (3 ^ n) /\ p_dofB g = (3 ^ n) /\ List.length (p_aNorms g) = S n /\ List.length (p_bNorms g) = S n /\ List.length (p_errors g) = n /\
  List.length (p_aArchive g) = S n /\ List.length (p_bArchive g) = S n /\
  forall i wi gi Di, (i <= n) -> tri_run num symdiff fuel ok w0 g0 2 i wi gi Di ->
    holds wn g i wi gi Di /\ p_aNorms gi = firstn (S i) (p_aNorms g) /\ p_bNorms gi = firstn (S i) (p_bNorms g).
Proof. exact (@tri_archive A B HA num symdiff Hsd fuel ok w w0 alpha chi g0 n wn g D). Qed.

(** the step of the lattice alone: two triangles joined along leg 1 and cut exactly the other way *)
Theorem C65_lattice_step L D K (a b : nat -> nat -> nat -> A) (u v : nat -> nat -> A) : trilat_ok L ->
  (forall p q r s, (p < D) -> (q < D) -> (r < D) -> (s < D) -> sumN D (fun z => a z p r * b z q s)%sr = sumN K (fun o => u (p * D + q)%nat o * v (r * D + s)%nat o)%sr) ->
  lattice_value (trefine L) D a b = lattice_value L K (around D u) (around D v).
Proof. exact (@trilat_step A HA L D K a b u v). Qed.
(** refining keeps a lattice a lattice, with three times as many cells *)
Theorem C65_refined n L : trilat_ok L ->
  trilat_ok (trefined n L) /\ List.length (cellsA (trefined n L)) = (3 ^ n * List.length (cellsA L)) /\ List.length (cellsB (trefined n L)) = (3 ^ n * List.length (cellsA L)).
Proof. intros HL. split; [now apply trefined_ok|now apply trefined_count]. Qed.

(** a run without loss computes every lattice refined n times, by the lattice of the last tensors *)
Theorem C65_value w w0 alpha chi g0 n wn g D L : (forall x, nu_conj num x = x) -> newTri num alpha chi w = (w0, Ok g0) -> tri_run num symdiff fuel (faithful num) w0 g0 2 n wn g D ->
  (forall x, In x (p_aNorms g ++ p_bNorms g) -> invertible num x) -> trilat_ok L ->
  lattice_value (trefined n L) 2 (hard alpha) (hard alpha) = (pow (norm_product3 (pair_norms g)) (List.length (cellsA L)) * lattice_value L D (entry3 (w_heap wn) (p_a g)) (entry3 (w_heap wn) (p_b g)))%sr.
Proof. exact (@tri_value A B HA num symdiff Hsd fuel w w0 alpha chi g0 n wn g D L). Qed.

(** logZDensity() returns one number for every step; the logarithms are divided by powers of 9 *)
Theorem C65_density w w0 alpha chi g0 n wn g D : newTri num alpha chi w = (w0, Ok g0) -> tri_run num symdiff fuel (shaped num) w0 g0 2 n wn g D ->
  exists h' zs, logZDensityTri num g (w_heap wn) = (h', Ok zs) /\ preserved (w_heap wn) h' /\ List.length zs = S n /\
    forall i wi gi Di, (i <= n) -> tri_run num symdiff fuel (shaped num) w0 g0 2 i wi gi Di ->
      nth_error zs i = Some (log_density num 9 (pair_norms g) i (theta Di (entry3 (w_heap wi) (p_a gi)) (entry3 (w_heap wi) (p_b gi)))).
Proof. exact (@tri_density A B HA num symdiff Hsd fuel w w0 alpha chi g0 n wn g D). Qed.

(** the logarithm of the lattice, divided by its number of cells of one kind, needs powers of 3 *)
Theorem C65_true_density pos w w0 alpha chi g0 n wn g D : (forall x, nu_conj num x = x) -> log3_ok num pos -> newTri num alpha chi w = (w0, Ok g0) ->
  tri_run num symdiff fuel (faithful num) w0 g0 2 n wn g D ->
  (forall x, In x (p_aNorms g ++ p_bNorms g) -> invertible num x /\ pos x) -> let z := theta D (entry3 (w_heap wn) (p_a g)) (entry3 (w_heap wn) (p_b g)) in pos z ->
  List.length (cellsA (trefined n theta_lattice)) = (3 ^ n) /\
  nu_share num (nu_log num (lattice_value (trefined n theta_lattice) 2 (hard alpha) (hard alpha))) (3 ^ n) = log_density num 3 (pair_norms g) n z.
Proof. exact (@tri_true_density A B HA num symdiff Hsd fuel pos w w0 alpha chi g0 n wn g D). Qed.
End Props.
Print Assumptions C65_init.
Print Assumptions C65_iterate.
Print Assumptions C65_trace.
Print Assumptions C65_archive.
Print Assumptions C65_lattice_step.
Print Assumptions C65_refined.
Print Assumptions C65_value.
Print Assumptions C65_density.
Print Assumptions C65_true_density.

Example C65_lattice_example : trilat_ok theta_lattice /\ trilat_ok (trefined 2 theta_lattice) /\ List.length (bonds3 (trefined 2 theta_lattice)) = 27.
Proof. split; [exact theta_ok|]. split; [apply trefined_ok, theta_ok|reflexivity]. Qed.

(** a step with maxima and sums, without normalization *)
Definition num_tri : numerics trop Qc := mkNum (@libI trop SR_trop) (fun x => x) (fun _ => Some 0%Z) (fun x _ => x)
  (fun x => match x with Some a => Q2Qc (inject_Z a) | None => 0%Qc end) 0%Qc Qcplus (fun x n => (x / Q2Qc (inject_Z (Z.of_nat n)))%Qc).
Lemma log_tri : log3_ok num_tri (fun x => x <> None).
Proof.
  split; cbn [num_tri nu_log nu_plus nu_zero nu_share].
  - intros [a|] [b|] Ha Hb; try congruence. split; [discriminate|]. cbn. apply Qc_of_Z_add.
  - intros. ring.
  - intros. unfold Qcdiv. ring.
  - intros x n. replace (3 * n) with (n + (n + n)) by lia. rewrite !Nat2Z.inj_add, !Qc_of_Z_add. set (q := Q2Qc (inject_Z (Z.of_nat n))).
    destruct (Qc_eq_dec q 0) as [->|NE]; [unfold Qcdiv; change (/ (0 + (0 + 0)))%Qc with (0 : Qc)%Qc; change (/ 0)%Qc with (0 : Qc)%Qc; ring|].
    field. split; auto. intros E. apply NE. replace (q + (q + q))%Qc with (Q2Qc 3 * q)%Qc in E.
    2:{ replace (Q2Qc 3) with (1 + (1 + 1))%Qc; [ring|]. apply Qc_is_canon. reflexivity. }
    apply Qcmult_integral in E. destruct E as [E|E]; [discriminate|exact E].
Qed.
Definition after3 (r : world trop * res (tri trop)) : world trop * tri trop := (fst r, match snd r with Ok g => g | Err _ => mkTri 0 0 0 0 0 None [] [] [] [] [] end).
Lemma after3_ok r : okb (snd r) = true -> r = (fst (after3 r), Ok (snd (after3 r))).
Proof. destruct r as [w [g|e]]; [reflexivity|discriminate]. Qed.
Definition x0 := after3 (newTri num_tri (Some 1%Z) 4 (empty (None : trop))).
Definition x1 := after3 (iterateTri sd 40 num_tri (snd x0) (fst x0)).
Lemma x0_ok : newTri num_tri (Some 1%Z) 4 (empty (None : trop)) = (fst x0, Ok (snd x0)).
Proof. unfold x0. apply after3_ok. vm_compute. reflexivity. Qed.
Lemma x1_ok : iterateTri sd 40 num_tri (snd x0) (fst x0) = (fst x1, Ok (snd x1)).
Proof. unfold x1. apply after3_ok. vm_compute. reflexivity. Qed.
Lemma x0_chi : p_chi (snd x0) = 4. Proof. vm_compute. reflexivity. Qed.
Lemma x1_run (ok : arr trop -> nat -> nat -> Prop) : (forall m, m = tri_mat (w_heap (fst x0)) (snd x0) 2 -> faithful num_tri m 4 4 -> ok m 4 4) ->
  tri_run num_tri sd 40 ok (fst x0) (snd x0) 2 1 (fst x1) (snd x1) 4.
Proof.
  intros K. assert (X := tr_step num_tri sd 40 ok (fst x0) (snd x0) 2 0 (fst x0) (snd x0) 2 (fst x1) (snd x1) (tr_start _ _ _ _ _ _ _) x1_ok).
  rewrite x0_chi in X. apply X, K; [reflexivity|]. apply faithfulb_ok. vm_compute. reflexivity.
Qed.
Lemma x1_norms : p_aNorms (snd x1) = [Some 0; Some 0]%Z /\ p_bNorms (snd x1) = [Some 0; Some 0]%Z. Proof. split; vm_compute; reflexivity. Qed.
Lemma x1_theta : theta 4 (entry3 (w_heap (fst x1)) (p_a (snd x1))) (entry3 (w_heap (fst x1)) (p_b (snd x1))) = Some 6%Z. Proof. vm_compute. reflexivity. Qed.
Lemma tri_inv x : In x (p_aNorms (snd x1) ++ p_bNorms (snd x1)) -> invertible num_tri x /\ x <> None.
Proof.
  destruct x1_norms as (-> & ->). intros Hx. assert (x = Some 0%Z) as -> by (destruct Hx as [<-|[<-|[<-|[<-|[]]]]]; reflexivity).
  split; [|discriminate]. intros [a|]; cbn; [f_equal; lia|reflexivity].
Qed.
Example C65_run_example :
  newTri num_tri (Some 1%Z) 4 (empty (None : trop)) = (fst x0, Ok (snd x0)) /\ tri_run num_tri sd 40 (faithful num_tri) (fst x0) (snd x0) 2 1 (fst x1) (snd x1) 4 /\
  tri_run num_tri sd 40 (shaped num_tri) (fst x0) (snd x0) 2 1 (fst x1) (snd x1) 4 /\ tri_state (fst x1) (snd x1) 4 /\
  (forall x, nu_conj num_tri x = x) /\ log3_ok num_tri (fun x => x <> None) /\ (forall x, In x (p_aNorms (snd x1) ++ p_bNorms (snd x1)) -> invertible num_tri x /\ x <> None) /\
  theta 4 (entry3 (w_heap (fst x1)) (p_a (snd x1))) (entry3 (w_heap (fst x1)) (p_b (snd x1))) = Some 6%Z.
Proof.
  split; [exact x0_ok|]. split; [now apply x1_run|]. split; [apply x1_run; intros m _ F; exact (sx_shape _ _ _ _ (proj1 F))|].
  split; [refine (proj1 (C65_archive num_tri sd sd_ok 40 (faithful num_tri) _ _ _ _ _ _ _ _ _ _ x0_ok (x1_run _ (fun m _ F => F)))); intros m n chi F; exact (sx_shape _ _ _ _ (proj1 F))|].
  split; [reflexivity|]. split; [exact log_tri|]. split; [exact tri_inv|exact x1_theta].
Qed.

(** in a run without loss the number returned by logZDensity() is not the logarithm of the lattice divided by its number of cells of one kind *)
Theorem C65_density_refuted : exists (num : numerics trop Qc) alpha chi (w w0 wn : world trop) g0 g n D pos h' zs x,
  (forall x, nu_conj num x = x) /\ log3_ok num pos /\ newTri num alpha chi w = (w0, Ok g0) /\ tri_run num sd 40 (faithful num) w0 g0 2 n wn g D /\
  (forall x, In x (p_aNorms g ++ p_bNorms g) -> invertible num x /\ pos x) /\ pos (theta D (entry3 (w_heap wn) (p_a g)) (entry3 (w_heap wn) (p_b g))) /\
  logZDensityTri num g (w_heap wn) = (h', Ok zs) /\ nth_error zs n = Some x /\
  x <> nu_share num (nu_log num (lattice_value (trefined n theta_lattice) 2 (hard alpha) (hard alpha))) (List.length (cellsA (trefined n theta_lattice))).
Proof.
  assert (R1 := x1_run (faithful num_tri) (fun m _ F => F)). assert (R2 : tri_run num_tri sd 40 (shaped num_tri) (fst x0) (snd x0) 2 1 (fst x1) (snd x1) 4) by (apply x1_run; intros m _ F; exact (sx_shape _ _ _ _ (proj1 F))).
  destruct (C65_density num_tri sd sd_ok 40 _ _ _ _ _ _ _ _ _ x0_ok R2) as (h' & zs & EZ & _ & _ & NZ). specialize (NZ 1 _ _ _ (le_n 1) R2).
  assert (PZ : theta 4 (entry3 (w_heap (fst x1)) (p_a (snd x1))) (entry3 (w_heap (fst x1)) (p_b (snd x1))) <> None) by (rewrite x1_theta; discriminate).
  destruct (C65_true_density num_tri sd sd_ok 40 (fun x => x <> None) _ _ _ _ _ _ _ _ _ (fun x => eq_refl) log_tri x0_ok R1 tri_inv PZ) as (CT & TZ).
  do 13 eexists. eexists. split; [|split; [exact log_tri|split; [exact x0_ok|split; [exact R1|split; [exact tri_inv|split; [exact PZ|split; [exact EZ|split; [exact NZ|]]]]]]]]; [reflexivity|].
  rewrite CT, TZ. cbv beta zeta. rewrite x1_theta. unfold pair_norms. destruct x1_norms as (-> & ->). intros E. apply (f_equal this) in E. vm_compute in E. discriminate.
Qed.
Print Assumptions C65_density_refuted.
