(** Claim C62: the tensors of the square lattice Ising model (models/Ising.py 11-139) are its Boltzmann weights. *)
From Coq Require Import List Arith Bool String Lia Reals Lra.
From Verif Require Import Base Sums NdModel HeapModel TensorModel TensorSpec NamedSpec NetsSpec TorusSpec TrgSpec MomentSpec FtnModel TrgExampleProofs TorusIsoProofs TrgProofs NetsProofs TensorProofs RealSR SquareIsingModel SquareIsingSpec SquareIsingProofs.
Import ListNotations.
Local Open Scope nat_scope.
Local Open Scope string_scope.

(** the observable of one square: nothing, the spins ("M", each shared with another square) or the bonds ("E"); anything else is an error *)
Theorem C62_measure : forall obs u l d r, known obs -> u < 2 -> l < 2 -> d < 2 -> r < 2 -> squareTensorMeasure [u; l; d; r] obs = Ok (observable obs u l d r).
Proof. exact measure_val. Qed.
Print Assumptions C62_measure.
Theorem C62_measure_error : forall obs idx, ~ known obs -> squareTensorMeasure idx obs = Err AssertionError.
Proof. exact measure_err. Qed.
Print Assumptions C62_measure_error.
(** the tensor of a site always exists, is new, has legs u, l, d, r of dimension 2 and holds the weight of the square times the observable *)
Theorem C62_tensor : forall beta obs b (h : heap R), known obs -> exists h' t, squareIsingTensor beta obs b h = (h', Ok (t, Some 2)) /\ new_tensor h h' t None /\ square h' t 2 2 /\
  forall u l d r, u < 2 -> l < 2 -> d < 2 -> r < 2 -> entry4 h' t u l d r = site_weight beta b obs u l d r.
Proof. exact square_tensor. Qed.
Print Assumptions C62_tensor.
Theorem C62_tensor_error : forall beta obs b (h : heap R), ~ known obs -> squareIsingTensor beta obs b h = (h, Err AssertionError).
Proof. exact square_tensor_err. Qed.
Print Assumptions C62_tensor_error.
(** the network of these tensors on any periodic lattice has the value of the partition function in the field symmetryBroken *)
Theorem C62_partition : forall L, torus L -> forall beta b (h h' : heap R) t df, squareIsingTensor beta None b h = (h', Ok (t, df)) ->
  partition L 2 2 (fun _ => entry4 h' t) = ising_sum L beta beta b (fun _ _ => 1%R).
Proof. exact tensor_partition. Qed.
Print Assumptions C62_partition.
(** with an observable, the tensor is the one without times the observable of its square, and the sum of these over the lattice is the magnetization or the energy:
    the hypotheses and the moments of C61 *)
Theorem C62_moment : forall L, torus L -> forall beta b (h h1 h2 : heap R) t0 t1 d0 d1 o, (o = "M" \/ o = "E") ->
  squareIsingTensor beta None b h = (h1, Ok (t0, d0)) -> squareIsingTensor beta (Some o) b h1 = (h2, Ok (t1, d1)) ->
  preserved h1 h2 /\ square h2 t0 2 2 /\ square h2 t1 2 2 /\
  (forall j u l d r, j < 2 -> u < 2 -> l < 2 -> d < 2 -> r < 2 -> entry4 h2 (nth j [t0; t1] t0) u l d r = (entry4 h2 t0 u l d r * pow (observable (Some o) u l d r) j)%R) /\
  forall i, moment L 2 2 (entry4 h2 t0) (observable (Some o)) i = ising_sum L beta beta b (fun x y => pow (if dec o "M" then magnetization L x y else ising_energy L 1 1 x y) i).
Proof. exact tensor_moment. Qed.
Print Assumptions C62_moment.
(** the ring of four spins of plaquetteIsingTensor; its legs are named after the corners, or after the sides of a diamond *)
Theorem C62_plaquette : forall weight w0 w1 diamond (h : heap R), two_weights weight w0 w1 -> let labs := if diamond : bool then ["r"; "d"; "l"; "u"] else ["ru"; "rd"; "ld"; "lu"] in
  exists h' t, plaquetteIsingTensor weight diamond h = (h', Ok (t, Some 2)) /\ new_tensor h h' t None /\ dense_legs h' t (map (fun n => (n, 2)) labs) /\
  forall a b c d, a < 2 -> b < 2 -> c < 2 -> d < 2 -> at_ h' t (combine labs [a; b; c; d]) = exp (- pair_energy w0 w1 a b c d).
Proof. exact plaquette_tensor. Qed.
Print Assumptions C62_plaquette.
Theorem C62_plaquette_error : forall ws diamond (h : heap R), List.length ws <> 2 -> plaquetteIsingTensor (inr ws) diamond h = (h, Err AssertionError).
Proof. exact plaquette_err. Qed.
Print Assumptions C62_plaquette_error.
(** diamonds fit together to the same lattice, with the two weights in the two directions *)
Theorem C62_diamond : forall L, torus L -> forall weight w0 w1, two_weights weight w0 w1 -> forall (h h' : heap R) t df, plaquetteIsingTensor weight true h = (h', Ok (t, df)) ->
  square h' t 2 2 /\ partition L 2 2 (fun _ => entry4 h' t) = ising_sum L w0 w1 0 (fun _ _ => 1%R).
Proof. exact plaquette_partition. Qed.
Print Assumptions C62_diamond.

Definition h0 : heap R := w_heap (TrgExampleProofs.empty 0%R).
(** one site on a torus: two spins with four bonds between them *)
Example C62_example : exists h t, squareIsingTensor 1 None 0 h0 = (h, Ok (t, Some 2)) /\ partition (grid 1 1) 2 2 (fun _ => entry4 h t) = (2 * exp 4 + 2 * exp (-4))%R.
Proof.
  destruct (C62_tensor 1 None 0 h0 I) as (h & t & E & _). exists h, t. split; [exact E|]. rewrite (C62_partition (grid 1 1) (grid_torus 1 1) _ _ _ _ _ _ E).
  unfold ising_sum, sum_over, ising_energy, magnetization, spin. cbn.
  repeat match goal with |- context [exp ?x] => first [progress replace (exp x) with (exp 4) by (f_equal; lra)|progress replace (exp x) with (exp (-4)) by (f_equal; lra)] end. ring.
Qed.
(** an observable that does not exist, a wrong number of weights; a diamond on one site *)
Example C62_example_errors : squareIsingTensor 1 (Some "X") 0 h0 = (h0, Err AssertionError) /\ plaquetteIsingTensor (inr [1%R]) true h0 = (h0, Err AssertionError).
Proof. split; [apply C62_tensor_error; intros [E|E]; discriminate|apply C62_plaquette_error; discriminate]. Qed.
Example C62_example_moment : exists h1 h2 t0 t1, squareIsingTensor 1 None 0 h0 = (h1, Ok (t0, Some 2)) /\ squareIsingTensor 1 (Some "M") 0 h1 = (h2, Ok (t1, Some 2)) /\
  entry4 h2 t1 1 1 1 0 = exp 0.
Proof.
  destruct (C62_tensor 1 None 0 h0 I) as (h1 & t0 & E0 & _). destruct (C62_tensor 1 (Some "M") 0 h1 (or_introl eq_refl)) as (h2 & t1 & E1 & _ & _ & EV).
  exists h1, h2, t0, t1. split; [exact E0|]. split; [exact E1|]. rewrite EV by lia. unfold site_weight. cbn [observable]. destruct (dec "M" "M") as [_|N]; [|congruence]. unfold square_energy, square_spin, spin. cbn.
  rewrite Rmult_0_l, exp_0. replace (exp _) with (exp 0) by (f_equal; lra). rewrite exp_0. lra.
Qed.
Example C62_example_diamond : exists h t, plaquetteIsingTensor (inr [1%R; 2%R]) true h0 = (h, Ok (t, Some 2)) /\ partition (grid 1 1) 2 2 (fun _ => entry4 h t) = (2 * exp 6 + 2 * exp (-6))%R.
Proof.
  destruct (C62_plaquette (inr [1%R; 2%R]) 1 2 true h0 eq_refl) as (h & t & E & _). exists h, t. split; [exact E|].
  rewrite (proj2 (C62_diamond (grid 1 1) (grid_torus 1 1) (inr [1%R; 2%R]) 1 2 eq_refl _ _ _ _ E)).
  unfold ising_sum, sum_over, ising_energy, magnetization, spin. cbn.
  repeat match goal with |- context [exp ?x] => first [progress replace (exp x) with (exp 6) by (f_equal; lra)|progress replace (exp x) with (exp (-6)) by (f_equal; lra)] end. ring.
Qed.
