(** The square lattice Ising model with its spins on the bonds of a torus. *)
From Coq Require Import List Arith Bool String Reals.
From Verif Require Import Base Sums TorusSpec RealSR.
Import ListNotations.
Local Open Scope R_scope.

(** the spins of the indices 0 and 1 *)
Definition spin (i : nat) : R := if Nat.eqb i 1 then 1 else -1.
(** four spins around a square *)
Definition square_energy (u l d r : nat) : R := - (spin u * spin l + spin l * spin d + spin d * spin r + spin r * spin u).
(** every spin belongs to two squares *)
Definition square_spin (u l d r : nat) : R := (spin u + spin l + spin d + spin r) / 2.
Definition observable (obs : option string) (u l d r : nat) : R :=
  match obs with None => 1 | Some o => if dec o "M"%string then square_spin u l d r else square_energy u l d r end.
Definition known (obs : option string) : Prop := match obs with None => True | Some o => o = "M"%string \/ o = "E"%string end.
(** what the tensor of a site should hold: the observable of its square times its share of the Boltzmann weight in a field [b] *)
Definition site_weight (beta b : R) (obs : option string) (u l d r : nat) : R :=
  (observable obs u l d r * exp (- beta * square_energy u l d r) * exp (b * square_spin u l d r)).
(** four spins in a ring with alternating couplings *)
Definition pair_energy (w0 w1 : R) (a b c d : nat) : R := (- (w0 * spin a * spin b + w1 * spin b * spin c + w0 * spin c * spin d + w1 * spin d * spin a)).
(** one weight for all four bonds, or a pair of weights *)
Definition two_weights (weight : R + list R) (w0 w1 : R) : Prop := match weight with inl w => w0 = w /\ w1 = w | inr ws => ws = [w0; w1] end.

Section L.
Variable L : lattice.
(** [h x] is the spin to the right of site x, [v x] the one below.  Every spin on a horizontal bond has four neighbours, on the vertical bonds above and below its two ends;
    the couplings are [J] in one direction and [K] in the other *)
Definition ising_energy (J K : R) (h v : site L -> nat) : R :=
  - sumL (sites L) (fun x => spin (h x) * (J * spin (v x) + K * spin (v (up L x)) + K * spin (v (right L x)) + J * spin (v (up L (right L x))))).
Definition magnetization (h v : site L -> nat) : R := sumL (sites L) (fun x => spin (h x) + spin (v x)).
(** the sum over all states of a quantity with the Boltzmann weight in a field [b] *)
Definition ising_sum (J K b : R) (q : (site L -> nat) -> (site L -> nat) -> R) : R :=
  sum_over (sites L) 2 (fun h => sum_over (sites L) 2 (fun v => exp (- ising_energy J K h v + b * magnetization h v) * q h v) (fun _ => 0%nat)) (fun _ => 0%nat).
End L.
