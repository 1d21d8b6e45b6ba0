(** Vocabulary for makeRandomMPS (C69). *)
From Coq Require Import List Arith.
From Verif Require Import Base NdModel HeapModel TensorModel TensorSpec SvdModel TrgModel.
Import ListNotations.
Local Open Scope nat_scope.

(** what an argument for the dimensions stands for *)
Definition dims_are (d : dshape) (n : nat) (l : list nat) : Prop := match d with DInt k => l = repeat k n | DList l' => l = l' /\ List.length l' = n end.

Section Sp.
Context {A : Type}.
Notation heap := (heap A).
(** the tensors, the legs and the ends of the bonds of [h] are the same in [h'] *)
Definition keeps (h h' : heap) : Prop :=
  (forall t, t < ntens h -> tens h' t = tens h t) /\ (forall l, l < nleg h -> legs h' l = legs h l) /\
  (forall b, b < nbond h -> bonds h' b = bonds h b \/ bonds h' b = mkBond (b1 (bonds h b)) (b0 (bonds h b))).
(** the entries of [t] are the random numbers of [h] from position [k] on, divided by the norm of the array of these numbers *)
Definition drawn {B} (num : numerics A B) (h : heap) (k : nat) (h' : heap) (t : tid) : Prop :=
  let sh := dims_of h' t in let d := map (rng h) (seq k (prodn sh)) in
  t_arr (tens h' t) = Some (mkArr sh (map (fun x => nu_div num x (nu_norm num (mkArr sh d))) d)).
End Sp.
