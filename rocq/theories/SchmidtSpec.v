(** Vocabulary for Schmidt decompositions of two linked tensors. *)
From Coq Require Import List Arith Bool String ZArith Permutation.
From Verif Require Import Base Sums NdModel HeapModel TensorSpec NetSpec FtnNetSpec SvdModel SvdSpec.
Import ListNotations.

Section Sp.
Context {A : Type}.
Notation heap := (heap A).

(** the leg is called by one of the strings [sw] *)
Definition called (h : heap) (sw : list string) (l : lid) : bool :=
  match l_name (legs h l) with NStr s => existsb (String.eqb s) sw | _ => false end.

(** the legs of the two results: those left over by the contraction, except that the legs of [ta] called as in [swA] and those
    of [tb] called as in [swB] change sides *)
Definition sideA (h : heap) (ta tb : tid) (swA swB : list string) : list lid :=
  filter (fun l => negb (called h swA l)) (restA h ta tb) ++ filter (called h swB) (restB h ta tb).
Definition sideB (h : heap) (ta tb : tid) (swA swB : list string) : list lid :=
  filter (called h swA) (restA h ta tb) ++ filter (fun l => negb (called h swB l)) (restB h ta tb).

(** what SchimdtDecomposition needs of the names: strings without '-', different on each tensor and on each result; the labels to swap exist *)
Record separable (h : heap) (ta tb : tid) (swA swB : list string) : Prop := {
  sb_plain : forall l, In l (legs_of h ta ++ legs_of h tb) -> exists s, l_name (legs h l) = NStr s /\ after_dash s = None;
  sb_namesA : NoDup (map (fun l => l_name (legs h l)) (legs_of h ta));
  sb_namesB : NoDup (map (fun l => l_name (legs h l)) (legs_of h tb));
  sb_len : List.length swA = List.length swB;
  sb_inA : forall s, In s swA -> exists l, In l (legs_of h ta) /\ l_name (legs h l) = NStr s;
  sb_inB : forall s, In s swB -> exists l, In l (legs_of h tb) /\ l_name (legs h l) = NStr s;
  sb_sideA : NoDup (map (fun l => l_name (legs h l)) (sideA h ta tb swA swB)) /\ sideA h ta tb swA swB <> [];
  sb_sideB : NoDup (map (fun l => l_name (legs h l)) (sideB h ta tb swA swB)) /\ sideB h ta tb swA swB <> [];
  sb_apart : forall l l', In l (restA h ta tb ++ restB h ta tb) -> In l' (restA h ta tb ++ restB h ta tb) -> ~ linked h l l' }.
End Sp.
