(** Vocabulary for merging the links between two tensors. *)
From Coq Require Import List Arith String Permutation.
From Verif Require Import Base NdModel HeapModel TensorModel TensorSpec NetSpec.
Import ListNotations.

Section Sp.
Context {A : Type} {HA : SR A}.
Notation heap := (heap A).

(** names of the two new legs: the given name, the two given names, or the old names joined by "|" *)
Inductive bond_names (h : heap) (P : list (lid * lid)) : option pname -> pname -> pname -> Prop :=
| bn_one s : bond_names h P (Some (NStr s)) (NStr s) (NStr s)
| bn_two a b : bond_names h P (Some (NPair a b)) (NStr a) (NStr b)
| bn_join sa sb : map (fun p => l_name (legs h (fst p))) P = map NStr sa -> map (fun p => l_name (legs h (snd p))) P = map NStr sb ->
    bond_names h P None (NStr (String.concat "|" sa)) (NStr (String.concat "|" sb)).

(** [h'] is [h] with all links between [ta] and [tb] replaced by the single link from [la] to [lb] *)
Record link_merged (h h' : heap) (ta tb : tid) (la lb : lid) (na nb : pname) : Prop := {
  lk_shared : shared h' ta tb = [(la, lb)];
  lk_new : (nleg h <= la)%nat /\ (nleg h <= lb)%nat /\ la <> lb;
  lk_dim : dim_of h' la = prodn (map (fun p => dim_of h (fst p)) (shared h ta tb)) /\ dim_of h' lb = dim_of h' la;
  lk_name : l_name (legs h' la) = na /\ l_name (legs h' lb) = nb;
  lk_legs : legs_of h' ta = la :: restA h ta tb /\ legs_of h' tb = lb :: restB h ta tb;
  lk_old : forall l, (l < nleg h)%nat -> legs h' l = legs h l;
  lk_bonds : forall b, (b < nbond h)%nat -> bonds h' b = bonds h b;
  lk_tens : forall t, t <> ta -> t <> tb -> tens h' t = tens h t;
  lk_flags : forall t, t_diag (tens h' t) = t_diag (tens h t) /\ t_like (tens h' t) = t_like (tens h t) }.
End Sp.
