(** Vocabulary for matrix product states. *)
From Coq Require Import List Arith Bool String ZArith Permutation.
From Verif Require Import Base Sums NdModel HeapModel TensorSpec NetSpec GroupSpec SvdModel SvdSpec SchmidtSpec MpsModel.
Import ListNotations.

Section Sp.
Context {A : Type} {HA : SR A}.
Notation heap := (heap A).

Definition opt (c : bool) (l : lid) : list lid := if c then [l] else [].

(** The dense tensors [ts] form a chain inside the network [ts ++ env]: tensor i has one outgoing leg "o", which is the i-th of [os];
    a leg "l" linked to the leg "r" of the tensor before it; and a leg "r" linked to the leg "l" of the tensor after it.
    No outgoing leg is linked to a leg of the chain. *)
Record chain (h : heap) (ts : list tid) (os : list lid) (env : list tid) (lf rt : nat -> lid) : Prop := {
  ch_len : List.length os = List.length ts;
  ch_wf : wf_open h (ts ++ env);
  ch_kind : forall t, In t ts -> t_diag (tens h t) = false /\ t_like (tens h t) = false;
  ch_legs : forall i, (i < List.length ts)%nat ->
    Permutation (legs_of h (nth i ts 0)) (opt (Nat.ltb 0 i) (lf i) ++ opt (Nat.ltb (S i) (List.length ts)) (rt i) ++ [nth i os 0]);
  ch_o : forall i, (i < List.length ts)%nat -> l_name (legs h (nth i os 0)) = NStr "o";
  ch_l : forall i, (S i < List.length ts)%nat -> l_name (legs h (lf (S i))) = NStr "l";
  ch_r : forall i, (S i < List.length ts)%nat -> l_name (legs h (rt i)) = NStr "r";
  ch_link : forall i, (S i < List.length ts)%nat -> linked h (rt i) (lf (S i));
  ch_out : forall l l', In l os -> In l' (all_legs h ts) -> ~ linked h l l' }.
(** some chain with the outgoing legs [os] *)
Definition is_mps (h : heap) (ts : list tid) (os : list lid) (env : list tid) : Prop := exists lf rt, chain h ts os env lf rt.

(** the networks [ts] in [h] and [ts'] in [h'] have the same free legs with the same dimensions *)
Definition same_free (h : heap) (ts : list tid) (h' : heap) (ts' : list tid) : Prop :=
  Permutation (free_legs h' ts') (free_legs h ts) /\ forall l, In l (free_legs h ts) -> dim_of h' l = dim_of h l.
(** ... and the same value for every assignment of indices to them *)
Definition same_value (h : heap) (ts : list tid) (h' : heap) (ts' : list tid) : Prop :=
  forall s, in_bounds h (free_legs h ts) s -> netval h' ts' s = netval h ts s.

(** numpy's decomposition has the right shapes for every matrix *)
Definition svd_total (lib : linalg A) : Prop := forall m r c, wfa m -> ashape m = [r; c] -> svd_shape lib m r c.
(** ... and is exact, with all values beyond those above the threshold equal to zero *)
Definition svd_perfect (lib : linalg A) : Prop :=
  forall m r c, wfa m -> ashape m = [r; c] -> svd_exact lib m r c /\ lossless lib m (above lib m).

(** exchanging the legs "o" of [ta] and [tb] with the bound [chi]: the decomposition is exact and only zeros are discarded *)
Definition nothing_lost (lib : linalg A) (h : heap) (ta tb : tid) (chi : Z) : Prop :=
  let La := sideA h ta tb ["o"%string] ["o"%string] in let Lb := sideB h ta tb ["o"%string] ["o"%string] in
  let r := prodn (map (dim_of h) La) in let c := prodn (map (dim_of h) Lb) in
  forall m, matrix_of h (einsum h ta tb) La Lb m -> svd_exact lib m r c /\ lossless lib m (Z.to_nat (kept lib m r c chi)).

(** the list with the elements at positions i and i + 1 exchanged *)
Definition exchange {X} (i : nat) (l : list X) : list X :=
  firstn i l ++ match skipn i l with x :: y :: r => y :: x :: r | r => r end.
(** the list with the element at position i taken out and put back so that it is at position j *)
Definition relocate {X} (i j : nat) (l : list X) : list X :=
  match skipn i l with
  | x :: r => let l' := firstn i l ++ r in firstn j l' ++ x :: skipn j l'
  | [] => l
  end.

(** no bond of the chain is larger than the product of the sizes [q] of the outgoing legs on either side of it *)
Definition slim (h : heap) (q : lid -> nat) (os : list lid) (rt : nat -> lid) : Prop :=
  forall k, (S k < List.length os)%nat ->
    (dim_of h (rt k) <= prodn (map q (firstn (S k) os)))%nat /\ (dim_of h (rt k) <= prodn (map q (skipn (S k) os)))%nat.

(** The chain [ts] with outgoing legs [os] has become the chain [ts'] with outgoing legs [os'].  The bonds lo, ..., hi - 1 are new and of
    dimension at most [chi]; the other bonds and all outgoing legs are the same objects with the same dimensions, and the
    outgoing legs have the same bonds and partners.  If no bond was larger than the
    outgoing legs on either side of it allow, with their dimensions or with larger sizes [q], then none is now.  The tensors around the chain and their legs are untouched, and the network has the same free legs. *)
Record moved (h : heap) (ts : list tid) (os : list lid) (env : list tid) (lf rt : nat -> lid) (lo hi : nat) (chi : Z)
  (h' : heap) (ts' : list tid) (os' : list lid) (lf' rt' : nat -> lid) : Prop := {
  mv_chain : chain h' ts' os' env lf' rt';
  mv_len : List.length ts' = List.length ts;
  mv_chi : forall k, (lo <= k < hi)%nat -> (S k < List.length ts)%nat -> (Z.of_nat (dim_of h' (rt' k)) <= chi)%Z;
  mv_bonds : forall k, (k < lo \/ hi <= k)%nat -> rt' k = rt k /\ lf' (S k) = lf (S k) /\
    ((S k < List.length ts)%nat -> dim_of h' (rt k) = dim_of h (rt k) /\ dim_of h' (lf (S k)) = dim_of h (lf (S k)));
  mv_dims : forall l, In l os -> dim_of h' l = dim_of h l;
  mv_bond : forall l, In l os -> l_bond (legs h' l) = l_bond (legs h l);
  mv_links : forall l l', In l (os ++ all_legs h env) -> linked h' l l' <-> linked h l l';
  mv_env : forall t, In t env -> tens h' t = tens h t;
  mv_envlegs : forall l, In l (all_legs h env) -> legs h' l = legs h l;
  mv_slim : forall q, (forall l, In l os -> (dim_of h l <= q l)%nat) -> slim h q os rt -> slim h' q os' rt';
  mv_free : same_free h (ts ++ env) h' (ts' ++ env) }.

(** the bonds between neighbours *)
Fixpoint neighbours (h : heap) (ts : list tid) : list (lid * lid) :=
  match ts with
  | ta :: ((tb :: _) as ts') => shared h ta tb ++ neighbours h ts'
  | _ => []
  end.
(** the shape that the constructor demands: one bond between neighbours, two legs at the ends, three legs elsewhere *)
Definition mps_shape (h : heap) (ts : list tid) : Prop :=
  ts <> [] /\
  (forall i, (S i < List.length ts)%nat -> List.length (shared h (nth i ts 0) (nth (S i) ts 0)) = 1) /\
  ((1 < List.length ts)%nat -> List.length (legs_of h (nth 0 ts 0)) = 2 /\ List.length (legs_of h (nth (List.length ts - 1) ts 0)) = 2) /\
  (forall i, (0 < i)%nat -> (S i < List.length ts)%nat -> List.length (legs_of h (nth i ts 0)) = 3).
(** there are no other links inside the chain, and a single tensor has one leg *)
Definition no_other_links (h : heap) (ts : list tid) : Prop :=
  (forall i j, (S i < j)%nat -> (j < List.length ts)%nat -> shared h (nth i ts 0) (nth j ts 0) = []) /\
  (forall t l l', In t ts -> In l (legs_of h t) -> In l' (legs_of h t) -> ~ linked h l l') /\
  (List.length ts = 1 -> List.length (legs_of h (nth 0 ts 0)) = 1).
(** the names the constructor gives to the legs *)
Record mps_named (h : heap) (ts : list tid) (h' : heap) : Prop := {
  mn_r : forall l, In l (map fst (neighbours h ts)) -> l_name (legs h' l) = NStr "r";
  mn_l : forall l, In l (map snd (neighbours h ts)) -> l_name (legs h' l) = NStr "l";
  mn_o : forall l, In l (all_legs h ts) -> ~ In l (map fst (neighbours h ts)) -> ~ In l (map snd (neighbours h ts)) -> l_name (legs h' l) = NStr "o";
  mn_else : forall l, ~ In l (all_legs h ts) -> l_name (legs h' l) = l_name (legs h l) }.

(** [chi] has room for the bonds that appear when the leg at position [i] travels along the chain *)
Definition roomy (h : heap) (ts : list tid) (os : list lid) (rt : nat -> lid) (i : nat) (chi : Z) : Prop :=
  Z.le (Z.of_nat (dim_of h (nth i os 0))) chi /\
  forall k, (S k < List.length ts)%nat -> Z.le (Z.of_nat (dim_of h (nth i os 0) * dim_of h (rt k))) chi.
End Sp.

(** no exchange in the list [ps] loses anything *)
Fixpoint lossless_run {A} {HA : SR A} (lib : linalg A) (ps : list (Z * Z)) (m : mps) (h : heap A) : Prop :=
  match ps with
  | [] => True
  | (a, b) :: ps' =>
      nothing_lost lib h (site m a) (site m b) (m_chi m) /\
      forall h' m', swap lib a b m h = (h', Ok m') -> lossless_run lib ps' m' h'
  end.
(** the exchanges that bring position i to position j one after the other *)
Definition moves (i j : nat) : list (Z * Z) :=
  if Nat.ltb i j then map (fun k => (k, k + 1)%Z) (rangeUp (Z.of_nat i) (Z.of_nat j)) else map (fun k => (k, k - 1)%Z) (rangeDown (Z.of_nat i) (Z.of_nat j)).
