(** Facts about the truncated decomposition of a matrix. *)
From Coq Require Import List Arith Bool Lia String ZArith Permutation.
From Verif Require Import Base Sums NdModel NdProofs HeapModel FuncsModel TensorModel TensorSpec
  ContractModel NetSpec MergeLinkSpec OneDiagProofs SvdModel SvdSpec.
Import ListNotations.
Local Open Scope list_scope.
Local Open Scope nat_scope.

Section Sv.
Context {A : Type} {HA : SR A}.
Variable lib : linalg A.

Lemma svd_split (m : arr A) : np_svd lib m = (svd_u lib m, svd_s lib m, svd_v lib m).
Proof. unfold svd_u, svd_s, svd_v. destruct (np_svd lib m) as [[u s] v]. reflexivity. Qed.

Lemma minDim_pos chi ns : minDim chi ns = Z.min chi (match ns with [] => chi | n :: ns' => Z.of_nat (fold_right Nat.min n ns') end).
Proof.
  unfold minDim. destruct ns as [|n ns]; cbn [fold_left]; [lia|].
  revert chi. assert (G : forall l c a, fold_left (fun m n => Z.min m (Z.of_nat n)) l (Z.min c (Z.of_nat a)) = Z.min c (Z.of_nat (fold_right Nat.min a l))).
  { induction l as [|x l IH]; intros c a; cbn [fold_left fold_right]; auto.
    replace (Z.min (Z.min c (Z.of_nat a)) (Z.of_nat x)) with (Z.min (Z.min c (Z.of_nat x)) (Z.of_nat a)) by lia.
    rewrite IH. lia. }
  intros chi. apply G.
Qed.

Lemma above_le m r c : svd_shape lib m r c -> above lib m <= Nat.min r c.
Proof.
  intros [_ [W S] _]. unfold above. assert (X : forall l : list A, List.length (filter (np_big lib) l) <= List.length l).
  { induction l as [|x l IH]; simpl; [lia|]. destruct (np_big lib x); simpl; lia. }
  etransitivity; [apply X|]. rewrite W, S. simpl. lia.
Qed.

Lemma aget1 (a : arr A) n i : ashape a = [n] -> aget a [i] = nth i (adata a) r0.
Proof. intros E. unfold aget. rewrite E. cbn [ravel prodn fold_right]. f_equal. lia. Qed.

Lemma sqrts_get (s : arr A) n i : wfa s -> ashape s = [n] -> i < n -> aget (np_sqrts lib s) [i] = np_sqrt lib (aget s [i]).
Proof.
  intros W E Hi. rewrite (aget1 _ n) by exact E. rewrite (aget1 _ n) by exact E. unfold np_sqrts. cbn [adata].
  rewrite (nth_indep _ r0 (np_sqrt lib r0)) by (rewrite map_length, W, E; simpl; lia). apply map_nth.
Qed.

Section K.
Variables (m : arr A) (r c k : nat).
Hypothesis SS : svd_shape lib m r c.
Hypothesis K : k <= Nat.min r c.

Lemma firstCols_spec : wfa (firstCols (svd_u lib m) k) /\ ashape (firstCols (svd_u lib m) k) = [r] ++ [k] /\
  forall i j, i < r -> j < k -> aget (firstCols (svd_u lib m) k) [i; j] = aget (svd_u lib m) [i; j].
Proof.
  destruct SS as [[W S] _ _]. unfold firstCols. rewrite S. cbn [nth]. rewrite Nat.min_l by lia.
  split; [apply tab_wfa|]. split; [reflexivity|]. intros i j Hi Hj. apply aget_tab. repeat constructor; auto.
Qed.
Lemma firstRows_spec : wfa (firstRows (svd_v lib m) k) /\ ashape (firstRows (svd_v lib m) k) = [k; c] /\
  forall i j, i < k -> j < c -> aget (firstRows (svd_v lib m) k) [i; j] = aget (svd_v lib m) [i; j].
Proof.
  destruct SS as [_ _ [W S]]. unfold firstRows. rewrite S. cbn [nth]. rewrite Nat.min_l by lia.
  split; [apply tab_wfa|]. split; [reflexivity|]. intros i j Hi Hj. apply aget_tab. repeat constructor; auto.
Qed.
Lemma firstEntries_spec : wfa (firstEntries (svd_s lib m) k) /\ ashape (firstEntries (svd_s lib m) k) = [k] /\
  forall i, i < k -> aget (firstEntries (svd_s lib m) k) [i] = aget (svd_s lib m) [i].
Proof.
  destruct SS as [_ [W S] _]. unfold firstEntries. rewrite S. cbn [nth]. rewrite Nat.min_l by lia.
  split; [apply tab_wfa|]. split; [reflexivity|]. intros i Hi. apply aget_tab. repeat constructor; auto.
Qed.

Lemma transpose2 (a : arr A) x y : ashape a = [x; y] -> ashape (np_transpose a [1; 0]) = [y; x] /\
  forall i j, i < y -> j < x -> aget (np_transpose a [1; 0]) [i; j] = aget a [j; i].
Proof.
  intros S. unfold np_transpose. rewrite S. cbn [map nth]. split; [reflexivity|]. intros i j Hi Hj.
  rewrite aget_tab by (repeat constructor; auto). unfold ndim. rewrite S. reflexivity.
Qed.

Lemma left_spec (a d : arr A) x y : ashape a = [x; y] -> ashape d = [x] ->
  exists e, leftDiagonalProduct a d = Ok e /\ wfa e /\ ashape e = [x; y] /\
    forall i j, i < x -> j < y -> aget e [i; j] = rmul (aget a [i; j]) (aget d [i]).
Proof.
  intros S D. unfold leftDiagonalProduct. destruct (transpose2 a x y S) as (ST & GT).
  destruct (mul_last_spec (np_transpose a [1; 0]) d [y] x ST D) as (e & E & W & SE & G). rewrite E. cbn [rbind].
  destruct (transpose2 e y x SE) as (SE2 & GT2).
  eexists. split; [reflexivity|]. split; [apply transpose_wfa|]. split; [exact SE2|]. intros i j Hi Hj.
  rewrite GT2 by auto. change [j; i] with ([j] ++ [i]). rewrite G by (auto; repeat constructor; auto). cbn [app]. now rewrite GT.
Qed.

Lemma uS_spec : exists a, rightDiagonalProduct (firstCols (svd_u lib m) k) (np_sqrts lib (firstEntries (svd_s lib m) k)) = Ok a /\
  wfa a /\ ashape a = [r; k] /\
  forall i j, i < r -> j < k -> aget a [i; j] = rmul (aget (svd_u lib m) [i; j]) (np_sqrt lib (aget (svd_s lib m) [j])).
Proof.
  destruct firstCols_spec as (W & S & G), firstEntries_spec as (W2 & S2 & G2).
  assert (ashape (np_sqrts lib (firstEntries (svd_s lib m) k)) = [k]) as S3 by exact S2.
  destruct (mul_last_spec _ _ _ _ S S3) as (e & E & We & Se & Ge). exists e. split; [exact E|]. split; auto. split; auto.
  intros i j Hi Hj. change [i; j] with ([i] ++ [j]). rewrite Ge by (auto; repeat constructor; auto). cbn [app].
  rewrite G by auto. f_equal. rewrite (sqrts_get _ k) by auto. now rewrite G2.
Qed.
Lemma vS_spec : exists a, leftDiagonalProduct (firstRows (svd_v lib m) k) (np_sqrts lib (firstEntries (svd_s lib m) k)) = Ok a /\
  wfa a /\ ashape a = [k; c] /\
  forall i j, i < k -> j < c -> aget a [i; j] = rmul (aget (svd_v lib m) [i; j]) (np_sqrt lib (aget (svd_s lib m) [i])).
Proof.
  destruct firstRows_spec as (W & S & G), firstEntries_spec as (W2 & S2 & G2).
  assert (ashape (np_sqrts lib (firstEntries (svd_s lib m) k)) = [k]) as S3 by exact S2.
  destruct (left_spec _ _ _ _ S S3) as (e & E & We & Se & Ge). exists e. split; [exact E|]. split; auto. split; auto.
  intros i j Hi Hj. rewrite Ge by auto. rewrite G by auto. f_equal. rewrite (sqrts_get _ k) by auto. now rewrite G2.
Qed.
End K.

Lemma sumN_cut n k (f : nat -> A) : k <= n -> (forall i, k <= i < n -> f i = r0) -> sumN n f = sumN k f.
Proof.
  intros L Z. induction n as [|n IH].
  - assert (k = 0) as -> by lia. reflexivity.
  - destruct (Nat.eq_dec k (S n)) as [->|NE]; auto. rewrite sumN_S. rewrite IH by (intros; try apply Z; lia). rewrite Z by lia.
    rewrite radd_comm. apply radd_0_l.
Qed.

Lemma truncated m r c k i j : svd_exact lib m r c -> k <= Nat.min r c -> lossless lib m k -> i < r -> j < c ->
  sumN k (fun x => rmul (rmul (aget (svd_u lib m) [i; x]) (np_sqrt lib (aget (svd_s lib m) [x])))
                        (rmul (aget (svd_v lib m) [x; j]) (np_sqrt lib (aget (svd_s lib m) [x])))) = aget m [i; j].
Proof.
  intros [SS EQ RT] K LS Hi Hj. rewrite EQ by auto. destruct (ss_s _ _ _ _ SS) as (Ws & Es).
  rewrite (sumN_cut (Nat.min r c) k).
  - apply sumN_ext. intros x Hx. rewrite <- (RT x) at 3 by lia.
    rewrite <- !rmul_assoc. f_equal. rewrite (rmul_comm (aget (svd_v lib m) [x; j])). reflexivity.
  - exact K.
  - intros x Hx. rewrite (aget1 _ _ x Es). rewrite LS by (try rewrite Ws, Es; simpl; lia). rewrite rmul_0_l, rmul_comm. apply rmul_0_l.
Qed.
End Sv.
