(** matrixSchimdtDecomposition (examples/Schimdt.py 168-214) splits off the first index of a matrix. *)
From Coq Require Import List Arith Bool Lia String ZArith Permutation.
From Verif Require Import Base Sums NdModel NdProofs HeapModel FuncsModel FuncsProofs TensorModel TensorSpec TensorProofs MatrixProofs
  ContractModel NetSpec SvdModel SvdSpec SvdProofs MpsSpec MpsCreateSpec.
Import ListNotations.
Local Open Scope list_scope.
Local Open Scope nat_scope.

Section Ms.
Context {A : Type} {HA : SR A}.
Add Ring MsRing : (@SR_theory A HA).
Variable lib : linalg A.

Lemma rank_le chi (m : arr A) r c : rank lib chi m r c <= Nat.min r c.
Proof. unfold rank. destruct chi; lia. Qed.
Lemma rank_chi n (m : arr A) r c : rank lib (Some n) m r c <= n.
Proof. unfold rank. lia. Qed.
Lemma minDims_rank chi (m : arr A) r c : minDims chi [r; c; above lib m] = rank lib chi m r c.
Proof. unfold minDims, rank. destruct chi; cbn [fold_left]; lia. Qed.

Lemma remainder_tab (m : arr A) k c : mkArr [k; c] (remainder lib m k c) = 
  tab [k; c] (fun idx => rmul (aget (svd_s lib m) [nth 0 idx 0]) (aget (svd_v lib m) [nth 0 idx 0; nth 1 idx 0])).
Proof.
  unfold tab, remainder. f_equal. cbn [indices]. generalize (seq 0 k) as l. intros l. induction l as [|i l IH]; auto.
  cbn [flat_map]. rewrite map_app. rewrite <- IH. f_equal. rewrite map_map.
  generalize (seq 0 c) as l'. intros l'. induction l' as [|j l' IH']; auto. simpl. f_equal. exact IH'.
Qed.
Lemma remainder_wf (m : arr A) k c : wfa (mkArr [k; c] (remainder lib m k c)).
Proof. rewrite remainder_tab. apply tab_wfa. Qed.
Lemma remainder_get (m : arr A) k c i j : i < k -> j < c ->
  aget (mkArr [k; c] (remainder lib m k c)) [i; j] = rmul (aget (svd_s lib m) [i]) (aget (svd_v lib m) [i; j]).
Proof. intros Hi Hj. rewrite remainder_tab, aget_tab by (repeat constructor; auto). reflexivity. Qed.

Lemma sv_product (m : arr A) r c k : svd_shape lib m r c -> k <= Nat.min r c ->
  leftDiagonalProduct (firstRows (svd_v lib m) k) (firstEntries (svd_s lib m) k) = Ok (mkArr [k; c] (remainder lib m k c)).
Proof.
  intros SS K. destruct (firstRows_spec lib m r c k SS K) as (W1 & S1 & G1). destruct (firstEntries_spec lib m r c k SS K) as (W2 & S2 & G2).
  destruct (left_spec _ _ k c S1 S2) as (e & -> & We & Se & Ge). f_equal. apply arr_ext; auto.
  - apply remainder_wf.
  - rewrite Se. intros idx H. inversion H as [|i ? ? ? Hi H1]; subst. inversion H1 as [|j ? ? ? Hj H2]; subst. inversion H2; subst.
    rewrite Ge, remainder_get, G1, G2 by auto. ring.
Qed.

Lemma flat_schimdt (data : list A) d c chi : 0 < d -> List.length data = d * c -> let m := mkArr [d; c] data in svd_shape lib m d c ->
  let k := rank lib chi m d c in
  exists u, matrixSchimdt lib (mkArr [d * c] data) d chi = Ok (u, mkArr [k; c] (remainder lib m k c)) /\ wfa u /\ ashape u = [d; k] /\
    forall i p, i < d -> p < k -> aget u [i; p] = aget (svd_u lib m) [i; p].
Proof.
  intros Hd HL m SS k. unfold matrixSchimdt. cbn [ashape].
  assert (negb (Nat.eqb d 0) = true) as -> by (destruct (Nat.eqb_spec d 0); [lia|reflexivity]).
  assert (EM : d * c mod d = 0) by (rewrite Nat.mul_comm; apply Nat.mod_mul; lia). rewrite EM. cbn [Nat.eqb negb andb].
  assert (ED : d * c / d = c) by (rewrite Nat.mul_comm; apply Nat.div_mul; lia). rewrite ED.
  unfold np_reshape. cbn [adata prodn fold_right]. rewrite Nat.mul_1_r, HL, Nat.eqb_refl. cbn [rbind]. fold m.
  rewrite (svd_split lib m). destruct (ss_u _ _ _ _ SS) as (_ & ->), (ss_v _ _ _ _ SS) as (_ & ->). cbn [nth].
  change (nonZeroElementN lib (svd_s lib m)) with (above lib m). rewrite minDims_rank. fold k.
  rewrite (sv_product m d c k SS) by apply rank_le. cbn [rbind].
  destruct (firstCols_spec lib m d c k SS (rank_le _ _ _ _)) as (W & Sh & G).
  exists (firstCols (svd_u lib m) k). auto.
Qed.

Lemma next_schimdt (data : list A) s0 d c chi : 0 < d -> List.length data = s0 * (d * c) -> let m := mkArr [s0 * d; c] data in 
  (s0 = 0 -> matrixSchimdt lib (mkArr [s0; d * c] data) d chi = Err ValueError) /\
  (0 < s0 -> svd_shape lib m (s0 * d) c -> let k := rank lib chi m (s0 * d) c in
   exists u, matrixSchimdt lib (mkArr [s0; d * c] data) d chi = Ok (u, mkArr [k; c] (remainder lib m k c)) /\ wfa u /\ ashape u = [s0; d; k] /\
    forall x i p, x < s0 -> i < d -> p < k -> aget u [x; i; p] = aget (svd_u lib m) [x * d + i; p]).
Proof.
  intros Hd HL m. unfold matrixSchimdt. cbn [ashape].
  assert (negb (Nat.eqb d 0) = true) as -> by (destruct (Nat.eqb_spec d 0); [lia|reflexivity]).
  assert (EM : d * c mod d = 0) by (rewrite Nat.mul_comm; apply Nat.mod_mul; lia). rewrite EM. cbn [Nat.eqb negb andb].
  split; [intros ->; reflexivity|]. intros H0 SS. set (k := rank lib chi m (s0 * d) c).
  destruct (Nat.eqb_spec (s0 * d) 0) as [E|_]; [nia|].
  assert (ED : s0 * (d * c) / (s0 * d) = c) by (rewrite Nat.mul_assoc, Nat.mul_comm; apply Nat.div_mul; nia). rewrite ED.
  unfold np_reshape at 1. cbn [adata prodn fold_right]. rewrite Nat.mul_1_r, HL, Nat.mul_assoc, Nat.eqb_refl. cbn [rbind]. fold m.
  rewrite (svd_split lib m). destruct (ss_u _ _ _ _ SS) as (_ & ->), (ss_v _ _ _ _ SS) as (_ & ->). cbn [nth].
  change (nonZeroElementN lib (svd_s lib m)) with (above lib m). rewrite minDims_rank. fold k.
  rewrite (sv_product m _ c k SS) by apply rank_le.
  destruct (firstCols_spec lib m _ c k SS (rank_le _ _ _ _)) as (W & Sh & G). cbn [app] in Sh.
  destruct (np_reshape (firstCols (svd_u lib m) k) [s0; d; k]) as [u|e] eqn:ER.
  2:{ exfalso. unfold np_reshape in ER. unfold wfa in W. rewrite W, Sh in ER. cbn [prodn fold_right] in ER.
      rewrite !Nat.mul_1_r, Nat.mul_assoc, Nat.eqb_refl in ER. discriminate. }
  destruct (reshape_spec _ _ _ ER) as (Su & Du & Wu). cbn [rbind]. exists u. split; [reflexivity|]. split; [auto|]. split; [auto|].
  intros x i p Hx Hi Hp. rewrite <- G by nia. apply aget_ravel; auto. rewrite Su, Sh. cbn [ravel prodn fold_right]. nia.
Qed.

(** the product of the two results, when only zeros are cut *)
Lemma uv_exact (m : arr A) r c k i j : svd_exact lib m r c -> k <= Nat.min r c -> lossless lib m k -> i < r -> j < c ->
  sumN k (fun p => rmul (aget (svd_u lib m) [i; p]) (aget (mkArr [k; c] (remainder lib m k c)) [p; j])) = aget m [i; j].
Proof.
  intros SX K LL Hi Hj. rewrite (sx_eq _ _ _ _ SX i j Hi Hj). rewrite (sumN_cut (Nat.min r c) k); auto.
  - apply sumN_ext. intros p Hp. now rewrite remainder_get.
  - intros p (H1 & H2). destruct (ss_s _ _ _ _ (sx_shape _ _ _ _ SX)) as (Ws & Es). rewrite (aget1 _ _ p Es). rewrite LL; auto; [ring|].
    unfold wfa in Ws. rewrite Es in Ws. cbn in Ws. lia.
Qed.

(** toTensor() and ravel *)
Lemma toTensor_data (h : heap A) t : wf_tensor h t -> t_like (tens h t) = false -> legs_of h t <> [] ->
  exists a, toTensor t None h = (h, Ok a) /\ wfa a /\ ashape a = map (dim_of h) (legs_of h t) /\ row_major h t (adata a).
Proof.
  intros W NL NE. destruct (wf_arr _ _ W NL) as (a & Ea & Wa & Es). unfold toTensor, bind, reads, assert, ret. rewrite NL. cbn [negb]. rewrite Ea.
  destruct (t_diag (tens h t)) eqn:D.
  - unfold liftR, diagonalNDTensor. change (t_legs (tens h t)) with (legs_of h t).
    destruct (legs_of h t) as [|l0 L0] eqn:EL; [congruence|]. rewrite Es. cbn [List.length]. rewrite <- EL in *. simpl Nat.eqb.
    set (len := t_len (tens h t)) in *. destruct (wt_diag _ _ W D) as [_ Hd].
    set (f := fun idx => if all_eqb idx then aget a [nth 0 idx 0] else r0).
    assert (Er : repeat len (S (List.length L0)) = map (dim_of h) (legs_of h t)).
    { assert (List.length (legs_of h t) = S (List.length L0)) as <- by (rewrite EL; reflexivity).
      clear -Hd. induction (legs_of h t) as [|x l IH]; simpl; auto. f_equal; [symmetry; apply Hd; simpl; auto|]. apply IH. intros; apply Hd; simpl; auto. }
    eexists. split; [reflexivity|]. split; [apply tab_wfa|]. split; [exact Er|]. split.
    + rewrite <- Er. apply (tab_wfa (repeat len (S (List.length L0))) f).
    + intros s Hs. rewrite <- Er at 1. change (aget (tab (repeat len (S (List.length L0))) f) (map s (legs_of h t)) = entry h t s).
      rewrite aget_tab by (rewrite Er; apply inrange_map; auto). unfold f, entry, entry_of. rewrite Ea, D.
      change (t_legs (tens h t)) with (legs_of h t). rewrite EL. rewrite all_eqb_map. reflexivity.
  - exists a. split; [reflexivity|]. split; auto. split; auto. split.
    + unfold wfa in Wa. now rewrite Wa, Es.
    + intros s Hs. unfold entry, entry_of. rewrite Ea, D. unfold aget. now rewrite Es.
Qed.
End Ms.
