From Coq Require Import List Arith Bool Lia ZArith Reals Lra.
From Verif Require Import Base MeasureModel MeasureSpec.
Import ListNotations.
Local Open Scope list_scope.
Local Open Scope nat_scope.

Lemma rsum_nonneg : forall n f, (forall i, i < n -> (0 <= f i)%R) -> (0 <= rsum n f)%R.
Proof.
  induction n; intros f H; cbn; [lra|].
  pose proof (H n (Nat.lt_succ_diag_r n)). pose proof (IHn f (fun i L => H i (Nat.lt_lt_succ_r _ _ L))). lra.
Qed.
Lemma rsum_ext : forall n f g, (forall i, i < n -> f i = g i) -> rsum n f = rsum n g.
Proof. induction n; intros f g H; cbn; [reflexivity|]. rewrite (IHn f g), (H n); auto. Qed.
Lemma rsum_zero : forall n f, (forall i, i < n -> (0 <= f i)%R) ->
  (rsum n f = 0%R <-> forall i, i < n -> f i = 0%R).
Proof.
  induction n; intros f H; cbn; [split; intros; [lia|reflexivity]|].
  assert (H' : forall i, i < n -> (0 <= f i)%R) by auto.
  pose proof (H n (Nat.lt_succ_diag_r n)). pose proof (rsum_nonneg n f H').
  split.
  - intros E i L. destruct (Nat.eq_dec i n) as [->|D]; [lra|].
    apply (proj1 (IHn f H')); [lra|lia].
  - intros A. rewrite (A n) by lia. rewrite (proj2 (IHn f H')); [lra|auto].
Qed.
Lemma rsum_ge : forall n f k, (forall i, i < n -> (0 <= f i)%R) -> k < n -> (f k <= rsum n f)%R.
Proof.
  induction n; intros f k H L; cbn; [lia|].
  assert (H' : forall i, i < n -> (0 <= f i)%R) by auto.
  pose proof (H n (Nat.lt_succ_diag_r n)). pose proof (rsum_nonneg n f H').
  destruct (Nat.eq_dec k n) as [->|D]; [lra|]. pose proof (IHn f k H' ltac:(lia)). lra.
Qed.

Lemma sq_nonneg : forall x : R, (0 <= x * x)%R.
Proof. intros; pose proof (Rle_0_sqr x) as H; exact H. Qed.
Lemma row_nonneg : forall w (a : mat) i, (0 <= rsum w (fun j => a i j * a i j))%R.
Proof. intros; apply rsum_nonneg; intros; apply sq_nonneg. Qed.

Lemma norm_nonneg : forall h w a, (0 <= norm h w a)%R.
Proof. intros; apply sqrt_pos. Qed.
Lemma norm_zero : forall h w a, norm h w a = 0%R <-> is_zero h w a.
Proof.
  intros h w a; unfold norm, is_zero.
  assert (N : (0 <= rsum h (fun i => rsum w (fun j => a i j * a i j)))%R)
    by (apply rsum_nonneg; intros; apply row_nonneg).
  split.
  - intros E i j Li Lj. apply sqrt_eq_0 in E; [|exact N].
    pose proof (proj1 (rsum_zero h _ (fun i _ => row_nonneg w a i)) E i Li) as E'.
    pose proof (proj1 (rsum_zero w _ (fun j _ => sq_nonneg (a i j))) E' j Lj) as E''.
    cbv beta in E''. apply Rmult_integral in E''; tauto.
  - intros Z. rewrite (proj2 (rsum_zero h _ (fun i _ => row_nonneg w a i))); [apply sqrt_0|].
    intros i Li. apply (proj2 (rsum_zero w _ (fun j _ => sq_nonneg (a i j)))).
    intros j Lj. rewrite Z by assumption; ring.
Qed.
Lemma norm_ge : forall h w a i j, i < h -> j < w -> (Rabs (a i j) <= norm h w a)%R.
Proof.
  intros h w a i j Li Lj. rewrite <- sqrt_Rsqr_abs. apply sqrt_le_1_alt. unfold Rsqr.
  apply Rle_trans with (rsum w (fun j => a i j * a i j))%R.
  - exact (rsum_ge w (fun j => (a i j * a i j)%R) j (fun j _ => sq_nonneg (a i j)) Lj).
  - exact (rsum_ge h (fun i => rsum w (fun j => (a i j * a i j)%R)) i (fun i _ => row_nonneg w a i) Li).
Qed.
Lemma norm_ext : forall h w a b, entries_equal h w a b -> norm h w a = norm h w b.
Proof.
  intros h w a b E; unfold norm; f_equal; apply rsum_ext; intros i Li; apply rsum_ext; intros j Lj.
  rewrite E by assumption; reflexivity.
Qed.
Lemma ratio_zero : forall h w a d, ~ is_zero h w a -> ((d / norm h w a)%R = 0%R <-> d = 0%R).
Proof.
  intros h w a d Z. rewrite <- norm_zero in Z. split.
  - intros E. unfold Rdiv in E. apply Rmult_integral in E as [E|E]; [exact E|].
    exfalso; exact (Rinv_neq_0_compat _ Z E).
  - intros ->; unfold Rdiv; ring.
Qed.

Lemma eye_identity : forall h w a, is_zero h w (fun i j => (a i j - eye i j)%R) <-> is_identity h w a.
Proof.
  intros h w a; unfold is_zero, is_identity, eye; split; intros H i j Li Lj.
  - specialize (H i j Li Lj). destruct (Nat.eqb_spec i j); split; intros; try contradiction; lra.
  - destruct (H i j Li Lj) as [A B]. destruct (Nat.eqb_spec i j); [rewrite A by assumption|rewrite B by assumption]; ring.
Qed.
Lemma identityError_zero : forall h w a, identityError h w a = 0%R <-> is_identity h w a.
Proof. intros; unfold identityError; rewrite norm_zero; apply eye_identity. Qed.
Lemma checkIdentity_bound : forall h w a eps, checkIdentity h w a eps = true ->
  forall i j, i < h -> j < w -> (i = j -> Rabs (a i j - 1) < eps)%R /\ (i <> j -> Rabs (a i j) < eps)%R.
Proof.
  intros h w a eps C i j Li Lj. unfold checkIdentity in C.
  destruct (Rlt_dec (identityError h w a) eps) as [L|L]; [|discriminate].
  pose proof (norm_ge h w (fun i j => (a i j - eye i j)%R) i j Li Lj) as G.
  fold (identityError h w a) in G. cbv beta in G. unfold eye in G.
  destruct (Nat.eqb_spec i j); split; intros; try contradiction; [lra|].
  rewrite Rminus_0_r in G; lra.
Qed.
Lemma checkIdentity_identity : forall h w a eps, (0 < eps)%R -> is_identity h w a -> checkIdentity h w a eps = true.
Proof.
  intros h w a eps P I. apply identityError_zero in I. unfold checkIdentity. rewrite I.
  destruct (Rlt_dec 0 eps); [reflexivity|contradiction].
Qed.
Lemma diagError_zero : forall n a, ~ is_zero n n a -> (diagError n a = 0%R <-> is_diagonal n a).
Proof.
  intros n a Z; unfold diagError; rewrite ratio_zero, norm_zero by exact Z.
  unfold is_zero, is_diagonal; split; intros H i j Li Lj.
  - intros D. specialize (H i j Li Lj). apply Nat.eqb_neq in D; rewrite D in H; lra.
  - destruct (Nat.eqb_spec i j) as [->|D]; [ring|]. rewrite (H i j) by assumption; ring.
Qed.
Lemma symmetricError_zero : forall n a, ~ is_zero n n a -> (symmetricError n a = 0%R <-> is_symmetric n a).
Proof.
  intros n a Z; unfold symmetricError; rewrite ratio_zero, norm_zero by exact Z.
  unfold is_zero, is_symmetric; split; intros H i j Li Lj; specialize (H i j Li Lj); lra.
Qed.
Lemma matDiffError_zero : forall h w a b, ~ is_zero h w a -> (matDiffError h w a b = 0%R <-> entries_equal h w a b).
Proof.
  intros h w a b Z; unfold matDiffError; rewrite ratio_zero, norm_zero by exact Z.
  unfold is_zero, entries_equal; split; intros H i j Li Lj; specialize (H i j Li Lj); lra.
Qed.

Lemma rsum_list : forall n f, rsum n f = fold_left Rplus (map f (seq 0 n)) 0%R.
Proof.
  induction n; intros f; [reflexivity|].
  rewrite seq_S, map_app, fold_left_app; cbn. rewrite IHn; reflexivity.
Qed.
Lemma aDaggerA_entry : forall h w a i j, aDaggerAProduct h w a i j = column_product h a i j.
Proof. intros; unfold aDaggerAProduct, matmul, transposeConjugate, column_product; apply rsum_list. Qed.
Lemma aADagger_entry : forall h w a i j, aADaggerProduct h w a i j = column_product w (fun x y => a y x) i j.
Proof. intros; unfold aADaggerProduct, matmul, transposeConjugate, column_product; apply rsum_list. Qed.
Lemma projectorError_zero : forall h w a, projectorError h w a = 0%R <-> orthonormal_columns h w a.
Proof.
  intros; unfold projectorError, orthonormal_columns; rewrite identityError_zero.
  unfold is_identity; setoid_rewrite aDaggerA_entry; reflexivity.
Qed.

Lemma lsum_from : forall l x, fold_left Rplus l x = (x + fold_left Rplus l 0)%R.
Proof.
  induction l as [|y l IH]; intros x; cbn; [ring|]. rewrite (IH (x + y)%R), (IH (0 + y)%R); ring.
Qed.
Lemma lsum_prod : forall (f : nat -> nat -> R) l1 l2,
  fold_left Rplus (map (fun p => f (fst p) (snd p)) (list_prod l1 l2)) 0%R =
  fold_left Rplus (map (fun i => fold_left Rplus (map (f i) l2) 0%R) l1) 0%R.
Proof.
  intros f l1 l2; induction l1 as [|i l1 IH]; [reflexivity|]. cbn [list_prod map].
  rewrite map_app, fold_left_app, map_map, lsum_from, IH. cbn [fst snd fold_left].
  rewrite (lsum_from (map _ l1) (0 + _)%R), Rplus_0_l. reflexivity.
Qed.
Lemma norm_square : forall h w a b,
  (norm h w (fun i j => a i j - b i j) ^ 2)%R = distance_square h w a b.
Proof.
  intros h w a b; unfold norm, distance_square.
  rewrite (lsum_prod (fun i j => ((a i j - b i j) ^ 2)%R)).
  rewrite <- Rsqr_pow2, Rsqr_sqrt.
  2:{ apply rsum_nonneg; intros i _; apply rsum_nonneg; intros j _; apply sq_nonneg. }
  rewrite rsum_list; f_equal; apply map_ext; intros i. rewrite rsum_list; f_equal; apply map_ext; intros j. ring.
Qed.
Lemma norm_square0 : forall h w a, (norm h w a ^ 2)%R = distance_square h w a (fun _ _ => 0%R).
Proof.
  intros; rewrite <- norm_square; f_equal; apply norm_ext; intros i j _ _; ring.
Qed.
Lemma ratio_value : forall h w a d, ~ is_zero h w a -> (0 <= d)%R ->
  (0 <= d / norm h w a)%R /\ ((d / norm h w a) ^ 2 * distance_square h w a (fun _ _ => 0) = d ^ 2)%R.
Proof.
  intros h w a d Z D. rewrite <- norm_square0. rewrite <- norm_zero in Z.
  pose proof (norm_nonneg h w a). split; [|field; exact Z].
  unfold Rdiv; apply Rmult_le_pos; [exact D|]. left; apply Rinv_0_lt_compat; lra.
Qed.
Lemma measure_values : forall h w (a b : mat),
  ((0 <= identityError h w a)%R /\
   (identityError h w a ^ 2)%R = distance_square h w a (fun i j => if i =? j then 1%R else 0%R)) /\
  (~ is_zero h w a -> (0 <= matDiffError h w a b)%R /\
   (matDiffError h w a b ^ 2 * distance_square h w a (fun _ _ => 0) = distance_square h w a b)%R) /\
  (~ is_zero h h a -> (0 <= diagError h a)%R /\
   (diagError h a ^ 2 * distance_square h h a (fun _ _ => 0))%R
     = distance_square h h a (fun i j => if i =? j then a i i else 0%R)) /\
  (~ is_zero h h a -> (0 <= symmetricError h a)%R /\
   (symmetricError h a ^ 2 * distance_square h h a (fun _ _ => 0))%R
     = distance_square h h a (fun i j => a j i)).
Proof.
  intros h w a b; split; [split; [apply norm_nonneg|apply norm_square]|].
  split; [|split]; intros Z.
  - destruct (ratio_value h w a _ Z (norm_nonneg h w (fun i j => (a i j - b i j)%R))) as [P E].
    split; [exact P|]. rewrite norm_square in E; exact E.
  - destruct (ratio_value h h a _ Z (norm_nonneg h h (fun i j => (a i j - (if i =? j then a i i else 0))%R))) as [P E].
    split; [exact P|]. rewrite (norm_square h h a (fun i j => if i =? j then a i i else 0%R)) in E; exact E.
  - destruct (ratio_value h h a _ Z (norm_nonneg h h (fun i j => (a i j - a j i)%R))) as [P E].
    split; [exact P|]. rewrite (norm_square h h a (fun i j => a j i)) in E; exact E.
Qed.
Lemma projector_value : forall h w (a : mat),
  (0 <= projectorError h w a)%R /\
  (projectorError h w a ^ 2)%R = distance_square w w (column_product h a) (fun i j => if i =? j then 1%R else 0%R).
Proof.
  intros h w a; unfold projectorError. destruct (measure_values w w (aDaggerAProduct h w a) (fun _ _ => 0%R)) as [[P E] _].
  split; [exact P|]. rewrite E. unfold distance_square; f_equal; apply map_ext; intros p; rewrite aDaggerA_entry; reflexivity.
Qed.
Lemma check_value : forall h w (a : mat) eps, (0 < eps)%R ->
  (checkIdentity h w a eps = true <->
   (distance_square h w a (fun i j => if i =? j then 1 else 0) < eps ^ 2)%R).
Proof.
  intros h w a eps P. destruct (measure_values h w a a) as [[N E] _]. rewrite <- E. unfold checkIdentity.
  destruct (Rlt_dec (identityError h w a) eps) as [L|L]; split; try easy; intros H.
  - rewrite <- !Rsqr_pow2; apply Rsqr_incrst_1; lra.
  - exfalso; apply L. rewrite <- !Rsqr_pow2 in H. apply Rsqr_incrst_0; lra.
Qed.

Lemma norm_one : forall a : mat, norm 1 1 a = Rabs (a 0 0).
Proof. intros; unfold norm; cbn. rewrite !Rplus_0_l. rewrite <- sqrt_Rsqr_abs; reflexivity. Qed.
Lemma getDiffError_single : forall a b : mat, getDiffError 1 1 a b = ((Rabs (a 0%nat 0%nat) - Rabs (b 0%nat 0%nat)) ^ 2)%R.
Proof. intros; unfold getDiffError; rewrite !norm_one, !Rabs_mult; ring. Qed.

(** * normalizeInfinity *)
Lemma fold_max : forall l m0,
  let m := fold_left (fun m y => Rmax m (Rabs y)) l m0 in
  (m0 <= m)%R /\ (forall y, In y l -> (Rabs y <= m)%R) /\ (m = m0 \/ exists y, In y l /\ m = Rabs y).
Proof.
  induction l as [|x l IH]; intros m0; cbn; [split; [lra|split; [easy|auto]]|].
  destruct (IH (Rmax m0 (Rabs x))) as (A & B & C); cbn zeta in *.
  set (m := fold_left _ l (Rmax m0 (Rabs x))) in *.
  pose proof (Rmax_l m0 (Rabs x)). pose proof (Rmax_r m0 (Rabs x)).
  split; [lra|]. split; [intros y [<-|I]; [lra|apply B; exact I]|].
  destruct C as [C|(y & I & C)]; [|right; exists y; auto].
  assert (D : Rmax m0 (Rabs x) = m0 \/ Rmax m0 (Rabs x) = Rabs x) by (unfold Rmax; destruct (Rle_dec m0 (Rabs x)); auto).
  destruct D as [E|E]; rewrite E in C; [left; exact C|right; exists x; auto].
Qed.
Lemma normalize_ok : forall a, (exists x, In x a /\ x <> 0%R) ->
  exists b, normalizeInfinity a = Ok (map Some b) /\ normalized a b.
Proof.
  intros [|x a] (z & Iz & Nz); [destruct Iz|]. unfold normalizeInfinity.
  destruct (fold_max a (Rabs x)) as (A & B & C); cbn zeta in *.
  set (m := fold_left _ a (Rabs x)) in *.
  assert (All : forall y, In y (x :: a) -> (Rabs y <= m)%R) by (intros y [<-|I]; auto).
  assert (P : (0 < m)%R) by (pose proof (All z Iz); pose proof (Rabs_pos_lt z Nz); lra).
  assert (At : exists y, In y (x :: a) /\ Rabs y = m).
  { destruct C as [C|(y & I & C)]; [exists x|exists y]; split; auto; [left; reflexivity|right; exact I]. }
  destruct (Req_EM_T m 0) as [E|E]; [lra|].
  exists (map (fun y => (y / m)%R) (x :: a)). rewrite map_map. split; [reflexivity|].
  assert (Ab : forall y, Rabs (y / m)%R = (Rabs y / m)%R).
  { intros y; unfold Rdiv; rewrite Rabs_mult, Rabs_inv, (Rabs_right m) by lra; reflexivity. }
  split; [|split].
  - exists m; split; [exact P|]. rewrite map_map, <- (map_id (x :: a)) at 1. apply map_ext; intros y; field; exact E.
  - intros y I; apply in_map_iff in I as (u & <- & I). rewrite Ab.
    apply (Rmult_le_reg_r m); [exact P|]. unfold Rdiv; rewrite Rmult_assoc, Rinv_l, Rmult_1_r, Rmult_1_l by exact E.
    apply All; exact I.
  - destruct At as (y & I & H). exists (y / m)%R; split; [apply (in_map (fun y => (y / m)%R)); exact I|].
    rewrite Ab, H; field; exact E.
Qed.
Lemma normalize_zero : forall a, a <> [] -> (forall x, In x a -> x = 0%R) ->
  normalizeInfinity a = Ok (map (fun _ => None) a).
Proof.
  intros [|x a] N Z; [contradiction|]. unfold normalizeInfinity.
  destruct (fold_max a (Rabs x)) as (A & B & C); cbn zeta in *.
  set (m := fold_left _ a (Rabs x)) in *.
  assert (m = 0%R).
  { destruct C as [->|(y & I & ->)]; [rewrite (Z x) by (left; reflexivity)|rewrite (Z y) by (right; exact I)]; apply Rabs_R0. }
  destruct (Req_EM_T m 0); [reflexivity|contradiction].
Qed.

(** * ndEye *)
Lemma all_same_iff : forall ix, all_same ix = true <-> on_diagonal ix.
Proof.
  intros [|i ix]; unfold on_diagonal; cbn [all_same]; [split; easy|].
  rewrite forallb_forall; split.
  - intros H x y [<-|Ix] [<-|Iy]; auto.
    + apply Nat.eqb_eq; auto.
    + symmetry; apply Nat.eqb_eq; auto.
    + apply H in Ix, Iy. apply Nat.eqb_eq in Ix, Iy; congruence.
  - intros H x I. apply Nat.eqb_eq, H; [left; reflexivity|right; exact I].
Qed.
Lemma ndEye_ok : forall n l, n <> 1 -> exists e, ndEye n l = Ok e /\
  forall ix, index_of n l ix -> (on_diagonal ix -> e ix = 1%Z) /\ (~ on_diagonal ix -> e ix = 0%Z).
Proof.
  intros n l D; unfold ndEye; apply Nat.eqb_neq in D; rewrite D. eexists; split; [reflexivity|].
  intros ix _; rewrite <- all_same_iff; destruct (all_same ix); split; congruence.
Qed.
Lemma ndEye_one : forall l,
  (l = 0 -> ndEye 1 l = Err IndexError) /\
  (l <> 0 -> exists e, ndEye 1 l = Ok e /\ e [0] = 1%Z /\ forall i, 0 < i < l -> e [i] = 0%Z).
Proof.
  intros l; split; intros L; unfold ndEye; cbn [Nat.eqb].
  - subst; reflexivity.
  - apply Nat.eqb_neq in L; rewrite L. eexists; split; [reflexivity|]; split; [reflexivity|].
    intros [|i] P; [lia|reflexivity].
Qed.

(** * priorDataType *)
Lemma prior_comm : forall d1 d2, priorDataType d1 d2 = priorDataType d2 d1.
Proof. intros; unfold priorDataType; rewrite andb_comm, Nat.max_comm; reflexivity. Qed.
Lemma prior_std : forall d1 d2, In d1 std_types -> In d2 std_types ->
  exists d, priorDataType d1 d2 = Ok d /\ In d std_types /\
    (kind d = KComplex <-> kind d1 = KComplex \/ kind d2 = KComplex) /\
    component_bytes d = Nat.max (component_bytes d1) (component_bytes d2).
Proof.
  intros d1 d2 I1 I2; unfold std_types in I1, I2; cbn [In] in I1, I2.
  repeat destruct I1 as [<-|I1]; try contradiction;
  repeat destruct I2 as [<-|I2]; try contradiction;
  (eexists; split; [reflexivity|]; split; [cbn; tauto|]; split; [cbn; intuition congruence|reflexivity]).
Qed.
