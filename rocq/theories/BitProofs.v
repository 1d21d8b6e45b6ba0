(** Bit sets as integers: the subset iterator (C30) and the vertices of a set. *)
From Coq Require Import List Arith Bool Lia ZArith Sorted Permutation.
From Verif Require Import Base FuncsModel SearchModel.
Import ListNotations.
Local Open Scope Z_scope.

Ltac bz := cbn [Z.b2z negb andb orb xorb]; lia.
Ltac bzh := cbn [Z.b2z negb andb orb xorb] in *; lia.
Lemma dbl x : exists a b, x = 2 * a + Z.b2z b.
Proof. exists (Z.div2 x), (Z.odd x). apply Z.div2_odd. Qed.
Lemma bit0 a b : Z.testbit (2 * a + Z.b2z b) 0 = b.
Proof. apply Z.testbit_0_r. Qed.
Lemma bitS a b m : 0 <= m -> Z.testbit (2 * a + Z.b2z b) (Z.succ m) = Z.testbit a m.
Proof. intros. now apply Z.testbit_succ_r. Qed.
Lemma bits_ext x y : (forall m, 0 <= m -> Z.testbit x m = Z.testbit y m) -> x = y.
Proof. apply Z.bits_inj'. Qed.
Lemma bits_cases (P : Z -> Prop) : P 0 -> (forall m, 0 <= m -> P (Z.succ m)) -> forall m, 0 <= m -> P m.
Proof. intros H0 HS m Hm. destruct (Z.eq_dec m 0) as [->|N]; auto. replace m with (Z.succ (m - 1)) by lia. apply HS. lia. Qed.
Lemma land_dbl a b p q : Z.land (2 * a + Z.b2z p) (2 * b + Z.b2z q) = 2 * Z.land a b + Z.b2z (p && q).
Proof.
  apply bits_ext. apply bits_cases.
  - now rewrite Z.land_spec, !bit0.
  - intros m Hm. now rewrite Z.land_spec, !bitS, Z.land_spec.
Qed.
Lemma land_even a b q : Z.land (2 * a) (2 * b + Z.b2z q) = 2 * Z.land a b.
Proof. pose proof (land_dbl a b false q) as H. simpl Z.b2z in H at 1. rewrite Z.add_0_r in H. simpl (false && q)%bool in H. simpl Z.b2z in H. lia. Qed.
Lemma lor_dbl a b p q : Z.lor (2 * a + Z.b2z p) (2 * b + Z.b2z q) = 2 * Z.lor a b + Z.b2z (p || q).
Proof.
  apply bits_ext. apply bits_cases.
  - now rewrite Z.lor_spec, !bit0.
  - intros m Hm. now rewrite Z.lor_spec, !bitS, Z.lor_spec.
Qed.
Lemma lnot_dbl a p : Z.lnot (2 * a + Z.b2z p) = 2 * Z.lnot a + Z.b2z (negb p).
Proof. unfold Z.lnot. destruct p; cbn [Z.b2z negb]; lia. Qed.
Lemma lowbit_even a : lowbit (2 * a) = 2 * lowbit a.
Proof. unfold lowbit. replace (- (2 * a)) with (2 * (- a) + Z.b2z false) by bz. apply land_even. Qed.
Lemma lowbit_odd a : lowbit (2 * a + 1) = 1.
Proof.
  unfold lowbit. replace (- (2 * a + 1)) with (2 * (Z.lnot a) + Z.b2z true) by (unfold Z.lnot; bz).
  change (2 * a + 1) with (2 * a + Z.b2z true). rewrite land_dbl. rewrite Z.land_lnot_diag. reflexivity.
Qed.
Lemma dbl_inj a b p q : 2 * a + Z.b2z p = 2 * b + Z.b2z q -> a = b /\ p = q.
Proof. destruct p, q; cbn [Z.b2z]; intros; split; auto; lia. Qed.

(** [y] is a subset of [x] *)
Definition sub (y x : Z) : Prop := Z.land y x = y.
Lemma sub_dbl a p b q : sub (2 * a + Z.b2z p) (2 * b + Z.b2z q) <-> sub a b /\ (p = true -> q = true).
Proof.
  unfold sub. rewrite land_dbl. split.
  - intros H. apply dbl_inj in H. destruct H as (H1 & H2). split; auto. intros ->. now destruct q.
  - intros (-> & H). destruct p; simpl; auto. now rewrite H.
Qed.
Lemma sub_bits y x : sub y x <-> forall m, 0 <= m -> Z.testbit y m = true -> Z.testbit x m = true.
Proof.
  unfold sub. split.
  - intros H m Hm E. rewrite <- H, Z.land_spec in E. apply andb_true_iff in E. tauto.
  - intros H. apply bits_ext. intros m Hm. rewrite Z.land_spec. specialize (H m Hm). destruct (Z.testbit y m); simpl; auto.
Qed.

Lemma pos_ind2 (P : Z -> Prop) : P 0 -> (forall a b, 0 <= a -> (0 < 2 * a + Z.b2z b) -> P a -> P (2 * a + Z.b2z b)) -> forall x, 0 <= x -> P x.
Proof.
  intros H0 HS x Hx. revert x Hx. apply (Zlt_0_ind P). intros x IH Hx.
  destruct (Z.eq_dec x 0) as [->|N]; auto. destruct (dbl x) as (a & b & ->). apply HS; [destruct b; bzh|lia|].
  apply IH; destruct b; bzh.
Qed.

Lemma sub_le x : 0 <= x -> forall y, 0 <= y -> sub y x -> y <= x.
Proof.
  revert x. apply (pos_ind2 (fun x => forall y, 0 <= y -> sub y x -> y <= x)).
  - unfold sub. intros y _ H. rewrite Z.land_0_r in H. lia.
  - intros a b Ha Hp IH y Hy S. destruct (dbl y) as (c & q & ->). apply sub_dbl in S. destruct S as (S1 & S2).
    assert (c <= a) by (apply IH; auto; destruct q; bzh). destruct q, b; cbn [Z.b2z] in *; try lia.
Qed.

(** the next value of the iterator is the least larger subset *)
Lemma next_least x : 0 <= x -> forall lb, 0 <= lb < x -> sub lb x ->
  sub (next_subset x lb) x /\ lb < next_subset x lb /\ forall y, 0 <= y -> sub y x -> lb < y -> next_subset x lb <= y.
Proof.
  revert x. apply (pos_ind2 (fun x => forall lb, 0 <= lb < x -> sub lb x ->
    sub (next_subset x lb) x /\ lb < next_subset x lb /\ forall y, 0 <= y -> sub y x -> lb < y -> next_subset x lb <= y)); [intros; lia|].
  intros a b Ha Hp IH lb Hlb S. destruct (dbl lb) as (l & p & ->). apply sub_dbl in S. destruct S as (S1 & S2).
  assert (Hl : 0 <= l) by (destruct p; bzh).
  destruct (bool_dec p b) as [->|NE].
  - assert (La : l < a) by (destruct b; bzh).
    destruct (IH l (conj Hl La) S1) as (T1 & T2 & T3).
    assert (EN : next_subset (2 * a + Z.b2z b) (2 * l + Z.b2z b) = 2 * next_subset a l).
    { unfold next_subset. replace (2 * a + Z.b2z b - (2 * l + Z.b2z b)) with (2 * (a - l)) by lia. rewrite lowbit_even.
      set (k := lowbit (a - l)). replace (2 * k - 1) with (2 * (k - 1) + Z.b2z true) by bz. rewrite lnot_dbl, land_dbl.
      simpl negb. rewrite andb_false_r. simpl Z.b2z. lia. }
    rewrite EN. split; [|split].
    + replace (2 * next_subset a l) with (2 * next_subset a l + Z.b2z false) by bz. apply sub_dbl. split; auto. discriminate.
    + destruct b; bz.
    + intros y Hy Sy Ly. destruct (dbl y) as (c & q & ->). apply sub_dbl in Sy. destruct Sy as (U1 & U2).
      assert (0 <= c) by (destruct q; bzh).
      assert (l < c). { destruct q, b; cbn [Z.b2z] in *; try lia. }
      specialize (T3 c H U1 H0). destruct q; bz.
  - destruct p; [specialize (S2 eq_refl); congruence|]. destruct b; [|congruence]. clear NE.
    assert (EN : next_subset (2 * a + Z.b2z true) (2 * l + Z.b2z false) = 2 * l + 1).
    { unfold next_subset. replace (2 * a + Z.b2z true - (2 * l + Z.b2z false)) with (2 * (a - l) + 1) by bz. rewrite lowbit_odd.
      simpl (1 - 1). change (Z.lnot 0) with (-1). rewrite Z.land_m1_r. simpl. lia. }
    rewrite EN. split; [|split].
    + change (2 * l + 1) with (2 * l + Z.b2z true). apply sub_dbl. auto.
    + bz.
    + bz.
Qed.
Lemma lowbit_least x : 0 < x -> sub (lowbit x) x /\ 0 < lowbit x /\ forall y, 0 < y -> sub y x -> lowbit x <= y.
Proof.
  intros Hx. assert (H0 : 0 <= x) by lia. revert H0 Hx. apply (pos_ind2 (fun x => 0 < x -> sub (lowbit x) x /\ 0 < lowbit x /\ forall y, 0 < y -> sub y x -> lowbit x <= y)); [lia|].
  intros a b Ha Hp IH _. destruct b.
  - change (2 * a + Z.b2z true) with (2 * a + 1). rewrite lowbit_odd. split; [|split; [lia|lia]].
    change (sub (2 * 0 + Z.b2z true) (2 * a + Z.b2z true)). apply sub_dbl. split; [apply Z.land_0_l|auto].
  - cbn [Z.b2z] in Hp. replace (2 * a + Z.b2z false) with (2 * a) by bz. rewrite lowbit_even. destruct IH as (T1 & T2 & T3); [lia|].
    split; [|split; [lia|]].
    + replace (2 * lowbit a) with (2 * lowbit a + Z.b2z false) by bz. replace (2 * a) with (2 * a + Z.b2z false) by bz.
      apply sub_dbl. split; auto.
    + intros y Hy S. replace (2 * a) with (2 * a + Z.b2z false) in S by bz. destruct (dbl y) as (c & q & ->).
      apply sub_dbl in S. destruct S as (S1 & S2). destruct q; [discriminate (S2 eq_refl)|]. cbn [Z.b2z] in *. assert (0 < c) by lia. specialize (T3 c H S1). lia.
Qed.

Lemma subset_loop_spec x : 0 <= x -> forall fuel lb, (Z.to_nat (x - lb) <= fuel)%nat -> 0 < lb -> sub lb x -> 
  StronglySorted Z.lt (subset_loop fuel x lb) /\ forall y, In y (subset_loop fuel x lb) <-> 0 <= y /\ sub y x /\ lb <= y /\ 2 * y < x.
Proof.
  intros Hx fuel. induction fuel as [|f IH]; intros lb Hf Hlb S.
  - cbn [subset_loop]. split; [constructor|]. intros y. split; [intros []|]. intros (? & ? & ? & ?). lia.
  - cbn [subset_loop]. destruct (Z.ltb_spec (lb * 2) x) as [L|L].
    + destruct (next_least x Hx lb ltac:(lia) S) as (N1 & N2 & N3). destruct (IH (next_subset x lb)) as (I1 & I2); [lia|lia|exact N1|].
      split.
      * constructor; auto. apply Forall_forall. intros y Hy. apply I2 in Hy. lia.
      * intros y. cbn [In]. rewrite I2. split.
        -- intros [<-|(? & ? & ? & ?)]; repeat split; auto; lia.
        -- intros (Hy & Sy & Ly & Dy). destruct (Z.eq_dec lb y) as [->|NE]; auto. right. repeat split; auto. apply N3; auto. lia.
    + split; [constructor|]. intros y. split; [intros []|]. intros (? & ? & ? & ?). lia.
Qed.
Lemma subsetIterator_spec x : 0 <= x -> StronglySorted Z.lt (subsetIterator x) /\ 
  forall y, In y (subsetIterator x) <-> 0 < y /\ sub y x /\ 2 * y < x.
Proof.
  intros Hx. unfold subsetIterator. destruct (Z.eq_dec x 0) as [->|NE].
  - split; [constructor|]. intros y. split; [intros []|]. intros (? & ? & ?). lia.
  - destruct (lowbit_least x ltac:(lia)) as (L1 & L2 & L3). 
    destruct (subset_loop_spec x Hx (Z.to_nat x) (lowbit x)) as (I1 & I2); [lia|auto|auto|]. split; auto.
    intros y. rewrite I2. split; [intros (? & ? & ? & ?); repeat split; auto; lia|]. intros (? & ? & ?). repeat split; auto; lia.
Qed.

(** complements *)
Lemma sub_compl x : 0 <= x -> forall y, 0 <= y -> sub y x -> Z.land y (x - y) = 0 /\ Z.lor y (x - y) = x /\ sub (x - y) x.
Proof.
  revert x. apply (pos_ind2 (fun x => forall y, 0 <= y -> sub y x -> Z.land y (x - y) = 0 /\ Z.lor y (x - y) = x /\ sub (x - y) x)).
  - unfold sub. intros y Hy H. rewrite Z.land_0_r in H. subst. now repeat split.
  - intros a b Ha Hp IH y Hy S. destruct (dbl y) as (c & q & ->). apply sub_dbl in S. destruct S as (S1 & S2).
    destruct (IH c) as (T1 & T2 & T3); auto; [destruct q; bzh|].
    assert (E : 2 * a + Z.b2z b - (2 * c + Z.b2z q) = 2 * (a - c) + Z.b2z (xorb b q)).
    { destruct b, q; cbn [Z.b2z xorb]; try lia. }
    rewrite E, land_dbl, lor_dbl, T1, T2. assert (EB : (b = true /\ q = true) \/ q = false) by (destruct b, q; auto; discriminate (S2 eq_refl)).
    split; [|split].
    + destruct EB as [(-> & ->)| ->]; reflexivity.
    + destruct EB as [(-> & ->)| ->]; [reflexivity|destruct b; reflexivity].
    + apply sub_dbl. split; auto. destruct EB as [(-> & ->)| ->]; [simpl; auto|destruct b; simpl; auto].
Qed.
Lemma disjoint_add a b : 0 <= a -> 0 <= b -> Z.land a b = 0 -> Z.lor a b = a + b.
Proof. intros Ha Hb H. rewrite <- (Z.lxor_lor a b H). symmetry. now apply Z.add_nocarry_lxor. Qed.
Lemma sub_lor_l a b : sub a (Z.lor a b).
Proof. apply sub_bits. intros m _ E. now rewrite Z.lor_spec, E. Qed.

Lemma splits_once x : 0 <= x -> StronglySorted Z.lt (subsetIterator x) /\
  (forall a, In a (subsetIterator x) -> 0 < a /\ 0 < x - a /\ Z.land a (x - a) = 0 /\ Z.lor a (x - a) = x) /\
  (forall a b, 0 < a -> 0 < b -> Z.land a b = 0 -> Z.lor a b = x ->
    (In a (subsetIterator x) /\ ~ In b (subsetIterator x)) \/ (In b (subsetIterator x) /\ ~ In a (subsetIterator x))).
Proof.
  intros Hx. destruct (subsetIterator_spec x Hx) as (S1 & S2). split; auto. split.
  - intros a Ha. apply S2 in Ha. destruct Ha as (H1 & H2 & H3). destruct (sub_compl x Hx a ltac:(lia) H2) as (C1 & C2 & _). repeat split; auto. lia.
  - intros a b Ha Hb D U. assert (E : x = a + b) by (rewrite <- U; apply disjoint_add; auto; lia).
    assert (Sa : sub a x) by (rewrite <- U; apply sub_lor_l). assert (Sb : sub b x) by (rewrite <- U, Z.lor_comm; apply sub_lor_l).
    assert (a <> b). { intros ->. rewrite Z.land_diag in D. lia. }
    rewrite !S2. destruct (Z_lt_le_dec a b); [left|right]; repeat split; auto; try lia; intros (_ & _ & K); lia.
Qed.
