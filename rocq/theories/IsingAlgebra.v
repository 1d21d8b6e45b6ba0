(** Sums and products behind the Ising network: chains of tensordot, distributivity, edges seen from their ends. *)
From Coq Require Import List Arith Bool ZArith Permutation Lia.
From Verif Require Import Base Sums NdModel NdProofs FuncsModel SearchModel HeapModel TensorSpec NetSpec SumpairsProofs NetProofs GraphModel GraphSpec RealSR IsingModel.
Import ListNotations.
Local Open Scope sr_scope.

Section Alg.
Context {A : Type} {HA : SR A}.
Add Ring Aring : (@SR_theory A HA).
Definition delta (x y : nat) : A := if Nat.eqb x y then 1 else 0.
Lemma sum_delta q y (f : nat -> A) : (y < q)%nat -> sumN q (fun k => delta k y * f k) = f y.
Proof.
  intros H. rewrite (sumN_single q _ y H); [unfold delta; rewrite Nat.eqb_refl; ring|]. intros i _ Ni. unfold delta. destruct (Nat.eqb_spec i y); [contradiction|ring].
Qed.
Lemma sumN_swap n m (f : nat -> nat -> A) : sumN n (fun i => sumN m (f i)) = sumN m (fun j => sumN n (fun i => f i j)).
Proof. unfold sumN. apply sumL_swap. Qed.
Lemma sumN_mul_r n (f : nat -> A) c : sumN n (fun i => f i * c) = sumN n f * c.
Proof. unfold sumN. apply sumL_mul_r. Qed.

(** ** the site tensor *)
Section Site.
Context {W : Type} (mat : W -> arr A) (q : nat).
Hypothesis Mshape : forall w, ashape (mat w) = [q; q].
Definition legprod (sg : nat) (ws : list W) (ys : list nat) : A := prodL (combine ws ys) (fun p => aget (mat (fst p)) [sg; snd p]).
Lemma inr_repeat n ys : inrange (repeat q n) ys -> forall y, In y ys -> (y < q)%nat.
Proof.
  revert ys. induction n as [|n IH]; intros ys H y Hy; simpl in H; inversion H; subst; [destruct Hy|]. destruct Hy as [<-|Hy]; auto. eapply IH; eauto.
Qed.
Lemma site_fold : forall (R D : list W) (a : arr A), wfa a -> ashape a = repeat q (List.length R + List.length D) ->
  (forall xs ys, inrange (repeat q (List.length R)) xs -> inrange (repeat q (List.length D)) ys ->
     aget a (xs ++ ys) = sumN q (fun sg => prodL xs (delta sg) * legprod sg D ys)) ->
  exists a', rfold (fun a w => np_tensordot00 a (mat w)) R a = Ok a' /\ wfa a' /\ ashape a' = repeat q (List.length R + List.length D) /\
    forall ys, inrange (repeat q (List.length R + List.length D)) ys -> aget a' ys = sumN q (fun sg => legprod sg (D ++ R) ys).
Proof.
  induction R as [|w R IH]; intros D a Wa Sa Va.
  - exists a. cbn [rfold]. repeat split; auto. intros ys H. specialize (Va [] ys ltac:(constructor) H). cbn [app] in Va. rewrite Va. apply sumN_ext. intros. rewrite app_nil_r. cbn. ring.
  - cbn [rfold]. unfold np_tensordot00 at 1. rewrite Sa, Mshape. cbn [List.length Nat.add repeat]. rewrite Nat.eqb_refl. cbn [rbind].
    set (a1 := tab _ _). destruct (IH (D ++ [w]) a1) as (a' & E & W1 & S1 & V1).
    + apply tab_wfa.
    + unfold a1, tab. cbn [ashape]. rewrite <- repeat_cons, app_length. cbn [List.length]. change (q :: repeat q (List.length R + List.length D)) with (repeat q (S (List.length R + List.length D))). f_equal. lia.
    + intros xs ys Hx Hy. unfold a1. rewrite app_length in Hy. cbn [List.length] in Hy. replace (repeat q (List.length D + 1)) with (repeat q (List.length D) ++ [q]) in Hy by (rewrite repeat_app; reflexivity).
      apply inrange_app_inv in Hy as (y1 & y2 & -> & Hy1 & Hy2). inversion Hy2 as [|y ? ? ? Hq H0]; subst. inversion H0; subst. clear H0.
      assert (Lxy : List.length (xs ++ y1) = List.length (repeat q (List.length R + List.length D))).
      { rewrite app_length. apply inrange_length in Hx, Hy1. rewrite repeat_length in *. lia. }
      assert (IN : inrange (repeat q (List.length R + List.length D)) (xs ++ y1)) by (rewrite repeat_app; apply inrange_app; auto).
      rewrite app_assoc. rewrite aget_tab by (apply inrange_app; auto).
      rewrite <- Lxy. rewrite firstn_app, firstn_all, Nat.sub_diag, skipn_app, skipn_all, Nat.sub_diag. cbn [firstn skipn app]. rewrite app_nil_r.
      transitivity (sumN q (fun k => sumN q (fun sg => delta k sg * (prodL xs (delta sg) * legprod sg D y1 * aget (mat w) [k; y])))).
      { apply sumN_ext. intros k Hk. rewrite (app_comm_cons xs y1 k). rewrite (Va (k :: xs) y1); [|constructor; auto|auto]. rewrite <- sumN_mul_r. apply sumN_ext. intros sg _. cbn [prodL].
        assert (delta sg k = delta k sg) as -> by (unfold delta; now rewrite Nat.eqb_sym). ring. }
      rewrite sumN_swap. apply sumN_ext. intros sg Hs. rewrite (sum_delta q sg (fun k => prodL xs (delta sg) * legprod sg D y1 * aget (mat w) [k; y]) Hs).
      unfold legprod. assert (combine (D ++ [w]) (y1 ++ [y]) = combine D y1 ++ [(w, y)]) as ->.
      { apply inrange_length in Hy1. rewrite repeat_length in Hy1. clear - Hy1. revert y1 Hy1. induction D as [|d D IHD]; intros [|z y1] H; simpl in *; try discriminate; auto. f_equal. apply IHD. lia. }
      rewrite prodL_app. cbn. ring.
    + exists a'. split; [exact E|]. split; [exact W1|]. rewrite app_length in S1, V1. cbn [List.length] in S1, V1.
      replace (List.length R + (List.length D + 1))%nat with (S (List.length R + List.length D)) in S1, V1 by lia. cbn [repeat] in S1, V1. split; [exact S1|].
      intros ys Hy. rewrite (V1 ys Hy). now rewrite <- app_assoc.
Qed.
Lemma all_eqb_cons x l : all_eqb (x :: l) = forallb (Nat.eqb x) l. Proof. reflexivity. Qed.
Lemma prod_delta x l : forall sg, prodL l (delta sg) * delta sg x = if forallb (Nat.eqb x) l then delta sg x else 0.
Proof.
  intros sg. induction l as [|y l IH]; cbn [prodL forallb]; [ring|]. replace (delta sg y * prodL l (delta sg) * delta sg x) with (delta sg y * (prodL l (delta sg) * delta sg x)) by ring. rewrite IH.
  destruct (forallb (Nat.eqb x) l); rewrite ?andb_true_r, ?andb_false_r; [|ring]. unfold delta. destruct (Nat.eqb_spec x y) as [->|N]; [destruct (Nat.eqb sg y); ring|].
  destruct (Nat.eqb_spec sg y) as [->|]; [|ring]. destruct (Nat.eqb_spec y x); [congruence|ring].
Qed.
Theorem site_array (a0 : arr A) (ws : list W) : ashape a0 = [q] -> (forall x, (x < q)%nat -> aget a0 [x] = 1) -> ws <> [] ->
  exists b a, diagonalNDTensor a0 (List.length ws) = Ok b /\ rfold (fun a w => np_tensordot00 a (mat w)) ws b = Ok a /\ wfa a /\
    ashape a = repeat q (List.length ws) /\
    forall ys, inrange (repeat q (List.length ws)) ys -> aget a ys = sumN q (fun sg => legprod sg ws ys).
Proof.
  intros Ha H1 Nw. unfold diagonalNDTensor. rewrite Ha. cbn [nth]. destruct (Nat.eqb_spec (List.length ws) 0) as [E|_]; [destruct ws; [contradiction|discriminate]|].
  eexists. destruct (site_fold ws [] (tab (repeat q (List.length ws)) (fun idx => if all_eqb idx then aget a0 [nth 0 idx 0%nat] else 0))) as (a & E & W1 & S1 & V1).
  - apply tab_wfa.
  - cbn. f_equal. lia.
  - intros xs ys Hx Hy. simpl in Hy. inversion Hy; subst. rewrite app_nil_r. rewrite aget_tab by auto. destruct xs as [|x xs].
    { apply inrange_length in Hx. rewrite repeat_length in Hx. destruct ws; [contradiction|discriminate]. }
    assert (Hq : (x < q)%nat) by (eapply inr_repeat; [exact Hx|simpl; auto]). cbn [all_eqb nth]. rewrite H1 by auto.
    transitivity (sumN q (fun sg => delta sg x * (if forallb (Nat.eqb x) xs then 1 else 0))).
    + rewrite (sum_delta q x (fun _ => if forallb (Nat.eqb x) xs then 1 else 0) Hq). reflexivity.
    + apply sumN_ext. intros sg _. cbn [prodL]. unfold legprod. cbn. replace (delta sg x * prodL xs (delta sg) * 1) with (prodL xs (delta sg) * delta sg x) by ring. rewrite prod_delta. destruct (forallb (Nat.eqb x) xs); ring.
  - exists a. split; [reflexivity|]. split; [exact E|]. split; [exact W1|]. cbn [List.length] in S1, V1. rewrite Nat.add_0_r in S1, V1. split; auto.
Qed.
End Site.

(** ** a product of sums *)
Lemma prod_sum {V} q (F : V -> nat -> A) : forall vs : list V,
  prodL vs (fun v => sumN q (F v)) = sumL (indices (repeat q (List.length vs))) (fun c => prodL (combine vs c) (fun p => F (fst p) (snd p))).
Proof.
  induction vs as [|v vs IH]; cbn [prodL List.length repeat indices]; [cbn; ring|]. rewrite sumL_flat_map, IH. unfold sumN. rewrite <- sumL_mul_r. apply sumL_ext. intros i _.
  rewrite sumL_map, <- sumL_mul_l. apply sumL_ext. intros c _. cbn. reflexivity.
Qed.
Lemma combine_seq_nth {B} (f : nat * nat -> B) (c : list nat) : forall k, map f (combine (seq k (List.length c)) c) = map (fun v => f (v, nth (v - k) c 0%nat)) (seq k (List.length c)).
Proof.
  induction c as [|x c IH]; intros k; cbn [List.length seq combine map]; [reflexivity|]. rewrite Nat.sub_diag. cbn [nth]. f_equal. rewrite IH. apply map_ext_in. intros v Hv. apply in_seq in Hv.
  replace (v - k)%nat with (S (v - S k)) by lia. reflexivity.
Qed.
Lemma prodL_as_map {X} (l : list X) (f : X -> A) : prodL l f = prodL (map f l) (fun x => x).
Proof. induction l as [|x l IH]; simpl; auto. now rewrite IH. Qed.
Lemma prod_combine_nth n c (F : nat -> nat -> A) : List.length c = n -> prodL (combine (seq 0 n) c) (fun p => F (fst p) (snd p)) = prodL (seq 0 n) (fun v => F v (nth v c 0%nat)).
Proof.
  intros <-. rewrite prodL_as_map. rewrite combine_seq_nth. rewrite (prodL_as_map (seq 0 _)). f_equal. apply map_ext. intros v. cbn. now rewrite Nat.sub_0_r.
Qed.

(** ** the product over sites of the products over their edges, edge by edge *)
Section Edges.
Context {W : Type}.
Variable X : nat -> nat -> A.
Lemma prod_one n a x (f : nat -> A) : (a < n)%nat -> f a = x -> prodL (seq 0 n) (fun v => if Nat.eqb a v then f v else 1) = x.
Proof.
  intros H <-. assert (G : forall m k, (k <= a < k + m)%nat -> prodL (seq k m) (fun v => if Nat.eqb a v then f v else 1) = f a).
  { induction m as [|m IH]; intros k Hk; [lia|]. cbn [seq prodL]. destruct (Nat.eqb_spec a k) as [->|N].
    - rewrite (prodL_ext _ _ (fun _ => 1)); [rewrite prodL_1; ring|]. intros v Hv. apply in_seq in Hv. destruct (Nat.eqb_spec k v); [lia|reflexivity].
    - rewrite IH by lia. ring. }
  apply G. lia.
Qed.
Fixpoint edge_prod (k : nat) (l : list (nat * option nat * W)) : A :=
  match l with
  | [] => 1
  | (a, Some b, _) :: l' => X a k * X b k * edge_prod (S k) l'
  | (a, None, _) :: l' => X a k * edge_prod (S k) l'
  end.
Lemma incident_prod n : forall l k, (forall a b w, In (a, b, w) l -> (a < n)%nat /\ forall b', b = Some b' -> (b' < n)%nat) ->
  prodL (seq 0 n) (fun v => prodL (incident v k l) (X v)) = edge_prod k l.
Proof.
  induction l as [|[[a b] w] l IH]; intros k H; cbn [incident edge_prod].
  - cbn [prodL]. apply prodL_1.
  - destruct (H a b w) as (Ha & Hb); [simpl; auto|]. assert (IH' := IH (S k) ltac:(intros a1 b1 w1 H1; apply (H a1 b1 w1); simpl; auto)). rewrite <- IH'.
    transitivity (prodL (seq 0 n) (fun v => ((if Nat.eqb a v then X v k else 1) * match b with Some b => if Nat.eqb b v then X v k else 1 | None => 1 end) * prodL (incident v (S k) l) (X v))).
    + apply prodL_ext. intros v _. rewrite !prodL_app. destruct (Nat.eqb a v), b as [b|]; try destruct (Nat.eqb b v); cbn [prodL]; ring.
    + rewrite !prodL_mul. rewrite (prod_one n a (X a k) (fun v => X v k)) by auto. destruct b as [b|]; [rewrite (prod_one n b (X b k) (fun v => X v k)) by auto; reflexivity|]. rewrite prodL_1. ring.
Qed.
End Edges.

(** ** summing every edge on its own *)
Lemma sumpairs_factor d (la lb : nat -> nat) (G : nat -> nat -> nat -> A) : forall K s,
  NoDup (plegs (map (fun k => (la k, lb k)) K)) ->
  sumpairs d (map (fun k => (la k, lb k)) K) (fun s => prodL K (fun k => G k (s (la k)) (s (lb k)))) s =
  prodL K (fun k => sumN (d (la k)) (fun i => G k i i)).
Proof.
  induction K as [|k K IH]; intros s ND; cbn [map sumpairs prodL]; [reflexivity|].
  assert (ND' : NoDup (plegs (map (fun k => (la k, lb k)) K))) by (eapply NoDup_pairs_cons; exact ND).
  assert (Nx : forall x, In x (plegs (map (fun k => (la k, lb k)) K)) -> x <> la k /\ x <> lb k).
  { intros x Hx. unfold plegs in ND, Hx. cbn [map fst snd app] in ND. inversion ND as [|? ? N1 N2]; subst. apply NoDup_remove_2 in N2. split; intros ->; [apply N1|apply N2; exact Hx]. apply in_app_iff in Hx. apply in_app_iff. simpl. tauto. }
  assert (Nab : la k <> lb k).
  { unfold plegs in ND. cbn [map fst snd app] in ND. inversion ND as [|? ? N1 N2]; subst. intros E. apply N1. apply in_app_iff. right. simpl. auto. }
  rewrite <- sumN_mul_r. apply sumN_ext. intros i Hi.
  rewrite (sumpairs_mul_l d _ (fun s => prodL K (fun k0 => G k0 (s (la k0)) (s (lb k0)))) (fun s => G k (s (la k)) (s (lb k)))).
  - rewrite IH by auto. unfold upd. rewrite Nat.eqb_refl. destruct (Nat.eqb_spec (la k) (lb k)) as [E|_]; [contradiction|]. rewrite Nat.eqb_refl. reflexivity.
  - intros s1 s2 Hs. rewrite !Hs; auto; intros H; apply Nx in H; tauto.
Qed.
Lemma sumpairs_sumL {X} d P (l : list X) (f : X -> assignment -> A) : forall s, sumpairs d P (fun s => sumL l (fun x => f x s)) s = sumL l (fun x => sumpairs d P (f x) s).
Proof.
  induction P as [|[a b] P IH]; intros s; cbn [sumpairs]; [reflexivity|]. unfold sumN. rewrite sumL_swap. apply sumL_ext. intros i _. apply IH.
Qed.

(** ** bit lists *)
Lemma sum_bits (n : nat) : forall f : list nat -> A,
  sumN (2 ^ n) (fun S => f (map Z.to_nat (intToBitList (Z.of_nat S) n))) = sumL (indices (repeat 2%nat n)) f.
Proof.
  induction n as [|n IH]; intros f; [reflexivity|]. rewrite Nat.pow_succ_r', Nat.mul_comm, sumN_mul. cbn [repeat indices]. rewrite sumL_flat_map. change (seq 0 2) with [0%nat; 1%nat]. cbn [sumL]. rewrite !sumL_map, <- !IH.
  transitivity (sumN (2 ^ n) (fun a => f (0%nat :: map Z.to_nat (intToBitList (Z.of_nat a) n)) + (f (1%nat :: map Z.to_nat (intToBitList (Z.of_nat a) n)) + 0))).
  - apply sumN_ext. intros a _. unfold sumN. change (seq 0 2) with [0%nat; 1%nat]. cbn [sumL intToBitList map].
    assert (E0 : (Z.of_nat (a * 2 + 0) mod 2 = 0 /\ Z.of_nat (a * 2 + 0) / 2 = Z.of_nat a)%Z).
    { replace (Z.of_nat (a * 2 + 0)) with (Z.of_nat a * 2)%Z by lia. rewrite Z.mod_mul, Z.div_mul by lia. auto. }
    assert (E1 : (Z.of_nat (a * 2 + 1) mod 2 = 1 /\ Z.of_nat (a * 2 + 1) / 2 = Z.of_nat a)%Z).
    { replace (Z.of_nat (a * 2 + 1)) with (1 + Z.of_nat a * 2)%Z by lia. rewrite Z.mod_add, Z.div_add by lia. auto. }
    destruct E0 as (-> & ->), E1 as (-> & ->). reflexivity.
  - unfold sumN. rewrite sumL_add, sumL_add, sumL_0. ring.
Qed.
End Alg.
