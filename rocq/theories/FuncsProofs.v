(** Proofs about FuncsModel. *)
From Coq Require Import List Arith Bool Lia ZArith QArith Qabs String Ascii Permutation Sorting.Permutation Lqa.
From Verif Require Import Base FuncsModel FuncsSpec.
Import ListNotations.
Local Open Scope list_scope.
Local Open Scope nat_scope.

(** ** Multisets *)
Section Multi.
Context {A : Type} {HD : Dec A}.

Lemma count_app (x : A) l1 l2 : count x (l1 ++ l2) = count x l1 + count x l2.
Proof. induction l1; simpl; auto. rewrite IHl1. lia. Qed.

Lemma count_In (x : A) l : In x l <-> count x l > 0.
Proof.
  induction l as [|y l IH]; simpl; [lia|].
  destruct (dec x y); split; intros; try lia; auto.
  - destruct H; [congruence|]. apply IH in H. lia.
  - right. apply IH. lia.
Qed.

Lemma count_notin (x : A) l : ~ In x l -> count x l = 0.
Proof. intros. destruct (count x l) eqn:E; auto. exfalso. apply H, count_In. lia. Qed.

Lemma inb_spec (x : A) l : inb x l = true <-> In x l.
Proof.
  unfold inb. rewrite existsb_exists. split.
  - intros (y & Hy & E). destruct (dec x y); [subst; auto | discriminate].
  - intros H. exists x. split; auto. destruct (dec x x); congruence.
Qed.
Lemma inb_false (x : A) l : inb x l = false <-> ~ In x l.
Proof. rewrite <- inb_spec. destruct (inb x l); split; congruence. Qed.

Lemma count_perm (l1 l2 : list A) : (forall x, count x l1 = count x l2) <-> Permutation l1 l2.
Proof.
  split.
  - revert l2. induction l1 as [|x l1 IH]; intros l2 E.
    + destruct l2 as [|y l2]; auto. specialize (E y). simpl in E. destruct (dec y y); [lia|congruence].
    + assert (In x l2) as Hx.
      { apply count_In. rewrite <- E. simpl. destruct (dec x x); [lia|congruence]. }
      apply in_split in Hx as (u & v & ->).
      apply Permutation_cons_app. apply IH. intros y. specialize (E y).
      rewrite count_app in *. simpl in E. destruct (dec y x); lia.
  - induction 1; intros z; simpl; auto; try lia.
    + rewrite IHPermutation1. auto.
Qed.

Lemma compareLists_perm (a b : list A) : compareLists a b = true <-> Permutation a b.
Proof.
  unfold compareLists. rewrite forallb_forall, <- count_perm. split.
  - intros H x. destruct (in_dec dec x (a ++ b)) as [i|i].
    + apply Nat.eqb_eq, H, i.
    + rewrite in_app_iff in i. rewrite !count_notin; tauto.
  - intros H x _. apply Nat.eqb_eq, H.
Qed.

Lemma remove_one_spec (x : A) l :
  match remove_one x l with
  | None => ~ In x l
  | Some r => exists u v, l = u ++ x :: v /\ ~ In x u /\ r = u ++ v
  end.
Proof.
  induction l as [|y l IH]; simpl; auto.
  destruct (dec x y).
  - subst. exists [], l. auto.
  - destruct (remove_one x l) eqn:E; simpl.
    + destruct IH as (u & v & -> & Hu & ->). exists (y :: u), v. simpl. intuition congruence.
    + intuition.
Qed.

Lemma drop_budget_ext b1 b2 l : (forall x, b1 x = b2 x) -> drop_budget b1 l = drop_budget b2 l.
Proof.
  revert b1 b2. induction l as [|x l IH]; intros b1 b2 E; simpl; auto.
  rewrite <- E. destruct (b1 x).
  - f_equal. auto.
  - apply IH. intros y. destruct (dec y x); auto.
Qed.

Lemma drop_budget_0 l : drop_budget (fun _ => 0) l = l.
Proof. induction l; simpl; congruence. Qed.

Lemma drop_budget_add1 b x u v :
  ~ In x u ->
  drop_budget (fun y => (if dec y x then 1 else 0) + b y) (u ++ x :: v) = drop_budget b (u ++ v).
Proof.
  revert b. induction u as [|y u IH]; intros b Hx; simpl.
  - destruct (dec x x); [|congruence]. simpl. apply drop_budget_ext.
    intros y. destruct (dec y x); subst; auto.
  - simpl in Hx. destruct (dec y x); [intuition congruence|]. simpl.
    destruct (b y) eqn:E.
    + f_equal. apply IH. tauto.
    + rewrite <- IH by tauto. apply drop_budget_ext. intros z.
      destruct (dec y x); [congruence|]. simpl. destruct (dec z y); subst; auto.
      destruct (dec y x); [congruence|]. auto.
Qed.

Lemma listDifference_cases (total used : list A) :
  match listDifference total used with
  | Ok r => (forall x, count x used <= count x total) /\ r = drop_budget (fun x => count x used) total
            /\ Permutation (used ++ r) total
  | Err e => e = ValueError /\ exists x, count x total < count x used
  end.
Proof.
  revert total. induction used as [|x used IH]; intros total; simpl.
  - split; [lia|]. split; auto. now rewrite drop_budget_0.
  - pose proof (remove_one_spec x total) as Hr. destruct (remove_one x total) as [t|].
    + destruct Hr as (u & v & -> & Hu & ->). specialize (IH (u ++ v)).
      destruct (listDifference (u ++ v) used) as [r|e].
      * destruct IH as (H1 & -> & H3). split; [|split].
        -- intros y. specialize (H1 y). rewrite count_app in *. simpl. destruct (dec y x); lia.
        -- symmetry. apply drop_budget_add1. auto.
        -- apply Permutation_cons_app. auto.
      * destruct IH as (-> & y & Hy). split; auto. exists y.
        rewrite count_app in *. simpl. destruct (dec y x); lia.
    + split; auto. exists x. rewrite (count_notin x total) by auto. destruct (dec x x); [lia|congruence].
Qed.

Lemma dedup_In (x : A) l : In x (dedup l) <-> In x l.
Proof.
  induction l as [|y l IH]; simpl; [tauto|]. rewrite filter_In, IH.
  destruct (dec y x); intuition congruence.
Qed.
Lemma NoDup_filter' (p : A -> bool) l : NoDup l -> NoDup (filter p l).
Proof.
  induction 1; simpl; [constructor|]. destruct (p x); auto. constructor; auto.
  rewrite filter_In. tauto.
Qed.
Lemma dedup_NoDup (l : list A) : NoDup (dedup l).
Proof.
  induction l as [|y l IH]; simpl; constructor.
  - rewrite filter_In. destruct (dec y y); intuition congruence.
  - now apply NoDup_filter'.
Qed.

Lemma count_repeat (x e : A) n : count x (repeat e n) = if dec x e then n else 0.
Proof. induction n; simpl; destruct (dec x e); auto; lia. Qed.

Lemma count_flat_repeat (x : A) (g : A -> nat) l :
  NoDup l -> count x (flat_map (fun e => repeat e (g e)) l) = if inb x l then g x else 0.
Proof.
  induction 1 as [|y l Hy ND IH]; simpl; auto.
  rewrite count_app, IH, count_repeat. unfold inb in *. simpl. destruct (dec x y); simpl; auto.
  subst. destruct (existsb (fun y0 : A => if dec y y0 then true else false) l) eqn:E; [|lia].
  exfalso. apply Hy. apply inb_spec. exact E.
Qed.

Lemma commonElements_count (x y : list A) e :
  count e (commonElements x y) = Nat.min (count e x) (count e y).
Proof.
  unfold commonElements. rewrite count_flat_repeat by apply dedup_NoDup.
  destruct (inb e (dedup x)) eqn:E; auto.
  apply inb_false in E. rewrite dedup_In in E. rewrite count_notin by auto. auto.
Qed.

Lemma NoDup_app (l1 l2 : list A) :
  NoDup l1 -> NoDup l2 -> (forall x, In x l1 -> ~ In x l2) -> NoDup (l1 ++ l2).
Proof.
  induction 1; simpl; intros H2 HD2; auto. constructor.
  - rewrite in_app_iff. intros [?|?]; [tauto|]. eapply HD2; eauto.
  - apply IHNoDup; auto.
Qed.

Lemma listSymmetricDifference_spec (x y : list A) :
  NoDup (listSymmetricDifference x y) /\
  forall e, In e (listSymmetricDifference x y) <-> (In e x /\ ~ In e y) \/ (In e y /\ ~ In e x).
Proof.
  unfold listSymmetricDifference. split.
  - apply NoDup_app; try apply NoDup_filter', dedup_NoDup.
    intros e. rewrite !filter_In, !dedup_In, !negb_true_iff, !inb_false. tauto.
  - intros e. rewrite in_app_iff, !filter_In, !dedup_In, !negb_true_iff, !inb_false. tauto.
Qed.

Lemma deleteAllInUsed_spec (total used : list A) e :
  count e (deleteAllInUsed total used) = if inb e used then 0 else count e total.
Proof.
  unfold deleteAllInUsed. induction total as [|y l IH]; simpl; [now destruct (inb e used)|].
  destruct (inb y used) eqn:E; simpl; rewrite IH; destruct (dec e y); subst; try rewrite E; auto.
Qed.

Lemma checkAllEqual_spec (tp : list A) :
  checkAllEqual tp = true <-> (forall x y, In x tp -> In y tp -> x = y).
Proof.
  destruct tp as [|x0 l]; simpl. { split; intros; auto; contradiction. }
  rewrite andb_true_iff, forallb_forall. split.
  - intros [_ H] x y Hx Hy.
    assert (forall z, x0 = z \/ In z l -> z = x0) as G.
    { intros z [<-|Hz]; auto. specialize (H z Hz). destruct (dec z x0); congruence. }
    rewrite (G x), (G y); auto.
  - intros H. split.
    + destruct (dec x0 x0); congruence.
    + intros z Hz. destruct (dec z x0) as [|n]; auto.
Qed.

(** *** generateIndices: positions of the k-th occurrence *)
Lemma index_of_Some (e : A) l i :
  index_of e l = Some i -> nth_error l i = Some e /\ forall j, j < i -> nth_error l j <> Some e.
Proof.
  revert i. induction l as [|y l IH]; simpl; intros i E; [discriminate|].
  destruct (dec e y).
  - injection E as <-. subst. split; auto. intros; lia.
  - destruct (index_of e l) as [j|]; [|discriminate]. injection E as <-.
    destruct (IH j eq_refl) as [H1 H2]. split; auto.
    intros [|k] Hk; simpl; [congruence|]. apply H2. lia.
Qed.
Lemma index_of_None (e : A) l : index_of e l = None <-> ~ In e l.
Proof.
  induction l as [|y l IH]; simpl; [tauto|]. destruct (dec e y) as [E|E].
  - split; [discriminate|]. intros H. exfalso. apply H. auto.
  - destruct (index_of e l); simpl; split; intros H; try discriminate.
    + exfalso. destruct IH as [_ IH]. assert (Some n = None); [|discriminate]. apply IH. tauto.
    + intros [?|?]; [congruence|]. tauto.
    + auto.
Qed.

Lemma index_of_lt (e : A) l i : index_of e l = Some i -> i < List.length l.
Proof. intros H. apply index_of_Some in H as [H _]. apply nth_error_Some. congruence. Qed.

Lemma nth_occ_shift (e : A) l k :
  nth_occ e (S k) l = match index_of e l with
                      | None => None
                      | Some i => option_map (fun j => j + S i) (nth_occ e k (skipn (S i) l)) end.
Proof.
  induction l as [|y l IH]; simpl; auto.
  destruct (dec e y).
  - simpl. destruct (nth_occ e k l); simpl; auto. f_equal. lia.
  - rewrite IH. destruct (index_of e l); simpl; auto.
    destruct (nth_occ e k (match l with [] => [] | _ :: l0 => skipn n0 l0 end)); simpl; auto.
Qed.

Lemma nth_occ_0 (e : A) l : nth_occ e 0 l = index_of e l.
Proof. induction l as [|y l IH]; simpl; auto. destruct (dec e y); auto. now rewrite IH. Qed.

Lemma skipn_skipn' {X} (a b : nat) (l : list X) : skipn a (skipn b l) = skipn (b + a) l.
Proof. revert l. induction b; intros l; simpl; auto. destruct l; auto. now rewrite skipn_nil. Qed.

Lemma nth_occ_next (e : A) l k i :
  nth_occ e k l = Some i ->
  nth_occ e (S k) l = option_map (fun j => j + S i) (index_of e (skipn (S i) l)).
Proof.
  revert l i. induction k; intros l i E.
  - rewrite nth_occ_0 in E. rewrite nth_occ_shift, E, nth_occ_0. auto.
  - rewrite nth_occ_shift in E |- *. destruct (index_of e l) as [i0|]; [|discriminate].
    destruct (nth_occ e k (skipn (S i0) l)) as [j|] eqn:Ej; [|discriminate]. simpl in E.
    injection E as <-. rewrite (IHk _ _ Ej). rewrite skipn_skipn'.
    replace (S i0 + S j) with (S (j + S i0)) by lia.
    destruct (index_of e (skipn (S (j + S i0)) l)); simpl; auto. f_equal. lia.
Qed.

Lemma nth_occ_None_mono (e : A) l k k' : k <= k' -> nth_occ e k l = None -> nth_occ e k' l = None.
Proof.
  revert k k'. induction l as [|y l IH]; simpl; auto. intros k k' Hk.
  destruct (dec e y).
  - destruct k; [discriminate|]. destruct k'; [lia|].
    destruct (nth_occ e k l) eqn:E; [discriminate|]. intros _. rewrite (IH k k'); auto. lia.
  - destruct (nth_occ e k l) eqn:E; [discriminate|]. intros _. rewrite (IH k k'); auto.
Qed.

Lemma nth_occ_count (e : A) l k : nth_occ e k l = None <-> count e l <= k.
Proof.
  revert k. induction l as [|y l IH]; simpl; intros k; [split; auto; lia|].
  destruct (dec e y).
  - destruct k; [split; [discriminate|lia]|].
    destruct (nth_occ e k l) eqn:E; simpl.
    + split; [discriminate|]. intros. assert (count e l <= k) as H1 by lia. apply IH in H1. congruence.
    + split; auto. intros _. apply IH in E. lia.
  - destruct (nth_occ e k l) eqn:E; simpl.
    + split; [discriminate|]. intros H1. apply IH in H1. congruence.
    + split; auto. intros _. now apply IH.
Qed.

Lemma nth_occ_Some (e : A) l k i :
  nth_occ e k l = Some i -> nth_error l i = Some e /\ count e (firstn i l) = k.
Proof.
  revert k i. induction l as [|y l IH]; simpl; intros k i E; [discriminate|].
  destruct (dec e y).
  - destruct k.
    + injection E as <-. subst. auto.
    + destruct (nth_occ e k l) as [j|] eqn:Ej; [|discriminate]. injection E as <-.
      apply IH in Ej as [H1 H2]. simpl. split; auto. destruct (dec e y); [|congruence]. lia.
  - destruct (nth_occ e k l) as [j|] eqn:Ej; [|discriminate]. injection E as <-.
    apply IH in Ej as [H1 H2]. simpl. split; auto. destruct (dec e y); [congruence|]. lia.
Qed.

Lemma generateIndices_loop_spec l elems : forall cur seen,
  (forall e, match find (fun p => if dec e (fst p) then true else false) cur with
             | Some p => (count e seen >= 1) /\ 
                (exists k, k < count e seen /\ nth_occ e k l = Some (snd p) /\
                  (S k = count e seen \/ nth_occ e (S k) l = None))
             | None => count e seen = 0 \/ nth_occ e 0 l = None
             end) ->
  generateIndices_loop l cur elems = kth_requests l seen elems.
Proof.
  induction elems as [|e elems IH]; intros cur seen Inv; simpl; auto.
  assert (forall e', count e' (seen ++ [e]) = count e' seen + (if dec e' e then 1 else 0)) as Hc.
  { intros. rewrite count_app. simpl. destruct (dec e' e); lia. }
  unfold index_from.
  destruct (find (fun p => if dec e (fst p) then true else false) cur) as [[e0 i0]|] eqn:F.
  - pose proof (Inv e) as Ie. rewrite F in Ie. simpl in Ie.
    destruct Ie as (H1 & k & Hk & Ho & Hn). simpl snd.
    pose proof (nth_occ_next _ _ _ _ Ho) as Nx.
    destruct (index_of e (skipn (S i0) l)) as [j|] eqn:Ej; simpl option_map in *.
    + destruct Hn as [Hn|Hn]; [|congruence]. rewrite <- Hn, Nx. f_equal. apply IH.
      intros e'. simpl. rewrite Hc. destruct (dec e' e) as [->|ne]; simpl.
      * split; [lia|]. exists (S k). rewrite <- Hn. rewrite Nx. simpl.
        split; [lia|]. split; auto. left; lia.
      * rewrite Nat.add_0_r. apply Inv.
    + rewrite (nth_occ_None_mono e l (S k) (count e seen)) by (auto; lia). f_equal. apply IH.
      intros e'. specialize (Inv e'). rewrite Hc. destruct (dec e' e) as [->|ne]; simpl.
      * rewrite F in *. destruct Inv as (_ & k' & Hk' & Ho' & _). split; [lia|].
        exists k. simpl. split; [lia|]. split; auto.
      * now rewrite Nat.add_0_r.
  - pose proof (Inv e) as Ie. rewrite F in Ie. simpl skipn. rewrite <- nth_occ_0.
    destruct (nth_occ e 0 l) as [j|] eqn:Ej; simpl.
    + destruct Ie as [Ie|?]; [|discriminate]. rewrite Ie, Ej. f_equal. f_equal; lia. apply IH.
      intros e'. simpl. rewrite Hc. destruct (dec e' e) as [->|ne]; simpl.
      * split; [lia|]. exists 0. rewrite Ej, Ie. split; [lia|]. split; [f_equal; lia|]. left; lia.
      * rewrite Nat.add_0_r. apply Inv.
    + rewrite (nth_occ_None_mono e l 0 (count e seen)) by (auto; lia). f_equal. apply IH.
      intros e'. specialize (Inv e'). rewrite Hc. destruct (dec e' e) as [->|ne]; simpl.
      * rewrite F. auto.
      * now rewrite Nat.add_0_r.
Qed.

Lemma generateIndices_spec l elems : generateIndices l elems = kth_requests l [] elems.
Proof. apply generateIndices_loop_spec. intros e. simpl. auto. Qed.
End Multi.

(** ** divideIntoKParts *)
Lemma divide_aux_spec k n p : In p (divide_aux k n) <-> List.length p = S k /\ list_sum p = n.
Proof.
  revert n p. induction k; intros n p; cbn [divide_aux].
  - simpl. split.
    + intros [<-|[]]. simpl. lia.
    + intros [H1 H2]. destruct p as [|x [|y p]]; simpl in *; try lia. left. f_equal. lia.
  - rewrite in_flat_map. split.
    + intros (i & Hi & H). apply in_seq in Hi. apply in_map_iff in H as (q & <- & Hq).
      apply IHk in Hq as [H1 H2]. simpl. lia.
    + intros [H1 H2]. destruct p as [|x p]; simpl in *; [lia|]. exists x. split.
      * apply in_seq. lia.
      * apply in_map. apply IHk. lia.
Qed.

Lemma NoDup_flat_map {X Y} (f : X -> list Y) l :
  NoDup l -> (forall x, In x l -> NoDup (f x)) ->
  (forall x x' y, In x l -> In x' l -> In y (f x) -> In y (f x') -> x = x') ->
  NoDup (flat_map f l).
Proof.
  induction 1 as [|x l Hx ND IH]; simpl; intros H1 H2; [constructor|].
  assert (forall l1 l2 : list Y, NoDup l1 -> NoDup l2 -> (forall z, In z l1 -> ~ In z l2) -> NoDup (l1 ++ l2)) as NA.
  { induction 1; simpl; auto. intros N2 Hd. constructor.
    - rewrite in_app_iff. intros [?|?]; [tauto|]. eapply Hd; eauto.
    - apply IHNoDup; auto. }
  apply NA; auto.
  - apply IH; auto. intros; eapply H2; eauto.
  - intros z Hz Hz'. apply in_flat_map in Hz' as (x' & Hx' & Hz').
    assert (x = x') by (eapply H2; eauto). subst. contradiction.
Qed.

Lemma NoDup_map_inj {X Y} (f : X -> Y) l : (forall x y, f x = f y -> x = y) -> NoDup l -> NoDup (map f l).
Proof.
  intros Inj. induction 1; simpl; constructor; auto.
  rewrite in_map_iff. intros (y & E & Hy). apply Inj in E. congruence.
Qed.

Lemma divide_aux_NoDup k n : NoDup (divide_aux k n).
Proof.
  revert n. induction k; intros n; cbn [divide_aux].
  - repeat constructor; auto.
  - apply NoDup_flat_map.
    + apply seq_NoDup.
    + intros. apply NoDup_map_inj; auto. intros; congruence.
    + intros x x' y _ _ H1 H2. apply in_map_iff in H1 as (? & <- & _).
      apply in_map_iff in H2 as (? & E & _). congruence.
Qed.

(** ** Binomials *)
Lemma binom_0 n : binom n 0 = 1. Proof. destruct n; auto. Qed.
Lemma binom_gt n k : n < k -> binom n k = 0.
Proof. revert k. induction n; destruct k; simpl; intros; try lia. rewrite !IHn; lia. Qed.
Lemma binom_nn n : binom n n = 1.
Proof. induction n; simpl; auto. rewrite IHn, binom_gt; lia. Qed.

Definition zfalling (n : Z) (p : nat) : Z :=
  fold_left (fun r i => r * (n - Z.of_nat i))%Z (seq 0 p) 1%Z.

Lemma zfalling_S n p : zfalling n (S p) = (zfalling n p * (n - Z.of_nat p))%Z.
Proof. unfold zfalling. rewrite seq_S, fold_left_app. reflexivity. Qed.

Lemma zfalling_pascal n p :
  zfalling (n + 1) (S p) = (zfalling n (S p) + Z.of_nat (S p) * zfalling n p)%Z.
Proof.
  induction p.
  - rewrite !zfalling_S. change (zfalling (n + 1) 0) with 1%Z. change (zfalling n 0) with 1%Z. lia.
  - rewrite zfalling_S, IHp. rewrite (zfalling_S n (S p)). rewrite !(zfalling_S n p). nia.
Qed.

Lemma zfalling_binom n p : zfalling (Z.of_nat n) p = (Z.of_nat (binom n p) * Z.of_nat (fact p))%Z.
Proof.
  revert p. induction n; intros p.
  - destruct p; [reflexivity|]. induction p; [reflexivity|]. rewrite zfalling_S, IHp. simpl. lia.
  - destruct p; [reflexivity|]. rewrite Nat2Z.inj_succ, <- Z.add_1_r, zfalling_pascal, !IHn.
    change (binom (S n) (S p)) with (binom n p + binom n (S p)).
    change (fact (S p)) with (fact p + p * fact p). nia.
Qed.

Lemma div_chain p (x : Z) :
  fold_left (fun r i => r / (Z.of_nat i + 1))%Z (seq 0 p) x = (x / Z.of_nat (fact p))%Z.
Proof.
  induction p.
  - simpl. now rewrite Z.div_1_r.
  - rewrite seq_S, fold_left_app, IHp. simpl fold_left.
    pose proof (lt_O_fact p). rewrite Z.div_div by lia. f_equal.
    change (fact (S p)) with (fact p + p * fact p). nia.
Qed.

Lemma myComb_binom n p : myComb (Z.of_nat n) p = Z.of_nat (binom n p).
Proof.
  unfold myComb. rewrite div_chain. change (fold_left _ (seq 0 p) 1%Z) with (zfalling (Z.of_nat n) p).
  rewrite zfalling_binom. apply Z.div_mul. pose proof (lt_O_fact p). lia.
Qed.

(** for a negative first argument: still exact, (-1)^p C(n+p-1, p) *)
Lemma binom_fact n p : p <= n -> binom n p * (fact p * fact (n - p)) = fact n.
Proof.
  revert p. induction n; intros p Hp.
  - assert (p = 0) by lia. subst. reflexivity.
  - destruct p.
    + rewrite binom_0, Nat.sub_0_r. simpl. lia.
    + cbn [binom]. rewrite Nat.mul_add_distr_r.
      replace (S n - S p) with (n - p) by lia.
      assert (binom n p * (fact (S p) * fact (n - p)) = (S p) * fact n) as E1.
      { rewrite <- (IHn p) by lia. simpl fact. nia. }
      rewrite E1. destruct (Nat.eq_dec n p).
      * subst. rewrite binom_gt by lia. simpl. lia.
      * assert (binom n (S p) * (fact (S p) * fact (n - p)) = (n - p) * fact n) as E2.
        { rewrite <- (IHn (S p)) by lia. replace (n - p) with (S (n - S p)) by lia.
          change (fact (S (n - S p))) with (S (n - S p) * fact (n - S p)).
          replace (n - S p) with (n - S p) by lia. ring. }
        rewrite E2. simpl fact. nia.
Qed.

Lemma cdt_loop_spec d : forall r n, (Z.of_nat (list_sum d) = n) ->
  (cdt_loop r n d * Z.of_nat (prodn (map fact d)) = r * Z.of_nat (fact (list_sum d)))%Z.
Proof.
  induction d as [|p d IH]; intros r n E; simpl in *.
  - lia.
  - specialize (IH (r * myComb n p)%Z (n - Z.of_nat p)%Z ltac:(lia)).
    change (prodn (fact p :: map fact d)) with (fact p * prodn (map fact d)) in *. rewrite Nat2Z.inj_mul.
    replace (cdt_loop (r * myComb n p) (n - Z.of_nat p) d * (Z.of_nat (fact p) * Z.of_nat (prodn (map fact d))))%Z
      with ((cdt_loop (r * myComb n p) (n - Z.of_nat p) d * Z.of_nat (prodn (map fact d))) * Z.of_nat (fact p))%Z by ring.
    rewrite IH. subst n. rewrite myComb_binom.
    rewrite <- (binom_fact (p + list_sum d) p) by lia.
    replace (p + list_sum d - p) with (list_sum d) by lia. lia.
Qed.

Lemma cdt_loop_scale d : forall r n, cdt_loop r n d = (r * cdt_loop 1 n d)%Z.
Proof.
  induction d; intros r n; cbn [cdt_loop]; [lia|].
  rewrite IHd, (IHd (1 * myComb n a)%Z). ring.
Qed.

Lemma zsum_app l1 l2 : zsum (l1 ++ l2) = (zsum l1 + zsum l2)%Z.
Proof. induction l1; simpl; lia. Qed.
Lemma zsum_flat_map {X} (f : X -> list Z) l : zsum (flat_map f l) = zsum (map (fun x => zsum (f x)) l).
Proof. induction l; simpl; auto. now rewrite zsum_app, IHl. Qed.
Lemma zsum_map_mul {X} c (f : X -> Z) l : zsum (map (fun x => c * f x)%Z l) = (c * zsum (map f l))%Z.
Proof. induction l; simpl; [lia|]. rewrite IHl. ring. Qed.
Lemma zsum_map_add {X} (f g : X -> Z) l : zsum (map (fun x => f x + g x)%Z l) = (zsum (map f l) + zsum (map g l))%Z.
Proof. induction l; simpl; [lia|]. rewrite IHl. ring. Qed.

(** binomial theorem for (1 + x)^n *)
Lemma binomial_thm (x : Z) n :
  zsum (map (fun i => Z.of_nat (binom n i) * x ^ Z.of_nat (n - i))%Z (seq 0 (S n))) = ((1 + x) ^ Z.of_nat n)%Z.
Proof.
  induction n.
  - reflexivity.
  - replace (Z.of_nat (S n)) with (Z.succ (Z.of_nat n)) by lia. rewrite Z.pow_succ_r by lia.
    rewrite <- IHn. rewrite (seq_S (S n)). rewrite map_app, zsum_app.
    replace (seq 0 (S n)) with (0 :: seq 1 n) by reflexivity. rewrite <- seq_shift.
    cbn [map zsum fold_right]. rewrite !map_map.
    rewrite (map_ext_in (fun i => Z.of_nat (binom (S n) (S i)) * x ^ Z.of_nat (S n - S i))%Z
       (fun i => Z.of_nat (binom n i) * x ^ Z.of_nat (n - i)
                 + x * (Z.of_nat (binom n (S i)) * x ^ Z.of_nat (n - S i)))%Z).
    2:{ intros i Hi. apply in_seq in Hi. cbn [binom]. replace (S n - S i) with (n - i) by lia.
        replace (x ^ Z.of_nat (n - i))%Z with (x * x ^ Z.of_nat (n - S i))%Z.
        2:{ rewrite <- Z.pow_succ_r by lia. f_equal. lia. }
        rewrite Nat2Z.inj_add. ring. }
    rewrite zsum_map_add, zsum_map_mul. rewrite !binom_0.
    simpl Nat.add. rewrite binom_nn. rewrite !Nat.sub_diag, !Nat.sub_0_r.
    fold (zsum (map (fun x0 : nat => (Z.of_nat (binom n (S x0)) * x ^ Z.of_nat (n - S x0))%Z) (seq 0 n))).
    replace (Z.of_nat (S n)) with (Z.succ (Z.of_nat n)) by lia. rewrite Z.pow_succ_r by lia.
    set (T := zsum (map (fun x0 : nat => (Z.of_nat (binom n (S x0)) * x ^ Z.of_nat (n - S x0))%Z) (seq 0 n))).
    assert (zsum (map (fun i => (Z.of_nat (binom n i) * x ^ Z.of_nat (n - i))%Z) (seq 0 n)) + 1
            = x ^ Z.of_nat n + T)%Z as E.
    { transitivity (zsum (map (fun i => (Z.of_nat (binom n i) * x ^ Z.of_nat (n - i))%Z) (seq 0 (S n)))).
      - rewrite seq_S, map_app, zsum_app. cbn [map zsum fold_right]. simpl Nat.add.
        rewrite binom_nn, Nat.sub_diag. simpl. lia.
      - replace (seq 0 (S n)) with (0 :: seq 1 n) by reflexivity. rewrite <- seq_shift.
        cbn [map zsum fold_right]. rewrite map_map, binom_0, Nat.sub_0_r. unfold T, zsum. lia. }
    unfold zsum in *. simpl Z.pow. lia.
Qed.

Lemma division_sum k n :
  zsum (map calculateDivisionTimes (divide_aux k n)) = (Z.of_nat (S k) ^ Z.of_nat n)%Z.
Proof.
  revert n. induction k; intros n.
  - cbn [divide_aux map zsum fold_right]. unfold calculateDivisionTimes. simpl list_sum.
    rewrite Nat.add_0_r. cbn [cdt_loop]. rewrite myComb_binom, binom_nn.
    change (Z.of_nat 1) with 1%Z. rewrite Z.pow_1_l by lia. lia.
  - cbn [divide_aux].
    rewrite flat_map_concat_map, concat_map, map_map, <- flat_map_concat_map, zsum_flat_map.
    rewrite (map_ext_in _ (fun i => Z.of_nat (binom n i) * (Z.of_nat (S k)) ^ Z.of_nat (n - i))%Z).
    + rewrite Nat.add_1_r, binomial_thm. f_equal. lia.
    + intros i Hi. apply in_seq in Hi. rewrite map_map, <- IHk.
      rewrite <- zsum_map_mul. f_equal. apply map_ext_in.
      intros p Hp. apply divide_aux_spec in Hp as [H1 H2].
      unfold calculateDivisionTimes. cbn [cdt_loop]. rewrite cdt_loop_scale.
      simpl list_sum. rewrite H2. replace (i + (n - i)) with n by lia.
      rewrite myComb_binom. rewrite Z.mul_1_l. f_equal. f_equal. lia.
Qed.

(** ** Digits *)
Lemma intToDBaseTuple_spec D (HD : (0 < D)%Z) : forall dim x,
  exists ds, intToDBaseTuple x dim D = Ok ds /\ List.length ds = dim /\
   Forall (fun d => 0 <= d < D)%Z ds /\ posval D ds = (x mod D ^ Z.of_nat dim)%Z.
Proof.
  induction dim; intros x; cbn [intToDBaseTuple].
  - exists []. simpl. rewrite Z.mod_1_r. auto.
  - destruct (Z.eqb_spec D 0); [lia|]. destruct (IHdim (x / D)%Z) as (ds & -> & L & F & P).
    eexists; split; [reflexivity|]. split; [simpl; lia|]. split.
    + constructor; auto. now apply Z.mod_pos_bound.
    + cbn [posval]. rewrite P. rewrite Nat2Z.inj_succ, Z.pow_succ_r by lia.
      rewrite Z.rem_mul_r; try lia.
Qed.

Lemma intToBitList_spec dim : forall x,
  List.length (intToBitList x dim) = dim /\ Forall (fun d => 0 <= d < 2)%Z (intToBitList x dim) /\
  posval 2 (intToBitList x dim) = (x mod 2 ^ Z.of_nat dim)%Z.
Proof.
  induction dim; intros x; cbn [intToBitList].
  - simpl. rewrite Z.mod_1_r. auto.
  - destruct (IHdim (x / 2)%Z) as (L & F & P). split; [simpl; lia|]. split.
    + constructor; auto. now apply Z.mod_pos_bound.
    + cbn [posval]. rewrite P. rewrite Nat2Z.inj_succ, Z.pow_succ_r by lia.
      rewrite Z.rem_mul_r; try lia. 
Qed.

Lemma posval_inj D ds : forall ds', (0 < D)%Z -> List.length ds = List.length ds' ->
  Forall (fun d => 0 <= d < D)%Z ds -> Forall (fun d => 0 <= d < D)%Z ds' ->
  posval D ds = posval D ds' -> ds = ds'.
Proof.
  induction ds as [|d ds IH]; intros [|d' ds'] HD L F F' E; simpl in *; try discriminate; auto.
  inversion F; inversion F'; subst.
  assert (d = d').
  { assert ((d + D * posval D ds) mod D = (d' + D * posval D ds') mod D)%Z as E' by now rewrite E.
    rewrite !(Z.mul_comm D), !Z.mod_add in E' by lia. rewrite !Z.mod_small in E'; auto. }
  subst. f_equal. apply IH; auto. nia.
Qed.

Lemma zprod_pos l : Forall (fun s => 0 < s)%Z l -> (0 < zprod l)%Z.
Proof. induction 1; simpl; [lia|]. unfold zprod in *. simpl. nia. Qed.

(** digits most significant first, computed from the last *)
Fixpoint digits_rev (idx : Z) (rshape : list Z) : list Z :=
  match rshape with [] => [] | s :: r => (idx mod s)%Z :: digits_rev (idx / s)%Z r end.

Lemma rmval_app shape ds s d :
  List.length shape = List.length ds -> rmval (shape ++ [s]) (ds ++ [d]) = (rmval shape ds * s + d)%Z.
Proof.
  revert ds. induction shape as [|s0 shape IH]; intros [|d0 ds] L; simpl in *; try discriminate.
  - lia.
  - rewrite IH by lia. replace (fold_right Z.mul 1 (shape ++ [s]))%Z with (fold_right Z.mul 1 shape * s)%Z.
    + ring.
    + clear. induction shape; cbn [fold_right app]; [ring|]. rewrite <- IHshape. ring.
Qed.

Lemma digits_rev_spec rshape : Forall (fun s => 0 < s)%Z rshape -> forall idx,
  List.length (digits_rev idx rshape) = List.length rshape /\
  Forall2 (fun d s => 0 <= d < s)%Z (digits_rev idx rshape) rshape /\
  rmval (rev rshape) (rev (digits_rev idx rshape)) = (idx mod zprod rshape)%Z.
Proof.
  induction 1 as [|s r Hs F IH]; intros idx; simpl.
  - split; auto. split; auto. unfold zprod. simpl. now rewrite Z.mod_1_r.
  - destruct (IH (idx / s)%Z) as (L & F2 & V). split; [lia|]. split.
    + constructor; auto. now apply Z.mod_pos_bound.
    + rewrite rmval_app by (rewrite !rev_length; auto). rewrite V.
      unfold zprod in *. simpl. rewrite Z.rem_mul_r; try lia.
      apply zprod_pos in F. unfold zprod in F. lia.
Qed.

Lemma getIndexDict_loop_spec labels : forall (rs : list (nat * Z)) idx d,
  (forall i s, In (i, s) rs -> i < List.length labels /\ (0 < s)%Z) ->
  exists d', getIndexDict_loop idx labels rs d = Ok d' /\
    d' = rev (combine (map (fun p => nth (fst p) labels EmptyString) rs) (digits_rev idx (map snd rs))) ++ d.
Proof.
  induction rs as [|[i s] rs IH]; intros idx d H; simpl.
  - eexists; split; eauto.
  - destruct (H i s (or_introl eq_refl)) as [Hi Hs]. destruct (Z.eqb_spec s 0); [lia|].
    destruct (nth_error labels i) as [l|] eqn:El.
    2:{ apply nth_error_None in El. lia. }
    destruct (IH (idx / s)%Z ((l, (idx mod s)%Z) :: d)) as (d' & -> & ->).
    { intros; apply H; simpl; auto. }
    eexists; split; eauto. rewrite <- app_assoc. simpl. do 2 f_equal. f_equal. symmetry.
    now apply nth_error_nth.
Qed.

Lemma map_fst_combine {X Y} (l1 : list X) (l2 : list Y) : List.length l1 = List.length l2 -> map fst (combine l1 l2) = l1.
Proof. revert l2. induction l1; destruct l2; simpl; intros; try discriminate; auto. f_equal; auto. Qed.
Lemma map_snd_combine {X Y} (l1 : list X) (l2 : list Y) : List.length l1 = List.length l2 -> map snd (combine l1 l2) = l2.
Proof. revert l2. induction l1; destruct l2; simpl; intros; try discriminate; auto. f_equal; auto. Qed.
Lemma map_nth_seq {X} (l : list X) d : map (fun i => nth i l d) (seq 0 (List.length l)) = l.
Proof.
  induction l; simpl; auto. f_equal. rewrite <- seq_shift, map_map. auto.
Qed.
Lemma rev_combine {X Y} (l1 : list X) (l2 : list Y) : List.length l1 = List.length l2 ->
  rev (combine l1 l2) = combine (rev l1) (rev l2).
Proof.
  revert l2. induction l1; destruct l2; simpl; intros L; try discriminate; auto.
  rewrite IHl1 by lia.
  assert (forall (u : list X) (v : list Y) x y, List.length u = List.length v -> combine (u ++ [x]) (v ++ [y]) = combine u v ++ [(x, y)]) as G.
  { induction u; destruct v; simpl; intros; try discriminate; auto. f_equal; auto. }
  symmetry. apply G. rewrite !rev_length. lia.
Qed.

Lemma Forall2_rev' {X Y} (R : X -> Y -> Prop) l1 l2 : Forall2 R l1 l2 -> Forall2 R (rev l1) (rev l2).
Proof. induction 1; simpl; [constructor|]. apply Forall2_app; auto. Qed.

Lemma getIndexDict_spec idx labels shape :
  List.length labels = List.length shape -> Forall (fun s => 0 < s)%Z shape ->
  exists ds, getIndexDict idx labels shape = Ok (combine labels ds) /\
    List.length ds = List.length shape /\ Forall2 (fun d s => 0 <= d < s)%Z ds shape /\
    rmval shape ds = (idx mod zprod shape)%Z.
Proof.
  intros L F. unfold getIndexDict.
  set (rs := rev (combine (seq 0 (List.length shape)) shape)).
  assert (map snd rs = rev shape) as Hs.
  { unfold rs. rewrite map_rev, map_snd_combine; auto. now rewrite seq_length. }
  assert (map fst rs = rev (seq 0 (List.length shape))) as Hf.
  { unfold rs. rewrite map_rev, map_fst_combine; auto. now rewrite seq_length. }
  destruct (getIndexDict_loop_spec labels rs idx []) as (d' & E & Ed).
  { intros i s Hi. unfold rs in Hi. rewrite <- in_rev in Hi. split.
    - apply in_combine_l in Hi. apply in_seq in Hi. lia.
    - apply in_combine_r in Hi. rewrite Forall_forall in F. auto. }
  destruct (digits_rev_spec (rev shape)) with (idx := idx) as (L1 & F1 & V1).
  { now apply Forall_rev. }
  exists (rev (digits_rev idx (rev shape))). split; [|split; [|split]].
  - rewrite E, Ed. f_equal. rewrite app_nil_r, Hs.
    rewrite rev_combine.
    + f_equal. rewrite <- map_map with (f := fst) (g := fun i => nth i labels EmptyString), Hf.
      rewrite map_rev, rev_involutive, <- L. apply map_nth_seq.
    + unfold rs. rewrite map_length, rev_length, combine_length, seq_length, L1, rev_length. lia.
  - rewrite rev_length, L1. apply rev_length.
  - apply Forall2_rev' in F1. now rewrite rev_involutive in F1.
  - rewrite rev_involutive in V1. rewrite V1. f_equal.
    unfold zprod. clear. induction shape; simpl; auto. rewrite fold_right_app. simpl.
    rewrite <- IHshape. rewrite Z.mul_1_r.
    assert (forall l x, fold_right Z.mul x l = x * fold_right Z.mul 1 l)%Z as G.
    { induction l; simpl; intros; [lia|]. rewrite IHl. ring. }
    rewrite G. ring.
Qed.

(** ** binarySearch *)
Lemma Qpow2_bound (w eps : Q) : (0 < eps -> exists n, w <= eps * inject_Z (2 ^ Z.of_nat n))%Q.
Proof.
  intros He. destruct (Qlt_le_dec 0 w) as [Hw|Hw].
  2:{ exists 0. simpl. setoid_rewrite Qmult_1_r. lra. }
  exists (Z.to_nat (Z.log2_up (Qnum w * Zpos (Qden eps)))).
  assert (0 < Qnum w)%Z by (unfold Qlt in Hw; simpl in Hw; lia).
  assert (0 < Qnum eps)%Z by (unfold Qlt in He; simpl in He; lia).
  rewrite Z2Nat.id by apply Z.log2_up_nonneg.
  set (x := (Qnum w * Zpos (Qden eps))%Z). assert (0 < x)%Z by (unfold x; nia).
  assert (x <= 2 ^ Z.log2_up x)%Z as Hx.
  { destruct (Z.eq_dec x 1) as [->|]; [simpl; lia|]. apply Z.log2_up_spec. lia. }
  unfold Qle, Qmult, inject_Z; simpl. rewrite Pos.mul_1_r.
  set (P := (2 ^ Z.log2_up x)%Z) in *. fold x.
  assert (P <= Qnum eps * P)%Z by nia. assert (Qnum eps * P * 1 <= Qnum eps * P * Zpos (Qden w))%Z by (apply Z.mul_le_mono_nonneg_l; lia).
  lia.
Qed.

Section BS.
Variables (f : Q -> bool) (eps : Q).

Lemma bs_loop_terminates : forall n l r, (l <= r)%Q -> (r - l <= eps * inject_Z (2 ^ Z.of_nat n))%Q ->
  exists m, binarySearch_loop n l r f eps = Ok m.
Proof.
  induction n; intros l r Hlr Hn; cbn [binarySearch_loop].
  - destruct (Qle_bool (r - l) eps) eqn:E; eauto.
    exfalso. assert (Qle_bool (r - l) eps = true); [|congruence]. apply Qle_bool_iff.
    change (2 ^ Z.of_nat 0)%Z with 1%Z in Hn. change (inject_Z 1) with 1%Q in Hn. lra.
  - destruct (Qle_bool (r - l) eps); eauto.
    rewrite Nat2Z.inj_succ, Z.pow_succ_r, inject_Z_mult in Hn by lia. change (inject_Z 2) with 2%Q in Hn.
    destruct (f ((1 # 2) * (l + r))%Q); apply IHn; lra.
Qed.

Lemma bs_loop_spec : forall n l r m, (l <= r)%Q -> binarySearch_loop n l r f eps = Ok m ->
  exists l' r', (l <= l' <= r')%Q /\ (r' <= r)%Q /\ (r' - l' <= eps)%Q /\ (m == (1#2) * (l' + r'))%Q /\
    (l' = l \/ f l' = false) /\ (r' = r \/ f r' = true).
Proof.
  induction n; intros l r m Hlr E; cbn [binarySearch_loop] in E;
  destruct (Qle_bool (r - l) eps) eqn:Ee; try discriminate.
  - injection E as <-. apply Qle_bool_iff in Ee. exists l, r. repeat split; auto; lra.
  - injection E as <-. apply Qle_bool_iff in Ee. exists l, r. repeat split; auto; lra.
  - set (mid := ((1 # 2) * (l + r))%Q) in *.
    assert (l <= mid <= r)%Q as Hm by (unfold mid; lra).
    destruct (f mid) eqn:Ef; apply IHn in E; try tauto;
    destruct E as (l' & r' & H1 & H2 & H3 & H4 & H5 & H6); exists l', r';
    repeat split; try tauto; try lra.
    + destruct H6 as [->|]; auto.
    + destruct H5 as [->|]; auto.
Qed.
End BS.

Lemma binarySearch_spec (f : Q -> bool) (eps left right : Q) :
  (0 < eps)%Q -> (left < right)%Q ->
  exists n m, binarySearch n left right f eps = Ok m /\
   forall s, (left <= s <= right)%Q ->
     (forall x, (x < s)%Q -> f x = false) -> (forall x, (s < x)%Q -> f x = true) ->
     (Qabs (m - s) <= eps / 2)%Q.
Proof.
  intros He Hlr. destruct (Qpow2_bound (right - left) eps He) as (n & Hn).
  destruct (bs_loop_terminates f eps n left right) as (m & Em); [lra | auto |].
  exists n, m. unfold binarySearch. destruct (Qle_bool right left) eqn:E.
  { apply Qle_bool_iff in E. lra. }
  split; auto. intros s Hs Hlow Hhigh.
  apply bs_loop_spec in Em; [|lra]. destruct Em as (l' & r' & H1 & H2 & H3 & H4 & H5 & H6).
  assert (l' <= s)%Q.
  { destruct H5 as [->|H5]; [lra|]. destruct (Qlt_le_dec s l'); auto. rewrite Hhigh in H5 by auto. discriminate. }
  assert (s <= r')%Q.
  { destruct H6 as [->|H6]; [lra|]. destruct (Qlt_le_dec r' s); auto. rewrite Hlow in H6 by auto. discriminate. }
  apply Qabs_Qle_condition. rewrite H4. unfold Qdiv. change (/2)%Q with (1#2)%Q. lra.
Qed.

Lemma binarySearch_bad n f eps left right : (right <= left)%Q ->
  binarySearch n left right f eps = Err AssertionError.
Proof. intros H. unfold binarySearch. apply Qle_bool_iff in H. now rewrite H. Qed.

Lemma divideIntoKParts_spec n k : 1 <= k ->
  exists L, divideIntoKParts n k = Ok L /\ NoDup L /\
    forall p, In p L <-> List.length p = k /\ list_sum p = n.
Proof.
  intros Hk. destruct k; [lia|]. exists (divide_aux k n). split; auto. split.
  - apply divide_aux_NoDup.
  - apply divide_aux_spec.
Qed.

Lemma calculateDivisionTimes_spec d :
  (calculateDivisionTimes d * Z.of_nat (prodn (map fact d)) = Z.of_nat (fact (list_sum d)))%Z.
Proof. unfold calculateDivisionTimes. rewrite cdt_loop_spec by auto. lia. Qed.

Lemma division_total n k : 1 <= k ->
  exists L, divideIntoKParts n k = Ok L /\
    zsum (map calculateDivisionTimes L) = (Z.of_nat k ^ Z.of_nat n)%Z.
Proof. intros Hk. destruct k; [lia|]. exists (divide_aux k n). split; auto. apply division_sum. Qed.

Lemma intToDBaseTuple_inj D dim x y : (0 < D)%Z ->
  (0 <= x < D ^ Z.of_nat dim)%Z -> (0 <= y < D ^ Z.of_nat dim)%Z ->
  intToDBaseTuple x dim D = intToDBaseTuple y dim D -> x = y.
Proof.
  intros HD Hx Hy E.
  destruct (intToDBaseTuple_spec D HD dim x) as (d1 & E1 & _ & _ & V1).
  destruct (intToDBaseTuple_spec D HD dim y) as (d2 & E2 & _ & _ & V2).
  rewrite Z.mod_small in V1, V2 by auto. assert (d1 = d2) by congruence. congruence.
Qed.

Lemma getIndexDict_inj labels shape x y :
  List.length labels = List.length shape -> Forall (fun s => 0 < s)%Z shape ->
  (0 <= x < zprod shape)%Z -> (0 <= y < zprod shape)%Z ->
  getIndexDict x labels shape = getIndexDict y labels shape -> x = y.
Proof.
  intros L F Hx Hy E.
  destruct (getIndexDict_spec x labels shape L F) as (d1 & E1 & L1 & _ & V1).
  destruct (getIndexDict_spec y labels shape L F) as (d2 & E2 & L2 & _ & V2).
  rewrite Z.mod_small in V1, V2 by auto.
  assert (combine labels d1 = combine labels d2) as Ec by congruence.
  assert (d1 = d2).
  { rewrite <- (map_snd_combine labels d1), <- (map_snd_combine labels d2), Ec; auto; congruence. }
  congruence.
Qed.

Lemma NoDup_app_inv {X} (l1 l2 : list X) : NoDup (l1 ++ l2) ->
  NoDup l1 /\ NoDup l2 /\ forall x, In x l1 -> ~ In x l2.
Proof.
  induction l1 as [|x l1 IH]; simpl; intros H.
  - split; [constructor|]. auto.
  - inversion H; subst. destruct (IH H3) as (N1 & N2 & D). rewrite in_app_iff in H2. split; [|split]; auto.
    + constructor; tauto.
    + intros y [<-|Hy]; auto.
Qed.
