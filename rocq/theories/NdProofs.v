(** Facts about the array model. *)
From Coq Require Import List Arith Bool Lia Permutation.
From Verif Require Import Base Sums NdModel FuncsModel FuncsSpec FuncsProofs.
Import ListNotations.

Definition inrange (sh idx : list nat) : Prop := Forall2 lt idx sh.

Lemma indices_In sh idx : In idx (indices sh) <-> inrange sh idx.
Proof.
  revert idx. induction sh as [|s sh IH]; intros idx; simpl.
  - split; [intros [<-|[]]; constructor|]. intros H. inversion H. auto.
  - rewrite in_flat_map. split.
    + intros (i & Hi & H). apply in_seq in Hi. apply in_map_iff in H as (idx' & <- & H).
      apply IH in H. constructor; auto. lia.
    + intros H. inversion H; subst. exists x. split; [apply in_seq; lia|].
      apply in_map. now apply IH.
Qed.

Lemma flat_map_length {X Y} (f : X -> list Y) l n :
  (forall x, In x l -> length (f x) = n) -> length (flat_map f l) = length l * n.
Proof.
  induction l; simpl; intros H; auto. rewrite app_length, IHl, H; auto.
Qed.

Lemma indices_length sh : length (indices sh) = prodn sh.
Proof.
  induction sh as [|s sh IH]; simpl; auto.
  rewrite flat_map_length with (n := prodn sh).
  - now rewrite seq_length.
  - intros. now rewrite map_length.
Qed.

Lemma ravel_lt sh idx : inrange sh idx -> ravel sh idx < prodn sh.
Proof.
  intros H. induction H; simpl; auto. unfold prodn in *. simpl.
  fold (prodn l') in *. nia.
Qed.

Lemma nth_error_flat_map {X Y} (f : X -> list Y) l m i j x :
  (forall y, In y l -> length (f y) = m) -> nth_error l i = Some x -> j < m ->
  nth_error (flat_map f l) (i * m + j) = nth_error (f x) j.
Proof.
  revert i. induction l as [|y l IH]; intros i Hm Hi Hj; [destruct i; discriminate|].
  simpl. destruct i; simpl in *.
  - injection Hi as ->. rewrite nth_error_app1; auto. rewrite Hm; auto.
  - rewrite nth_error_app2; rewrite Hm by auto; [|lia].
    rewrite <- (IH i); auto. f_equal. lia.
Qed.

Lemma nth_error_seq n i : i < n -> nth_error (seq 0 n) i = Some i.
Proof.
  intros H. rewrite (nth_error_nth' _ 0) by (rewrite seq_length; auto). now rewrite seq_nth.
Qed.

Lemma nth_error_indices sh idx : inrange sh idx -> nth_error (indices sh) (ravel sh idx) = Some idx.
Proof.
  intros H. induction H as [|i s idx sh Hi H IH]; simpl; auto.
  rewrite nth_error_flat_map with (x := i); auto.
  - rewrite nth_error_map, IH. reflexivity.
  - intros. rewrite map_length. apply indices_length.
  - now apply nth_error_seq.
  - now apply ravel_lt.
Qed.

Lemma inrange_length sh idx : inrange sh idx -> length idx = length sh.
Proof. intros H. induction H; simpl; auto. Qed.

Lemma ravel_app s1 s2 i1 i2 : length i1 = length s1 ->
  ravel (s1 ++ s2) (i1 ++ i2) = ravel s1 i1 * prodn s2 + ravel s2 i2.
Proof.
  revert i1. induction s1 as [|s s1 IH]; intros [|i i1] L; simpl in *; try discriminate; auto.
  rewrite IH by lia. replace (prodn (s1 ++ s2)) with (prodn s1 * prodn s2).
  - ring.
  - unfold prodn. rewrite fold_right_app. fold (prodn s2). clear.
    induction s1; simpl; [lia|]. rewrite <- IHs1. ring.
Qed.

Lemma prodn_app l1 l2 : prodn (l1 ++ l2) = prodn l1 * prodn l2.
Proof. induction l1; simpl; [lia|]. rewrite IHl1. ring. Qed.

Lemma inrange_app s1 s2 i1 i2 : inrange s1 i1 -> inrange s2 i2 -> inrange (s1 ++ s2) (i1 ++ i2).
Proof. apply Forall2_app. Qed.

Lemma inrange_app_inv s1 s2 idx : inrange (s1 ++ s2) idx ->
  exists i1 i2, idx = i1 ++ i2 /\ inrange s1 i1 /\ inrange s2 i2.
Proof. intros H. apply Forall2_app_inv_r in H as (i1 & i2 & H1 & H2 & ->). eauto. Qed.

Lemma inrange_map {X} (d s : X -> nat) l : (forall x, In x l -> s x < d x) -> inrange (map d l) (map s l).
Proof. induction l; simpl; intros H; constructor; [apply H; auto|]. apply IHl. intros; apply H; auto. Qed.

Lemma inrange_map_inv {X} (d s : X -> nat) l : inrange (map d l) (map s l) -> forall x, In x l -> s x < d x.
Proof.
  induction l; simpl; intros H x Hx; [contradiction|].
  inversion H; subst. destruct Hx as [->|]; auto.
Qed.

Lemma ravel_inj sh i1 i2 : inrange sh i1 -> inrange sh i2 -> ravel sh i1 = ravel sh i2 -> i1 = i2.
Proof.
  intros H1 H2 E. apply nth_error_indices in H1. apply nth_error_indices in H2. congruence.
Qed.

Section Nd.
Context {A : Type} {HA : SR A}.
Add Ring Aring2 : (@SR_theory A HA).

Lemma tab_wfa sh (f : list nat -> A) : wfa (tab sh f).
Proof. unfold wfa, tab. simpl. now rewrite map_length, indices_length. Qed.

Lemma aget_tab sh (f : list nat -> A) idx : inrange sh idx -> aget (tab sh f) idx = f idx.
Proof.
  intros H. unfold aget, tab. simpl.
  apply nth_error_nth. rewrite nth_error_map. now rewrite nth_error_indices.
Qed.

Lemma sumN_indices sh (F : nat -> A) :
  sumN (prodn sh) F = sumL (indices sh) (fun idx => F (ravel sh idx)).
Proof.
  revert F. induction sh as [|s sh IH]; intros F.
  - unfold sumN. simpl. ring.
  - change (prodn (s :: sh)) with (s * prodn sh). rewrite sumN_mul. simpl indices.
    rewrite sumL_flat_map. unfold sumN at 1. apply sumL_ext. intros i Hi.
    rewrite IH, sumL_map. reflexivity.
Qed.

(** two arrays with the same shape and entries are equal *)
Lemma arr_ext (a b : arr A) : wfa a -> wfa b -> ashape a = ashape b ->
  (forall idx, inrange (ashape a) idx -> aget a idx = aget b idx) -> a = b.
Proof.
  intros Wa Wb Es E. destruct a as [sh da], b as [sh' db]. simpl in *. subst sh'. f_equal.
  unfold wfa in *. simpl in *.
  apply nth_ext with (d := r0) (d' := r0); [congruence|].
  intros n Hn.
  assert (exists idx, inrange sh idx /\ ravel sh idx = n) as (idx & Hi & <-).
  { rewrite Wa in Hn. clear -Hn. revert n Hn. induction sh as [|s sh IH]; intros n Hn; simpl in *.
    - exists []. split; [constructor|]. unfold prodn in Hn. simpl in Hn. lia.
    - change (prodn (s :: sh)) with (s * prodn sh) in Hn.
      assert (prodn sh <> 0) by (intros Z; rewrite Z in Hn; lia).
      destruct (IH (n mod prodn sh)) as (idx & H1 & H2).
      { now apply Nat.mod_upper_bound. }
      exists (n / prodn sh :: idx). split.
      + constructor; auto. apply Nat.div_lt_upper_bound; auto. lia.
      + simpl. rewrite H2. rewrite (Nat.mul_comm (n / prodn sh)). symmetry. now apply Nat.div_mod. }
  apply (E idx Hi).
Qed.

(** ** Transposition in terms of named axes *)
Lemma index_of_nth (l : list nat) x k : index_of x l = Some k -> nth k l 0 = x /\ k < length l.
Proof.
  intros H. split.
  - apply index_of_Some in H as [H _]. now apply nth_error_nth.
  - now apply index_of_lt in H.
Qed.

Lemma index_of_In {X} `{Dec X} (l : list X) x : In x l -> exists k, index_of x l = Some k.
Proof.
  intros Hx. destruct (index_of x l) eqn:E; eauto. apply index_of_None in E. contradiction.
Qed.

Lemma index_of_Some_In {X} `{Dec X} (l : list X) x k : index_of x l = Some k -> In x l.
Proof. intros E. apply index_of_Some in E as [E _]. eapply nth_error_In; eauto. Qed.

Lemma map_ext_seq {X} (f g : nat -> X) n : (forall i, i < n -> f i = g i) -> map f (seq 0 n) = map g (seq 0 n).
Proof. intros H. apply map_ext_in. intros a Ha. apply in_seq in Ha. apply H. lia. Qed.

Lemma transpose_spec (a : arr A) (ls : list nat) (d : nat -> nat) (order : list nat) (s : nat -> nat) :
  ashape a = map d ls -> Permutation order (seq 0 (length ls)) ->
  (forall l, In l ls -> s l < d l) ->
  ashape (np_transpose a order) = map d (map (fun k => nth k ls 0) order) /\
  aget (np_transpose a order) (map s (map (fun k => nth k ls 0) order)) = aget a (map s ls).
Proof.
  intros Hs P Hr.
  assert (forall k, In k order -> k < length ls) as Hk.
  { intros k Hk. apply (Permutation_in _ P) in Hk. apply in_seq in Hk. lia. }
  assert (ashape (np_transpose a order) = map d (map (fun k => nth k ls 0) order)) as Es.
  { unfold np_transpose, tab. simpl. rewrite map_map. apply map_ext_in. intros k Ho.
    rewrite Hs. rewrite (nth_indep _ 0 (d 0)) by (rewrite map_length; auto). apply map_nth. }
  split; auto.
  unfold np_transpose in *. rewrite aget_tab.
  - f_equal. unfold ndim. rewrite Hs, map_length.
    transitivity (map (fun ax => s (nth ax ls 0)) (seq 0 (length ls))).
    + apply map_ext_seq. intros ax Hax.
      destruct (index_of_In order ax) as (k & Ek).
      { apply (Permutation_in _ (Permutation_sym P)). apply in_seq. lia. }
      rewrite Ek. apply index_of_nth in Ek as [E1 E2].
      rewrite map_map. rewrite (nth_indep _ 0 (s (nth 0 ls 0))) by (rewrite map_length; auto).
      rewrite map_nth with (f := fun x => s (nth x ls 0)). now rewrite E1.
    + rewrite <- map_map with (f := fun ax => nth ax ls 0). f_equal. apply map_nth_seq.
  - simpl in Es. rewrite Es. apply inrange_map. intros l Hl. apply in_map_iff in Hl as (k & <- & Ho).
    apply Hr. apply nth_In. auto.
Qed.

Lemma transpose_wfa (a : arr A) order : wfa (np_transpose a order).
Proof. apply tab_wfa. Qed.

(** insertion at 0, 1, 2, ... puts the sources in front *)
Lemma insert_front (src : list nat) : forall pre rest,
  fold_left (fun ord ds => insert_at (fst ds) (snd ds) ord) (combine (seq (length pre) (length src)) src) (pre ++ rest)
  = pre ++ src ++ rest.
Proof.
  induction src as [|x src IH]; intros pre rest; simpl; auto.
  unfold insert_at. rewrite firstn_app, firstn_all, Nat.sub_diag. simpl. rewrite app_nil_r.
  rewrite skipn_app, skipn_all, Nat.sub_diag. simpl.
  specialize (IH (pre ++ [x]) rest). rewrite app_length in IH. simpl in IH.
  rewrite Nat.add_1_r in IH. rewrite <- !app_assoc in IH. simpl in IH. exact IH.
Qed.

Lemma moveaxis_front (a : arr A) src :
  (forall s, In s src -> s < ndim a) -> NoDup src ->
  np_moveaxis a src (seq 0 (length src)) =
  Ok (np_transpose a (src ++ filter (fun n => negb (inb n src)) (seq 0 (ndim a)))).
Proof.
  intros H1 H2. unfold np_moveaxis.
  replace (forallb (fun s => s <? ndim a) src) with true.
  2:{ symmetry. apply forallb_forall. intros s Hs. apply Nat.ltb_lt. auto. }
  replace (existsb (fun s => 1 <? count s src) src) with false.
  2:{ symmetry. apply not_true_is_false. intros E. apply existsb_exists in E as (s & Hs & E).
      apply Nat.ltb_lt in E. revert E. apply Nat.le_ngt.
      clear -H2. induction H2; simpl; [lia|]. destruct (dec s x); [|lia].
      subst. rewrite count_notin; auto. }
  simpl negb. cbv iota. do 2 f_equal.
  apply (insert_front src [] _).
Qed.

Lemma perm_front (src : list nat) n :
  (forall s, In s src -> s < n) -> NoDup src ->
  Permutation (src ++ filter (fun k => negb (inb k src)) (seq 0 n)) (seq 0 n).
Proof.
  intros H1 H2. apply NoDup_Permutation.
  - apply NoDup_app; auto.
    + apply NoDup_filter', seq_NoDup.
    + intros x Hx. rewrite filter_In, negb_true_iff, inb_false. tauto.
  - apply seq_NoDup.
  - intros x. rewrite in_app_iff, filter_In, negb_true_iff, inb_false, in_seq. split.
    + intros [Hx|[Hx _]]; auto. apply H1 in Hx. lia.
    + intros Hx. destruct (in_dec Nat.eq_dec x src); auto.
Qed.

(** positions of the elements of a NoDup sublist *)
Lemma index_of_inj {X} `{Dec X} (l : list X) x y k :
  index_of x l = Some k -> index_of y l = Some k -> x = y.
Proof. intros H1 H2. apply index_of_Some in H1 as [H1 _]. apply index_of_Some in H2 as [H2 _]. congruence. Qed.

Definition positions (cur ls : list nat) : list nat :=
  flat_map (fun l => match index_of l cur with Some i => [i] | None => [] end) ls.

Lemma positions_spec cur ls : incl ls cur ->
  map (fun k => nth k cur 0) (positions cur ls) = ls /\
  (forall s, In s (positions cur ls) <-> exists l, In l ls /\ index_of l cur = Some s).
Proof.
  induction ls as [|l ls IH]; intros Hi.
  - split; auto. simpl. intros; split; [tauto|]. intros (? & [] & _).
  - destruct IH as [E1 E2]. { intros x Hx. apply Hi. simpl; auto. }
    destruct (index_of_In cur l) as (k & Ek). { apply Hi; simpl; auto. }
    unfold positions in *. simpl. rewrite Ek. simpl. split.
    + f_equal; auto. now apply index_of_nth in Ek as [? _].
    + intros s. rewrite E2. split.
      * intros [<-|(l' & H1 & H2)]; [exists l; auto | exists l'; auto].
      * intros (l' & [->|H1] & H2); [left; congruence | right; eauto].
Qed.

Lemma positions_NoDup cur ls : NoDup ls -> NoDup (positions cur ls).
Proof.
  unfold positions. intros ND. apply NoDup_flat_map; auto.
  - intros x _. destruct (index_of x cur); repeat constructor; auto.
  - intros x x' y _ _ H1 H2. destruct (index_of x cur) eqn:E1; [|contradiction].
    destruct (index_of x' cur) eqn:E2; [|contradiction]. simpl in *.
    destruct H1 as [<-|[]]. destruct H2 as [->|[]]. eapply index_of_inj; eauto.
Qed.

Lemma positions_lt cur ls s : In s (positions cur ls) -> s < length cur.
Proof.
  unfold positions. rewrite in_flat_map. intros (l & _ & H). destruct (index_of l cur) eqn:E; [|contradiction].
  destruct H as [<-|[]]. now apply index_of_lt in E.
Qed.

Lemma positions_length cur ls : incl ls cur -> length (positions cur ls) = length ls.
Proof. intros H. apply positions_spec in H as [H _]. rewrite <- H at 2. now rewrite map_length. Qed.

Lemma index_of_NoDup_nth (l : list nat) k : NoDup l -> k < length l -> index_of (nth k l 0) l = Some k.
Proof.
  intros ND Hk. destruct (index_of_In l (nth k l 0)) as (j & Ej). { now apply nth_In. }
  rewrite Ej. f_equal. apply index_of_nth in Ej as [E1 E2].
  eapply NoDup_nth; eauto.
Qed.

(** legs that are not moved keep their order *)
Lemma rest_positions cur ls : NoDup cur ->
  map (fun k => nth k cur 0) (filter (fun k => negb (inb k (positions cur ls))) (seq 0 (length cur)))
  = filter (fun l => negb (inb l ls)) cur.
Proof.
  intros ND. rewrite <- (map_nth_seq cur 0) at 2.
  assert (forall n, n <= length cur ->
     map (fun k => nth k cur 0) (filter (fun k => negb (inb k (positions cur ls))) (seq 0 n))
     = filter (fun l => negb (inb l ls)) (map (fun k => nth k cur 0) (seq 0 n))) as G.
  { induction n; intros Hn; auto. rewrite seq_S, !filter_app, !map_app, filter_app, IHn by lia.
    f_equal. simpl. replace (inb (nth n cur 0) ls) with (inb n (positions cur ls)).
    - destruct (inb n (positions cur ls)); reflexivity.
    - destruct (inb n (positions cur ls)) eqn:E1; symmetry.
      + apply inb_spec in E1. unfold positions in E1. apply in_flat_map in E1 as (l & Hl & E).
        destruct (index_of l cur) eqn:E'; [|contradiction]. destruct E as [->|[]].
        apply index_of_nth in E' as [-> _]. now apply inb_spec.
      + apply inb_false. apply inb_false in E1. intros Hl. apply E1.
        unfold positions. apply in_flat_map. exists (nth n cur 0). split; auto.
        rewrite index_of_NoDup_nth by (auto; lia). simpl; auto. }
  apply G. lia.
Qed.

(** moving axes to the front, by leg names *)
Lemma moveaxis_named (a : arr A) (cur ls : list nat) (d : nat -> nat) :
  wfa a -> ashape a = map d cur -> NoDup cur -> NoDup ls -> incl ls cur ->
  let rest := filter (fun l => negb (inb l ls)) cur in
  exists a', np_moveaxis a (positions cur ls) (seq 0 (length (positions cur ls))) = Ok a' /\ wfa a' /\
    ashape a' = map d (ls ++ rest) /\
    forall s, (forall l, In l cur -> s l < d l) -> aget a' (map s (ls ++ rest)) = aget a (map s cur).
Proof.
  intros W Hs ND NDl Hi rest.
  assert (ndim a = length cur) as Hn by (unfold ndim; rewrite Hs; apply map_length).
  rewrite moveaxis_front.
  2:{ intros s Hp. rewrite Hn. eapply positions_lt; eauto. }
  2:{ now apply positions_NoDup. }
  eexists. split; [reflexivity|]. split; [apply transpose_wfa|].
  assert (map (fun k => nth k cur 0) (positions cur ls ++ filter (fun n => negb (inb n (positions cur ls))) (seq 0 (ndim a)))
          = ls ++ rest) as El.
  { rewrite map_app, Hn, rest_positions by auto. f_equal. now apply positions_spec. }
  assert (Permutation (positions cur ls ++ filter (fun n => negb (inb n (positions cur ls))) (seq 0 (ndim a))) (seq 0 (length cur))) as P.
  { rewrite Hn. apply perm_front; [intros; eapply positions_lt; eauto | now apply positions_NoDup]. }
  split.
  - unfold np_transpose at 1. simpl ashape.
    rewrite <- El, map_map. apply map_ext_in. intros k Hk.
    apply (Permutation_in _ P) in Hk. apply in_seq in Hk. rewrite Hs.
    rewrite (nth_indep _ 0 (d 0)) by (rewrite map_length; lia). apply map_nth.
  - intros s Hr. rewrite <- El.
    apply (transpose_spec a cur d _ s Hs P Hr).
Qed.

Lemma reshape_spec (a : arr A) sh a' : np_reshape a sh = Ok a' -> 
  ashape a' = sh /\ adata a' = adata a /\ wfa a'.
Proof.
  unfold np_reshape. destruct (Nat.eqb_spec (prodn sh) (length (adata a))); intros E; [|discriminate].
  injection E as <-. unfold wfa. simpl. auto.
Qed.

Lemma aget_ravel (a b : arr A) i j : adata a = adata b -> ravel (ashape a) i = ravel (ashape b) j ->
  aget a i = aget b j.
Proof. unfold aget. congruence. Qed.

Lemma matmul_spec (a b : arr A) n k m : ashape a = [n; k] -> ashape b = [k; m] ->
  exists c, np_matmul a b = Ok c /\ wfa c /\ ashape c = [n; m] /\
   forall i j, i < n -> j < m -> aget c [i; j] = sumN k (fun x => rmul (aget a [i; x]) (aget b [x; j])).
Proof.
  intros Ha Hb. unfold np_matmul. rewrite Ha, Hb, Nat.eqb_refl.
  eexists. split; [reflexivity|]. split; [apply tab_wfa|]. split; [reflexivity|].
  intros i j Hi Hj. rewrite aget_tab; [reflexivity|]. repeat constructor; auto.
Qed.

Lemma outer_spec (a b : arr A) : wfa (np_outer a b) /\ ashape (np_outer a b) = ashape a ++ ashape b /\
  forall i j, inrange (ashape a) i -> inrange (ashape b) j ->
    aget (np_outer a b) (i ++ j) = rmul (aget a i) (aget b j).
Proof.
  split; [apply tab_wfa|]. split; [reflexivity|]. intros i j Hi Hj.
  unfold np_outer. rewrite aget_tab by now apply inrange_app.
  assert (ndim a = length i) as -> by (symmetry; now apply inrange_length).
  rewrite firstn_app, firstn_all, Nat.sub_diag, skipn_app, skipn_all, Nat.sub_diag. simpl.
  now rewrite app_nil_r.
Qed.
End Nd.
