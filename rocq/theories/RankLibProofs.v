(** A library over the Boolean semiring whose decomposition is exact and finds the rank: it tries all factorisations.  Used to show that the hypotheses
    [svd_perfect] and [svd_rank] can be met together. *)
From Coq Require Import List Arith Bool Lia ZArith.
From Verif Require Import Base Sums NdModel NdProofs HeapModel SvdModel SvdSpec MpsSpec MpsDoubleSpec.
Import ListNotations.
Local Open Scope list_scope.
Local Open Scope nat_scope.

#[global] Program Instance SR_bool : SR bool := {| r0 := false; r1 := true; radd := orb; rmul := andb |}.
Solve Obligations with (intros; repeat match goal with x : bool |- _ => destruct x end; reflexivity).

(** all lists of n truth values *)
Fixpoint bools (n : nat) : list (list bool) := match n with 0 => [[]] | S n => map (cons true) (bools n) ++ map (cons false) (bools n) end.
Lemma bools_all : forall l, In l (bools (List.length l)).
Proof. induction l as [|[] l IH]; cbn [bools List.length]; [simpl; auto| |]; apply in_app_iff; [left|right]; now apply in_map. Qed.

Section Lib.
Variable m : arr bool.
Variables r c : nat.
Definition lf (k : nat) (F : list bool) (i x : nat) : bool := nth (i * k + x) F false.
Definition rg (G : list bool) (x j : nat) : bool := nth (x * c + j) G false.
Definition good (k : nat) (p : list bool * list bool) : bool :=
  forallb (fun i => forallb (fun j => eqb (aget m [i; j]) (sumN k (fun x => rmul (lf k (fst p) i x) (rg (snd p) x j)))) (seq 0 c)) (seq 0 r).
Definition search (k : nat) : option (list bool * list bool) := find (good k) (list_prod (bools (r * k)) (bools (k * c))).
Definition has (k : nat) : bool := match search k with Some _ => true | None => false end.
Definition rank : nat := match find has (seq 0 (S (Nat.min r c))) with Some k => k | None => 0 end.
Definition parts : list bool * list bool := match search rank with Some p => p | None => ([], []) end.

Lemma good_spec k p : good k p = true <-> forall i j, i < r -> j < c -> aget m [i; j] = sumN k (fun x => rmul (lf k (fst p) i x) (rg (snd p) x j)).
Proof.
  unfold good. rewrite forallb_forall. split.
  - intros H i j Hi Hj. specialize (H i). rewrite forallb_forall in H. apply eqb_prop. apply H; apply in_seq; lia.
  - intros H i Hi. apply forallb_forall. intros j Hj. apply in_seq in Hi, Hj. rewrite H by lia. apply eqb_reflx.
Qed.
Lemma nth_flat (f : nat -> nat -> bool) a b i x : i < a -> x < b -> nth (i * b + x) (map (fun n => f (n / b) (n mod b)) (seq 0 (a * b))) false = f i x.
Proof.
  intros Hi Hx. assert (i * b + x < a * b) by nia. rewrite nth_indep with (d' := f (0 / b) (0 mod b)) by (rewrite map_length, seq_length; auto).
  rewrite (map_nth (fun n => f (n / b) (n mod b)) (seq 0 (a * b)) 0 (i * b + x)), seq_nth by auto. cbn [Nat.add]. rewrite Nat.div_add_l, Nat.div_small, Nat.add_0_r by lia.
  rewrite Nat.add_comm, Nat.mod_add, Nat.mod_small by lia. reflexivity.
Qed.
Lemma has_factors k : factors m r c k -> has k = true.
Proof.
  intros (f & g & E). unfold has, search. set (F := map (fun n => f (n / k) (n mod k)) (seq 0 (r * k))). set (G := map (fun n => g (n / c) (n mod c)) (seq 0 (k * c))).
  assert (GD : good k (F, G) = true).
  { apply good_spec. intros i j Hi Hj. rewrite (E i j Hi Hj). apply sumN_ext. intros x Hx. unfold lf, rg. cbn [fst snd]. unfold F, G. now rewrite !nth_flat by auto. }
  destruct (find (good k) _) eqn:FD; [reflexivity|]. exfalso. pose proof (find_none _ _ FD (F, G)) as X. rewrite GD in X. discriminate X.
  apply in_prod; [replace (r * k) with (List.length F)|replace (k * c) with (List.length G)]; try apply bools_all; unfold F, G; now rewrite map_length, seq_length.
Qed.
Lemma full_factors : factors m r c (Nat.min r c).
Proof.
  destruct (Nat.le_ge_cases r c) as [LE|LE].
  - rewrite Nat.min_l by auto. exists (fun i x => Nat.eqb i x), (fun x j => aget m [x; j]). intros i j Hi Hj. rewrite (sumN_single _ _ i Hi).
    + now rewrite Nat.eqb_refl.
    + intros k Hk NE. destruct (Nat.eqb_spec i k); [congruence|reflexivity].
  - rewrite Nat.min_r by auto. exists (fun i x => aget m [i; x]), (fun x j => Nat.eqb x j). intros i j Hi Hj. rewrite (sumN_single _ _ j Hj).
    + rewrite Nat.eqb_refl. cbn. now destruct (aget m [i; j]).
    + intros k Hk NE. destruct (Nat.eqb_spec k j); [congruence|]. cbn. now destruct (aget m [i; k]).
Qed.
Lemma find_first (f : nat -> bool) n : forall a k, find f (seq a n) = Some k -> f k = true /\ k < a + n /\ forall j, a <= j < k -> f j = false.
Proof.
  induction n as [|n IH]; intros a k E; [discriminate|]. cbn [seq find] in E. destruct (f a) eqn:F.
  - injection E as <-. split; auto. split; [lia|]. intros; lia.
  - destruct (IH (S a) k E) as (X & Y & Z). split; auto. split; [lia|]. intros j Hj. destruct (Nat.eq_dec j a) as [->|]; auto. apply Z. lia.
Qed.
Lemma rank_spec : good rank parts = true /\ rank <= Nat.min r c /\ forall k, factors m r c k -> rank <= k.
Proof.
  assert (EX : exists k, find has (seq 0 (S (Nat.min r c))) = Some k).
  { destruct (find has (seq 0 (S (Nat.min r c)))) eqn:E; eauto. exfalso. pose proof (find_none _ _ E (Nat.min r c)) as X. rewrite (has_factors _ full_factors) in X. discriminate X. apply in_seq. lia. }
  destruct EX as (k & E). assert (R : rank = k) by (unfold rank; now rewrite E). destruct (find_first _ _ _ _ E) as (H & L & MIN). split; [|split; [lia|]].
  - unfold parts. rewrite R. unfold has in H. destruct (search k) as [p|] eqn:S; [|discriminate]. apply find_some in S. apply S.
  - intros j FJ. rewrite R. destruct (Nat.le_gt_cases k j); auto. apply has_factors in FJ. rewrite MIN in FJ by lia. discriminate.
Qed.
End Lib.

Definition libB : linalg bool := mkLinalg (fun m =>
    let r := nth 0 (ashape m) 0 in let c := nth 1 (ashape m) 0 in let k := rank m r c in let p := parts m r c in
    (tab [r; r] (fun x => if Nat.ltb (nth 1 x 0) k then lf k (fst p) (nth 0 x 0) (nth 1 x 0) else false),
     tab [Nat.min r c] (fun x => Nat.ltb (nth 0 x 0) k),
     tab [c; c] (fun x => if Nat.ltb (nth 0 x 0) k then rg c (snd p) (nth 0 x 0) (nth 1 x 0) else false)))
  (fun x => x) (fun x => x).

Lemma sum_cut k n (f g : nat -> bool) : k <= n -> (forall x, x < k -> g x = f x) -> (forall x, k <= x < n -> g x = false) -> sumN n g = sumN k f.
Proof.
  intros LE E Z. replace n with (k + (n - k)) by lia. rewrite sumN_add. rewrite (sumN_ext k g f) by auto. rewrite (sumN_ext (n - k) _ (fun _ => false)) by (intros i Hi; apply Z; lia).
  replace (sumN (n - k) (fun _ => false)) with false; [apply orb_false_r|]. clear. induction (n - k) as [|d IH]; [reflexivity|]. rewrite sumN_S, <- IH. reflexivity.
Qed.
Lemma tab1_data (f : list nat -> bool) n : adata (tab [n] f) = map (fun i => f [i]) (seq 0 n).
Proof.
  apply (nth_ext _ _ false false).
  - rewrite map_length, seq_length. pose proof (tab_wfa [n] f) as W. unfold wfa in W. rewrite W. cbn. lia.
  - intros i Hi. assert (Hn : i < n) by (pose proof (tab_wfa [n] f) as W; unfold wfa in W; rewrite W in Hi; cbn in Hi; lia).
    assert (X : aget (tab [n] f) [i] = f [i]) by (apply aget_tab; repeat constructor; auto).
    unfold aget in X. cbn [ashape tab ravel prodn fold_right] in X. rewrite Nat.mul_1_r, Nat.add_0_r in X.
    rewrite (nth_indep (map _ _) false (f [0])) by (rewrite map_length, seq_length; auto). rewrite (map_nth (fun i => f [i]) (seq 0 n) 0 i), seq_nth by auto. exact X.
Qed.
Lemma count_ltb k : forall n a, List.length (filter (fun x : bool => x) (map (fun i => Nat.ltb i k) (seq a n))) = Nat.min n (k - a).
Proof.
  induction n as [|n IH]; intros a; [reflexivity|]. cbn [seq map filter]. destruct (Nat.ltb_spec a k); cbn [List.length]; rewrite IH; lia.
Qed.
Section Spec.
Variables (m : arr bool) (r c : nat).
Hypothesis WM : wfa m.
Hypothesis SM : ashape m = [r; c].
Let k := rank m r c.
Let p := parts m r c.
Lemma libB_u : svd_u libB m = tab [r; r] (fun x => if Nat.ltb (nth 1 x 0) k then lf k (fst p) (nth 0 x 0) (nth 1 x 0) else false).
Proof. unfold svd_u, libB. cbn [np_svd fst snd]. rewrite SM. reflexivity. Qed.
Lemma libB_s : svd_s libB m = tab [Nat.min r c] (fun x => Nat.ltb (nth 0 x 0) k).
Proof. unfold svd_s, libB. cbn [np_svd fst snd]. rewrite SM. reflexivity. Qed.
Lemma libB_v : svd_v libB m = tab [c; c] (fun x => if Nat.ltb (nth 0 x 0) k then rg c (snd p) (nth 0 x 0) (nth 1 x 0) else false).
Proof. unfold svd_v, libB. cbn [np_svd fst snd]. rewrite SM. reflexivity. Qed.
Lemma libB_above : above libB m = k.
Proof.
  unfold above. rewrite libB_s, tab1_data. cbn [libB np_big nth]. rewrite count_ltb. destruct (rank_spec m r c) as (_ & L & _). fold k in L. lia.
Qed.
End Spec.
Lemma libB_perfect : svd_perfect libB.
Proof.
  intros m r c WM SM. destruct (rank_spec m r c) as (GD & LE & _). split.
  - constructor.
    + constructor; [rewrite (libB_u m r c SM)|rewrite (libB_s m r c SM)|rewrite (libB_v m r c SM)]; (split; [apply tab_wfa|reflexivity]).
    + intros i j Hi Hj. rewrite (libB_u m r c SM), (libB_s m r c SM), (libB_v m r c SM). rewrite (proj1 (good_spec m r c _ _) GD i j Hi Hj). symmetry. apply sum_cut; auto.
      * intros x Hx. rewrite !aget_tab by (repeat constructor; lia). cbn [nth]. destruct (Nat.ltb_spec x (rank m r c)); [|lia]. reflexivity.
      * intros x Hx. rewrite !aget_tab by (repeat constructor; lia). cbn [nth]. destruct (Nat.ltb_spec x (rank m r c)); [lia|]. reflexivity.
    + intros x Hx. cbn [libB np_sqrt]. now destruct (aget (svd_s libB m) [x]).
  - intros i H1 H2. rewrite (libB_above m r c SM) in H1. rewrite (libB_s m r c SM), tab1_data in *. rewrite map_length, seq_length in H2.
    cbn [nth]. rewrite (nth_indep _ _ (Nat.ltb 0 (rank m r c))) by (rewrite map_length, seq_length; auto). rewrite (map_nth (fun i => Nat.ltb i (rank m r c)) _ 0 i), seq_nth by auto. apply Nat.ltb_ge. lia.
Qed.
Lemma libB_rank : svd_rank libB.
Proof. intros m r c k WM SM FA. rewrite (libB_above m r c SM). now apply rank_spec. Qed.
