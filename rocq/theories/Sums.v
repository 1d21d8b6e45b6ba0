(** Finite sums and products over lists in a commutative semiring. *)
From Coq Require Import List Arith Bool Lia Permutation Setoid Morphisms.
From Verif Require Import Base.
Import ListNotations.
Local Open Scope sr_scope.

Fixpoint sumL {X A} `{SR A} (l : list X) (f : X -> A) : A :=
  match l with [] => 0 | x :: l' => f x + sumL l' f end.
Fixpoint prodL {X A} `{SR A} (l : list X) (f : X -> A) : A :=
  match l with [] => 1 | x :: l' => f x * prodL l' f end.

(** sum for i = 0 .. n-1 *)
Definition sumN {A} `{SR A} (n : nat) (f : nat -> A) : A := sumL (seq 0 n) f.

Section S.
Context {A : Type} {HA : SR A}.
Add Ring Aring : (@SR_theory A HA).

Lemma sumL_ext {X} (l : list X) f g :
  (forall x, In x l -> f x = g x) -> sumL l f = sumL l g.
Proof.
  induction l as [|x l IH]; intros E; simpl; auto.
  rewrite E by (simpl; auto). f_equal. apply IH. intros; apply E; simpl; auto.
Qed.

Lemma prodL_ext {X} (l : list X) f g :
  (forall x, In x l -> f x = g x) -> prodL l f = prodL l g.
Proof.
  induction l as [|x l IH]; intros E; simpl; auto.
  rewrite E by (simpl; auto). f_equal. apply IH. intros; apply E; simpl; auto.
Qed.

Lemma sumL_app {X} (l1 l2 : list X) f : sumL (l1 ++ l2) f = sumL l1 f + sumL l2 f.
Proof. induction l1 as [|x l IH]; simpl; [ring | rewrite IH; ring]. Qed.
Lemma prodL_app {X} (l1 l2 : list X) f : prodL (l1 ++ l2) f = prodL l1 f * prodL l2 f.
Proof. induction l1 as [|x l IH]; simpl; [ring | rewrite IH; ring]. Qed.

Lemma sumL_map {X Y} (g : X -> Y) l f : sumL (map g l) f = sumL l (fun x => f (g x)).
Proof. induction l; simpl; auto. now rewrite IHl. Qed.
Lemma prodL_map {X Y} (g : X -> Y) l f : prodL (map g l) f = prodL l (fun x => f (g x)).
Proof. induction l; simpl; auto. now rewrite IHl. Qed.

Lemma sumL_flat_map {X Y} (g : X -> list Y) l f :
  sumL (flat_map g l) f = sumL l (fun x => sumL (g x) f).
Proof. induction l; simpl; auto. now rewrite sumL_app, IHl. Qed.

Lemma sumL_0 {X} (l : list X) : sumL l (fun _ => 0) = 0.
Proof. induction l; simpl; auto. rewrite IHl. ring. Qed.

Lemma sumL_zero {X} (l : list X) f : (forall x, In x l -> f x = 0) -> sumL l f = 0.
Proof. intros E. rewrite (sumL_ext l f (fun _ => 0)) by auto. apply sumL_0. Qed.

Lemma sumL_add {X} (l : list X) f g : sumL l (fun x => f x + g x) = sumL l f + sumL l g.
Proof. induction l; simpl; [ring|]. rewrite IHl. ring. Qed.

Lemma sumL_mul_l {X} (l : list X) c f : sumL l (fun x => c * f x) = c * sumL l f.
Proof. induction l; simpl; [ring|]. rewrite IHl. ring. Qed.
Lemma sumL_mul_r {X} (l : list X) c f : sumL l (fun x => f x * c) = sumL l f * c.
Proof. induction l; simpl; [ring|]. rewrite IHl. ring. Qed.

Lemma sumL_swap {X Y} (l1 : list X) (l2 : list Y) f :
  sumL l1 (fun x => sumL l2 (fun y => f x y)) = sumL l2 (fun y => sumL l1 (fun x => f x y)).
Proof.
  induction l1; simpl; [now rewrite sumL_0|]. now rewrite IHl1, sumL_add.
Qed.

Lemma sumL_perm {X} (l1 l2 : list X) f : Permutation l1 l2 -> sumL l1 f = sumL l2 f.
Proof. induction 1; simpl; try ring; try congruence. Qed.
Lemma prodL_perm {X} (l1 l2 : list X) f : Permutation l1 l2 -> prodL l1 f = prodL l2 f.
Proof. induction 1; simpl; try ring; try congruence. Qed.

Lemma sumL_single {X} (l : list X) f x0 :
  NoDup l -> In x0 l -> (forall x, In x l -> x <> x0 -> f x = 0) -> sumL l f = f x0.
Proof.
  induction l as [|x l IH]; intros ND HI HZ; simpl in *; [tauto|].
  inversion ND; subst. destruct HI as [<-|HI].
  - rewrite (sumL_zero l f). ring. intros y Hy. apply HZ; auto. congruence.
  - rewrite HZ by (auto; intros ->; contradiction).
    rewrite IH; auto. ring.
Qed.

Lemma sumL_filter {X} (l : list X) (p : X -> bool) f :
  sumL (filter p l) f = sumL l (fun x => if p x then f x else 0).
Proof. induction l; simpl; auto. destruct (p a); simpl; rewrite IHl; ring. Qed.

Lemma prodL_1 {X} (l : list X) : prodL l (fun _ => 1) = 1.
Proof. induction l; simpl; auto. rewrite IHl. ring. Qed.
Lemma prodL_mul {X} (l : list X) f g : prodL l (fun x => f x * g x) = prodL l f * prodL l g.
Proof. induction l; simpl; [ring|]. rewrite IHl. ring. Qed.

Lemma sumN_ext n f g : (forall i, (i < n)%nat -> f i = g i) -> sumN n f = sumN n g.
Proof. intros E. apply sumL_ext. intros x Hx. apply in_seq in Hx. apply E. lia. Qed.

Lemma sumN_S n f : sumN (S n) f = sumN n f + f n.
Proof. unfold sumN. rewrite seq_S, sumL_app. simpl. ring. Qed.

Lemma sumN_single n f k :
  (k < n)%nat -> (forall i, (i < n)%nat -> i <> k -> f i = 0) -> sumN n f = f k.
Proof.
  intros Hk HZ. apply sumL_single; [apply seq_NoDup | apply in_seq; lia |].
  intros x Hx. apply in_seq in Hx. apply HZ. lia.
Qed.

Lemma sumL_seq_shift s n (f : nat -> A) :
  sumL (seq s n) f = sumN n (fun i => f (s + i)%nat).
Proof.
  unfold sumN. revert s f. induction n; intros s f; simpl; auto.
  rewrite Nat.add_0_r. f_equal. rewrite IHn. rewrite <- seq_shift.
  unfold sumN. rewrite sumL_map. apply sumL_ext. intros. f_equal. lia.
Qed.

Lemma sumN_add n m f : sumN (n + m) f = sumN n f + sumN m (fun i => f (n + i)%nat).
Proof. unfold sumN. rewrite seq_app, sumL_app. f_equal. simpl. apply (sumL_seq_shift n m). Qed.

(** row-major re-indexing: i = a * m + b *)
Lemma sumN_mul n m f :
  sumN (n * m) f = sumN n (fun a => sumN m (fun b => f (a * m + b)%nat)).
Proof.
  induction n; simpl; auto.
  rewrite sumN_S, <- IHn. rewrite Nat.add_comm, sumN_add. reflexivity.
Qed.
End S.
