(** For a tensor with mirror symmetry the mirrored lattice is the lattice. *)
From Coq Require Import List Arith Bool Lia.
From Verif Require Import Base Sums OpenSpec SumAllProofs.
Import ListNotations.
Local Open Scope nat_scope.

Section Mirror.
Context {A : Type} {HA : SR A}.
Variables H V : nat.
Variable T : nat -> nat -> nat -> nat -> A.
Lemma in_pairs n m j i : In (j, i) (pairs n m) <-> j < n /\ i < m.
Proof.
  unfold pairs. rewrite in_flat_map. split.
  - intros (x & Hx & Hy). apply in_map_iff in Hy. destruct Hy as (y & E & Hy). injection E as -> ->. apply in_seq in Hx, Hy. lia.
  - intros (Hj & Hi). exists j. split; [apply in_seq; lia|]. apply in_map_iff. exists i. split; [reflexivity|apply in_seq; lia].
Qed.
Lemma HB_in L j i : j <= L -> i < L -> In (HB j i) (open_bonds L).
Proof. intros Hj Hi. apply in_or_app. left. apply in_map_iff. exists (j, i). split; [reflexivity|]. apply in_pairs. lia. Qed.
Lemma VB_in L j i : j < L -> i <= L -> In (VB j i) (open_bonds L).
Proof. intros Hj Hi. apply in_or_app. right. apply in_map_iff. exists (j, i). split; [reflexivity|]. apply in_pairs. lia. Qed.
Theorem mirrored_same L : mirror_symmetric H V T -> open_mirrored L H V T = open_lattice L H V T.
Proof.
  intros M. unfold open_mirrored, open_lattice. apply sa_range. intros s Hs _. apply prodL_ext. intros (j, i) Hp. apply in_pairs in Hp. destruct Hp as (Hj & Hi).
  assert (B1 : forall j', j' <= L -> s (HB j' i) < H) by (intros j' Hj'; apply (Hs (HB j' i)); apply HB_in; lia). assert (B2 : forall i', i' <= L -> s (VB j i') < V) by (intros i' Hi'; apply (Hs (VB j i')); apply VB_in; lia).
  pose proof (B1 j ltac:(lia)). pose proof (B1 (S j) ltac:(lia)). pose proof (B2 i ltac:(lia)). pose proof (B2 (S i) ltac:(lia)).
  destruct (far L j), (far L i); auto.
  - rewrite (proj1 (M (s (HB (S j) i)) (s (HB j i)) (s (VB j i)) (s (VB j (S i))) ltac:(assumption) ltac:(assumption) ltac:(assumption) ltac:(assumption))). apply M; assumption.
  - apply M; assumption.
  - apply M; assumption.
Qed.
End Mirror.
