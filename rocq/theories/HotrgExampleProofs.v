(** Concrete numbers for the examples of the higher-order tensor renormalization group. *)
From Coq Require Import List Arith Bool String ZArith Lia.
From Verif Require Import Base Sums NdModel NdProofs HeapModel TensorModel SvdModel FtnModel TorusSpec DoubleSpec TrgModel TrgSpec TrgExampleProofs HotrgModel HotrgSpec.
Import ListNotations.
Local Open Scope nat_scope.

Section Eig.
Context {A : Type} {HA : SR A}.
Variable is0 : A -> bool.
(** exact for diagonal matrices; the zeros come first *)
Definition diag_order (m : arr A) (n : nat) : list nat := let z i := is0 (aget m [i; i]) in filter z (seq 0 n) ++ filter (fun i => negb (z i)) (seq 0 n).
Definition diag_eigh (m : arr A) : list A * arr A :=
  let n := nth 0 (ashape m) 0 in let ix := diag_order m n in
  (map (fun i => aget m [i; i]) ix, tab [n; n] (fun idx => if Nat.eqb (nth 0 idx 0) (nth (nth 1 idx 0) ix 0) then r1 else r0)).
Lemma diag_shape (m : arr A) n minus less neg : ashape m = [n; n] -> eigh_shape (mkEigen diag_eigh (fun x => negb (is0 x)) minus less neg) m n.
Proof.
  intros S. unfold eigh_shape, vals, vecs. cbn [ei_eigh]. unfold diag_eigh. rewrite S. cbn [nth fst snd]. split; [|split; [apply tab_wfa|reflexivity]].
  rewrite map_length. unfold diag_order. rewrite app_length. rewrite <- (seq_length n 0) at 3. generalize (seq 0 n). intros l. induction l as [|x l IH]; cbn; auto. destruct (is0 (aget m [x; x])); cbn; lia.
Qed.
Variable eqA : A -> A -> bool.
Hypothesis eqA_ok : forall x y, eqA x y = true -> x = y.
Definition all2 n (p : nat -> nat -> bool) : bool := forallb (fun i => forallb (p i) (seq 0 n)) (seq 0 n).
Lemma all2_ok n p : all2 n p = true -> forall i j, i < n -> j < n -> p i j = true.
Proof. intros E i j Hi Hj. unfold all2 in E. rewrite forallb_forall in E. specialize (E i ltac:(apply in_seq; lia)). rewrite forallb_forall in E. apply E. apply in_seq; lia. Qed.
Definition exactb (eig : eigen A) (m : arr A) (n : nat) : bool :=
  all2 n (fun i o => eqA (sumN n (fun j => rmul (aget m [i; j]) (aget (vecs eig m) [j; o]))) (rmul (nth o (vals eig m) r0) (aget (vecs eig m) [i; o]))) &&
  all2 n (fun i j => eqA (sumN n (fun o => rmul (aget (vecs eig m) [i; o]) (aget (vecs eig m) [j; o]))) (if Nat.eqb i j then r1 else r0)).
Lemma exactb_ok eig m n : eigh_shape eig m n -> exactb eig m n = true -> eigh_exact eig m n.
Proof.
  intros S E. apply andb_true_iff in E. destruct E as [E1 E2]. split; [exact S| |].
  - intros i o Hi Ho. apply eqA_ok. now apply (all2_ok _ _ E1).
  - intros i j Hi Hj. apply eqA_ok. now apply (all2_ok _ _ E2).
Qed.
Definition all6 V H (p : nat -> nat -> nat -> nat -> nat -> nat -> bool) : bool :=
  forallb (fun u => forallb (fun d => all2 H (fun a b => all2 H (fun c e => p u a b d c e))) (seq 0 V)) (seq 0 V).
Definition losslessb V H k (T : nat -> nat -> nat -> nat -> A) (P Q : nat -> nat -> A) : bool :=
  all6 V H (fun u a b d c e => eqA (sumN k (fun o => rmul (sumN H (fun a' => sumN H (fun b' => rmul (pillar V T T u a' b' d c e) (P (a' * H + b') o)))) (Q (a * H + b) o))) (pillar V T T u a b d c e)).
Lemma losslessb_ok V H k T P Q : losslessb V H k T P Q = true -> lossless_projector V H k T P Q.
Proof.
  intros E u a b d c e Hu Ha Hb Hd Hc He. apply eqA_ok. unfold losslessb, all6 in E. rewrite forallb_forall in E. specialize (E u ltac:(apply in_seq; lia)). rewrite forallb_forall in E. specialize (E d ltac:(apply in_seq; lia)).
  pose proof (all2_ok _ _ E a b Ha Hb) as E'. cbn beta in E'. exact (all2_ok _ _ E' c e Hc He).
Qed.
Definition okH {X} (r : world A * res X) : bool := match snd r with Ok _ => true | Err _ => false end.
Definition nothing : hotrg A := mkHotrg 0 0 0 0 0 0 0 0 0 0 [] [] [] [] [].
Definition afterH (r : world A * res (hotrg A)) : world A * hotrg A := (fst r, match snd r with Ok g => g | Err _ => nothing end).
Lemma afterH_ok (r : world A * res (hotrg A)) : okH r = true -> r = (fst (afterH r), Ok (snd (afterH r))).
Proof. destruct r as [w [g|e]]; [reflexivity|discriminate]. Qed.
End Eig.
Definition eig_Z : eigen Z := mkEigen (diag_eigh (fun x => Z.eqb x 0)) (fun x => negb (Z.eqb x 0)) Z.sub Z.ltb (fun x => Z.ltb x 0).
Lemma order_Z : order_ok eig_Z.
Proof. split; cbn [eig_Z ei_less]; intros; rewrite ?Z.ltb_lt, ?Z.ltb_ge, ?Z.ltb_irrefl in *; auto; lia. Qed.
Lemma squares_Z : @squares_real Z _.
Proof.
  intros l. assert (P : forall l : list Z, (0 <= sumL l (fun x => (x * x)%Z))%Z) by (induction l0 as [|x l0 IH]; cbn [sumL]; [cbn; lia|]; change (0 <= x * x + sumL l0 (fun x => (x * x)%Z))%Z; nia).
  induction l as [|x l IH]; intros E y Hy; [destruct Hy|]. cbn [sumL] in E. change (x * x + sumL l (fun x => (x * x)%Z) = 0)%Z in E. specialize (P l).
  destruct Hy as [<-|Hy]; [change (x = 0%Z); nia|]. apply IH; auto. change (sumL l (fun x => (x * x)%Z) = 0%Z). nia.
Qed.
