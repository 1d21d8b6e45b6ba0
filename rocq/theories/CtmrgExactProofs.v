(** When tensorSVDDecomposition and a step of CTMRG lose nothing. *)
From Coq Require Import List Arith Bool String Lia.
From Verif Require Import Base Sums NdModel NdProofs HeapModel TensorModel TensorSpec SvdModel SvdSpec SvdProofs NamedSpec FtnModel TrgModel TrgSpec DiagNetSpec CtmrgModel CtmrgSpec CtmrgStepProofs TorusProofs CtmrgValueProofs.
Import ListNotations.
Local Open Scope nat_scope.

Section Exact.
Context {A : Type} {HA : SR A}.
Notation heap := (heap A).
Variable lib : linalg A.
Add Ring EXring : (@SR_theory A HA).
Lemma tsvd_product (h : heap) m r c chi rn rl cl cn u s v i j : svd_exact lib m r c -> lossless lib m (Nat.min chi (Nat.min r c)) -> svd_tensors lib h m r c (Nat.min chi (Nat.min r c)) rn rl cl cn u s v -> i < r -> j < c ->
  aget m [i; j] = sumN (Nat.min chi (Nat.min r c)) (fun z => at_ h u [(rn, i); (rl, z)] * at_ h s [(rn, z); (cn, z)] * at_ h v [(cl, z); (cn, j)])%sr.
Proof.
  intros EX LL [_ _ _ U S W] Hi Hj. destruct EX as [SS EQ _]. destruct (ss_s _ _ _ _ SS) as (Ws & Es). rewrite EQ by assumption. rewrite (sumN_cut (Nat.min r c) (Nat.min chi (Nat.min r c))).
  - apply sumN_ext. intros z Hz. rewrite U, S, W by assumption. ring.
  - lia.
  - intros x Hx. rewrite (aget1 _ _ x Es). rewrite LL by (try rewrite Ws, Es; simpl; lia). ring.
Qed.
(** all values are kept and both factors are orthogonal *)
Section Full.
Variables H V : nat.
Variable T : nat -> nat -> nat -> nat -> A.
Variable E : env A.
Variable chi : nat.
Notation n := (e_k E * V).
Notation m := (ext_mat H V T E).
Hypothesis HV : e_k E * H = n.
Hypothesis big : n <= chi.
Hypothesis SH : svd_shape lib m n n.
Hypothesis EQ : forall p q, p < n -> q < n -> aget m [p; q] = sumN n (fun z => rmul (rmul (aget (svd_u lib m) [p; z]) (aget (svd_s lib m) [z])) (aget (svd_v lib m) [z; q])).
Hypothesis UU : forall y z, y < n -> z < n -> sumN n (fun p => rmul (aget (svd_u lib m) [p; y]) (aget (svd_u lib m) [p; z])) = if Nat.eqb y z then r1 else r0.
Hypothesis UU' : forall p q, p < n -> q < n -> sumN n (fun y => rmul (aget (svd_u lib m) [p; y]) (aget (svd_u lib m) [q; y])) = if Nat.eqb p q then r1 else r0.
Hypothesis VV : forall y z, y < n -> z < n -> sumN n (fun q => rmul (aget (svd_v lib m) [y; q]) (aget (svd_v lib m) [z; q])) = if Nat.eqb y z then r1 else r0.
Hypothesis VV' : forall p q, p < n -> q < n -> sumN n (fun y => rmul (aget (svd_v lib m) [y; p]) (aget (svd_v lib m) [y; q])) = if Nat.eqb p q then r1 else r0.
Lemma there_and_back k (f : nat -> nat -> A) (X : nat -> nat -> A) : (forall p q, p < k -> q < k -> sumN k (fun y => rmul (f p y) (f q y)) = if Nat.eqb p q then r1 else r0) -> forall p q, p < k -> q < k ->
  sumN k (fun y => sumN k (fun z => f p y * f q z * sumN k (fun a => sumN k (fun b => f a y * f b z * X a b))))%sr = X p q.
Proof.
  intros O p q Hp Hq. transitivity (sumN k (fun a => sumN k (fun b => sumN k (fun y => f p y * f a y) * (sumN k (fun z => f q z * f b z) * X a b)))%sr).
  - transitivity (sumN k (fun y => sumN k (fun a => sumN k (fun z => sumN k (fun b => f p y * f a y * (f q z * f b z * X a b))))))%sr.
    + apply sumN_ext. intros y _. rewrite sumN_swap. apply sumN_ext. intros z _. rewrite <- sumN_mul_l. apply sumN_ext. intros a _. rewrite <- sumN_mul_l. apply sumN_ext. intros b _. ring.
    + rewrite sumN_swap. apply sumN_ext. intros a _. transitivity (sumN k (fun y => sumN k (fun b => sumN k (fun z => f p y * f a y * (f q z * f b z * X a b)))))%sr; [apply sumN_ext; intros; apply sumN_swap|]. rewrite sumN_swap. apply sumN_ext. intros b _.
      rewrite <- sumN_mul_r. apply sumN_ext. intros y _. rewrite <- sumN_mul_r. rewrite <- sumN_mul_l. apply sumN_ext. intros z _. ring.
  - transitivity (sumN k (fun a => sumN k (fun b => delta p a * (delta q b * X a b)))%sr).
    + apply sumN_ext. intros a Ha. apply sumN_ext. intros b Hb. now rewrite !O.
    + rewrite (sumN_ext k _ (fun a => (delta p a * sumN k (fun b => delta q b * X a b))%sr)) by (intros; now rewrite <- sumN_mul_l). rewrite (sumN_delta k p (fun a => sumN k (fun b => (delta q b * X a b)%sr)) Hp). apply (sumN_delta k q (fun b => X p b) Hq).
Qed.
Theorem full_cut : exact_cut H V T E lib chi.
Proof.
  assert (K : cut_k H V E chi = n) by (unfold cut_k; rewrite HV; lia).
  split; rewrite ?K, ?HV.
  - exact SH.
  - intros p q Hp Hq. pose proof (EQ p q Hp Hq) as X. assert (EM : aget m [p; q] = ext_c H V T E p q) by (unfold ext_mat; apply mat2_get; [exact Hp|now rewrite HV]). rewrite <- EM. exact X.
  - exact UU.
  - exact VV.
  - intros p q r Hp Hq Hr. unfold red_v. exact (there_and_back n (fun p y => cut_u H V T E lib p y) (fun a b => ext_v H V T E a b r) UU' p q Hp Hq).
  - intros p q u Hp Hq Hu. unfold red_h. rewrite HV. exact (there_and_back n (fun p y => cut_v H V T E lib y p) (fun a b => ext_h H V T E a b u) VV' p q Hp Hq).
Qed.
End Full.
End Exact.
