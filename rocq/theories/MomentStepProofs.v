(** One step of the higher-order renormalization group for sequences of tensors. *)
From Coq Require Import List Arith Bool String Lia Ring.
From Verif Require Import Base Sums FuncsSpec NdModel HeapModel TorusSpec DoubleSpec TrgSpec HotrgModel HotrgSpec MomentSpec ImpurityModel ImpuritySpec TorusProofs DoubleProofs TrgProofs HotrgProofs MomentProofs HotrgSpec.
Import ListNotations.
Local Open Scope nat_scope.

Section St.
Context {A : Type} {HA : SR A}.
Add Ring Aring2 : (@SR_theory A HA).
Local Open Scope sr_scope.
Variable K : nat.
Notation fun4 := (nat -> nat -> nat -> nat -> A).
#[local] Existing Instance SR_mom.
Notation R := (@mom A K).

Definition lt (I : nat -> fun4) : nat -> nat -> nat -> nat -> R := fun u l d r => mk K (fun i => I i u l d r).
Lemma coef_lt_mul I I' u l d r u' l' d' r' i : (i < K)%nat -> coef (lt I u l d r * lt I' u' l' d' r') i = sumN (S i) (fun j => natA (binom i j) * (I j u l d r * I' (i - j)%nat u' l' d' r')).
Proof.
  intros Hi. rewrite coef_mul by exact Hi. rewrite <- (conv_binom i (fun j => I j u l d r) (fun j => I' j u' l' d' r')).
  apply conv_ext; intros j J; unfold lt; [apply (coef_mk K (fun j => I j u l d r))|apply (coef_mk K (fun j => I' j u' l' d' r'))]; lia.
Qed.
Lemma pillar_coef V I I' u a b d c e i : (i < K)%nat ->
  coef (pillar V (lt I) (lt I') u a b d c e) i = sumN (S i) (fun j => natA (binom i j) * pillar V (I j) (I' (i - j)%nat) u a b d c e).
Proof.
  intros Hi. unfold pillar. rewrite coef_sumN by exact Hi. rewrite (sumN_eq V _ _ (fun x _ => coef_lt_mul I I' u a x c x b d e i Hi)).
  rewrite sumN_swap. apply sumN_eq. intros j J. apply sumN_mul_l.
Qed.
Lemma fused_coef V H I (P Q : nat -> nat -> A) u l d r i : (i < K)%nat ->
  coef (fused V H (lt I) (lt I) (fun x o => cst K (P x o)) (fun x o => cst K (Q x o)) u l d r) i =
  sumN (S i) (fun j => natA (binom i j) * fused V H (I j) (I (i - j)%nat) P Q u l d r).
Proof.
  intros Hi. unfold fused.
  transitivity (sumN H (fun a => sumN H (fun b => sumN H (fun c => sumN H (fun e => sumN (S i) (fun j => natA (binom i j) * (pillar V (I j) (I (i - j)%nat) u a b d c e * P (a * H + b)%nat l * Q (c * H + e)%nat r))))))).
  - repeat (rewrite coef_sumN by exact Hi; apply sumN_eq; intros ? _). rewrite !coef_cst_r, pillar_coef by exact Hi.
    rewrite <- !sumN_mul_r. apply sumN_eq. intros j _. ring.
  - etransitivity; [apply sumN_eq; intros a _; apply sumN_eq; intros b _; apply sumN_eq; intros c _; symmetry; apply sumN_swap|].
    etransitivity; [apply sumN_eq; intros a _; apply sumN_eq; intros b _; symmetry; apply sumN_swap|].
    etransitivity; [apply sumN_eq; intros a _; symmetry; apply sumN_swap|].
    etransitivity; [symmetry; apply sumN_swap|]. apply sumN_eq. intros j _. rewrite <- sumN_mul_l. apply sumN_eq. intros a _. rewrite <- sumN_mul_l. apply sumN_eq. intros b _.
    rewrite <- sumN_mul_l. apply sumN_eq. intros c _. rewrite <- sumN_mul_l. reflexivity.
Qed.
Lemma lossless_lt V H k I (P Q : nat -> nat -> A) : (forall i j, (i + j < K)%nat -> lossless_pair V H k (I i) (I j) P Q) ->
  lossless_projector V H k (lt I) (fun x o => cst K (P x o)) (fun x o => cst K (Q x o)).
Proof.
  intros E u a b d c e Hu Ha Hb Hd Hc He. apply mom_ext. intros i Hi. rewrite pillar_coef by exact Hi.
  transitivity (sumN (S i) (fun j => natA (binom i j) * sumN k (fun o => sumN H (fun a' => sumN H (fun b' => pillar V (I j) (I (i - j)%nat) u a' b' d c e * P (a' * H + b')%nat o)) * Q (a * H + b)%nat o))).
  2:{ apply sumN_eq. intros j J. rewrite (E j (i - j)%nat) by (try lia; assumption). reflexivity. }
  rewrite coef_sumN by exact Hi.
  transitivity (sumN k (fun o => sumN (S i) (fun j => natA (binom i j) * (sumN H (fun a' => sumN H (fun b' => pillar V (I j) (I (i - j)%nat) u a' b' d c e * P (a' * H + b')%nat o)) * Q (a * H + b)%nat o)))).
  - apply sumN_eq. intros o _. rewrite coef_cst_r by exact Hi.
    transitivity (sumN H (fun a' => sumN H (fun b' => sumN (S i) (fun j => natA (binom i j) * (pillar V (I j) (I (i - j)%nat) u a' b' d c e * P (a' * H + b')%nat o)))) * Q (a * H + b)%nat o).
    + f_equal. rewrite coef_sumN by exact Hi. apply sumN_eq. intros a' _. rewrite coef_sumN by exact Hi. apply sumN_eq. intros b' _. rewrite coef_cst_r, pillar_coef by exact Hi.
      rewrite <- sumN_mul_r. apply sumN_eq. intros j _. ring.
    + rewrite (sumN_eq H _ (fun a' => sumN (S i) (fun j => sumN H (fun b' => natA (binom i j) * (pillar V (I j) (I (i - j)%nat) u a' b' d c e * P (a' * H + b')%nat o))))) by (intros; symmetry; apply sumN_swap).
      rewrite (sumN_swap H (S i)). rewrite <- sumN_mul_r. apply sumN_eq. intros j _. rewrite (sumN_eq H _ (fun a' => natA (binom i j) * sumN H (fun b' => pillar V (I j) (I (i - j)%nat) u a' b' d c e * P (a' * H + b')%nat o))) by (intros; apply sumN_mul_l).
      rewrite sumN_mul_l. ring.
  - rewrite sumN_swap. apply sumN_eq. intros j _. apply sumN_mul_l.
Qed.
Lemma turn_lt d I : forall u l dd r, turn d (lt I) u l dd r = lt (fun i => turn d (I i)) u l dd r.
Proof. intros. unfold turn. destruct (String.eqb d "l"), (String.eqb d "r"), (String.eqb d "u"); reflexivity. Qed.
Lemma unturn_ext {X} (d : string) (T T' : nat -> nat -> nat -> nat -> X) : (forall u l dd r, T u l dd r = T' u l dd r) -> forall u l dd r, unturn d T u l dd r = unturn d T' u l dd r.
Proof. intros E u l dd r. unfold unturn. destruct (String.eqb d "l"), (String.eqb d "r"), (String.eqb d "u"); apply E. Qed.
Lemma unturn_point {X Y} (d : string) (F : X -> Y) (T : nat -> nat -> nat -> nat -> X) u l dd r : F (unturn d T u l dd r) = unturn d (fun u l dd r => F (T u l dd r)) u l dd r.
Proof. unfold unturn. destruct (String.eqb d "l"), (String.eqb d "r"), (String.eqb d "u"); reflexivity. Qed.
End St.
