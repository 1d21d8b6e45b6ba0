(** Rational numbers for the examples of impurity tensor networks. *)
From Coq Require Import List Arith Bool String ZArith Lia QArith Qcanon.
From Verif Require Import Base Sums NdModel NdProofs HeapModel TensorModel SvdModel FtnModel TorusSpec DoubleSpec TrgModel TrgSpec TrgExampleProofs HotrgModel HotrgSpec HotrgExampleProofs ImpurityModel ImpuritySpec HotrgSpec.
Import ListNotations.
Local Open Scope nat_scope.

#[global] Instance SR_Qc : SR Qc.
Proof.
  refine (mkSR _ 0%Qc 1%Qc Qcplus Qcmult _ _ _ _ _ _ _ _); intros; ring.
Defined.
(** one half *)
Definition half_Qc : Qc := (/ (1 + 1))%Qc.
Lemma half_ok : radd half_Qc half_Qc = r1.
Proof. cbn. unfold half_Qc. field. intros E. discriminate E. Qed.
Definition num_Qc : numerics Qc unit := mkNum (@libI Qc SR_Qc) (fun x => x) (fun a => fold_right Qcplus 0%Qc (adata a)) Qcdiv (fun _ => tt) tt (fun _ _ => tt) (fun _ _ => tt).
Lemma div_Qc (x : Qc) : x <> 0%Qc -> invertible num_Qc x.
Proof. intros N y. cbn. field. exact N. Qed.
Definition is0 (x : Qc) : bool := Qc_eq_bool x 0%Qc.
Definition lessb (x y : Qc) : bool := match Qccompare x y with Lt => true | _ => false end.
Definition eig_Qc : eigen Qc := mkEigen (diag_eigh is0) (fun x => negb (is0 x)) Qcminus lessb (fun x => lessb x 0%Qc).

Section Pair.
Context {A : Type} {HA : SR A}.
Variable eqA : A -> A -> bool.
Hypothesis eqA_ok : forall x y, eqA x y = true -> x = y.
Definition lossless2b V H k (T1 T2 : nat -> nat -> nat -> nat -> A) (P Q : nat -> nat -> A) : bool :=
  all6 V H (fun u a b d c e => eqA (sumN k (fun o => rmul (sumN H (fun a' => sumN H (fun b' => rmul (pillar V T1 T2 u a' b' d c e) (P (a' * H + b') o)))) (Q (a * H + b) o))) (pillar V T1 T2 u a b d c e)).
Lemma lossless2b_ok V H k T1 T2 P Q : lossless2b V H k T1 T2 P Q = true -> lossless_pair V H k T1 T2 P Q.
Proof.
  intros E u a b d c e Hu Ha Hb Hd Hc He. apply eqA_ok. unfold lossless2b, all6 in E. rewrite forallb_forall in E. specialize (E u ltac:(apply in_seq; lia)). rewrite forallb_forall in E. specialize (E d ltac:(apply in_seq; lia)).
  pose proof (all2_ok _ _ E a b Ha Hb) as E'. cbn beta in E'. exact (all2_ok _ _ E' c e Hc He).
Qed.
Definition all_pairs (K : nat) (p : nat -> nat -> bool) : bool := forallb (fun i => forallb (p i) (seq 0 (K - i))) (seq 0 K).
Lemma all_pairs_ok K p : all_pairs K p = true -> forall i j, i + j < K -> p i j = true.
Proof. intros E i j Hij. unfold all_pairs in E. rewrite forallb_forall in E. specialize (E i ltac:(apply in_seq; lia)). rewrite forallb_forall in E. apply E. apply in_seq. lia. Qed.
Definition noImp : impurityTN A := mkImp [] 0 None [] [] 0 false.
Definition afterI (r : world A * res (impurityTN A)) : world A * impurityTN A := (fst r, match snd r with Ok s => s | Err _ => noImp end).
Lemma afterI_ok (r : world A * res (impurityTN A)) : okH r = true -> r = (fst (afterI r), Ok (snd (afterI r))).
Proof. destruct r as [w [g|e]]; [reflexivity|discriminate]. Qed.
End Pair.
