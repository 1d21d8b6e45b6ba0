(** Proofs about runs of CTMRG that lose nothing. *)
From Coq Require Import List Arith Bool String Lia Permutation.
From Verif Require Import Base Sums NdModel NdProofs HeapModel FuncsModel TensorModel TensorSpec TensorProofs MatrixProofs LabelProofs CtorProofs DiagCtorProofs CopyProofs ContractModel SvdModel SvdSpec SvdProofs CanonModel
  SearchSpec NetSpec FtnModel FtnNetSpec FtnProofs FtnFrameProofs FtnMainProofs NamedSpec NetsSpec NamedProofs NetsModel NetsProofs NamedMatProofs TorusProofs TrgModel TrgSpec TrgProofs DiagNetSpec NamedDiagProofs CtmrgNetProofs CtmrgTensProofs OpenSpec CtmrgModel CtmrgSpec CtmrgStepProofs CtmrgIterProofs CtmrgInitProofs CtmrgValueProofs CtmrgRunSpec.
Import ListNotations.
Local Open Scope nat_scope.
Local Open Scope string_scope.
Local Open Scope list_scope.

Section Env.
Context {A : Type} {HA : SR A}.
Add Ring CEring : (@SR_theory A HA).
Variables H V : nat.
Lemma represents_same T n (E E' : env A) sc sh sv : represents H V T n E sc sh sv -> same_env H V E E' -> represents H V T n E' sc sh sv.
Proof.
  intros (P & Q & S) [K EC EH EV]. exists P, Q. destruct S as [a b c d e f g]. split; auto; rewrite ?K; auto.
  - intros hr vu H1 H2. rewrite e by assumption. f_equal. apply sumN_ext. intros z Hz. now rewrite EC.
  - intros ls rs u H1 H2 Hu. rewrite f by assumption. f_equal. apply sumN_ext. intros y Hy. apply sumN_ext. intros z Hz. now rewrite EH.
  - intros us ds r H1 H2 Hr. rewrite g by assumption. f_equal. apply sumN_ext. intros y Hy. apply sumN_ext. intros z Hz. now rewrite EV.
Qed.
Lemma ext_mat_T (T T' : nat -> nat -> nat -> nat -> A) E : (forall l r u d, T l r u d = T' l r u d) -> ext_mat H V T E = ext_mat H V T' E.
Proof. intros ET. unfold ext_mat. apply mat2_ext. intros p q _ _. unfold ext_c. apply sumN_ext. intros x _. apply sumN_ext. intros l _. apply sumN_ext. intros d _. now rewrite ET. Qed.
Lemma step_env_T (T T' : nat -> nat -> nat -> nat -> A) E lib chi : (forall l r u d, T l r u d = T' l r u d) -> same_env H V (step_env H V T E lib chi) (step_env H V T' E lib chi).
Proof.
  intros ET. pose proof (ext_mat_T T T' E ET) as EM. split; cbn [step_env e_k e_c e_h e_v]; [reflexivity|..].
  - intros z _. unfold cut_s. now rewrite EM.
  - intros y z u _ _ _. unfold red_h, cut_v. rewrite EM. apply sumN_ext. intros p _. apply sumN_ext. intros q _. f_equal. unfold ext_h. apply sumN_ext. intros d _. now rewrite ET.
  - intros y z r _ _ _. unfold red_v, cut_u. rewrite EM. apply sumN_ext. intros p _. apply sumN_ext. intros q _. f_equal. unfold ext_v. apply sumN_ext. intros d _. now rewrite ET.
Qed.
Lemma same_trans (E E' E2 : env A) : same_env H V E E' -> same_env H V E' E2 -> same_env H V E E2.
Proof. intros [K EC EH EV] [K' FC FH FV]. rewrite K in *. split; auto; intros; [rewrite FC by assumption|rewrite FH by assumption|rewrite FV by assumption]; auto. Qed.
Lemma same_scaled (E E' : env A) : same_env H V E E' -> scaled H V E E' r1 r1 r1.
Proof. intros [K EC EH EV]. split; auto; intros; rewrite ?EC, ?EH, ?EV by assumption; ring. Qed.
Lemma same_divided {B} (num : numerics A B) (E E' E2 : env A) nc nh nv : same_env H V E E' -> divided num H V E' E2 nc nh nv -> invertible num nc -> invertible num nh -> invertible num nv -> scaled H V E E2 nc nh nv.
Proof.
  intros [K EC EH EV] [K' FC FH FV] I1 I2 I3. rewrite K in *. split; auto.
  - intros. rewrite FC, EC by (rewrite ?K; assumption). rewrite <- (I1 (e_c E z)) at 1. ring.
  - intros. rewrite FH, EH by (rewrite ?K; assumption). rewrite <- (I2 (e_h E y z u)) at 1. ring.
  - intros. rewrite FV, EV by (rewrite ?K; assumption). rewrite <- (I3 (e_v E y z r)) at 1. ring.
Qed.
End Env.

Section Run.
Context {A B : Type} {HA : SR A}.
Notation heap := (heap A).
Notation world := (world A).
Notation ctmrg := (ctmrg A B).
Variable symdiff : list nat -> list nat -> list nat.
Hypothesis Hsd : symdiff_ok symdiff.
Variable fuel : nat.
Variable num : numerics A B.
Variable ex : exponential A B.
Notation lib := (nu_lib num).
Add Ring CRring : (@SR_theory A HA).
(** ** getZ first iterates *)
Lemma push_length (g g' : ctmrg) (w w' : world) : pushTensors g w = (w', Ok g') -> List.length (m_cRec g') = S (List.length (m_cRec g)).
Proof. intros R. unfold pushTensors in R. apply wbind_inv in R. destruct R as (? & ? & _ & R). apply wbind_inv in R. destruct R as (? & ? & _ & R). apply wbind_inv in R. destruct R as (? & ? & _ & R). injection R as _ <-. cbn [m_cRec]. rewrite app_length. cbn. lia. Qed.
Lemma iterate_length (g g' : ctmrg) (w w' : world) ns : iterateC symdiff fuel num g w = (w', Ok (g', ns)) -> List.length (m_cRec g') = S (List.length (m_cRec g)).
Proof.
  intros R. unfold iterateC in R. apply wbind_inv in R. destruct R as (w1 & g1 & RP & R). rewrite <- (push_length _ _ _ _ RP). clear RP.
  do 6 (apply wbind_inv in R; destruct R as (? & ? & _ & R)). apply wbind_inv in R. destruct R as (? & (((? & ?) & ?) & ?) & _ & R). do 3 (apply wbind_inv in R; destruct R as (? & ? & _ & R)). injection R as _ <- _. reflexivity.
Qed.
Lemma growTo_turns turns : forall turns' order (g : ctmrg) (w : world), order - (List.length (m_cRec g) + 1) <= turns -> order - (List.length (m_cRec g) + 1) <= turns' -> growTo symdiff fuel num turns order g w = growTo symdiff fuel num turns' order g w.
Proof.
  induction turns as [|t IH]; intros [|t'] order g w H1 H2; cbn [growTo]; auto.
  - destruct (Nat.ltb_spec (List.length (m_cRec g) + 1) order); [lia|reflexivity].
  - destruct (Nat.ltb_spec (List.length (m_cRec g) + 1) order); [lia|reflexivity].
  - destruct (Nat.ltb_spec (List.length (m_cRec g) + 1) order); [|reflexivity]. unfold wbind. destruct (iterateC symdiff fuel num g w) as (w1 & [(g1 & ns)|e]) eqn:E; [|reflexivity]. cbn [fst]. pose proof (iterate_length _ _ _ _ _ E). apply IH; lia.
Qed.
Theorem getZ_iterates (g : ctmrg) L (w : world) : List.length (m_cRec g) + 1 < L / 2 -> getZ symdiff fuel num ex g L w = wbind (iterateC symdiff fuel num g) (fun p => getZ symdiff fuel num ex (fst p) L) w.
Proof.
  intros HL. assert (NL : Nat.eqb L 1 = false) by (destruct (Nat.eqb_spec L 1) as [->|]; [cbn in HL; lia|reflexivity]). unfold getZ at 1. rewrite NL. cbv zeta.
  match goal with |- wbind _ ?K w = _ => set (K0 := K) end.
  assert (GZ : forall g w, getZ symdiff fuel num ex g L w = wbind (growTo symdiff fuel num (L / 2) (L / 2) g) K0 w) by (intros; unfold getZ; rewrite NL; reflexivity).
  unfold wbind at 1 2. destruct (L / 2) as [|t] eqn:EL; [lia|]. cbn [growTo]. replace (Nat.ltb (List.length (m_cRec g) + 1) (S t)) with true by (symmetry; apply Nat.ltb_lt; lia). unfold wbind at 1.
  destruct (iterateC symdiff fuel num g w) as (w1 & [(g1 & ns)|e]) eqn:E; [|reflexivity]. cbn [fst]. rewrite GZ. unfold wbind. pose proof (iterate_length _ _ _ _ _ E). rewrite (growTo_turns t (S t) (S t) g1 w1) by lia. reflexivity.
Qed.
End Run.
