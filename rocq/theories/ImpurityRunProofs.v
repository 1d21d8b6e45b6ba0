(** Proofs about runs of impurity tensor networks. *)
From Coq Require Import List Arith Bool String Lia Permutation ZArith.
From Verif Require Import Base Sums FuncsModel FuncsSpec NdModel NdProofs NamedProofs HeapModel TensorModel TensorSpec TensorProofs CtorProofs CopyProofs ContractModel SvdModel CanonModel SearchSpec NetSpec FtnModel FtnNetSpec FtnFrameProofs
  NamedSpec NetsModel NetsSpec TorusSpec DoubleSpec TrgModel TrgSpec TorusProofs DoubleProofs DoubleGridProofs NamedMatProofs TrgProofs HotrgModel HotrgProofs HotrgRunProofs MomentSpec MomentProofs ImpurityModel ImpuritySpec MomentStepProofs ImpurityProofs HotrgSpec.
Import ListNotations.
Local Open Scope nat_scope.
Local Open Scope string_scope.
Local Open Scope list_scope.

Section Im.
Context {A B : Type} {HA : SR A}.
Notation heap := (heap A).
Notation world := (world A).
Notation fun4 := (nat -> nat -> nat -> nat -> A).
Notation hotrg := (hotrg A).
Notation impurityTN := (impurityTN A).
Variable symdiff : list nat -> list nat -> list nat.
Hypothesis SD : symdiff_ok symdiff.
Variable fuel : nat.
Variable num : numerics A B.
Variable half : A.
Add Ring Aringi : (@SR_theory A HA).
Local Open Scope sr_scope.
Notation two := (natA 2).

(** ** The algebra of one step *)
Lemma binom_sum i : sumN (S i) (fun j => natA (binom i j)) = pow two i :> A.
Proof.
  assert (E : forall j, conv (fun _ => 1) (fun _ => 1) j = pow two j :> A).
  { induction j as [|j IH]; [cbn; ring|]. change (conv (fun _ => 1) (fun _ => 1) (S j)) with (conv (shift (fun _ => 1)) (fun _ => 1) j + conv (fun _ => 1) (shift (fun _ => 1)) j).
    change (shift (fun _ => 1)) with (fun _ : nat => r1 : A). rewrite IH. cbn [pow natA]. ring. }
  rewrite <- E, conv_binom. apply sumN_eq. intros j _. ring.
Qed.
Hypothesis HH : half + half = 1.
Lemma pow_half i : pow two i * pow half i = 1.
Proof.
  induction i as [|i IH]; [cbn; ring|]. cbn [pow]. transitivity ((pow two i * pow half i) * (half + half)); [cbn [natA]; ring|]. rewrite IH, HH. ring.
Qed.
Lemma total_one i : total_weight half i = 1.
Proof. unfold total_weight, weight. rewrite sumN_mul_r, binom_sum. apply pow_half. Qed.
Hypothesis I1 : invertible num 1.
Lemma step_entry (n m x : A) i : invertible num n -> x = nu_div num (nu_div num (m * pow half i) (total_weight half i)) n -> n * (pow two i * x) = m.
Proof.
  intros IN ->. rewrite total_one. transitivity (pow two i * (nu_div num (nu_div num (m * pow half i) 1) n * n)); [ring|]. rewrite IN.
  transitivity (pow two i * (nu_div num (m * pow half i) 1 * 1)); [ring|]. rewrite I1. transitivity (pow two i * pow half i * m); [ring|]. rewrite pow_half. ring.
Qed.

Lemma count_le {X} `{Dec X} (x : X) l : (count x l <= List.length l)%nat.
Proof. induction l as [|y l IH]; cbn [count List.length]; [lia|]. destruct (dec x y); lia. Qed.
Lemma words_length {X} n (l : list X) ps : In ps (words n l) -> List.length ps = n.
Proof.
  revert ps. induction n as [|n IH]; intros ps Hps; cbn [words] in Hps; [destruct Hps as [<-|[]]; reflexivity|].
  apply in_flat_map in Hps. destruct Hps as (x & _ & Hps). apply in_map_iff in Hps. destruct Hps as (q & <- & Hq). cbn. rewrite (IH q Hq). reflexivity.
Qed.
#[local] Existing Instance SR_mom.
(** the step over sequences *)
Lemma moment_step (L : lattice) K d V H k (T T' : nat -> fun4) (P Q : nat -> nat -> A) n i : torus L -> In d dirs -> (i < K)%nat ->
  (forall i j, (i + j < K)%nat -> lossless_pair (kept d V H) (cut d V H) k (turn d (T i)) (turn d (T j)) P Q) ->
  (forall i u l dd r, (i < K)%nat -> (u < newV d V k)%nat -> (l < newH d H k)%nat -> (dd < newV d V k)%nat -> (r < newH d H k)%nat ->
     n * (pow two i * T' i u l dd r) = sumN (S i) (fun j => natA (binom i j) * unturn d (fused (kept d V H) (cut d V H) (turn d (T j)) (turn d (T (i - j)%nat)) P Q) u l dd r)) ->
  placements (double d L) H V T i = pow n (List.length (sites L)) * pow two i * placements L (newH d H k) (newV d V k) T' i.
Proof.
  intros TL Hd Hi LL E. unfold placements.
  assert (ND2 : NoDup (sites (double d L))) by apply (double_torus d L TL). assert (ND : NoDup (sites L)) by apply TL.
  assert (C1 : coef (partition (double d L) H V (fun _ => lt K T)) i = sumL (words i (sites (double d L))) (fun ps => partition (double d L) H V (fun x => T (count x ps)))).
  { rewrite partition_coef by assumption. apply sumL_ext. intros ps Hps. unfold partition. apply so_ext. intros h. apply so_ext. intros v. apply prodL_ext. intros x _. unfold lt.
    apply (coef_mk K (fun j => T j _ _ _ _)). assert (count x ps <= List.length ps)%nat by apply count_le. rewrite (words_length _ _ _ Hps) in *. lia. }
  rewrite <- C1. rewrite <- (fuse_step L d (lt K T) (fun x o => cst K (P x o)) (fun x o => cst K (Q x o)) V H k TL Hd).
  2:{ intros u a b dd c e Hu Ha Hb Hdd Hc He. 
      assert (X := lossless_lt K (kept d V H) (cut d V H) k (fun j => turn d (T j)) P Q LL u a b dd c e Hu Ha Hb Hdd Hc He).
      assert (EP : forall u a b d' c e, pillar (kept d V H) (turn d (lt K T)) (turn d (lt K T)) u a b d' c e = pillar (kept d V H) (lt K (fun j => turn d (T j))) (lt K (fun j => turn d (T j))) u a b d' c e).
      { intros. unfold pillar. apply sumN_eq. intros y _. rewrite !turn_lt. reflexivity. }
      rewrite EP, <- X. apply sumN_eq. intros o _. f_equal. apply sumN_eq. intros a' _. apply sumN_eq. intros b' _. rewrite EP. reflexivity. }
  transitivity (coef (partition L (newH d H k) (newV d V k) (fun _ u l dd r => cst K n * dilate K two (lt K T' u l dd r))) i).
  - f_equal. apply partition_range; [exact TL|]. intros x u l dd r _ Hu Hl Hdd Hr. apply mom_ext. intros q Hq. rewrite (rmul_comm (cst K n)), coef_cst_r by exact Hq. unfold dilate. rewrite coef_mk by exact Hq.
    unfold lt at 3. rewrite coef_mk by exact Hq. rewrite (rmul_comm _ n), E by assumption.
    rewrite (unturn_ext d (fused (kept d V H) (cut d V H) (turn d (lt K T)) (turn d (lt K T)) (fun x o => cst K (P x o)) (fun x o => cst K (Q x o)))
      (fused (kept d V H) (cut d V H) (lt K (fun j => turn d (T j))) (lt K (fun j => turn d (T j))) (fun x o => cst K (P x o)) (fun x o => cst K (Q x o)))) by (apply fused_ext; intros; apply turn_lt).
    rewrite (unturn_point d (fun z : mom K => coef z q)). 
    rewrite (unturn_ext d _ (fun u l dd r => sumN (S q) (fun j => natA (binom q j) * fused (kept d V H) (cut d V H) (turn d (T j)) (turn d (T (q - j)%nat)) P Q u l dd r))) by (intros; apply fused_coef; exact Hq).
    unfold unturn. destruct (String.eqb d "l"); [reflexivity|]. destruct (String.eqb d "r"); [reflexivity|]. destruct (String.eqb d "u"); reflexivity.
  - rewrite partition_scale, <- dilate_partition, <- cst_pow, (rmul_comm (cst K _)), coef_cst_r by exact Hi. unfold dilate at 1. rewrite coef_mk by exact Hi.
    rewrite partition_coef by assumption. replace (sumL (words i (sites L)) (fun ps => partition L (newH d H k) (newV d V k) (fun x u l dd r => coef (lt K T' u l dd r) (count x ps)))) with
      (sumL (words i (sites L)) (fun ps => partition L (newH d H k) (newV d V k) (fun x => T' (count x ps)))); [ring|].
    apply sumL_ext. intros ps Hps. unfold partition. apply so_ext. intros h. apply so_ext. intros v. apply prodL_ext. intros x _. unfold lt. symmetry.
    apply (coef_mk K (fun j => T' j _ _ _ _)). assert (count x ps <= List.length ps)%nat by apply count_le. rewrite (words_length _ _ _ Hps) in *. lia.
Qed.

(** ** One step of the program *)
Lemma one_stepI (w w' : world) (s s' : impurityTN) g dof V H k d P : iterateI symdiff fuel num half s w = (w', Ok s') -> istate w s g dof V H -> i_init s = true ->
  nth_error (o_choices g) (i_idx s) = Some d -> nth_error (o_projs g) (i_idx s) = Some P -> wfa P -> ashape P = [(cut d V H * cut d V H)%nat; k] ->
  (forall i j, (i + j < i_order s)%nat -> lossless_pair (kept d V H) (cut d V H) k (turn d (imp_entry (w_heap w) s i)) (turn d (imp_entry (w_heap w) s j)) (fun x o => aget P [x; o]) (fun x o => nu_conj num (aget P [x; o]))) ->
  exists n, nth_error (o_norms g) (S (i_idx s)) = Some n /\ In d dirs /\ forall L i, torus L -> invertible num n -> (i < i_order s)%nat ->
    placements (double d L) H V (imp_entry (w_heap w) s) i = pow n (List.length (sites L)) * pow two i * placements L (newH d H k) (newV d V k) (imp_entry (w_heap w') s') i.
Proof.
  intros R IS In0 Hd HP WP SP LL. destruct (iterateI_ok num half symdiff SD fuel w w' s s' g dof V H k d P R IS In0 Hd HP WP SP) as (n & cs & En & Hdir & _ & _ & _ & _ & _ & _ & _ & _ & EV).
  exists n. split; [exact En|]. split; [exact Hdir|]. intros L i TL IN Hi. apply (moment_step L (i_order s) d V H k _ _ _ _ n i TL Hdir Hi LL).
  intros q u l dd r Hq Hu Hl Hdd Hr. apply (step_entry n _ _ q IN). rewrite EV by assumption. f_equal. f_equal. unfold mixed. rewrite <- sumN_mul_r. apply sumN_eq. intros j _. unfold weight. ring.
Qed.

(** ** Many steps *)
Lemma runI_state g w0 (s0 : impurityTN) V0 H0 n w s V H dof : exact_runI num half symdiff fuel g w0 s0 V0 H0 n w s V H -> istate w0 s0 g dof V0 H0 -> i_init s0 = true -> i_idx s0 = O ->
  istate w s g (2 ^ n * dof) V H /\ i_init s = true /\ i_order s = i_order s0 /\ i_idx s = n /\ grown (w_heap w0) (w_heap w) /\ (n <= List.length (o_choices g))%nat /\ (S n <= List.length (o_norms g) \/ n = 0)%nat /\
  i_norms s = i_norms s0 ++ firstn n (tl (o_norms g)) /\ exists ar, i_archive s = i_archive s0 ++ ar /\ List.length ar = n.
Proof.
  intros RN IS In0 Id0. induction RN as [|n w s V H d P k w' s' RN IH R Hd HP WP SP LL].
  - cbn [Nat.pow]. rewrite Nat.mul_1_l. split; [exact IS|]. split; [exact In0|]. split; [reflexivity|]. split; [exact Id0|]. split; [apply grown_refl|]. split; [lia|]. split; [right; reflexivity|]. cbn [firstn]. split; [rewrite app_nil_r; reflexivity|].
    exists []. split; [rewrite app_nil_r; reflexivity|reflexivity].
  - destruct IH as (IS1 & In1 & O1 & Id1 & G1 & L1 & L2 & N1 & ar & A1 & LA). rewrite <- Id1 in Hd, HP.
    destruct (iterateI_ok num half symdiff SD fuel w w' s s' g _ V H k d P R IS1 In1 Hd HP WP SP) as (x & cs & En & Hdir & IS2 & In2 & O2 & Id2 & N2 & A2 & AR & G2 & _).
    replace (2 ^ S n * dof)%nat with (2 * (2 ^ n * dof))%nat by (cbn; lia). split; [exact IS2|]. split; [exact In2|]. split; [congruence|]. split; [congruence|]. split; [eapply grown_trans; eassumption|].
    rewrite Id1 in *. split; [assert (n < List.length (o_choices g))%nat by (apply nth_error_Some; congruence); lia|].
    assert (LS : (S n < List.length (o_norms g))%nat) by (apply nth_error_Some; congruence). split; [left; lia|]. split.
    + rewrite N2, N1, <- app_assoc. f_equal. destruct (o_norms g) as [|a l]; [discriminate En|]. cbn [tl nth_error] in *. clear - En. revert l En. induction n as [|n IH]; intros [|b l] En; cbn in *; try discriminate En; [congruence|]. f_equal. apply IH. exact En.
    + exists (ar ++ [cs]). split; [rewrite A2, A1, app_assoc; reflexivity|]. rewrite app_length, LA. cbn. lia.
Qed.
Lemma pow_one n : pow 1 n = 1 :> A.
Proof. induction n as [|n IH]; [reflexivity|]. cbn [pow]. rewrite IH. ring. Qed.
Lemma firstn_snoc {X} (l : list X) n x : nth_error l n = Some x -> firstn (S n) l = firstn n l ++ [x].
Proof. revert l. induction n as [|n IH]; intros [|y l] E; cbn in *; try discriminate; [congruence|]. f_equal. apply IH. exact E. Qed.
Lemma runI_value g w0 (s0 : impurityTN) V0 H0 n w s V H dof : exact_runI num half symdiff fuel g w0 s0 V0 H0 n w s V H -> istate w0 s0 g dof V0 H0 -> i_init s0 = true -> i_idx s0 = O ->
  (forall x, In x (o_norms g) -> invertible num x) -> forall L i, torus L -> (i < i_order s0)%nat ->
  placements (fine (firstn n (o_choices g)) L) H0 V0 (imp_entry (w_heap w0) s0) i = pow (norm_product (firstn n (tl (o_norms g)))) (List.length (sites L)) * pow (pow two n) i * placements L H V (imp_entry (w_heap w) s) i.
Proof.
  intros RN IS In0 Id0 IN. induction RN as [|n w s V H d P k w' s' RN IH R Hd HP WP SP LL]; intros L i TL Hi.
  - cbn [firstn norm_product fine pow]. rewrite !pow_one. ring.
  - destruct (runI_state _ _ _ _ _ _ _ _ _ _ _ RN IS In0 Id0) as (IS1 & In1 & O1 & Id1 & _). assert (Hd' := Hd). rewrite <- Id1 in Hd', HP.
    destruct (one_stepI w w' s s' g _ V H k d P R IS1 In1 Hd' HP WP SP LL) as (x & En & Hdir & X). rewrite Id1 in En.
    assert (Et : nth_error (tl (o_norms g)) n = Some x) by (destruct (o_norms g); [discriminate En|exact En]).
    rewrite (firstn_snoc _ _ _ Hd), (firstn_snoc _ _ _ Et), fine_snoc. rewrite (IH (double d L)) by (first [exact Hi|apply double_torus; exact TL]).
    rewrite X by (first [exact TL|apply IN; eapply nth_error_In; exact En|rewrite O1; exact Hi]). rewrite norm_product_snoc, double_size.
    cbn [pow]. rewrite !pow_mul. replace (2 * List.length (sites L))%nat with (List.length (sites L) + List.length (sites L))%nat by lia. rewrite pow_add. ring.
Qed.
(** the copies in the archive *)
Lemma runI_archive g w0 (s0 : impurityTN) V0 H0 n w s V H dof c0 : exact_runI num half symdiff fuel g w0 s0 V0 H0 n w s V H -> istate w0 s0 g dof V0 H0 -> i_init s0 = true -> i_idx s0 = O ->
  i_archive s0 = [c0] -> archived_all (w_heap w0) s0 c0 V0 H0 -> (forall x, In x (o_norms g) -> invertible num x) ->
  List.length (i_archive s) = S n /\ forall m, (m <= n)%nat -> exists cs Vm Hm, nth_error (i_archive s) m = Some cs /\ List.length cs = i_order s0 /\ (forall c, In c cs -> square (w_heap w) c Vm Hm) /\
    forall L i, torus L -> (i < i_order s0)%nat -> placements (fine (firstn m (o_choices g)) L) H0 V0 (imp_entry (w_heap w0) s0) i =
      pow (norm_product (firstn m (tl (o_norms g)))) (List.length (sites L)) * pow (pow two m) i * placements L Hm Vm (fun j => entry4 (w_heap w) (nth j cs O)) i.
Proof.
  intros RN IS In0 Id0 A0 AR0 IN.
  assert (PE : forall w (s : impurityTN) cs V H L i, archived_all (w_heap w) s cs V H -> torus L -> (i < i_order s)%nat -> placements L H V (imp_entry (w_heap w) s) i = placements L H V (fun j => entry4 (w_heap w) (nth j cs O)) i).
  { clear. intros w s cs V H L i (LC & X) TL Hi. unfold placements. apply sumL_ext. intros ps Hps. apply partition_range; [exact TL|]. intros x u l d r _ _ _ _ _.
    assert (count x ps <= List.length ps)%nat by apply count_le. rewrite (words_length _ _ _ Hps) in *. assert (Lx : (count x ps < List.length cs)%nat) by lia.
    destruct (X (count x ps) (nth (count x ps) cs O) (nth_error_nth' _ O Lx)) as (_ & _ & E). rewrite E. reflexivity. }
  induction RN as [|n w s V H d P k w' s' RN IH R Hd HP WP SP LL].
  - rewrite A0. split; [reflexivity|]. intros m Hm. assert (m = 0)%nat as -> by lia. exists c0, V0, H0. split; [reflexivity|]. destruct AR0 as (LC & X). split; [exact LC|]. split.
    + intros c Hc. apply In_nth_error in Hc. destruct Hc as (i & Hi). apply (X i c Hi).
    + intros L i TL Hi. cbn [firstn norm_product fine pow]. rewrite !pow_one. rewrite <- (PE w0 s0 c0 V0 H0 L i (conj LC X) TL Hi). ring.
  - destruct (runI_state _ _ _ _ _ _ _ _ _ _ _ RN IS In0 Id0) as (IS1 & In1 & O1 & Id1 & _). assert (Hd' := Hd). assert (HP' := HP). rewrite <- Id1 in Hd', HP'.
    destruct (iterateI_ok num half symdiff SD fuel w w' s s' g _ V H k d P R IS1 In1 Hd' HP' WP SP) as (x & cs & En & Hdir & IS2 & In2 & O2 & Id2 & N2 & A2 & AR & G2 & _).
    destruct IH as (LA & IH). rewrite A2. split; [rewrite app_length, LA; cbn; lia|]. intros m Hm. destruct (Nat.eq_dec m (S n)) as [->|NE].
    + exists cs, (newV d V k), (newH d H k). split; [rewrite nth_error_app2 by lia; rewrite LA, Nat.sub_diag; reflexivity|]. pose proof AR as (LC & X). split; [congruence|]. split.
      * intros c Hc. apply In_nth_error in Hc. destruct Hc as (i & Hi). apply (X i c Hi).
      * intros L i TL Hi. rewrite <- (PE w' s' cs _ _ L i AR TL) by congruence. 
        apply (runI_value g w0 s0 V0 H0 (S n) w' s' _ _ dof); [eapply ei_step; eassumption|assumption..].
    + destruct (IH m) as (cm & Vm & Hm' & Em & LC & SQ & X); [lia|]. exists cm, Vm, Hm'. split; [rewrite nth_error_app1 by lia; exact Em|]. split; [exact LC|]. split.
      * intros c Hc. apply (grown_dense _ _ _ _ G2 (SQ c Hc)).
      * intros L i TL Hi. rewrite X by assumption. f_equal. unfold placements. apply sumL_ext. intros ps Hps. apply partition_range; [exact TL|]. intros y u l dd r _ _ _ _ _.
        assert (count y ps <= List.length ps)%nat by apply count_le. rewrite (words_length _ _ _ Hps) in *. unfold entry4. symmetry. apply (grown_dense _ _ _ _ G2 (SQ (nth (count y ps) cm O) ltac:(apply nth_In; lia))).
Qed.
End Im.
