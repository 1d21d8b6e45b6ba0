(** Proofs about the constructor, the observables and the errors of impurity tensor networks. *)
From Coq Require Import List Arith Bool String Lia Permutation ZArith.
From Verif Require Import Base Sums FuncsModel FuncsSpec NdModel NdProofs NamedProofs HeapModel TensorModel TensorSpec TensorProofs CtorProofs CopyProofs ContractModel SvdModel CanonModel SearchSpec NetSpec FtnModel FtnNetSpec FtnFrameProofs
  NamedSpec NetsModel NetsSpec TorusSpec DoubleSpec TrgModel TrgSpec TorusProofs TorusIsoProofs DoubleProofs DoubleGridProofs NamedMatProofs TrgProofs HotrgModel HotrgProofs HotrgRunProofs MomentSpec MomentProofs ImpurityModel ImpuritySpec MomentStepProofs ImpurityProofs ImpurityRunProofs HotrgSpec.
Import ListNotations.
Local Open Scope nat_scope.
Local Open Scope string_scope.
Local Open Scope list_scope.

Section Im.
Context {A B : Type} {HA : SR A}.
Notation heap := (heap A).
Notation world := (world A).
Notation fun4 := (nat -> nat -> nat -> nat -> A).
Notation hotrg := (hotrg A).
Notation impurityTN := (impurityTN A).
Variable symdiff : list nat -> list nat -> list nat.
Hypothesis SD : symdiff_ok symdiff.
Variable fuel : nat.
Variable num : numerics A B.
Variable half : A.
Add Ring Aringi : (@SR_theory A HA).
Notation two := (natA 2).

(** ** The constructor *)
Lemma copies_ok ts V H : forall (h h' : heap) cs, copyTensors ts h = (h', Ok cs) -> given_all h ts V H ->
  grown h h' /\ List.length cs = List.length ts /\ (forall i j, i < j < List.length cs -> fst (nth i cs (0, None)) < fst (nth j cs (0, None))) /\
  forall i t df, nth_error ts i = Some (t, df) -> exists c, nth_error cs i = Some (c, df) /\ ntens h <= c /\ square h' c V H /\ forall u l d r, entry4 h' c u l d r = entry4 h t u l d r.
Proof.
  induction ts as [|(t & df) ts IH]; intros h h' cs R GA; cbn [copyTensors] in R.
  - injection R as <- <-. split; [apply grown_refl|]. split; [reflexivity|]. split; [intros i j Hij; cbn in Hij; lia|]. intros [|i] t df; discriminate.
  - destruct (copy_named h t _ (GA (t, df) (or_introl eq_refl))) as (h1 & c & E1 & NT & Qc & EC). unfold bind at 1 in R. rewrite E1 in R. unfold bind in R.
    destruct (copyTensors ts h1) as (h2 & [cs'|e]) eqn:E2; [|discriminate R]. unfold ret in R. injection R as <- <-. pose proof (new_grown _ _ _ NT) as G1.
    destruct (IH h1 h2 cs' E2) as (G2 & LC & ND & P). { intros y Hy. apply (grown_dense _ _ _ _ G1 (GA y (or_intror Hy))). }
    split; [eapply grown_trans; eassumption|]. split; [cbn; congruence|]. split.
    + intros [|i] [|j] Hij; try lia; cbn [nth fst].
      * cbn [List.length] in Hij. destruct (nth_error ts j) as [(t' & df')|] eqn:Ej; [|apply nth_error_None in Ej; lia]. destruct (P j t' df' Ej) as (c' & Ec & Le & _). rewrite (nth_error_nth _ _ (0, None) Ec). cbn [fst].
        pose proof (nt_id _ _ _ _ NT). pose proof (nt_ntens _ _ _ _ NT). lia.
      * apply ND. cbn in Hij. lia.
    + intros [|i] t' df' Hn; cbn [nth_error] in Hn.
      * injection Hn as <- <-. exists c. split; [reflexivity|]. split; [rewrite (nt_id _ _ _ _ NT); lia|]. destruct (grown_dense _ _ _ _ G2 Qc) as (Q2 & E & _). split; [exact Q2|]. intros. unfold entry4. rewrite E, EC. reflexivity.
      * destruct (P i t' df' Hn) as (c' & Hc & Le & Qc' & Ec). exists c'. split; [exact Hc|]. split; [pose proof (gr_ntens _ _ G1); lia|]. split; [exact Qc'|].
        intros. rewrite Ec. apply (grown_dense _ _ _ _ G1 (GA (t', df') ltac:(right; eapply nth_error_In; exact Hn))).
Qed.
Lemma first_nth {X} (l : list X) : forall n i, i < n -> nth_error (firstn n l) i = nth_error l i.
Proof. induction l as [|x l IH]; intros [|n] [|i] Hi; cbn; try lia; auto. apply IH. lia. Qed.
Lemma new_imp_ok ts ho V H (w w' : world) (s : impurityTN) : newImpurityTN ts ho w = (w', Ok s) -> given_all (w_heap w) ts V H ->
  let n := order_of ho ts in
  w' = with_heap w (w_heap w') /\ grown (w_heap w) (w_heap w') /\
  i_order s = n /\ i_rg s = None /\ i_archive s = [] /\ i_norms s = [] /\ i_idx s = 0 /\ i_init s = false /\ List.length (i_imps s) = n /\
  (forall i t df, i < n -> nth_error ts i = Some (t, df) -> nth_error (i_imps s) i = Some (Some (imp s i, df)) /\ ntens (w_heap w) <= imp s i /\ square (w_heap w') (imp s i) V H /\
     forall u l d r, imp_entry (w_heap w') s i u l d r = entry4 (w_heap w) t u l d r) /\
  (forall i, List.length ts <= i < n -> nth_error (i_imps s) i = Some None) /\
  (forall i j, i < n -> j < n -> i < List.length ts -> j < List.length ts -> imp s i = imp s j -> i = j).
Proof.
  intros R GA n. unfold newImpurityTN in R. apply wbind_inv in R. destruct R as (w1 & cs & R1 & R). apply lift_inv in R1. destruct R1 as (h1 & R1 & ->).
  destruct (copies_ok ts V H _ _ _ R1 GA) as (G & LC & ND & P). injection R as <- <-. cbn [i_order i_rg i_archive i_norms i_idx i_init i_imps with_heap w_heap].
  rewrite !map_length. fold (order_of ho ts). fold n. rewrite LC.
  set (l := if Nat.ltb n (List.length ts) then firstn n (map Some cs) else map Some cs ++ repeat None (n - List.length ts)).
  assert (LL : List.length l = n).
  { unfold l. destruct (Nat.ltb_spec n (List.length ts)); [rewrite firstn_length, map_length; lia|rewrite app_length, map_length, repeat_length; lia]. }
  assert (NL : forall i c df, i < n -> nth_error cs i = Some (c, df) -> nth_error l i = Some (Some (c, df))).
  { intros i c df Hi E. assert (i < List.length cs) by (apply nth_error_Some; congruence). unfold l. destruct (Nat.ltb_spec n (List.length ts)).
    - rewrite first_nth by exact Hi. rewrite nth_error_map, E. reflexivity.
    - rewrite nth_error_app1 by (rewrite map_length; lia). rewrite nth_error_map, E. reflexivity. }
  set (s := mkImp l n None [] [] 0 false).
  assert (IM : forall i c df, i < n -> nth_error cs i = Some (c, df) -> imp s i = c) by (intros i c df Hi E; unfold imp, s; cbn [i_imps]; rewrite (NL i c df Hi E); reflexivity).
  split; [reflexivity|]. split; [exact G|]. repeat (split; [reflexivity|]). split; [exact LL|]. split; [|split].
  - intros i t df Hi E. destruct (P i t df E) as (c & Ec & Le & Q & EV). rewrite (IM i c df Hi Ec). split; [apply NL; assumption|]. split; [exact Le|]. split; [exact Q|]. intros. unfold imp_entry. rewrite (IM i c df Hi Ec). apply EV.
  - intros i Hi. unfold l. destruct (Nat.ltb_spec n (List.length ts)); [lia|]. rewrite nth_error_app2 by (rewrite map_length; lia). rewrite map_length, LC. apply nth_error_repeat. lia.
  - intros i j Hi Hj Hi' Hj' E. rewrite <- LC in *.
    assert (XX : forall q, q < n -> q < List.length cs -> imp s q = fst (nth q cs (0, None))).
    { intros q Hq Hq'. apply (IM q _ (snd (nth q cs (0, None)))); [exact Hq|]. rewrite <- surjective_pairing. apply nth_error_nth'. exact Hq'. }
    rewrite (XX i), (XX j) in E by assumption. destruct (Nat.lt_trichotomy i j) as [Hl|[He|Hg]]; [|exact He|].
    + specialize (ND i j). lia.
    + specialize (ND j i). lia.
Qed.
(** ** initialize *)
Lemma init_imp_ok (w w' : world) (s s' : impurityTN) g dof V H : initializeI num s w = (w', Ok s') -> istate w s g dof V H ->
  exists n cs, nth_error (o_norms g) 0 = Some n /\ istate w' s' g dof V H /\ i_init s' = true /\ i_order s' = i_order s /\ i_idx s' = i_idx s /\ i_norms s' = i_norms s ++ [n] /\ i_archive s' = i_archive s ++ [cs] /\ archived_all (w_heap w') s' cs V H /\
    (forall h0, grown h0 (w_heap w) -> (forall i, i < i_order s -> ntens h0 <= imp s i) -> grown h0 (w_heap w')) /\
    forall i u l d r, i < i_order s -> u < V -> l < H -> d < V -> r < H -> imp_entry (w_heap w') s' i u l d r = nu_div num (imp_entry (w_heap w) s i u l d r) n.
Proof.
  intros R IS. unfold initializeI in R. rewrite (is_rg _ _ _ _ _ _ IS) in R. apply wbind_inv in R. destruct R as (w1 & n & R1 & R). apply liftR_inv in R1. destruct R1 as (-> & R1). unfold getNorm in R1.
  destruct (nth_error (o_norms g) 0) as [n'|] eqn:En; [|discriminate R1]. injection R1 as ->. apply wbind_inv in R. destruct R as (w1 & s1 & R1 & R). injection R as <- <-.
  destruct (append_imp num w w1 s s1 g dof V H n R1 IS) as (cs & -> & IS' & AR & GF & _ & EV). exists n, cs. split; [reflexivity|]. cbn [i_imps i_order i_rg i_archive i_norms i_idx i_init].
  split; [destruct IS'; split; assumption|]. repeat (split; [reflexivity|]). split; [exact AR|]. split; [exact GF|exact EV].
Qed.

Lemma start_ok ts ho V H (w w' : world) (s : impurityTN) g dof : newImpurityTN ts ho w = (w', Ok s) -> given_all (w_heap w) ts V H -> nets_ready w g -> 0 < order_of ho ts <= List.length ts ->
  snd (nth 0 ts (0, None)) = Some dof -> istate w' (setRG s g) g dof V H /\ grown (w_heap w) (w_heap w') /\ i_order s = order_of ho ts /\ (forall i, i < i_order s -> ntens (w_heap w) <= imp (setRG s g) i) /\
  forall i u l d r, i < i_order s -> imp_entry (w_heap w') (setRG s g) i u l d r = given_entry (w_heap w) ts i u l d r.
Proof.
  intros R GA NR HO HD. destruct (new_imp_ok ts ho V H w w' s R GA) as (EW & G & EO & _ & _ & _ & _ & _ & LI & X & _ & Y).
  assert (IM : forall i, imp (setRG s g) i = imp s i) by reflexivity.
  assert (NT : forall i, i < order_of ho ts -> nth_error ts i = Some (fst (nth i ts (0, None)), snd (nth i ts (0, None)))) by (intros i Hi; rewrite <- surjective_pairing; apply nth_error_nth'; lia).
  split; [|split; [exact G|split; [exact EO|split]]].
  - split; cbn [setRG i_rg i_imps i_order].
    + reflexivity.
    + rewrite EW. apply nets_heap. exact NR.
    + congruence.
    + intros i Hi. rewrite EO in Hi. destruct (X i _ _ Hi (NT i Hi)) as (E & _ & Q & _). eexists. split; [exact E|exact Q].
    + destruct (X 0 _ _ (proj1 HO) (NT 0 (proj1 HO))) as (E & _). rewrite HD in E. exists (imp s 0). exact E.
    + intros i j Hi Hj E. rewrite EO in Hi, Hj. apply Y; try lia. exact E.
  - intros i Hi. rewrite EO in Hi. apply (X i _ _ Hi (NT i Hi)).
  - intros i u l d r Hi. rewrite EO in Hi. apply (X i _ _ Hi (NT i Hi)).
Qed.

(** ** Placements *)
Local Open Scope sr_scope.
Lemma placements_range (L : lattice) H V (I I' : nat -> fun4) i : torus L ->
  (forall j u l d r, (j <= i)%nat -> (u < V)%nat -> (l < H)%nat -> (d < V)%nat -> (r < H)%nat -> I j u l d r = I' j u l d r) -> placements L H V I i = placements L H V I' i.
Proof.
  intros TL E. unfold placements. apply sumL_ext. intros ps Hps. apply partition_range; [exact TL|]. intros x u l d r _ Hu Hl Hd Hr. apply E; try assumption.
  assert (count x ps <= List.length ps)%nat by apply count_le. rewrite (words_length _ _ _ Hps) in *. assumption.
Qed.
Lemma placements_scale (L : lattice) H V (I : nat -> fun4) c i : placements L H V (fun j u l d r => c * I j u l d r) i = pow c (List.length (sites L)) * placements L H V I i.
Proof. unfold placements. rewrite <- sumL_mul_l. apply sumL_ext. intros ps _. apply (partition_scale L H V (fun x => I (count x ps))). Qed.
#[local] Existing Instance SR_mom.
Lemma placements_coef (L : lattice) H V (I : nat -> fun4) i : torus L -> placements L H V I i = coef (partition L H V (fun _ => lt (S i) I)) i.
Proof.
  intros TL. rewrite partition_coef by (first [lia|apply TL]). unfold placements. apply sumL_ext. intros ps Hps. unfold partition. apply so_ext. intros h. apply so_ext. intros v. apply prodL_ext. intros x _. unfold lt. symmetry.
  apply (coef_mk (S i) (fun j => I j _ _ _ _)). assert (count x ps <= List.length ps)%nat by apply count_le. rewrite (words_length _ _ _ Hps) in *. lia.
Qed.
Lemma placements_fine ds H V (I : nat -> fun4) i : placements (fine ds (grid 1 1)) H V I i = placements (grid (2 ^ col_steps ds) (2 ^ row_steps ds)) H V I i.
Proof. rewrite !placements_coef by (first [apply grid_torus|apply fine_torus, grid_torus]). rewrite partition_fine. reflexivity. Qed.
Lemma placements_one H V (I : nat -> fun4) i : placements (grid 1 1) H V I i = partition (grid 1 1) H V (fun _ => I i).
Proof.
  unfold placements. assert (E : words i (sites (grid 1 1)) = [repeat (0, 0)%nat i]).
  { change (sites (grid 1 1)) with [(0, 0)%nat]. induction i as [|i IH]; [reflexivity|]. cbn [words flat_map]. rewrite IH. reflexivity. }
  rewrite E. cbn [sumL]. transitivity (partition (grid 1 1) H V (fun x => I (count x (repeat (0, 0)%nat i)))); [ring|]. apply partition_range; [apply grid_torus|].
  intros x u l d r Hx _ _ _ _. destruct Hx as [<-|[]]. f_equal. induction i as [|i IH]; [reflexivity|]. cbn [repeat count]. destruct (dec (0, 0)%nat (0, 0)%nat); [|congruence]. cbn. f_equal. apply IH.
  clear. induction i as [|i IH]; [reflexivity|]. cbn [words flat_map]. rewrite IH. reflexivity.
Qed.

(** ** The whole run *)
Hypothesis HH : half + half = 1.
Hypothesis I1 : invertible num 1.
Lemma pow_natA n : pow two n = natA (2 ^ n) :> A.
Proof. symmetry. apply natA_pow. Qed.
Theorem impurity_run ts ho V0 H0 (w w1 w2 w3 : world) (s1 s2 s3 : impurityTN) g dof n V H : newImpurityTN ts ho w = (w1, Ok s1) -> given_all (w_heap w) ts V0 H0 -> nets_ready w g ->
  (0 < order_of ho ts <= List.length ts)%nat -> snd (nth 0 ts (O, None)) = Some dof -> initializeI num (setRG s1 g) w1 = (w2, Ok s2) -> exact_runI num half symdiff fuel g w2 s2 V0 H0 n w3 s3 V H ->
  istate w3 s3 g (2 ^ n * dof) V H /\ i_order s3 = order_of ho ts /\ i_norms s3 = firstn (S n) (o_norms g) /\ List.length (i_norms s3) = S n /\ List.length (i_archive s3) = S n /\ (n <= List.length (o_choices g))%nat /\ grown (w_heap w) (w_heap w3).
Proof.
  intros R GA NR HO HD R2 RN. destruct (start_ok ts ho V0 H0 w w1 s1 g dof R GA NR HO HD) as (IS & G & EO & LE & EV).
  destruct (init_imp_ok w1 w2 (setRG s1 g) s2 g dof V0 H0 R2 IS) as (n0 & cs & En & IS2 & In2 & O2 & Id2 & N2 & A2 & AR & GF & EV2).
  destruct (new_imp_ok ts ho V0 H0 w w1 s1 R GA) as (_ & _ & _ & _ & EA & EN & EI & _).
  cbn [setRG i_order i_idx i_norms i_archive] in O2, Id2, N2, A2. rewrite EA in A2. rewrite EN in N2. cbn [app] in A2, N2.
  destruct (runI_state symdiff SD fuel num half g w2 s2 V0 H0 n w3 s3 V H dof RN IS2 In2 ltac:(congruence)) as (IS3 & _ & O3 & _ & G3 & LC & LN & N3 & ar & A3 & LA).
  assert (EF : i_norms s3 = firstn (S n) (o_norms g)). { rewrite N3, N2. destruct (o_norms g); [discriminate En|]. cbn in En. injection En as ->. reflexivity. }
  split; [exact IS3|]. split; [congruence|]. split; [exact EF|]. split.
  { rewrite EF. apply firstn_length_le. destruct LN as [LN| ->]; [exact LN|]. assert (0 < List.length (o_norms g))%nat by (apply nth_error_Some; congruence). lia. }
  split; [rewrite A3, A2, app_length, LA; reflexivity|]. split; [exact LC|]. eapply grown_trans; [|exact G3]. apply GF; [exact G|exact LE].
Qed.
Theorem impurity_archive ts ho V0 H0 (w w1 w2 w3 : world) (s1 s2 s3 : impurityTN) g dof n V H : newImpurityTN ts ho w = (w1, Ok s1) -> given_all (w_heap w) ts V0 H0 -> nets_ready w g ->
  (0 < order_of ho ts <= List.length ts)%nat -> snd (nth 0 ts (O, None)) = Some dof -> initializeI num (setRG s1 g) w1 = (w2, Ok s2) -> exact_runI num half symdiff fuel g w2 s2 V0 H0 n w3 s3 V H ->
  (forall x, In x (o_norms g) -> invertible num x) ->
  forall m, (m <= n)%nat -> exists cs Vm Hm, nth_error (i_archive s3) m = Some cs /\ List.length cs = order_of ho ts /\ (forall c, In c cs -> square (w_heap w3) c Vm Hm) /\
    forall L i, torus L -> (i < order_of ho ts)%nat -> placements (fine (firstn m (o_choices g)) L) H0 V0 (given_entry (w_heap w) ts) i =
      pow (norm_product (firstn (S m) (o_norms g))) (List.length (sites L)) * pow (natA (2 ^ m)) i * placements L Hm Vm (fun j => entry4 (w_heap w3) (nth j cs O)) i.
Proof.
  intros R GA NR HO HD R2 RN IN. destruct (start_ok ts ho V0 H0 w w1 s1 g dof R GA NR HO HD) as (IS & G & EO & LE & EV).
  destruct (impurity_run ts ho V0 H0 w w1 w2 w3 s1 s2 s3 g dof n V H R GA NR HO HD R2 RN) as (_ & _ & EF & LF & _ & LC & _).
  destruct (init_imp_ok w1 w2 (setRG s1 g) s2 g dof V0 H0 R2 IS) as (n0 & cs & En & IS2 & In2 & O2 & Id2 & N2 & A2 & AR & GF & EV2).
  destruct (new_imp_ok ts ho V0 H0 w w1 s1 R GA) as (_ & _ & _ & _ & EA & EN & EI & _).
  cbn [setRG i_order i_idx i_norms i_archive] in O2, Id2, N2, A2, EV2. rewrite EA in A2. cbn [app] in A2.
  destruct (runI_archive symdiff SD fuel num half HH I1 g w2 s2 V0 H0 n w3 s3 V H dof cs RN IS2 In2 ltac:(congruence) A2 AR IN) as (_ & X).
  intros m Hm. destruct (X m Hm) as (cm & Vm & Hm' & Em & LCm & SQ & XX). exists cm, Vm, Hm'. split; [exact Em|]. split; [congruence|]. split; [exact SQ|].
  intros L i TL Hi. assert (TF : torus (fine (firstn m (o_choices g)) L)) by (apply fine_torus; exact TL).
  assert (LM : List.length (firstn m (o_choices g)) = m) by (apply firstn_length_le; lia).
  transitivity (pow n0 (List.length (sites (fine (firstn m (o_choices g)) L))) * placements (fine (firstn m (o_choices g)) L) H0 V0 (imp_entry (w_heap w2) s2) i).
  - rewrite <- placements_scale. apply placements_range; [exact TF|]. intros j u l d r Hj Hu Hl Hd Hr. rewrite EV2 by (first [assumption|lia]). rewrite rmul_comm. rewrite (IN n0 ltac:(eapply nth_error_In; exact En)). symmetry. apply EV. lia.
  - rewrite (XX L i TL) by (rewrite O2, EO; exact Hi). rewrite pow_fine, LM. assert (LT : List.length (firstn m (tl (o_norms g))) = m).
    { rewrite EF in LF. rewrite firstn_length in LF. apply firstn_length_le. destruct (o_norms g); cbn in *; lia. }
    assert (EP : norm_product (firstn (S m) (o_norms g)) = pow n0 (2 ^ m) * norm_product (firstn m (tl (o_norms g)))).
    { destruct (o_norms g) as [|a l]; [discriminate En|]. cbn in En. injection En as ->. cbn [tl] in LT |- *. cbn [firstn norm_product]. rewrite LT. reflexivity. }
    rewrite EP, pow_mul, pow_natA. ring.
Qed.

(** ** Observables *)
Lemma measureRow_ok (h : heap) g m y V H : forall cs, pureTensorTrace h g m = Ok y -> (forall c, In c cs -> square h c V H) ->
  measureRow num h g m cs = Ok (map (fun c => nu_div num (partition (grid 1 1) H V (fun _ => entry4 h c)) y) cs).
Proof.
  intros cs EY SQ. induction cs as [|c cs IH]; [reflexivity|]. cbn [measureRow map]. unfold tensorTrace. rewrite (square_trace _ _ _ _ (SQ c (or_introl eq_refl))). cbn [rbind]. rewrite EY. cbn [rbind].
  rewrite IH by (intros c' Hc; apply SQ; right; exact Hc). reflexivity.
Qed.
Lemma measureAux_ok (h : heap) g ys : forall ar m, (forall q, (q < List.length ar)%nat -> exists cs V H, nth_error ar q = Some cs /\ (forall c, In c cs -> square h c V H) /\ pureTensorTrace h g (m + q) = Ok (ys (m + q)%nat)) ->
  exists xss, measureAux num h g m ar = Ok xss /\ List.length xss = List.length ar /\ forall q cs V H, nth_error ar q = Some cs -> (forall c, In c cs -> square h c V H) ->
    nth_error xss q = Some (map (fun c => nu_div num (partition (grid 1 1) H V (fun _ => entry4 h c)) (ys (m + q)%nat)) cs).
Proof.
  induction ar as [|a ar IH]; intros m X; cbn [measureAux].
  - exists []. split; [reflexivity|]. split; [reflexivity|]. intros [|q] cs V H; discriminate.
  - destruct (X 0%nat) as (cs0 & V0 & H0 & E0 & SQ0 & P0); [cbn; lia|]. cbn in E0. injection E0 as ->. rewrite Nat.add_0_r in P0. rewrite (measureRow_ok h g m _ V0 H0 _ P0 SQ0). cbn [rbind].
    destruct (IH (S m)) as (xss & E & LX & XX). { intros q Hq. destruct (X (S q)) as (cs & V & H & E & SQ & P); [cbn; lia|]. exists cs, V, H. replace (S m + q)%nat with (m + S q)%nat by lia. auto. }
    rewrite E. cbn [rbind]. eexists. split; [reflexivity|]. split; [cbn; lia|]. intros [|q] cs V H Hn SQ; cbn [nth_error] in *.
    + injection Hn as <-. rewrite Nat.add_0_r. rewrite <- (measureRow_ok h g m _ V H _ P0 SQ) || idtac. f_equal. pose proof (measureRow_ok h g m _ V0 H0 _ P0 SQ0) as M1. rewrite (measureRow_ok h g m _ V H _ P0 SQ) in M1. injection M1 as M1. symmetry. exact M1.
    + replace (m + S q)%nat with (S m + q)%nat by lia. apply XX; assumption.
Qed.
Variable eig : eigen A.
Theorem impurity_measure (w0 wa wr w w1 w2 w3 : world) x chiH chiV dofx T ga g ds Vr Hr ts ho V0 H0 (s1 s2 s3 : impurityTN) dof n V H :
  newHotrg num (Some x) chiH chiV w0 = (wa, Ok ga) -> given (w_heap w0) x dofx V0 H0 T -> exact_runH eig num symdiff fuel wa ga V0 H0 ds wr g Vr Hr ->
  (forall x, In x (o_norms g) -> invertible num x) -> preserved (w_heap wr) (w_heap w) -> nets_ready w g ->
  newImpurityTN ts ho w = (w1, Ok s1) -> given_all (w_heap w) ts V0 H0 -> (0 < order_of ho ts <= List.length ts)%nat -> snd (nth 0 ts (O, None)) = Some dof ->
  initializeI num (setRG s1 g) w1 = (w2, Ok s2) -> exact_runI num half symdiff fuel g w2 s2 V0 H0 n w3 s3 V H ->
  (forall m y, (m <= n)%nat -> pureTensorTrace (w_heap w3) g m = Ok y -> invertible num y) ->
  exists xss, measureObservables num (w_heap w3) s3 = Ok xss /\ List.length xss = S n /\
    forall m i, (m <= n)%nat -> (i < order_of ho ts)%nat -> exists xs y, nth_error xss m = Some xs /\ List.length xs = order_of ho ts /\ nth_error xs i = Some y /\
      let L := grid (2 ^ col_steps (firstn m ds)) (2 ^ row_steps (firstn m ds)) in
      y * pow (natA (2 ^ m)) i * partition L H0 V0 (fun _ => T) = placements L H0 V0 (given_entry (w_heap w) ts) i.
Proof.
  intros RA GV RNH IN PR NR R GA HO HD R2 RN IY.
  destruct (runH_spec symdiff SD fuel num eig _ _ _ _ _ _ _ _ _ _ _ _ _ _ _ RA GV RNH) as (_ & _ & _ & _ & EC & _).
  destruct (hotrg_archive symdiff SD fuel num eig _ _ _ _ _ _ _ _ _ _ _ _ _ _ _ RA GV RNH IN) as (LA & XA).
  destruct (impurity_run ts ho V0 H0 w w1 w2 w3 s1 s2 s3 g dof n V H R GA NR HO HD R2 RN) as (IS3 & O3 & _ & _ & LA3 & LC & G).
  pose proof (impurity_archive ts ho V0 H0 w w1 w2 w3 s1 s2 s3 g dof n V H R GA NR HO HD R2 RN IN) as XI. rewrite EC in LC, XI.
  assert (PT : forall m, (m <= n)%nat -> exists y, pureTensorTrace (w_heap w3) g m = Ok y /\ partition (fine (firstn m ds) (grid 1 1)) H0 V0 (fun _ => T) = norm_product (firstn (S m) (o_norms g)) * y).
  { intros m Hm. destruct (XA m) as (c & Vi & Hi & Ei & Q & XX); [lia|]. destruct (PR _ _ Q) as (Q0 & EQ0). destruct (grown_dense _ _ _ _ G Q0) as (Q' & EQ1 & _). assert (EQ : forall gg, at_ (w_heap w3) c gg = at_ (w_heap wr) c gg) by (intros gg; rewrite EQ1; apply EQ0). unfold pureTensorTrace. rewrite Ei. cbn [fst]. unfold tensorTrace. rewrite (square_trace _ _ _ _ Q').
    eexists. split; [reflexivity|]. rewrite (XX _ (grid_torus 1 1)). change (List.length (sites (grid 1 1))) with 1%nat. cbn [pow]. 
    rewrite (partition_range (grid 1 1) Hi Vi (fun _ => entry4 (w_heap w3) c) (fun _ => entry4 (w_heap wr) c) (grid_torus 1 1)) by (intros; unfold entry4; apply EQ). ring. }
  set (ys := fun m => match pureTensorTrace (w_heap w3) g m with Ok y => y | Err _ => 0 end).
  assert (EY : forall m, (m <= n)%nat -> pureTensorTrace (w_heap w3) g m = Ok (ys m)) by (intros m Hm; unfold ys; destruct (PT m Hm) as (y & -> & _); reflexivity).
  unfold measureObservables. rewrite (is_rg _ _ _ _ _ _ IS3).
  destruct (measureAux_ok (w_heap w3) g ys (i_archive s3) 0) as (xss & E & LX & XX).
  { intros q Hq. destruct (XI q) as (cs & Vm & Hm & Em & _ & SQ & _); [lia|]. exists cs, Vm, Hm. split; [exact Em|]. split; [exact SQ|]. apply EY. cbn. lia. }
  exists xss. split; [exact E|]. split; [lia|]. intros m i Hm Hi. destruct (XI m Hm) as (cs & Vm & Hm' & Em & LCm & SQ & XL).
  pose proof (XX m cs Vm Hm' Em SQ) as EX. cbn [Nat.add] in EX. eexists. eexists. split; [exact EX|]. split; [rewrite map_length; exact LCm|].
  assert (Lc : (i < List.length cs)%nat) by lia. split. { rewrite nth_error_map, (nth_error_nth' _ O Lc). reflexivity. }
  cbv zeta. rewrite <- partition_fine, <- placements_fine. rewrite (XL (grid 1 1) i (grid_torus 1 1) Hi), placements_one. change (List.length (sites (grid 1 1))) with 1%nat. cbn [pow].
  destruct (PT m Hm) as (y & Ey & ->). assert (ys m = y) as -> by (unfold ys; rewrite Ey; reflexivity).
  transitivity (norm_product (firstn (S m) (o_norms g)) * pow (natA (2 ^ m)) i * (nu_div num (partition (grid 1 1) Hm' Vm (fun _ => entry4 (w_heap w3) (nth i cs O))) y * y)); [ring|]. rewrite (IY m y Hm Ey). ring.
Qed.
(** moments of the mean of an observable *)
Theorem impurity_moments (w0 wa wr w w1 w2 w3 : world) x chiH chiV dofx T ga g ds Vr Hr ts ho V0 H0 (s1 s2 s3 : impurityTN) dof n V H (o : fun4) :
  newHotrg num (Some x) chiH chiV w0 = (wa, Ok ga) -> given (w_heap w0) x dofx V0 H0 T -> exact_runH eig num symdiff fuel wa ga V0 H0 ds wr g Vr Hr ->
  (forall x, In x (o_norms g) -> invertible num x) -> preserved (w_heap wr) (w_heap w) -> nets_ready w g ->
  newImpurityTN ts ho w = (w1, Ok s1) -> given_all (w_heap w) ts V0 H0 -> (0 < order_of ho ts <= List.length ts)%nat -> snd (nth 0 ts (O, None)) = Some dof ->
  initializeI num (setRG s1 g) w1 = (w2, Ok s2) -> exact_runI num half symdiff fuel g w2 s2 V0 H0 n w3 s3 V H ->
  (forall m y, (m <= n)%nat -> pureTensorTrace (w_heap w3) g m = Ok y -> invertible num y) ->
  (forall j u l d r, (j < order_of ho ts)%nat -> (u < V0)%nat -> (l < H0)%nat -> (d < V0)%nat -> (r < H0)%nat -> given_entry (w_heap w) ts j u l d r = T u l d r * pow (o u l d r) j) ->
  exists xss, measureObservables num (w_heap w3) s3 = Ok xss /\ List.length xss = S n /\
    forall m i, (m <= n)%nat -> (i < order_of ho ts)%nat -> exists xs y, nth_error xss m = Some xs /\ List.length xs = order_of ho ts /\ nth_error xs i = Some y /\
      let L := grid (2 ^ col_steps (firstn m ds)) (2 ^ row_steps (firstn m ds)) in
      y * pow (natA (2 ^ m)) i * partition L H0 V0 (fun _ => T) = moment L H0 V0 T o i.
Proof.
  intros RA GV RNH IN PR NR R GA HO HD R2 RN IY EO.
  destruct (impurity_measure _ _ _ _ _ _ _ _ _ _ _ _ _ _ _ _ _ _ _ _ _ _ _ _ _ _ _ _ RA GV RNH IN PR NR R GA HO HD R2 RN IY) as (xss & E & LX & X). exists xss. split; [exact E|]. split; [exact LX|].
  intros m i Hm Hi. destruct (X m i Hm Hi) as (xs & y & E1 & L1 & E2 & Y). exists xs, y. split; [exact E1|]. split; [exact L1|]. split; [exact E2|]. cbv zeta in *. rewrite Y.
  rewrite (placements_range _ H0 V0 _ (fun j u l d r => T u l d r * pow (o u l d r) j)).
  - apply placements_moment; [apply grid_torus|]. reflexivity.
  - apply grid_torus.
  - intros j u l d r Hj Hu Hl Hd Hrr. apply EO; first [assumption|lia].
Qed.
Local Close Scope sr_scope.

(** ** Errors *)
Lemma divideAll_none n V H : forall l (h : heap), In None l -> (forall t df, In (Some (t, df)) l -> square h t V H) -> NoDup (tids l) -> exists h', divideAll num n l h = (h', Err AttributeError).
Proof.
  induction l as [|x l IH]; intros h HN SQ ND; [destruct HN|]. cbn [divideAll]. destruct x as [(t & df)|]; [|eexists; reflexivity].
  destruct HN as [HN|HN]; [discriminate HN|]. destruct (divideBy_ok num h n t df V H (SQ t df (or_introl eq_refl))) as (h1 & E1 & Q1 & KT & KL & KN & KM & _). unfold bind. rewrite E1.
  cbn [tids flat_map fst app] in ND. apply NoDup_cons_iff in ND. destruct ND as (NI & ND). apply IH; [exact HN| |exact ND]. intros t' df' Ht.
  apply (same_tensor h h1 t'); [apply (SQ t' df'); right; exact Ht|apply KT; intros ->; apply NI; apply in_flat_map; exists (Some (t, df')); split; [exact Ht|left; reflexivity]|exact KL|exact KN|exact KM].
Qed.
Theorem init_none (w : world) (s : impurityTN) g V H n : i_rg s = Some g -> nth_error (o_norms g) 0 = Some n -> In None (i_imps s) ->
  (forall t df, In (Some (t, df)) (i_imps s) -> square (w_heap w) t V H) -> NoDup (tids (i_imps s)) -> exists w', initializeI num s w = (w', Err AttributeError).
Proof.
  intros Rg En HN SQ ND. unfold initializeI. rewrite Rg. unfold wbind at 1, wliftR at 1, getNorm. rewrite En. unfold appendToArchiveI.
  destruct (divideAll_none n V H (i_imps s) (w_heap w) HN SQ ND) as (h' & E). unfold wbind at 1, wbind at 1, lift at 1. rewrite E. eexists. reflexivity.
Qed.
(** more orders than tensors *)
Theorem padded ts ho V H (w w' : world) (s : impurityTN) g n : newImpurityTN ts ho w = (w', Ok s) -> given_all (w_heap w) ts V H -> List.length ts < order_of ho ts -> nth_error (o_norms g) 0 = Some n ->
  exists w2, initializeI num (setRG s g) w' = (w2, Err AttributeError).
Proof.
  intros R GA HO En. destruct (new_imp_ok ts ho V H w w' s R GA) as (_ & _ & EO & _ & _ & _ & _ & _ & LI & X & Y & Z).
  assert (SP : forall i x, nth_error (i_imps s) i = Some x -> (i < List.length ts /\ exists df, x = Some (imp s i, df) /\ square (w_heap w') (imp s i) V H) \/ (List.length ts <= i /\ x = None)).
  { intros i x E. assert (Li : i < order_of ho ts) by (rewrite <- LI; apply nth_error_Some; congruence). destruct (nth_error ts i) as [(t & df)|] eqn:Et.
    - left. split; [apply nth_error_Some; congruence|]. destruct (X i t df Li Et) as (E1 & _ & Q & _). exists df. split; [congruence|exact Q].
    - right. apply nth_error_None in Et. split; [exact Et|]. specialize (Y i (conj Et Li)). congruence. }
  apply (init_none w' (setRG s g) g V H n); cbn [setRG i_rg i_imps]; [reflexivity|exact En| | |].
  - eapply nth_error_In. apply (Y (List.length ts)). lia.
  - intros t df Ht. apply In_nth_error in Ht. destruct Ht as (i & Hi). destruct (SP i _ Hi) as [(_ & df' & E & Q)|(_ & E)]; [|discriminate E]. injection E as -> _. exact Q.
  - assert (GI : forall l a, (forall i x, nth_error l i = Some x -> (a + i < List.length ts /\ exists df, x = Some (imp s (a + i), df)) \/ (List.length ts <= a + i /\ x = None)) ->
       a + List.length l <= order_of ho ts -> NoDup (tids l) /\ forall t, In t (tids l) -> exists i, a <= i /\ i < List.length ts /\ i < order_of ho ts /\ t = imp s i).
    { induction l as [|x l IH]; intros a Ha La; [split; [constructor|intros t []]|]. cbn [List.length] in La. destruct (IH (S a)) as (N1 & N2).
      { intros i y E. specialize (Ha (S i) y E). replace (S a + i) with (a + S i) by lia. exact Ha. } { lia. }
      specialize (Ha 0 x eq_refl). rewrite Nat.add_0_r in Ha. destruct Ha as [(La' & df & ->)|(_ & ->)]; cbn [tids flat_map fst app].
      - split.
        + constructor; [|exact N1]. intros C. destruct (N2 _ C) as (i & L1 & L2 & L3 & E). apply Z in E; lia.
        + intros t [<-|Ht]; [exists a; repeat split; lia|]. destruct (N2 t Ht) as (i & L1 & L2 & L3 & E). exists i. repeat split; try lia; try exact E.
      - split; [exact N1|]. intros t Ht. destruct (N2 t Ht) as (i & L1 & L2 & L3 & E). exists i. repeat split; try lia; try exact E. }
    apply (GI (i_imps s) 0); [|lia]. intros i x E. cbn [Nat.add]. destruct (SP i x E) as [(L1 & df & E1 & _)|E1]; [left; split; [exact L1|exists df; exact E1]|right; exact E1].
Qed.
Theorem no_rg (w : world) (s : impurityTN) : i_rg s = None -> initializeI num s w = (w, Err AssertionError) /\ (i_init s = false -> iterateI symdiff fuel num half s w = (w, Err AssertionError)).
Proof. intros E. unfold iterateI, initializeI. rewrite E. split; [reflexivity|]. intros ->. reflexivity. Qed.
Theorem rg_behind (w : world) (s : impurityTN) g : i_rg s = Some g -> i_init s = true -> List.length (o_norms g) <= S (i_idx s) -> iterateI symdiff fuel num half s w = (w, Err AssertionError).
Proof.
  intros Rg In0 L. unfold iterateI. rewrite In0. unfold wbind at 1, wret at 1. rewrite Rg. unfold wbind at 1, wliftR, getNorm. replace (i_idx s + 1) with (S (i_idx s)) by lia. rewrite (proj2 (nth_error_None _ _) L). reflexivity.
Qed.
Theorem no_orders (w : world) (s : impurityTN) g n : i_rg s = Some g -> i_init s = true -> nth_error (o_norms g) (S (i_idx s)) = Some n -> i_imps s = [] -> iterateI symdiff fuel num half s w = (w, Err IndexError).
Proof.
  intros Rg In0 En E. unfold iterateI. rewrite In0. unfold wbind at 1, wret at 1. rewrite Rg. unfold wbind at 1, wliftR, getNorm. replace (i_idx s + 1) with (S (i_idx s)) by lia. rewrite En, E. reflexivity.
Qed.
Theorem no_dof (w : world) (s : impurityTN) g n t l : i_rg s = Some g -> i_init s = true -> nth_error (o_norms g) (S (i_idx s)) = Some n -> i_imps s = Some (t, None) :: l -> iterateI symdiff fuel num half s w = (w, Err TypeError).
Proof.
  intros Rg In0 En E. unfold iterateI. rewrite In0. unfold wbind at 1, wret at 1. rewrite Rg. unfold wbind at 1, wliftR, getNorm. replace (i_idx s + 1) with (S (i_idx s)) by lia. rewrite En, E. reflexivity.
Qed.
(** the first call of iterate() *)
Theorem first_iterate (w w' : world) (s s' : impurityTN) : i_init s = false -> initializeI num s w = (w', Ok s') -> iterateI symdiff fuel num half s w = iterateI symdiff fuel num half s' w'.
Proof.
  intros In0 R. assert (In1 : i_init s' = true). { unfold initializeI in R. destruct (i_rg s) as [g|]; [|discriminate R]. apply wbind_inv in R. destruct R as (w1 & n & _ & R). apply wbind_inv in R. destruct R as (w2 & s1 & _ & R). injection R as _ <-. reflexivity. }
  unfold iterateI. rewrite In0, In1. unfold wbind at 1. rewrite R. reflexivity.
Qed.

(** ** In the words of the specification *)
Theorem new_imp_spec ts ho V H (w w' : world) (s : impurityTN) : newImpurityTN ts ho w = (w', Ok s) -> given_all (w_heap w) ts V H ->
  let n := order_of ho ts in
  preserved (w_heap w) (w_heap w') /\ i_order s = n /\ i_rg s = None /\ i_archive s = [] /\ i_norms s = [] /\ i_idx s = 0 /\ i_init s = false /\ List.length (i_imps s) = n /\
  (forall i t df, i < n -> nth_error ts i = Some (t, df) -> nth_error (i_imps s) i = Some (Some (imp s i, df)) /\ ~ (exists m, dense_legs (w_heap w) (imp s i) m) /\ square (w_heap w') (imp s i) V H /\
     forall u l d r, imp_entry (w_heap w') s i u l d r = entry4 (w_heap w) t u l d r) /\
  (forall i, List.length ts <= i < n -> nth_error (i_imps s) i = Some None) /\
  (forall i j, i < n -> j < n -> i < List.length ts -> j < List.length ts -> imp s i = imp s j -> i = j).
Proof.
  intros R GA n. destruct (new_imp_ok ts ho V H w w' s R GA) as (_ & G & E1 & E2 & E3 & E4 & E5 & E6 & LI & X & Y & Z). fold n in E1, LI, X, Y, Z.
  split; [apply grown_preserved; exact G|]. repeat (split; [assumption|]). split; [|split; [exact Y|exact Z]]. intros i t df Hi E. destruct (X i t df Hi E) as (X1 & X2 & X3 & X4). split; [exact X1|]. split; [|split; [exact X3|exact X4]].
  intros (m & (W & _) & _). apply wt_id in W. lia.
Qed.
Theorem initialize_spec (w w' : world) (s s' : impurityTN) g dof V H : initializeI num s w = (w', Ok s') -> istate w s g dof V H ->
  exists n cs, nth_error (o_norms g) 0 = Some n /\ istate w' s' g dof V H /\ i_init s' = true /\ i_order s' = i_order s /\ i_idx s' = i_idx s /\ i_norms s' = i_norms s ++ [n] /\ i_archive s' = i_archive s ++ [cs] /\
    archived_all (w_heap w') s' cs V H /\
    forall i u l d r, i < i_order s -> u < V -> l < H -> d < V -> r < H -> imp_entry (w_heap w') s' i u l d r = nu_div num (imp_entry (w_heap w) s i u l d r) n.
Proof.
  intros R IS. destruct (init_imp_ok w w' s s' g dof V H R IS) as (n & cs & E1 & E2 & E3 & E4 & E5 & E6 & E7 & E8 & _ & E9). exists n, cs. repeat (split; [assumption|]). exact E9.
Qed.
Theorem iterateI_spec (w w' : world) (s s' : impurityTN) g dof V H k d P :
  iterateI symdiff fuel num half s w = (w', Ok s') -> istate w s g dof V H -> i_init s = true ->
  nth_error (o_choices g) (i_idx s) = Some d -> nth_error (o_projs g) (i_idx s) = Some P -> wfa P -> ashape P = [cut d V H * cut d V H; k] ->
  exists n cs, nth_error (o_norms g) (S (i_idx s)) = Some n /\ In d dirs /\ istate w' s' g (2 * dof) (newV d V k) (newH d H k) /\ i_init s' = true /\ i_order s' = i_order s /\ i_idx s' = S (i_idx s) /\
    i_norms s' = i_norms s ++ [n] /\ i_archive s' = i_archive s ++ [cs] /\ archived_all (w_heap w') s' cs (newV d V k) (newH d H k) /\ preserved (w_heap w) (w_heap w') /\
    forall i u l dd r, i < i_order s -> u < newV d V k -> l < newH d H k -> dd < newV d V k -> r < newH d H k ->
      imp_entry (w_heap w') s' i u l dd r = nu_div num (nu_div num (mixed num half (w_heap w) s V H d P i u l dd r) (total_weight half i)) n.
Proof.
  intros R IS In0 Hd HP WP SP. destruct (iterateI_ok num half symdiff SD fuel w w' s s' g dof V H k d P R IS In0 Hd HP WP SP) as (n & cs & E1 & E2 & E3 & E4 & E5 & E6 & E7 & E8 & E9 & E10 & E11).
  exists n, cs. repeat (split; [assumption|]). split; [apply grown_preserved; exact E10|exact E11].
Qed.
Theorem run_spec ts ho V0 H0 (w w1 w2 w3 : world) (s1 s2 s3 : impurityTN) g dof n V H : newImpurityTN ts ho w = (w1, Ok s1) -> given_all (w_heap w) ts V0 H0 -> nets_ready w g ->
  0 < order_of ho ts <= List.length ts -> snd (nth 0 ts (O, None)) = Some dof -> initializeI num (setRG s1 g) w1 = (w2, Ok s2) -> exact_runI num half symdiff fuel g w2 s2 V0 H0 n w3 s3 V H ->
  istate w3 s3 g (2 ^ n * dof) V H /\ i_order s3 = order_of ho ts /\ i_norms s3 = firstn (S n) (o_norms g) /\ List.length (i_norms s3) = S n /\ List.length (i_archive s3) = S n /\ n <= List.length (o_choices g) /\ preserved (w_heap w) (w_heap w3).
Proof.
  intros R GA NR HO HD R2 RN. destruct (impurity_run ts ho V0 H0 w w1 w2 w3 s1 s2 s3 g dof n V H R GA NR HO HD R2 RN) as (E1 & E2 & E3 & E4 & E5 & E6 & G). repeat (split; [assumption|]). apply grown_preserved. exact G.
Qed.
End Im.
