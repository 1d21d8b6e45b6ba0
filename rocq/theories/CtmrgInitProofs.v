(** Proofs about the constructor of CTMRG. *)
From Coq Require Import List Arith Bool String Lia Permutation.
From Verif Require Import Base Sums NdModel NdProofs HeapModel FuncsModel TensorModel TensorSpec TensorProofs MatrixProofs LabelProofs CtorProofs DiagCtorProofs CopyProofs ContractModel SvdModel SvdSpec SvdProofs CanonModel
  SearchSpec NetSpec FtnModel FtnNetSpec FtnProofs FtnFrameProofs FtnMainProofs NamedSpec NetsSpec NamedProofs NetsModel NetsProofs NamedMatProofs TorusProofs TrgModel TrgSpec TrgProofs DiagNetSpec NamedDiagProofs CtmrgNetProofs CtmrgTensProofs CtmrgModel CtmrgSpec CtmrgStepProofs CtmrgIterProofs.
Import ListNotations.
Local Open Scope nat_scope.
Local Open Scope string_scope.
Local Open Scope list_scope.

Section Init.
Context {A B : Type} {HA : SR A}.
Notation heap := (heap A).
Notation world := (world A).
Notation ctmrg := (ctmrg A B).
Variable symdiff : list nat -> list nat -> list nat.
Hypothesis Hsd : symdiff_ok symdiff.
Variable fuel : nat.
Variable num : numerics A B.
Notation lib := (nu_lib num).
Add Ring CNring : (@SR_theory A HA).
(** a network just made *)
Record unused (w : world) (x : nat) (X : net) : Prop := { un_is : is_net w x X; un_seq : f_seq (w_ftn w x) = None; un_names : f_names (w_ftn w x) < w_nnames w; un_low : x < w_nftn w }.
Lemma unused_made (w w' : world) x X f N : unused w x X -> made_net w w' f N -> unused w' x X.
Proof.
  intros [I S K L] [MI (E1 & E2 & E3) MH MN MO (ML1 & ML2)]. assert (EX : w_ftn w' x = w_ftn w x) by (apply MN; lia). split.
  - eapply is_net_same; [exact I|exact EX| |lia]. intros n [Hn| ->]; apply ML2; auto.
  - now rewrite EX.
  - rewrite EX, ML1. lia.
  - lia.
Qed.
Lemma made_unused (w w' : world) f N : made_net w w' f N -> unused w' f N /\ f = w_nftn w /\ w_nftn w' = S (w_nftn w) /\ w_heap w' = w_heap w.
Proof. intros [MI (E1 & E2 & E3) MH _ MO (ML & _)]. split; [split; [exact MI|exact E3|rewrite MO, ML; lia|lia]|]. split; [exact E1|]. split; [lia|exact MH]. Qed.
Lemma unused_for (w : world) x X p : unused w x X -> is_net_for w x X p.
Proof. intros [I S _ _]. split; [exact I|]. intros sq E. rewrite S in E. discriminate. Qed.
Lemma setFTNs_ok (w w' : world) fs : setFTNs w = (w', Ok fs) -> cnets_ready w' fs /\ w_heap w' = w_heap w.
Proof.
  intros R. unfold setFTNs in R.
  destruct (hEdge_extend_made w) as (w1 & E1 & M1). rewrite (wbind_ok _ _ _ _ _ E1) in R. destruct (made_unused _ _ _ _ M1) as (U1 & F1 & G1 & H1).
  destruct (vEdge_extend_made w1) as (w2 & E2 & M2). rewrite (wbind_ok _ _ _ _ _ E2) in R. destruct (made_unused _ _ _ _ M2) as (U2 & F2 & G2 & H2). apply (unused_made _ w2 _ _ _ _) with (2 := M2) in U1.
  destruct (corner_extend_made w2) as (w3 & E3 & M3). rewrite (wbind_ok _ _ _ _ _ E3) in R. destruct (made_unused _ _ _ _ M3) as (U3 & F3 & G3 & H3). apply (unused_made _ w3 _ _ _ _) with (2 := M3) in U1, U2.
  destruct (vEdge_build_made w3) as (w4 & E4 & M4). rewrite (wbind_ok _ _ _ _ _ E4) in R. destruct (made_unused _ _ _ _ M4) as (U4 & F4 & G4 & H4). apply (unused_made _ w4 _ _ _ _) with (2 := M4) in U1, U2, U3.
  destruct (hEdge_build_made w4) as (w5 & E5 & M5). rewrite (wbind_ok _ _ _ _ _ E5) in R. destruct (made_unused _ _ _ _ M5) as (U5 & F5 & G5 & H5). apply (unused_made _ w5 _ _ _ _) with (2 := M5) in U1, U2, U3, U4.
  destruct (evenZ_made w5) as (w6 & E6 & M6). rewrite (wbind_ok _ _ _ _ _ E6) in R. destruct (made_unused _ _ _ _ M6) as (U6 & F6 & G6 & H6). apply (unused_made _ w6 _ _ _ _) with (2 := M6) in U1, U2, U3, U4, U5.
  destruct (oddZ_made w6) as (w7 & E7 & M7). rewrite (wbind_ok _ _ _ _ _ E7) in R. destruct (made_unused _ _ _ _ M7) as (U7 & F7 & G7 & H7). apply (unused_made _ w7 _ _ _ _) with (2 := M7) in U1, U2, U3, U4, U5, U6.
  injection R as <- <-. split; [|congruence]. split; cbn [c_hExt c_vExt c_cExt c_vBuild c_hBuild c_even c_odd]; try (apply unused_for; assumption); try (eapply un_is; eassumption).
  clear - F1 F2 F3 F4 F5 F6 F7 G1 G2 G3 G4 G5 G6 G7. repeat constructor; cbn [In]; lia.
Qed.
Lemma only_keep b (h h' : heap) t x m : only_tensor h h' t -> x <> t -> legs_as b h x m -> legs_as b h' x m /\ (forall g, at_ h' x g = at_ h x g).
Proof. intros [O1 O2 O3 O4 O5 O6 O7 O8] Nx D. apply (keep_as b h h' x m); auto. Qed.
Theorem newCtmrg_ok (w w' : world) a chi (g : ctmrg) H V : newCtmrg symdiff fuel num a chi w = (w', Ok g) -> site_tensor (w_heap w) a H V ->
  let T := site_entry (w_heap w) a in svd_shape lib (ext_mat H V T no_sites) (1 * V) (1 * H) ->
  cstate w' g H V (cut_k H V (no_sites (A := A)) chi) /\ (forall l r u d, gsite w' g l r u d = T l r u d) /\ m_chi g = chi /\
  m_cLog g = nu_zero num /\ m_hLog g = nu_zero num /\ m_vLog g = nu_zero num /\ m_cRec g = [] /\ m_hRec g = [] /\ m_vRec g = [] /\
  m_errors g = [cut_error num (ext_mat H V T no_sites) (Nat.min (1 * V) (1 * H)) chi 4] /\
  grown (w_heap w) (w_heap w') /\ ntens (w_heap w) <= m_a g /\
  same_env H V (step_env H V T no_sites lib chi) (genv w' g (cut_k H V (no_sites (A := A)) chi)).
Proof.
  intros R DA T SS. unfold newCtmrg in R.
  apply wbind_inv in R. destruct R as (w1 & own & R1 & R). apply lift_inv in R1. destruct R1 as (h1 & R1 & ->). destruct (copy_as false _ _ _ DA ltac:(discriminate)) as (z1 & z2 & R1' & N1 & D1 & E1). rewrite R1' in R1. injection R1 as -> ->.
  pose proof (new_grown _ _ _ N1) as G1.
  apply wbind_inv in R. destruct R as (w2 & labs & R2 & R). injection R2 as <- _. apply wbind_inv in R. destruct R as (w3 & [] & R3 & R). destruct (compareLists labs _); [|discriminate R3]. injection R3 as <-.
  apply wbind_inv in R. destruct R as (w4 & fs & R4 & R). destruct (setFTNs_ok _ _ _ R4) as (NR4 & EH4). cbn [with_heap w_heap] in EH4. 
  apply wbind_inv in R. destruct R as (w5 & c & R5 & R). apply lift_inv in R5. destruct R5 as (h5 & R5 & ->). rewrite EH4 in R5. destruct (copy_as false _ _ _ D1 ltac:(discriminate)) as (z1 & z2 & R5' & N5 & D5 & E5). rewrite R5' in R5. injection R5 as -> ->.
  pose proof (new_grown _ _ _ N5) as G5. destruct (grown_as false _ _ _ _ G5 D1) as (D15 & E15 & _).
  apply wbind_inv in R. destruct R as (w6 & he & R6 & R). apply lift_inv in R6. destruct R6 as (h6 & R6 & ->). cbn [with_heap w_heap w_names w_nnames w_ftn w_nftn] in R6, R. destruct (copy_as false _ _ _ D15 ltac:(discriminate)) as (z1 & z2 & R6' & N6 & D6 & E6). rewrite R6' in R6. injection R6 as -> ->.
  pose proof (new_grown _ _ _ N6) as G6. destruct (grown_as false _ _ _ _ G6 D15) as (D16 & E16 & _). destruct (grown_as false _ _ _ _ G6 D5) as (D56 & E56 & _).
  apply wbind_inv in R. destruct R as (w7 & ve & R7 & R). apply lift_inv in R7. destruct R7 as (h7 & R7 & ->). cbn [with_heap w_heap w_names w_nnames w_ftn w_nftn] in R7, R. destruct (copy_as false _ _ _ D16 ltac:(discriminate)) as (z1 & z2 & R7' & N7 & D7 & E7). rewrite R7' in R7. injection R7 as -> ->.
  pose proof (new_grown _ _ _ N7) as G7. destruct (grown_as false _ _ _ _ G7 D16) as (D17 & E17 & _). destruct (grown_as false _ _ _ _ G7 D56) as (D57 & E57 & _). destruct (grown_as false _ _ _ _ G7 D6) as (D67 & E67 & _).
  assert (IO : own = ntens (w_heap w) /\ ntens h1 = S own) by (pose proof (nt_id _ _ _ _ N1); pose proof (nt_ntens _ _ _ _ N1); lia). assert (IC : c = ntens h1 /\ ntens h5 = S c) by (pose proof (nt_id _ _ _ _ N5); pose proof (nt_ntens _ _ _ _ N5); lia). assert (IH : he = ntens h5 /\ ntens h6 = S he) by (pose proof (nt_id _ _ _ _ N6); pose proof (nt_ntens _ _ _ _ N6); lia). assert (IV : ve = ntens h6 /\ ntens h7 = S ve) by (pose proof (nt_id _ _ _ _ N7); pose proof (nt_ntens _ _ _ _ N7); lia).
  (* sums *)
  apply wbind_inv in R. destruct R as (w8 & [] & R8 & R). apply lift_inv in R8. destruct R8 as (h9 & R8 & ->). cbn [with_heap w_heap w_names w_nnames w_ftn w_nftn] in R8, R.
  destruct (sumOut_named h7 c [("l", H); ("r", H); ("u", V)] "d" V [] D57 ltac:(now apply nodupb_ok)) as (h8 & Q8 & O8 & D8 & E8). cbn [app] in D8, E8.
  destruct (sumOut_named h8 c [] "l" H [("r", H); ("u", V)] D8 ltac:(now apply nodupb_ok)) as (h9' & Q9 & O9 & D9 & E9). cbn [app] in D9, E9.
  unfold sumOutLegsByLabel in R8. cbn [map iterM] in R8. unfold bind in R8. rewrite Q8, Q9 in R8. injection R8 as <-. rename h9' into h9.
  destruct (only_keep false _ _ _ own _ O8 ltac:(lia) D17) as (A8 & X8). destruct (only_keep false _ _ _ own _ O9 ltac:(lia) A8) as (A9 & X9).
  destruct (only_keep false _ _ _ he _ O8 ltac:(lia) D67) as (H8 & Y8). destruct (only_keep false _ _ _ he _ O9 ltac:(lia) H8) as (H9 & Y9).
  destruct (only_keep false _ _ _ ve _ O8 ltac:(lia) D7) as (V8 & Z8). destruct (only_keep false _ _ _ ve _ O9 ltac:(lia) V8) as (V9 & Z9).
  apply wbind_inv in R. destruct R as (w10 & [] & R10 & R). apply lift_inv in R10. destruct R10 as (h10 & R10 & ->). cbn [with_heap w_heap w_names w_nnames w_ftn w_nftn] in R10, R.
  destruct (sumOut_named h9 he [("l", H); ("r", H); ("u", V)] "d" V [] H9 ltac:(now apply nodupb_ok)) as (h10' & Q10 & O10 & D10 & E10). cbn [app] in D10, E10. rewrite Q10 in R10. injection R10 as ->.
  destruct (only_keep false _ _ _ own _ O10 ltac:(lia) A9) as (A10 & X10). destruct (only_keep false _ _ _ c _ O10 ltac:(lia) D9) as (C10 & W10). destruct (only_keep false _ _ _ ve _ O10 ltac:(lia) V9) as (V10 & Z10).
  apply wbind_inv in R. destruct R as (w11 & [] & R11 & R). apply lift_inv in R11. destruct R11 as (h11 & R11 & ->). cbn [with_heap w_heap w_names w_nnames w_ftn w_nftn] in R11, R.
  destruct (sumOut_named h10 ve [] "l" H [("r", H); ("u", V); ("d", V)] V10 ltac:(now apply nodupb_ok)) as (h11' & Q11 & O11 & D11 & E11). cbn [app] in D11, E11. rewrite Q11 in R11. injection R11 as ->.
  destruct (only_keep false _ _ _ own _ O11 ltac:(lia) A10) as (A11 & X11). destruct (only_keep false _ _ _ c _ O11 ltac:(lia) C10) as (C11 & W11). destruct (only_keep false _ _ _ he _ O11 ltac:(lia) D10) as (H11 & Y11).
  set (w11 := with_heap w4 h11). match type of R with wbind _ _ ?W = _ => change W with w11 in R end.
  assert (NR11 : cnets_ready w11 fs) by (now apply ready_heap).
  assert (G0 : grown (w_heap w) h11).
  { pose proof (grown_trans _ _ _ G1 (grown_trans _ _ _ G5 (grown_trans _ _ _ G6 G7))) as G.
    destruct O8 as [a1 a2 a3 a4 a5 a6 a7 a8], O9 as [b1 b2 b3 b4 b5 b6 b7 b8], O10 as [c1 c2 c3 c4 c5 c6 c7 c8], O11 as [d1 d2 d3 d4 d5 d6 d7 d8]. destruct G as [g1 g2 g3 g4].
    split; [intros l Hl; rewrite d1, c1, b1, a1; auto|intros t Ht; rewrite d3, c3, b3, a3 by lia; auto|lia|lia]. }
  assert (FA : forall x, at_ h11 own x = at_ (w_heap w) a x) by (intros x; now rewrite X11, X10, X9, X8, E17, E16, E15, E1).
  assert (FC : forall p q, p < 1 * V -> q < 1 * H -> at_ h11 c [("u", p); ("r", q)] = ext_c H V T no_sites p q).
  { intros p q Hp Hq. rewrite Nat.mul_1_l in Hp, Hq. rewrite W11, W10, E9 by (intros n Hn; enum_in Hn ltac:(assumption)). unfold ext_c. cbn [e_k e_c e_h e_v no_sites]. unfold sumN at 2. cbn [seq sumL]. rewrite !Nat.mod_small by assumption.
    rewrite <- (SRadd_comm SR_theory), (SRadd_0_l SR_theory) || idtac. 
    transitivity (sumN H (fun l => sumN V (fun d => T l q p d))).
    - apply sumN_ext. intros l Hl. rewrite E8 by (intros n Hn; enum_in Hn ltac:(assumption)). apply sumN_ext. intros d Hd. rewrite E57, E56, E5, E1. unfold T, site_entry. apply (at_same _ _ _ _ _ (proj2 DA)). intros n Hn; enum_in Hn ltac:(vm_compute; reflexivity).
    - rewrite (sumN_ext H (fun l => sumN V (fun d => (r1 * r1 * r1 * T l q p d)%sr)) (fun l => sumN V (fun d => T l q p d))) by (intros; apply sumN_ext; intros; ring). ring. }
  assert (FH : forall p q u, p < 1 * H -> q < 1 * H -> u < V -> at_ h11 he [("l", p); ("r", q); ("u", u)] = ext_h H V T no_sites p q u).
  { intros p q u Hp Hq Hu. rewrite Nat.mul_1_l in Hp, Hq. rewrite Y11, E10 by (intros n Hn; enum_in Hn ltac:(assumption)). unfold ext_h. cbn [e_k e_c e_h e_v no_sites]. rewrite !Nat.mod_small by assumption. apply sumN_ext. intros d Hd.
    rewrite Y9, Y8, E67, E6, E15, E1. transitivity (T p q u d); [|ring]. unfold T, site_entry. apply (at_same _ _ _ _ _ (proj2 DA)). intros n Hn; enum_in Hn ltac:(vm_compute; reflexivity). }
  assert (FV : forall p q r, p < 1 * V -> q < 1 * V -> r < H -> at_ h11 ve [("u", p); ("d", q); ("r", r)] = ext_v H V T no_sites p q r).
  { intros p q r Hp Hq Hr. rewrite Nat.mul_1_l in Hp, Hq. rewrite E11 by (intros n Hn; enum_in Hn ltac:(assumption)). unfold ext_v. cbn [e_k e_c e_h e_v no_sites]. rewrite !Nat.mod_small by assumption. apply sumN_ext. intros l Hl.
    rewrite Z10, Z9, Z8, E7, E16, E15, E1. transitivity (T l r p q); [|ring]. unfold T, site_entry. apply (at_same _ _ _ _ _ (proj2 DA)). intros n Hn; enum_in Hn ltac:(vm_compute; reflexivity). }
  apply wbind_inv in R. destruct R as (w12 & (((s, hN), vN), er) & R12 & R). cbv iota in R. injection R as <- <-.
  assert (EM : mat2 (1 * V) (1 * H) (fun p q => at_ (w_heap w11) c [("u", p); ("r", q)]) = ext_mat H V T no_sites) by (unfold ext_mat; apply mat2_ext; exact FC).
  pose proof (reduce_ok symdiff Hsd fuel num w11 w12 chi fs c he ve (1 * V) (1 * H) H V s hN vN er R12 NR11) as RD. cbv zeta in RD. rewrite EM in RD.
  destruct RD as (NR12 & G12 & ET & Ee & I1 & I2 & I3 & ND3 & ES & EH & EV); [| | |exact SS|].
  - rewrite !Nat.mul_1_l. eapply legs_perm_as; [apply perm_swap|exact C11].
  - rewrite !Nat.mul_1_l. exact H11.
  - rewrite !Nat.mul_1_l. eapply legs_perm_as; [|exact D11]. change (Permutation ([("r", H)] ++ [("u", V); ("d", V)]) ([("u", V); ("d", V)] ++ [("r", H)])). apply Permutation_app_comm.
  - destruct (grown_as false _ _ _ _ G12 A11) as (A12 & X12 & _). split; [split; cbn [m_a m_chi m_nets m_corner m_hEdge m_vEdge]; [exact NR12|exact A12|exact ET]|].
    split; [intros; unfold gsite, site_entry; cbn [m_a]; now rewrite X12, FA|]. do 7 (split; [reflexivity|]). split; [cbn [m_errors]; now rewrite Ee|]. split; [eapply grown_trans; [exact G0|exact G12]|]. split; [cbn [m_a]; lia|].
    split; cbn [e_k e_c e_h e_v env_of genv step_env m_corner m_hEdge m_vEdge].
    + reflexivity.
    + intros z Hz. now apply ES.
    + intros y z u Hy Hz Hu. rewrite EH by assumption. apply sumN_ext. intros p Hp. apply sumN_ext. intros q Hq. cbn [w11 with_heap w_heap]. rewrite FH by assumption. reflexivity.
    + intros y z r Hy Hz Hr. rewrite EV by assumption. apply sumN_ext. intros p Hp. apply sumN_ext. intros q Hq. cbn [w11 with_heap w_heap]. rewrite FV by assumption. reflexivity.
Qed.
End Init.
