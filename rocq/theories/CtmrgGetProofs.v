(** Proofs about the value that getZ of CTMRG returns. *)
From Coq Require Import List Arith Bool String Lia Permutation.
From Verif Require Import Base Sums NdModel NdProofs HeapModel FuncsModel TensorModel TensorSpec TensorProofs MatrixProofs LabelProofs CtorProofs DiagCtorProofs CopyProofs ContractModel SvdModel SvdSpec SvdProofs CanonModel
  SearchSpec NetSpec FtnModel FtnNetSpec FtnProofs FtnFrameProofs FtnMainProofs NamedSpec NetsSpec NamedProofs NetsModel NetsProofs NamedMatProofs TorusProofs TrgModel TrgSpec TrgProofs DiagNetSpec NamedDiagProofs CtmrgNetProofs CtmrgTensProofs OpenSpec CtmrgModel CtmrgSpec CtmrgStepProofs CtmrgIterProofs CtmrgInitProofs CtmrgValueProofs CtmrgRunSpec CtmrgRunProofs.
Import ListNotations.
Local Open Scope nat_scope.
Local Open Scope string_scope.
Local Open Scope list_scope.

Section Get.
Context {A B : Type} {HA : SR A}.
Notation heap := (heap A).
Notation world := (world A).
Notation ctmrg := (ctmrg A B).
Variable symdiff : list nat -> list nat -> list nat.
Hypothesis Hsd : symdiff_ok symdiff.
Variable fuel : nat.
Variable num : numerics A B.
Variable ex : exponential A B.
Hypothesis Hex : exp_ok num ex.
Notation lib := (nu_lib num).
Notation exp := (ex_exp ex).
Add Ring CGring : (@SR_theory A HA).
Variables H V : nat.
Variable T : nat -> nat -> nat -> nat -> A.
Variable chi : nat.
Record inv (n : nat) (w : world) (g : ctmrg) : Prop := {
  iv_n : 1 <= n;
  iv_k : exists k, cstate w g H V k /\ represents H V T n (genv w g k) (exp (m_cLog g)) (exp (m_hLog g)) (exp (m_vLog g));
  iv_T : forall l r u d, gsite w g l r u d = T l r u d;
  iv_chi : m_chi g = chi;
  iv_len : List.length (m_cRec g) + 1 = n /\ List.length (m_hRec g) + 1 = n /\ List.length (m_vRec g) + 1 = n;
  iv_rec : forall i c cl h hl v vl, nth_error (m_cRec g) i = Some (c, cl) -> nth_error (m_hRec g) i = Some (h, hl) -> nth_error (m_vRec g) i = Some (v, vl) ->
    exists k, env_tensors (w_heap w) c h v H V k /\ represents H V T (S i) (env_of (w_heap w) c h v k) (exp cl) (exp hl) (exp vl) }.
Lemma env_grown (h h' : heap) c he ve k : grown h h' -> env_tensors h c he ve H V k -> env_tensors h' c he ve H V k /\ same_env H V (env_of h c he ve k) (env_of h' c he ve k).
Proof.
  intros G [a b d]. destruct (grown_as true _ _ _ _ G a) as (a' & Ea & _). destruct (grown_as false _ _ _ _ G b) as (b' & Eb & _). destruct (grown_as false _ _ _ _ G d) as (d' & Ed & _).
  split; [split; assumption|]. split; cbn [env_of e_k e_c e_h e_v]; auto.
Qed.
Lemma inv_grow n (w w' : world) g : inv n w g -> grown (w_heap w) (w_heap w') -> cnets_ready w' (m_nets g) -> inv n w' g.
Proof.
  intros [I1 (k & [C1 C2 C3] & RP) IT IC IL IR] G NR. destruct (env_grown _ _ _ _ _ _ G C3) as (C3' & SE). destruct (grown_as false _ _ _ _ G C2) as (C2' & E2 & _). split; auto.
  - exists k. split; [split; assumption|]. eapply represents_same; [exact RP|exact SE].
  - intros. unfold gsite, site_entry. rewrite E2. apply IT.
  - intros i c cl h hl v vl N1 N2 N3. destruct (IR i c cl h hl v vl N1 N2 N3) as (k' & ET & RP'). destruct (env_grown _ _ _ _ _ _ G ET) as (ET' & SE'). exists k'. split; [exact ET'|]. eapply represents_same; [exact RP'|exact SE'].
Qed.
(** ** The constructor and one iteration *)
Lemma inv_new (w w' : world) a g : newCtmrg symdiff fuel num a chi w = (w', Ok g) -> site_tensor (w_heap w) a H V -> (forall l r u d, site_entry (w_heap w) a l r u d = T l r u d) ->
  exact_cut H V T no_sites lib chi -> inv 1 w' g.
Proof.
  intros R DA ET EC. pose proof (newCtmrg_ok symdiff Hsd fuel num w w' a chi g H V R DA) as N. cbv zeta in N. rewrite (ext_mat_T H V _ T _ ET) in N.
  destruct (N (ec_shape _ _ _ _ _ _ EC)) as (CS & EG & E1 & E2 & E3 & E4 & E5 & E6 & E7 & _ & _ & _ & SE). split; auto.
  - exists (cut_k H V (no_sites (A := A)) chi). split; [exact CS|]. rewrite E2, E3, E4, (ex_zero _ _ Hex).
    assert (X : represents H V T 1 (genv w' g (cut_k H V (no_sites (A := A)) chi)) (r1 * r1 * r1 * r1)%sr (r1 * r1)%sr (r1 * r1)%sr).
    { apply (sees_step H V T 0 no_sites r1 r1 r1 lib chi); [apply no_sites_seen|exact EC|]. apply same_scaled. eapply same_trans; [|exact SE]. apply step_env_T. intros; symmetry; apply ET. }
    replace (r1 * r1 * r1 * r1)%sr with (r1 (A := A)) in X by ring. replace (r1 * r1)%sr with (r1 (A := A)) in X by ring. exact X.
  - intros. now rewrite EG.
  - now rewrite E5, E6, E7.
  - intros i c cl h hl v vl N1. rewrite E5 in N1. destruct i; discriminate.
Qed.
Lemma cstate_k (w : world) (g : ctmrg) k k' : cstate w g H V k -> env_tensors (w_heap w) (m_corner g) (m_hEdge g) (m_vEdge g) H V k' -> k = k'.
Proof.
  intros [_ _ [C _ _]] [C' _ _].
  assert (P : Permutation (map (fun p : string * nat => (NStr (fst p), snd p)) [("u", k); ("r", k)]) (map (fun p : string * nat => (NStr (fst p), snd p)) [("u", k'); ("r", k')])).
  { destruct C as [_ C], C' as [_ C']. unfold has_legs in *. etransitivity; [symmetry; exact C|exact C']. }
  apply (Permutation_in (NStr "u", k)) in P; [|left; reflexivity]. cbn [map fst snd In] in P. destruct P as [P|[P|[]]]; [injection P as P; congruence|discriminate P].
Qed.
Lemma inv_iterate n (w w' : world) g g' k nc nh nv : inv n w g -> iterateC symdiff fuel num g w = (w', Ok (g', (nc, nh, nv))) -> env_tensors (w_heap w) (m_corner g) (m_hEdge g) (m_vEdge g) H V k ->
  exact_cut H V T (genv w g k) lib chi -> good_norm num ex nc -> good_norm num ex nh -> good_norm num ex nv -> inv (S n) w' g'.
Proof.
  intros [I1 (k0 & CS & RP) IT IC (L1 & L2 & L3) IR] R ET EC [V1 W1] [V2 W2] [V3 W3]. assert (k0 = k) as -> by (eapply cstate_k; eauto).
  pose proof (iterateC_ok symdiff Hsd fuel num w w' g g' H V k nc nh nv R CS) as N. cbv zeta in N. rewrite (ext_mat_T H V _ T _ IT) in N.
  destruct (N (ec_shape _ _ _ _ _ _ EC)) as (c & h & v & CS' & E1 & E2 & E3 & E4 & E5 & E6 & E7 & E8 & E9 & _ & G & ET' & SE & _ & _ & _ & DV). rewrite IC in *.
  split.
  - lia.
  - eexists. split; [exact CS'|]. rewrite E7, E8, E9, !(ex_plus _ _ Hex), W1, W2, W3. apply (sees_step H V T n (genv w g k) _ _ _ lib chi); [exact RP|exact EC|]. eapply same_divided; [|exact DV|assumption|assumption|assumption].
    apply step_env_T. intros; symmetry; apply IT.
  - intros. rewrite <- IT. unfold gsite, site_entry. rewrite E1. apply (proj1 (proj2 (grown_as false _ _ _ _ G (cs_a _ _ _ _ _ CS)))).
  - exact E2.
  - rewrite E4, E5, E6, !app_length. cbn. lia.
  - intros i c' cl h' hl v' vl N1 N2 N3. rewrite E4 in N1. rewrite E5 in N2. rewrite E6 in N3. destruct (Nat.lt_ge_cases i (n - 1)) as [Hi|Hi].
    + rewrite nth_error_app1 in N1, N2, N3 by lia. destruct (IR i _ _ _ _ _ _ N1 N2 N3) as (k' & ET2 & RP2). destruct (env_grown _ _ _ _ _ _ G ET2) as (ET3 & SE3). exists k'. split; [exact ET3|]. eapply represents_same; [exact RP2|exact SE3].
    + assert (i = n - 1) as -> by (assert (X : i < List.length (m_cRec g ++ [(c, m_cLog g)])) by (apply nth_error_Some; rewrite N1; discriminate); rewrite app_length in X; cbn in X; lia).
      rewrite nth_error_app2 in N1, N2, N3 by lia. replace (n - 1 - List.length (m_cRec g)) with 0 in N1 by lia. replace (n - 1 - List.length (m_hRec g)) with 0 in N2 by lia. replace (n - 1 - List.length (m_vRec g)) with 0 in N3 by lia.
      injection N1 as <- <-. injection N2 as <- <-. injection N3 as <- <-. exists k. split; [exact ET'|]. replace (S (n - 1)) with n by lia. eapply represents_same; [exact RP|exact SE].
Qed.
(** ** Even lattices *)
Lemma sumN_zeros n (f : nat -> A) : (forall i, i < n -> f i = r0) -> sumN n f = r0.
Proof. intros E. rewrite (sumN_ext n f (fun _ => r0)) by auto. apply sumL_0. Qed.
Lemma off_zero (h : heap) t p k q k' x y : diag_legs h t [(p, k); (q, k')] -> p <> q -> x <> y -> at_ h t [(p, x); (q, y)] = r0.
Proof. intros D N E. rewrite (diag_off h t p k q k' x y D N). apply Nat.eqb_neq in E. now rewrite E. Qed.
Lemma even_run n (w w1 w2 : world) g m c cl he hl ve vl k c' res z : inv n w g -> env_tensors (w_heap w) c he ve H V k -> represents H V T m (env_of (w_heap w) c he ve k) (exp cl) (exp hl) (exp vl) ->
  lift (copy c) w = (w1, Ok c') -> contract symdiff fuel (c_even (m_nets g)) [("alu", c'); ("ald", c'); ("aru", c'); ("ard", c')] true w1 = (w2, Ok res) -> single (w_heap w2) res = Ok z ->
  (z * exp (ex_times ex 4 cl))%sr = open_mirrored (2 * m) H V T /\ inv n w2 g.
Proof.
  intros IV [DC DH DV] RP R1 R2 R3. apply lift_inv in R1. destruct R1 as (h1 & R1 & ->). destruct (copy_as true _ _ _ DC ltac:(discriminate)) as (z1 & z2 & R1' & N1 & D1 & E1). rewrite R1' in R1. injection R1 as -> ->.
  pose proof (new_grown _ _ _ N1) as G1. destruct (iv_k _ _ _ IV) as (k0 & CS & _). assert (NR1 : cnets_ready (with_heap w h1) (m_nets g)) by (apply ready_heap; apply CS).
  destruct (evenZ_diag symdiff Hsd fuel _ _ w2 res c' c' c' c' k k k k R2 (cr_even _ _ NR1) D1 D1 D1 D1) as (D2 & IN & EV).
  assert (NR2 : cnets_ready w2 (m_nets g)) by (pose proof (cr_nd _ _ NR1); eapply ready_contract; [exact NR1|exact R2|..]; try not_mine; intros _; exact IN).
  rewrite single_value in R3; [|apply D2|apply D2|apply D2]. injection R3 as <-. split.
  - rewrite EV, (ex_pow _ _ Hex), (even_seen H V T m _ _ _ _ RP). cbn [with_heap w_heap] in *. rewrite (SRmul_comm SR_theory). f_equal. unfold even_value. cbn [e_k e_c env_of]. apply sumN_ext. intros x Hx.
    rewrite (sumN_single k _ x Hx).
    + rewrite (sumN_single k _ x Hx).
      * rewrite (sumN_single k _ x Hx).
        -- rewrite !E1. cbn [pow]. ring.
        -- intros y Hy Ny. rewrite (off_zero _ _ _ _ _ _ x y D1) by (auto; discriminate). ring.
      * intros y Hy Ny. apply sumN_zeros. intros i Hi. rewrite (off_zero _ _ _ _ _ _ x y D1) by (auto; discriminate). ring.
    + intros y Hy Ny. apply sumN_zeros. intros i Hi. apply sumN_zeros. intros j Hj. destruct (Nat.eq_dec x i) as [->|Nx].
      * rewrite (off_zero _ _ _ _ _ _ y i D1) by (auto; discriminate). ring.
      * rewrite (off_zero _ _ _ _ _ _ x i D1) by (auto; discriminate). ring.
  - eapply inv_grow; [exact IV| |exact NR2]. eapply grown_trans; [exact G1|]. exact (contract_grown _ _ _ _ _ _ _ _ R2).
Qed.
(** ** Odd lattices *)
Lemma odd_run n (w w1 w2 w3 w4 : world) g m c cl he hl ve vl k c' h' v' res z : inv n w g -> env_tensors (w_heap w) c he ve H V k -> represents H V T m (env_of (w_heap w) c he ve k) (exp cl) (exp hl) (exp vl) ->
  lift (copy c) w = (w1, Ok c') -> lift (copy he) w1 = (w2, Ok h') -> lift (copy ve) w2 = (w3, Ok v') ->
  contract symdiff fuel (c_odd (m_nets g)) [("alu", c'); ("ald", c'); ("aru", c'); ("ard", c'); ("pl", v'); ("pr", v'); ("pd", h'); ("pu", h'); ("w", m_a g)] true w3 = (w4, Ok res) -> single (w_heap w4) res = Ok z ->
  (z * exp (nu_plus num (nu_plus num (ex_times ex 4 cl) (ex_times ex 2 hl)) (ex_times ex 2 vl)))%sr = open_mirrored (2 * m + 1) H V T /\ inv n w4 g.
Proof.
  intros IV [DC DH DV] RP R1 R2 R3 R4 R5. destruct (iv_k _ _ _ IV) as (k0 & CS & _). pose proof (cs_a _ _ _ _ _ CS) as DA.
  apply lift_inv in R1. destruct R1 as (h1 & R1 & ->). destruct (copy_as true _ _ _ DC ltac:(discriminate)) as (z1 & z2 & R1' & N1 & D1 & E1). rewrite R1' in R1. injection R1 as -> ->.
  pose proof (new_grown _ _ _ N1) as G1. destruct (grown_as false _ _ _ _ G1 DH) as (DH1 & EH1 & _). destruct (grown_as false _ _ _ _ G1 DV) as (DV1 & EV1 & _).
  apply lift_inv in R2. destruct R2 as (h2 & R2 & ->). cbn [with_heap w_heap w_names w_nnames w_ftn w_nftn] in R2, R3. destruct (copy_as false _ _ _ DH1 ltac:(discriminate)) as (z1 & z2 & R2' & N2 & D2 & E2). rewrite R2' in R2. injection R2 as -> ->.
  pose proof (new_grown _ _ _ N2) as G2. destruct (grown_as false _ _ _ _ G2 DV1) as (DV2 & EV2 & _).
  apply lift_inv in R3. destruct R3 as (h3 & R3 & ->). cbn [with_heap w_heap w_names w_nnames w_ftn w_nftn] in R3, R4. destruct (copy_as false _ _ _ DV2 ltac:(discriminate)) as (z1 & z2 & R3' & N3 & D3 & E3). rewrite R3' in R3. injection R3 as -> ->.
  pose proof (new_grown _ _ _ N3) as G3. pose proof (grown_trans _ _ _ G2 G3) as G23. pose proof (grown_trans _ _ _ G1 G23) as G13.
  destruct (grown_as true _ _ _ _ G23 D1) as (D1' & E1' & _). destruct (grown_as false _ _ _ _ G3 D2) as (D2' & E2' & _). destruct (grown_as false _ _ _ _ G13 DA) as (DA' & EA' & _).
  set (w3 := with_heap w h3). match type of R4 with contract _ _ _ _ _ ?W = _ => change W with w3 in R4 end.
  assert (NR3 : cnets_ready w3 (m_nets g)) by (apply ready_heap; apply CS).
  assert (PA : Permutation [("l", H); ("r", H); ("u", V); ("d", V)] [("u", V); ("l", H); ("d", V); ("r", H)]).
  { change (Permutation ([("l", H); ("r", H)] ++ [("u", V); ("d", V)]) [("u", V); ("l", H); ("d", V); ("r", H)]). apply (Permutation_cons_app [("u", V)] [("d", V); ("r", H)]). cbn [app]. apply (Permutation_cons_app [("u", V); ("d", V)] []). reflexivity. }
  destruct (oddZ_diag symdiff Hsd fuel w3 _ w4 res c' c' c' c' v' v' h' h' (m_a g) k k k k k k k k H H V V R4 (cr_odd _ _ NR3) D1' D1' D1' D1' D3 D3 D2' D2' (legs_perm_as false _ _ _ _ PA DA')) as (D4 & IN & EV).
  assert (NR4 : cnets_ready w4 (m_nets g)) by (pose proof (cr_nd _ _ NR3); eapply ready_contract; [exact NR3|exact R4|..]; try not_mine; intros _; exact IN).
  rewrite single_value in R5; [|apply D4|apply D4|apply D4]. injection R5 as <-. split.
  - rewrite EV, !(ex_plus _ _ Hex), !(ex_pow _ _ Hex), (odd_seen H V T m _ _ _ _ RP), (SRmul_comm SR_theory). f_equal. unfold odd_value. cbn [e_k e_c e_h e_v env_of w3 with_heap w_heap].
    apply sumN_ext. intros x1 H1. apply sumN_ext. intros x2 H2. apply sumN_ext. intros x3 H3. apply sumN_ext. intros x4 H4.
    rewrite (sumN_single k _ x1 H1) by (intros y Hy Ny; repeat (apply sumN_zeros; intros); rewrite (off_zero _ _ _ _ _ _ y x1 D1') by (auto; discriminate); ring).
    rewrite (sumN_single k _ x3 H3) by (intros y Hy Ny; repeat (apply sumN_zeros; intros); rewrite (off_zero _ _ _ _ _ _ y x3 D1') by (auto; discriminate); ring).
    rewrite (sumN_single k _ x2 H2) by (intros y Hy Ny; repeat (apply sumN_zeros; intros); rewrite (off_zero _ _ _ _ _ _ y x2 D1') by (auto; discriminate); ring).
    rewrite (sumN_single k _ x4 H4) by (intros y Hy Ny; repeat (apply sumN_zeros; intros); rewrite (off_zero _ _ _ _ _ _ y x4 D1') by (auto; discriminate); ring).
    do 4 (rewrite <- sumN_mul_l; apply sumN_ext; intros ? ?).
    rewrite !E1', !E1, !E3, !EV2, !EV1, !E2', !E2, !EH1, !EA'. match goal with |- context [at_ (w_heap w) (m_a g) [("u", ?u); ("l", ?l); ("d", ?d); ("r", ?r)]] => replace (at_ (w_heap w) (m_a g) [("u", u); ("l", l); ("d", d); ("r", r)]) with (T l r u d) end.
    + ring.
    + rewrite <- (iv_T _ _ _ IV). unfold gsite, site_entry. symmetry. apply (at_same _ _ _ _ _ (proj2 DA)). intros n' Hn; enum_in Hn ltac:(vm_compute; reflexivity).
  - eapply inv_grow; [exact IV| |exact NR4]. eapply grown_trans; [exact G13|]. exact (contract_grown _ _ _ _ _ _ _ _ R4).
Qed.
(** ** One site *)
Lemma one_value : open_mirrored 1 H V T = sumN H (fun l => sumN H (fun r => sumN V (fun u => sumN V (fun d => T l r u d)))).
Proof.
  change 1 with (2 * 0 + 1). rewrite (odd_seen H V T 0 _ _ _ _ (no_sites_seen H V T)). unfold odd_value. cbn [no_sites e_k e_c e_h e_v].
  assert (S1 : forall f : nat -> A, sumN 1 f = f 0) by (intros f; unfold sumN; cbn [seq sumL]; ring). rewrite !S1. cbn [pow].
  rewrite (sumN_ext H _ (fun l => sumN H (fun r => sumN V (fun u => sumN V (fun d => T l r u d))))); [ring|]. intros l _. apply sumN_ext. intros r _. rewrite sumN_swap. apply sumN_ext. intros u _. apply sumN_ext. intros d _. ring.
Qed.
Lemma one_run n (w w1 w2 : world) g a z : inv n w g -> lift (copy (m_a g)) w = (w1, Ok a) -> lift (sumOutLegsByLabel a (map NStr ["l"; "r"; "u"; "d"]) false None) w1 = (w2, Ok tt) -> single (w_heap w2) a = Ok z ->
  z = open_mirrored 1 H V T /\ inv n w2 g.
Proof.
  intros IV R1 R2 R3. destruct (iv_k _ _ _ IV) as (k0 & CS & _). pose proof (cs_a _ _ _ _ _ CS) as DA.
  apply lift_inv in R1. destruct R1 as (h1 & R1 & ->). destruct (copy_as false _ _ _ DA ltac:(discriminate)) as (z1 & z2 & R1' & N1 & D1 & E1). rewrite R1' in R1. injection R1 as -> ->. pose proof (new_grown _ _ _ N1) as G1.
  apply lift_inv in R2. destruct R2 as (h5' & R2 & ->). cbn [with_heap w_heap w_names w_nnames w_ftn w_nftn] in *.
  destruct (sumOut_named h1 a [] "l" H [("r", H); ("u", V); ("d", V)] D1 ltac:(now apply nodupb_ok)) as (h2 & Q2 & O2 & D2 & E2). cbn [app] in D2, E2.
  destruct (sumOut_named h2 a [] "r" H [("u", V); ("d", V)] D2 ltac:(now apply nodupb_ok)) as (h3 & Q3 & O3 & D3 & E3). cbn [app] in D3, E3.
  destruct (sumOut_named h3 a [] "u" V [("d", V)] D3 ltac:(now apply nodupb_ok)) as (h4 & Q4 & O4 & D4 & E4). cbn [app] in D4, E4.
  destruct (sumOut_named h4 a [] "d" V [] D4 ltac:(now apply nodupb_ok)) as (h5 & Q5 & O5 & D5 & E5). cbn [app] in D5, E5.
  unfold sumOutLegsByLabel in R2. cbn [map iterM] in R2. unfold bind in R2. rewrite Q2, Q3, Q4, Q5 in R2. injection R2 as <-.
  rewrite single_value in R3; [|apply D5|apply D5|apply D5]. injection R3 as <-. split.
  - rewrite one_value, E5 by (intros ? []). rewrite (sumN_swap H H). 
    transitivity (sumN V (fun d => sumN V (fun u => sumN H (fun r => sumN H (fun l => T l r u d))))).
    + apply sumN_ext. intros d Hd. rewrite E4 by (intros p Hp; enum_in Hp ltac:(assumption)). apply sumN_ext. intros u Hu. rewrite E3 by (intros p Hp; enum_in Hp ltac:(assumption)). apply sumN_ext. intros r Hr. rewrite E2 by (intros p Hp; enum_in Hp ltac:(assumption)). apply sumN_ext. intros l Hl.
      rewrite E1. rewrite <- (iv_T _ _ _ IV). unfold gsite, site_entry. apply (at_same _ _ _ _ _ (proj2 DA)). intros n' Hn; enum_in Hn ltac:(vm_compute; reflexivity).
    + rewrite (sumN_ext V _ (fun d => sumN H (fun r => sumN V (fun u => sumN H (fun l => T l r u d))))) by (intros; apply sumN_swap). rewrite sumN_swap. apply sumN_ext. intros r _.
      rewrite (sumN_ext V _ (fun d => sumN H (fun l => sumN V (fun u => T l r u d)))) by (intros; apply sumN_swap). rewrite sumN_swap. apply sumN_ext. intros l _. apply sumN_swap.
  - pose proof (nt_id _ _ _ _ N1) as IA. eapply inv_grow; [exact IV| |eapply ready_same; [apply CS|reflexivity|reflexivity|reflexivity]]. cbn [with_heap w_heap].
    destruct O2 as [a1 a2 a3 a4 a5 a6 a7 a8], O3 as [b1 b2 b3 b4 b5 b6 b7 b8], O4 as [c1 c2 c3 c4 c5 c6 c7 c8], O5 as [d1 d2 d3 d4 d5 d6 d7 d8]. destruct G1 as [g1 g2 g3 g4].
    split; [intros l Hl; rewrite d1, c1, b1, a1; auto|intros t Ht; rewrite d3, c3, b3, a3 by lia; auto|lia|lia].
Qed.
Lemma read_inv {X} (f : heap -> res X) (w w' : world) x : lift (readsR f) w = (w', Ok x) -> w' = w /\ f (w_heap w) = Ok x.
Proof. intros R. apply lift_inv in R. destruct R as (h & R & ->). unfold readsR in R. injection R as <- R. split; [now destruct w|exact R]. Qed.
(** ** getZ *)
Lemma growTo_none turns order (g : ctmrg) (w : world) : order <= List.length (m_cRec g) + 1 -> growTo symdiff fuel num turns order g w = (w, Ok g).
Proof. intros L. destruct turns; cbn [growTo]; [reflexivity|]. destruct (Nat.ltb_spec (List.length (m_cRec g) + 1) order); [lia|reflexivity]. Qed.
Definition src (now : bool) (p : tid * B) (l : list (tid * B)) (idx : option nat) : option (tid * B) := if now then Some p else match idx with Some i => nth_error l i | None => nth_error (rev l) 0 end.
Lemma get_src (now : bool) t x l idx (w w' : world) c' x' : (if now then wbind (lift (copy t)) (fun c => wret (c, x)) else getTensorAndScale l idx) w = (w', Ok (c', x')) ->
  exists t0, src now (t, x) l idx = Some (t0, x') /\ lift (copy t0) w = (w', Ok c').
Proof.
  intros R. unfold src. destruct now.
  - apply wbind_inv in R. destruct R as (w1 & c & R1 & R). injection R as -> -> ->. eauto.
  - unfold getTensorAndScale in R. destruct (match idx with Some i => nth_error l i | None => nth_error (rev l) 0 end) as [(t0, x0)|]; [|discriminate]. apply wbind_inv in R. destruct R as (w1 & c & R1 & R). injection R as -> -> ->. eauto.
Qed.
Lemma stage n (w : world) g m : inv n w g -> 1 <= m <= n -> let now := Nat.eqb (List.length (m_cRec g) + 1) m in
  exists k c cl h hl v vl, env_tensors (w_heap w) c h v H V k /\ represents H V T m (env_of (w_heap w) c h v k) (exp cl) (exp hl) (exp vl) /\
    src now (m_corner g, m_cLog g) (m_cRec g) (Some (m - 1)) = Some (c, cl) /\ src now (m_hEdge g, m_hLog g) (m_hRec g) (Some (m - 1)) = Some (h, hl) /\ src now (m_vEdge g, m_vLog g) (m_vRec g) (Some (m - 1)) = Some (v, vl).
Proof.
  intros [I1 (k & CS & RP) IT IC (L1 & L2 & L3) IR] Hm. cbv zeta. unfold src. destruct (Nat.eqb_spec (List.length (m_cRec g) + 1) m) as [E|N].
  - assert (n = m) as <- by lia. do 7 eexists. split; [apply CS|]. split; [exact RP|]. repeat split; reflexivity.
  - destruct (nth_error (m_cRec g) (m - 1)) as [(c, cl)|] eqn:E1; [|apply nth_error_None in E1; lia]. destruct (nth_error (m_hRec g) (m - 1)) as [(h, hl)|] eqn:E2; [|apply nth_error_None in E2; lia]. destruct (nth_error (m_vRec g) (m - 1)) as [(v, vl)|] eqn:E3; [|apply nth_error_None in E3; lia].
    destruct (IR _ _ _ _ _ _ _ E1 E2 E3) as (k' & ET & RP'). replace (S (m - 1)) with m in RP' by lia. exists k', c, cl, h, hl, v, vl. auto.
Qed.
Lemma getZ_ok n (w w' : world) g g' L z : inv n w g -> 1 <= L -> L / 2 <= n -> getZ symdiff fuel num ex g L w = (w', Ok (g', z)) -> g' = g /\ z = open_mirrored L H V T /\ inv n w' g.
Proof.
  intros IV L1 LN R. unfold getZ in R. destruct (Nat.eqb_spec L 1) as [->|NL].
  - apply wbind_inv in R. destruct R as (w1 & a & R1 & R). apply wbind_inv in R. destruct R as (w2 & [] & R2 & R). apply wbind_inv in R. destruct R as (w3 & z' & R3 & R). apply read_inv in R3. destruct R3 as (-> & R3). injection R as <- <- <-.
    split; [reflexivity|]. eapply one_run; eauto.
  - cbv zeta in R. assert (Hm : 1 <= L / 2) by (apply (Nat.div_le_mono 2 L 2); lia). set (m := L / 2) in *. pose proof (Nat.div_mod L 2 ltac:(lia)) as EL. fold m in EL.
    pose proof (iv_len _ _ _ IV) as (IL & _). unfold wbind at 1 in R. rewrite growTo_none in R by lia. replace (Nat.eqb m 0) with false in R by (symmetry; apply Nat.eqb_neq; lia).
    destruct (stage n w g m IV (conj Hm LN)) as (k & c & cl & h & hl & v & vl & ET & RP & S1 & S2 & S3).
    apply wbind_inv in R. destruct R as (w1 & (c', cl') & R1 & R). apply get_src in R1. destruct R1 as (t0 & Q1 & R1). rewrite S1 in Q1. injection Q1 as <- <-.
    destruct (Nat.eqb_spec (L mod 2) 1) as [OD|EN].
    + apply wbind_inv in R. destruct R as (w2 & (h', hl') & R2 & R). apply get_src in R2. destruct R2 as (t1 & Q2 & R2). rewrite S2 in Q2. injection Q2 as <- <-.
      apply wbind_inv in R. destruct R as (w3 & (v', vl') & R3 & R). apply get_src in R3. destruct R3 as (t2 & Q3 & R3). rewrite S3 in Q3. injection Q3 as <- <-.
      apply wbind_inv in R. destruct R as (w4 & res & R4 & R). apply wbind_inv in R. destruct R as (w5 & z' & R5 & R). apply read_inv in R5. destruct R5 as (-> & R5). injection R as <- <- <-.
      split; [reflexivity|]. replace L with (2 * m + 1) by lia. eapply odd_run; eauto.
    + apply wbind_inv in R. destruct R as (w4 & res & R4 & R). apply wbind_inv in R. destruct R as (w5 & z' & R5 & R). apply read_inv in R5. destruct R5 as (-> & R5). injection R as <- <- <-.
      split; [reflexivity|]. pose proof (Nat.mod_upper_bound L 2 ltac:(lia)). replace L with (2 * m) by lia. eapply even_run; eauto.
Qed.
Lemma run_inv n (w : world) g : exact_run symdiff fuel num ex H V T chi n w g -> inv n w g.
Proof.
  induction 1 as [w w' a g R DA ET EC|n w w' g g' k nc nh nv _ IH R ET EC G1 G2 G3|n w w' g g' L z _ IH L1 L2 R].
  - eapply inv_new; eauto.
  - eapply inv_iterate; eauto.
  - destruct (getZ_ok _ _ _ _ _ _ _ IH L1 L2 R) as (-> & _ & I). exact I.
Qed.
(** the answer for a lattice of no more than twice the sites counted *)
Theorem ctmrg_value n (w w' : world) g g' L z : exact_run symdiff fuel num ex H V T chi n w g -> 1 <= L -> L / 2 <= n -> getZ symdiff fuel num ex g L w = (w', Ok (g', z)) -> z = open_mirrored L H V T /\ g' = g.
Proof. intros R L1 LN G. destruct (getZ_ok _ _ _ _ _ _ _ (run_inv _ _ _ R) L1 LN G) as (-> & E & _). auto. Qed.
(** for L = 0 the answer is that of the last record; without records it is an error *)
Theorem ctmrg_zero_first (w : world) g : exact_run symdiff fuel num ex H V T chi 1 w g -> snd (getZ symdiff fuel num ex g 0 w) = Err IndexError.
Proof.
  intros R. pose proof (iv_len _ _ _ (run_inv _ _ _ R)) as (IL & _). unfold getZ. cbn [Nat.eqb Nat.div Nat.divmod fst]. unfold wbind. cbn [growTo wret]. destruct (m_cRec g); [reflexivity|cbn in IL; lia].
Qed.
Theorem ctmrg_zero n (w w' : world) g g' z : exact_run symdiff fuel num ex H V T chi (S n) w g -> 1 <= n -> getZ symdiff fuel num ex g 0 w = (w', Ok (g', z)) -> z = open_mirrored (2 * n) H V T.
Proof.
  intros R Hn G. pose proof (run_inv _ _ _ R) as IV. pose proof (iv_len _ _ _ IV) as (L1 & L2 & L3). unfold getZ in G. cbn [Nat.eqb] in G. change (0 / 2) with 0 in G. cbv zeta in G. unfold wbind at 1 in G. cbn [growTo wret] in G. change (wret g w) with (w, Ok g) in G. cbv beta iota in G.
  assert (E : Nat.eqb (List.length (m_cRec g) + 1) 0 = false) by (apply Nat.eqb_neq; lia). rewrite E in G. change (Nat.eqb (0 mod 2) 1) with false in G. cbv iota in G. cbn [Nat.eqb] in G.
  destruct (stage (S n) w g n IV ltac:(lia)) as (k & c & cl & h & hl & v & vl & ET & RP & S1 & S2 & S3). unfold src in S1. replace (Nat.eqb (List.length (m_cRec g) + 1) n) with false in S1 by (symmetry; apply Nat.eqb_neq; lia).
  apply wbind_inv in G. destruct G as (w1 & (c', cl') & R1 & G). apply (get_src false (m_corner g) (m_cLog g)) in R1. destruct R1 as (t0 & Q1 & R1). unfold src in Q1.
  assert (X : nth_error (rev (m_cRec g)) 0 = nth_error (m_cRec g) (n - 1)).
  { destruct (rev (m_cRec g)) as [|y l] eqn:ER; [apply (f_equal (@List.length _)) in ER; rewrite rev_length in ER; cbn in ER; lia|]. assert (EM : m_cRec g = rev l ++ [y]) by (rewrite <- (rev_involutive (m_cRec g)), ER; reflexivity). rewrite EM. cbn [nth_error]. rewrite nth_error_app2 by (rewrite EM, app_length in L1; cbn in L1; lia).
    replace (n - 1 - List.length (rev l)) with 0 by (rewrite EM, app_length in L1; cbn in L1; lia). reflexivity. }
  rewrite X, S1 in Q1. injection Q1 as <- <-.
  apply wbind_inv in G. destruct G as (w4 & res & R4 & G). apply wbind_inv in G. destruct G as (w5 & z' & R5 & G). apply read_inv in R5. destruct R5 as (-> & R5). injection G as <- <- <-. eapply even_run; eauto.
Qed.
End Get.
