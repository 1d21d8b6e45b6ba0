(** Proofs about iterate of CTMRG. *)
From Coq Require Import List Arith Bool String Lia Permutation.
From Verif Require Import Base Sums NdModel NdProofs HeapModel FuncsModel TensorModel TensorSpec TensorProofs MatrixProofs LabelProofs CtorProofs DiagCtorProofs CopyProofs ContractModel SvdModel SvdSpec SvdProofs CanonModel
  SearchSpec NetSpec FtnModel FtnNetSpec FtnProofs FtnFrameProofs FtnMainProofs NamedSpec NetsSpec NamedProofs NetsModel NetsProofs NamedMatProofs TorusProofs TrgModel TrgSpec TrgProofs DiagNetSpec NamedDiagProofs CtmrgNetProofs CtmrgTensProofs CtmrgModel CtmrgSpec CtmrgStepProofs.
Import ListNotations.
Local Open Scope nat_scope.
Local Open Scope string_scope.
Local Open Scope list_scope.

Section Iter.
Context {A B : Type} {HA : SR A}.
Notation heap := (heap A).
Notation world := (world A).
Notation ctmrg := (ctmrg A B).
Variable symdiff : list nat -> list nat -> list nat.
Hypothesis Hsd : symdiff_ok symdiff.
Variable fuel : nat.
Variable num : numerics A B.
Notation lib := (nu_lib num).
Add Ring CIring : (@SR_theory A HA).
Lemma keep_as b (h h' : heap) t m : tens h' t = tens h t -> legs h' = legs h -> nleg h' = nleg h -> ntens h' = ntens h -> legs_as b h t m -> legs_as b h' t m /\ (forall g, at_ h' t g = at_ h t g).
Proof.
  intros Et E2 E3 E4 (([i nd al da dg] & NL & ND) & HL).
  assert (El : legs_of h' t = legs_of h t) by (unfold legs_of; now rewrite Et).
  split; [split; [split|]|].
  - split; rewrite ?El, ?Et, ?E3, ?E4; auto.
    + unfold data_ok, dim_of in *. now rewrite E2.
    + unfold dim_of in *. now rewrite E2.
  - now rewrite Et.
  - unfold has_legs, names_of, dims_of, dim_of in *. now rewrite El, E2.
  - intros g. unfold at_, at_names, entry, entry_of, dim_of. rewrite Et, E2. reflexivity.
Qed.
Lemma legs_perm_as b (h : heap) t m m' : Permutation m m' -> legs_as b h t m -> legs_as b h t m'.
Proof. intros P (D & HL). split; auto. unfold has_legs in *. etransitivity; [exact HL|]. now apply Permutation_map. Qed.
Lemma divide3 (h : heap) t a k1 b k2 c k3 : dense_legs h t [(a, k1); (b, k2); (c, k3)] -> NoDup [a; b; c] -> exists h' n, divideByNorm num t h = (h', Ok n) /\ normalized num h' t n /\ dense_legs h' t [(a, k1); (b, k2); (c, k3)] /\
  (forall t', t' <> t -> tens h' t' = tens h t') /\ legs h' = legs h /\ nleg h' = nleg h /\ ntens h' = ntens h /\
  forall x y z, x < k1 -> y < k2 -> z < k3 -> at_ h' t [(a, x); (b, y); (c, z)] = nu_div num (at_ h t [(a, x); (b, y); (c, z)]) n.
Proof.
  intros D ND. destruct (divide_ok num h t _ D ND) as (h' & n & E & N & D' & K1 & K2 & K3 & K4 & G). exists h', n. repeat (split; [assumption|]). intros x y z Hx Hy Hz. apply (G [x; y; z]). repeat (constructor; [assumption|]). constructor.
Qed.
Lemma push_ok (w w' : world) (g g' : ctmrg) H V k : pushTensors g w = (w', Ok g') -> env_tensors (w_heap w) (m_corner g) (m_hEdge g) (m_vEdge g) H V k ->
  exists c h v, g' = mkCtmrg (m_a g) (m_chi g) (m_nets g) (m_corner g) (m_hEdge g) (m_vEdge g) (m_cLog g) (m_hLog g) (m_vLog g)
      (m_cRec g ++ [(c, m_cLog g)]) (m_hRec g ++ [(h, m_hLog g)]) (m_vRec g ++ [(v, m_vLog g)]) (m_errors g) /\
    w' = with_heap w (w_heap w') /\ grown (w_heap w) (w_heap w') /\ env_tensors (w_heap w') c h v H V k /\
    (forall x, at_ (w_heap w') c x = at_ (w_heap w) (m_corner g) x) /\ (forall x, at_ (w_heap w') h x = at_ (w_heap w) (m_hEdge g) x) /\ (forall x, at_ (w_heap w') v x = at_ (w_heap w) (m_vEdge g) x).
Proof.
  intros R [DC DH DV]. unfold pushTensors in R.
  apply wbind_inv in R. destruct R as (w1 & c & R1 & R). apply lift_inv in R1. destruct R1 as (h1 & R1 & ->). destruct (copy_as true _ _ _ DC ltac:(discriminate)) as (x1 & y1 & R1' & N1 & D1 & E1). rewrite R1' in R1. injection R1 as -> ->.
  pose proof (new_grown _ _ _ N1) as G1. destruct (grown_as false _ _ _ _ G1 DH) as (DH1 & EH1 & _). destruct (grown_as false _ _ _ _ G1 DV) as (DV1 & EV1 & _).
  apply wbind_inv in R. destruct R as (w2 & h & R2 & R). apply lift_inv in R2. destruct R2 as (h2 & R2 & ->). cbn [with_heap w_heap w_names w_nnames w_ftn w_nftn] in *. destruct (copy_as false _ _ _ DH1 ltac:(discriminate)) as (x2 & y2 & R2' & N2 & D2 & E2). rewrite R2' in R2. injection R2 as -> ->.
  pose proof (new_grown _ _ _ N2) as G2. destruct (grown_as false _ _ _ _ G2 DV1) as (DV2 & EV2 & _). 
  apply wbind_inv in R. destruct R as (w3 & v & R3 & R). apply lift_inv in R3. destruct R3 as (h3 & R3 & ->). cbn [with_heap w_heap w_names w_nnames w_ftn w_nftn] in *. destruct (copy_as false _ _ _ DV2 ltac:(discriminate)) as (x3 & y3 & R3' & N3 & D3 & E3). rewrite R3' in R3. injection R3 as -> ->.
  pose proof (new_grown _ _ _ N3) as G3. pose proof (grown_trans _ _ _ G2 G3) as G23. destruct (grown_as true _ _ _ _ G23 D1) as (D1' & E1' & _). destruct (grown_as false _ _ _ _ G3 D2) as (D2' & E2' & _).
  injection R as <- <-. exists c, h, v. split; [reflexivity|]. cbn [with_heap w_heap]. split; [reflexivity|]. split; [eapply grown_trans; eauto|]. split; [split; assumption|].
  split; [intros x; now rewrite E1', E1|]. split; [intros x; now rewrite E2', E2, EH1|intros x; now rewrite E3, EV2, EV1].
Qed.
Theorem iterateC_ok (w w' : world) (g g' : ctmrg) H V k nc nh nv : iterateC symdiff fuel num g w = (w', Ok (g', (nc, nh, nv))) -> cstate w g H V k ->
  let E := genv w g k in let T := gsite w g in svd_shape lib (ext_mat H V T E) (k * V) (k * H) ->
  exists c h v, cstate w' g' H V (cut_k H V E (m_chi g)) /\ m_a g' = m_a g /\ m_chi g' = m_chi g /\ m_nets g' = m_nets g /\
    m_cRec g' = m_cRec g ++ [(c, m_cLog g)] /\ m_hRec g' = m_hRec g ++ [(h, m_hLog g)] /\ m_vRec g' = m_vRec g ++ [(v, m_vLog g)] /\
    m_cLog g' = nu_plus num (nu_plus num (nu_plus num (nu_log num nc) (m_cLog g)) (m_hLog g)) (m_vLog g) /\ m_hLog g' = nu_plus num (nu_log num nh) (m_hLog g) /\ m_vLog g' = nu_plus num (nu_log num nv) (m_vLog g) /\
    m_errors g' = m_errors g ++ [cut_error num (ext_mat H V T E) (Nat.min (k * V) (k * H)) (m_chi g) 4] /\
    grown (w_heap w) (w_heap w') /\ env_tensors (w_heap w') c h v H V k /\ same_env H V E (env_of (w_heap w') c h v k) /\
    normalized num (w_heap w') (m_corner g') nc /\ normalized num (w_heap w') (m_hEdge g') nh /\ normalized num (w_heap w') (m_vEdge g') nv /\
    divided num H V (step_env H V T E lib (m_chi g)) (genv w' g' (cut_k H V E (m_chi g))) nc nh nv.
Proof.
  intros R [NR DA ET] E T SS. unfold iterateC in R. apply wbind_inv in R. destruct R as (w1 & g1 & RP & R).
  destruct (push_ok w w1 g g1 H V k RP ET) as (rc & rh & rv & -> & Ew1 & G1 & ER & EC1 & EH1 & EV1). cbn [m_a m_chi m_nets m_corner m_hEdge m_vEdge m_cLog m_hLog m_vLog m_cRec m_hRec m_vRec m_errors] in R.
  destruct ET as [DC DH DV]. destruct (grown_as true _ _ _ _ G1 DC) as (DC1 & XC1 & _). destruct (grown_as false _ _ _ _ G1 DH) as (DH1 & XH1 & _). destruct (grown_as false _ _ _ _ G1 DV) as (DV1 & XV1 & _). destruct (grown_as false _ _ _ _ G1 DA) as (DA1 & XA1 & _).
  assert (NR1 : cnets_ready w1 (m_nets g)) by (rewrite Ew1; now apply ready_heap).
  (* three copies *)
  apply wbind_inv in R. destruct R as (w2 & cc & R2 & R). apply lift_inv in R2. destruct R2 as (h2 & R2 & ->). destruct (copy_as true _ _ _ DC1 ltac:(discriminate)) as (x1 & y1 & R2' & N2 & D2 & E2). rewrite R2' in R2. injection R2 as -> ->.
  pose proof (new_grown _ _ _ N2) as G2. destruct (grown_as false _ _ _ _ G2 DH1) as (DH2 & XH2 & _). destruct (grown_as false _ _ _ _ G2 DV1) as (DV2 & XV2 & _).
  apply wbind_inv in R. destruct R as (w3 & hh & R3 & R). apply lift_inv in R3. destruct R3 as (h3 & R3 & ->). cbn [with_heap w_heap w_names w_nnames w_ftn w_nftn] in R3, R. destruct (copy_as false _ _ _ DH2 ltac:(discriminate)) as (x2 & y2 & R3' & N3 & D3 & E3). rewrite R3' in R3. injection R3 as -> ->.
  pose proof (new_grown _ _ _ N3) as G3. destruct (grown_as false _ _ _ _ G3 DV2) as (DV3 & XV3 & _).
  apply wbind_inv in R. destruct R as (w4 & vv & R4 & R). apply lift_inv in R4. destruct R4 as (h4 & R4 & ->). cbn [with_heap w_heap w_names w_nnames w_ftn w_nftn] in R4, R. destruct (copy_as false _ _ _ DV3 ltac:(discriminate)) as (x3 & y3 & R4' & N4 & D4 & E4). rewrite R4' in R4. injection R4 as -> ->.
  pose proof (new_grown _ _ _ N4) as G4. pose proof (grown_trans _ _ _ G3 G4) as G34. pose proof (grown_trans _ _ _ G2 G34) as G24.
  destruct (grown_as true _ _ _ _ G34 D2) as (D2' & E2' & _). destruct (grown_as false _ _ _ _ G4 D3) as (D3' & E3' & _). destruct (grown_as false _ _ _ _ G24 DA1) as (DA4 & XA4 & _).
  set (w4 := with_heap w1 h4). match type of R with wbind _ _ ?W = _ => change W with w4 in R end.
  assert (NR4 : cnets_ready w4 (m_nets g)) by (now apply ready_heap). change h4 with (w_heap w4) in D2', D3', D4, DA4.
  assert (FC : forall x, at_ (w_heap w4) cc x = at_ (w_heap w) (m_corner g) x) by (intros x; cbn [with_heap w_heap w4]; now rewrite E2', E2, XC1).
  assert (FH : forall x, at_ (w_heap w4) hh x = at_ (w_heap w) (m_hEdge g) x) by (intros x; cbn [with_heap w_heap w4]; now rewrite E3', E3, XH2, XH1).
  assert (FV : forall x, at_ (w_heap w4) vv x = at_ (w_heap w) (m_vEdge g) x) by (intros x; cbn [with_heap w_heap w4]; now rewrite E4, XV3, XV2, XV1).
  assert (FA : forall x, at_ (w_heap w4) (m_a g) x = at_ (w_heap w) (m_a g) x) by (intros x; cbn [with_heap w_heap w4]; now rewrite XA4, XA1).
  assert (PA : Permutation [("l", H); ("r", H); ("u", V); ("d", V)] [("u", V); ("l", H); ("d", V); ("r", H)]).
  { change (Permutation ([("l", H); ("r", H)] ++ [("u", V); ("d", V)]) [("u", V); ("l", H); ("d", V); ("r", H)]). apply (Permutation_cons_app [("u", V)] [("d", V); ("r", H)]). cbn [app]. apply (Permutation_cons_app [("u", V); ("d", V)] []). reflexivity. }
  (* three contractions *)
  apply wbind_inv in R. destruct R as (w5 & nH & R5 & R).
  destruct (hEdge_extend_value symdiff Hsd fuel w4 _ w5 nH hh (m_a g) V k k V H H R5 (cr_hExt _ _ NR4) D3' (legs_perm_as false _ _ _ _ PA DA4)) as (D5 & IN5 & EV5).
  assert (NR5 : cnets_ready w5 (m_nets g)) by (pose proof (cr_nd _ _ NR4); eapply ready_contract; [exact NR4|exact R5|..]; try not_mine; intros _; exact IN5).
  pose proof (contract_grown _ _ _ _ _ _ _ _ R5) as G5.
  destruct (grown_as true _ _ _ _ G5 D2') as (D25 & E25 & _). destruct (grown_as false _ _ _ _ G5 D3') as (D35 & E35 & _). destruct (grown_as false _ _ _ _ G5 D4) as (D45 & E45 & _). destruct (grown_as false _ _ _ _ G5 DA4) as (DA5 & EA5 & _).
  apply wbind_inv in R. destruct R as (w6 & nV & R6 & R).
  destruct (vEdge_extend_value symdiff Hsd fuel w5 _ w6 nV vv (m_a g) H k k V V H R6 (cr_vExt _ _ NR5) D45 (legs_perm_as false _ _ _ _ PA DA5)) as (D6 & IN6 & EV6).
  assert (NR6 : cnets_ready w6 (m_nets g)) by (pose proof (cr_nd _ _ NR5); eapply ready_contract; [exact NR5|exact R6|..]; try not_mine; intros _; exact IN6).
  pose proof (contract_grown _ _ _ _ _ _ _ _ R6) as G6.
  destruct (grown_as true _ _ _ _ G6 D25) as (D26 & E26 & _). destruct (grown_as false _ _ _ _ G6 D35) as (D36 & E36 & _). destruct (grown_as false _ _ _ _ G6 D45) as (D46 & E46 & _). destruct (grown_as false _ _ _ _ G6 DA5) as (DA6 & EA6 & _). destruct (grown_as false _ _ _ _ G6 D5) as (D56 & E56 & _).
  apply wbind_inv in R. destruct R as (w7 & nC & R7 & R).
  destruct (corner_extend_diag symdiff Hsd fuel w6 _ w7 nC hh vv (m_a g) cc k k H V k k V H R7 (cr_cExt _ _ NR6) D36 D46 (legs_perm_as false _ _ _ _ PA DA6) D26) as (D7 & IN7 & EV7).
  assert (NR7 : cnets_ready w7 (m_nets g)) by (pose proof (cr_nd _ _ NR6); eapply ready_contract; [exact NR6|exact R7|..]; try not_mine; intros _; exact IN7).
  pose proof (contract_grown _ _ _ _ _ _ _ _ R7) as G7.
  destruct (grown_as false _ _ _ _ G7 D6) as (D67 & E67 & _). destruct (grown_as false _ _ _ _ G7 D56) as (D57 & E57 & _). destruct (grown_as false _ _ _ _ G7 DA6) as (DA7 & EA7 & _).
  pose proof (grown_trans _ _ _ G5 (grown_trans _ _ _ G6 G7)) as G47. pose proof (grown_trans _ _ _ G1 (grown_trans _ _ _ G24 G47)) as G07.
  assert (XA : forall l r u d, at_ (w_heap w) (m_a g) [("u", u); ("l", l); ("d", d); ("r", r)] = T l r u d) by (intros l r u d; apply (at_same _ _ _ _ _ (proj2 DA)); intros n Hn; enum_in Hn ltac:(vm_compute; reflexivity)).
  (* the extended tensors *)
  assert (C7 : dense_legs (w_heap w7) nC [("u", k * V); ("r", k * H)]) by (eapply legs_perm; [apply perm_swap|exact D7]).
  assert (H7 : dense_legs (w_heap w7) nH [("l", k * H); ("r", k * H); ("u", V)]) by (eapply legs_perm_as; [apply perm_swap|exact D57]).
  assert (V7 : dense_legs (w_heap w7) nV [("u", k * V); ("d", k * V); ("r", H)]) by (eapply legs_perm_as; [apply perm_swap|exact D67]).
  assert (FC7 : forall p q, p < k * V -> q < k * H -> at_ (w_heap w7) nC [("u", p); ("r", q)] = ext_c H V T E p q).
  { intros p q Hp Hq. destruct (pair_unravel k V p Hp) as (P1 & P2 & P3). destruct (pair_unravel k H q Hq) as (Q1 & Q2 & Q3).
    rewrite (at_same _ _ _ _ [("r", q / H * H + q mod H); ("u", p / V * V + p mod V)] (proj2 C7)) by (rewrite <- P3, <- Q3; intros n Hn; enum_in Hn ltac:(vm_compute; reflexivity)).
    rewrite EV7 by assumption. unfold ext_c. cbn [e_k E genv env_of]. apply sumN_ext. intros x Hx.
    rewrite (sumN_single k _ x Hx).
    - apply sumN_ext. intros l Hl. apply sumN_ext. intros d Hd. rewrite E36, E35, FH, E46, E45, FV, EA6, EA5, FA, E26, E25, FC, XA. cbn [E genv env_of e_c e_h e_v]. ring.
    - intros y Hy Ny. transitivity (sumN H (fun _ : nat => r0 (A := A))); [|apply sumL_0]. apply sumN_ext. intros l _. transitivity (sumN V (fun _ : nat => r0 (A := A))); [|apply sumL_0]. apply sumN_ext. intros d _.
      rewrite (diag_off _ _ _ _ _ _ x y D26 ltac:(discriminate)). apply not_eq_sym in Ny. apply Nat.eqb_neq in Ny. rewrite Ny. ring. }
  assert (FH7 : forall p q u, p < k * H -> q < k * H -> u < V -> at_ (w_heap w7) nH [("l", p); ("r", q); ("u", u)] = ext_h H V T E p q u).
  { intros p q u Hp Hq Hu. destruct (pair_unravel k H p Hp) as (P1 & P2 & P3). destruct (pair_unravel k H q Hq) as (Q1 & Q2 & Q3).
    rewrite (at_same _ _ _ _ [("r", q / H * H + q mod H); ("l", p / H * H + p mod H); ("u", u)] (proj2 H7)) by (rewrite <- P3, <- Q3; intros n Hn; enum_in Hn ltac:(vm_compute; reflexivity)).
    rewrite E57, E56, EV5 by assumption. unfold ext_h. apply sumN_ext. intros d Hd. rewrite FH, FA, XA. reflexivity. }
  assert (FV7 : forall p q r, p < k * V -> q < k * V -> r < H -> at_ (w_heap w7) nV [("u", p); ("d", q); ("r", r)] = ext_v H V T E p q r).
  { intros p q r Hp Hq Hr. destruct (pair_unravel k V p Hp) as (P1 & P2 & P3). destruct (pair_unravel k V q Hq) as (Q1 & Q2 & Q3).
    rewrite (at_same _ _ _ _ [("d", q / V * V + q mod V); ("u", p / V * V + p mod V); ("r", r)] (proj2 V7)) by (rewrite <- P3, <- Q3; intros n Hn; enum_in Hn ltac:(vm_compute; reflexivity)).
    rewrite E67, EV6 by assumption. unfold ext_v. apply sumN_ext. intros l Hl. rewrite E45, FV, EA5, FA, XA. reflexivity. }
  (* reduction *)
  apply wbind_inv in R. destruct R as (w8 & (((s, hN), vN), er) & R8 & R). cbv iota in R.
  assert (EM : mat2 (k * V) (k * H) (fun p q => at_ (w_heap w7) nC [("u", p); ("r", q)]) = ext_mat H V T E) by (unfold ext_mat; apply mat2_ext; exact FC7).
  pose proof (reduce_ok symdiff Hsd fuel num w7 w8 (m_chi g) (m_nets g) nC nH nV (k * V) (k * H) H V s hN vN er R8 NR7 C7 H7 V7) as RD. cbv zeta in RD. rewrite EM in RD.
  destruct (RD SS) as (NR8 & G8 & [DS8 DH8 DV8] & Ee & I1 & I2 & I3 & ND3 & ES8 & EH8 & EV8). clear RD.
  change (Nat.min (m_chi g) (Nat.min (k * V) (k * H))) with (cut_k H V E (m_chi g)) in *. set (k' := cut_k H V E (m_chi g)) in *.
  pose proof (grown_trans _ _ _ G07 G8) as G08. pose proof (grown_trans _ _ _ (grown_trans _ _ _ G24 G47) G8) as G18.
  apply NoDup_cons_iff in ND3. destruct ND3 as (ND1 & ND3). apply NoDup_cons_iff in ND3. destruct ND3 as (ND2 & _). cbn in ND1, ND2.
  (* norms *)
  apply wbind_inv in R. destruct R as (w9 & n1 & R9 & R). apply lift_inv in R9. destruct R9 as (h9 & R9 & ->). destruct (divide_diag num _ _ _ _ _ DS8 ltac:(discriminate)) as (z1 & z2 & R9' & NM9 & D9 & K91 & K92 & K93 & K94 & E9). rewrite R9' in R9. injection R9 as -> ->.
  destruct (keep_as false (w_heap w8) h9 hN _ (K91 hN ltac:(lia)) K92 K93 K94 DH8) as (DH9 & EH9). destruct (keep_as false (w_heap w8) h9 vN _ (K91 vN ltac:(lia)) K92 K93 K94 DV8) as (DV9 & EV9).
  apply wbind_inv in R. destruct R as (w10 & n2 & R10 & R). apply lift_inv in R10. destruct R10 as (h10 & R10 & ->). cbn [with_heap w_heap w_names w_nnames w_ftn w_nftn] in R10, R. destruct (divide3 _ _ _ _ _ _ _ _ DH9 ltac:(now apply nodupb_ok)) as (z1 & z2 & R10' & NM10 & D10 & K101 & K102 & K103 & K104 & E10). rewrite R10' in R10. injection R10 as -> ->.
  destruct (keep_as true h9 h10 s _ (K101 s ltac:(lia)) K102 K103 K104 D9) as (DS10 & ES10). destruct (keep_as false h9 h10 vN _ (K101 vN ltac:(lia)) K102 K103 K104 DV9) as (DV10 & EV10).
  apply wbind_inv in R. destruct R as (w11 & n3 & R11 & R). apply lift_inv in R11. destruct R11 as (h11 & R11 & ->). cbn [with_heap w_heap w_names w_nnames w_ftn w_nftn] in R11, R. destruct (divide3 _ _ _ _ _ _ _ _ DV10 ltac:(now apply nodupb_ok)) as (z1 & z2 & R11' & NM11 & D11 & K111 & K112 & K113 & K114 & E11). rewrite R11' in R11. injection R11 as -> ->.
  destruct (keep_as true h10 h11 s _ (K111 s ltac:(lia)) K112 K113 K114 DS10) as (DS11 & ES11). destruct (keep_as false h10 h11 hN _ (K111 hN ltac:(lia)) K112 K113 K114 D10) as (DH11 & EH11).
  injection R as <- <- <- <- <-. cbn [m_a m_chi m_nets m_corner m_hEdge m_vEdge m_cLog m_hLog m_vLog m_cRec m_hRec m_vRec m_errors with_heap w_heap].
  assert (LOW : forall h0, grown h0 (w_heap w8) -> ntens h0 <= s -> ntens h0 <= hN -> ntens h0 <= vN -> grown h0 h11).
  { intros h0 [g1 g2 g3 g4] L1 L2 L3. split.
    - intros l Hl. rewrite K112, K102, K92. auto.
    - intros t Ht. rewrite K111, K101, K91 by lia. auto.
    - lia.
    - lia. }
  pose proof (gr_ntens _ _ G07) as L07. pose proof (gr_ntens _ _ (grown_trans _ _ _ G24 G47)) as L17.
  assert (G0 : grown (w_heap w) h11) by (apply LOW; [exact G08|lia|lia|lia]). assert (G1F : grown (w_heap w1) h11) by (apply LOW; [exact G18|lia|lia|lia]).
  destruct ER as [ER1 ER2 ER3]. destruct (grown_as true _ _ _ _ G1F ER1) as (ER1' & EE1 & _). destruct (grown_as false _ _ _ _ G1F ER2) as (ER2' & EE2 & _). destruct (grown_as false _ _ _ _ G1F ER3) as (ER3' & EE3 & _).
  exists rc, rh, rv. split.
  { split; cbn [m_a m_chi m_nets m_corner m_hEdge m_vEdge].
    - apply (ready_heap w8 _ h11 NR8).
    - exact (proj1 (grown_as false _ _ _ _ G0 DA)).
    - split; assumption. }
  do 9 (split; [reflexivity|]). split; [now rewrite Ee|]. split; [exact G0|]. split; [split; assumption|].
  split; [split; cbn [e_k e_c e_h e_v env_of E genv]; [reflexivity|intros; now rewrite EE1, EC1|intros; now rewrite EE2, EH1|intros; now rewrite EE3, EV1]|].
  split; [destruct NM9 as (sh & da & X & Y); exists sh, da; split; [exact X|]; now rewrite K111, K101 by lia|]. split; [destruct NM10 as (sh & da & X & Y); exists sh, da; split; [exact X|]; now rewrite K111 by lia|]. split; [exact NM11|].
  split; cbn [e_k e_c e_h e_v env_of genv step_env m_corner m_hEdge m_vEdge with_heap w_heap]; fold k'.
  - reflexivity.
  - intros z Hz. rewrite ES11, ES10, E9 by assumption. f_equal. now apply ES8.
  - intros y z u Hy Hz Hu. rewrite EH11, E10 by assumption. f_equal. rewrite EH9, EH8 by assumption. apply sumN_ext. intros p Hp. apply sumN_ext. intros q Hq. rewrite FH7 by assumption. reflexivity.
  - intros y z r Hy Hz Hr. rewrite E11 by assumption. f_equal. rewrite EV10, EV9, EV8 by assumption. apply sumN_ext. intros p Hp. apply sumN_ext. intros q Hq. rewrite FV7 by assumption. reflexivity.
Qed.
End Iter.
