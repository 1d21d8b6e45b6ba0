(** doubleMergeByBond and mergeMPS on chains with room for everything. *)
From Coq Require Import List Arith Bool Lia String ZArith Permutation.
From Verif Require Import Base Sums NdModel NdProofs HeapModel FuncsModel FuncsProofs TensorModel TensorSpec TensorProofs MatrixProofs
  ContractModel NetSpec ShareProofs LinkProofs SumpairsProofs ContractProofs OuterProofs NetProofs MergeLinkSpec MergeLinkProofs GroupSpec GroupProofs NetSameProofs
  SvdModel SvdSpec SchmidtProofs MergeSvdProofs MpsModel MpsSpec MpsProofs MpsSwapProofs MpsMoveProofs MpsPreProofs MpsContractModel MpsContractSpec MpsOpenProofs MpsCommonProofs
  TripleSpec CanonSpec CanonRunProofs MpsFuseProofs MpsContractProofs MpsSiteProofs MpsDoubleSpec MpsDoubleProofs MpsCutProofs MpsDoubleMainProofs MpsBondProofs.
Import ListNotations.
Local Open Scope list_scope.
Local Open Scope nat_scope.

Section Mg.
Context {A : Type} {HA : SR A}.
Notation heap := (heap A).
Variable lib : linalg A.
Hypothesis PF : svd_perfect lib.
Hypothesis RK : svd_rank lib.

Lemma exact_chains (h : heap) tsA tsB e osA osB q chi : exact_pair h tsA tsB e osA osB q chi ->
  exists lfA rtA lfB rtB, chain h tsA osA (tsB ++ e) lfA rtA /\ chain h tsB osB (tsA ++ e) lfB rtB.
Proof. intros (_ & _ & _ & lfA & rtA & lfB & rtB & CA & CB & _). exists lfA, rtA, lfB, rtB. auto. Qed.
Lemma exact_wf (h : heap) tsA tsB e osA osB q chi : exact_pair h tsA tsB e osA osB q chi -> wf_net h (tsA ++ tsB ++ e).
Proof. intros X. destruct (exact_chains _ _ _ _ _ _ _ _ X) as (lfA & rtA & lfB & rtB & CA & CB). exact (two_net _ _ _ _ _ _ _ CA). Qed.
Lemma exact_ndA (h : heap) tsA tsB e osA osB q chi : exact_pair h tsA tsB e osA osB q chi -> NoDup osA.
Proof. intros X. destruct (exact_chains _ _ _ _ _ _ _ _ X) as (lfA & rtA & lfB & rtB & CA & CB). exact (ch_ndo _ _ _ _ _ _ CA). Qed.
Lemma exact_legA (h : heap) tsA tsB e osA osB q chi : exact_pair h tsA tsB e osA osB q chi -> incl osA (all_legs h tsA).
Proof. intros X. destruct (exact_chains _ _ _ _ _ _ _ _ X) as (lfA & rtA & lfB & rtB & CA & CB). intros l Hl. exact (os_all _ _ _ _ _ _ _ CA l Hl). Qed.
Lemma exact_disj (h : heap) tsA tsB e osA osB q chi : exact_pair h tsA tsB e osA osB q chi -> forall l, In l osA \/ In l (all_legs h tsA) -> In l osB \/ In l (all_legs h e) -> False.
Proof.
  intros X l H1 H2. assert (W := exact_wf _ _ _ _ _ _ _ _ X). assert (K := wn_nodup _ _ W). rewrite !all_legs_app in K.
  assert (I1 : In l (all_legs h tsA)) by (destruct H1 as [H1|]; auto; exact (exact_legA _ _ _ _ _ _ _ _ X l H1)).
  apply (NoDup_app_disj _ _ l K I1). apply in_app_iff. destruct H2 as [H2|]; auto. left. exact (exact_legA _ _ _ _ _ _ _ _ (exact_sym _ _ _ _ _ _ _ _ X) l H2).
Qed.
Lemma kept_linked (h h' : heap) L l l' : kept_legs h h' L -> In l L -> linked h l l' -> linked h' l l'.
Proof. intros K I. apply (K l I). Qed.

Theorem by_bond (h : heap) tsA tsB e osA osB q chia chib acta actb RA RB x1 x2 y1 y2 bd1 bd2 :
  exact_pair h tsA tsB e osA osB q (Z.min chia chib) ->
  Permutation osA (x1 :: x2 :: RA) -> Permutation osB (y1 :: y2 :: RB) -> linked h x1 y1 -> linked h x2 y2 -> l_bond (legs h x1) = Some bd1 -> l_bond (legs h x2) = Some bd2 ->
  exists h' tsA' tsB' osA' osB' x y bd q', doubleMergeByBond lib (mkMps tsA chia acta) (mkMps tsB chib actb) bd1 bd2 h = (h', Ok (mkMps tsA' chia None, mkMps tsB' chib None, bd)) /\
    merged h tsA tsB e osA osB RA RB q (Z.min chia chib) h' tsA' tsB' osA' osB' q' x y bd.
Proof.
  intros X PA PB L1 L2 B1 B2. set (chi := Z.min chia chib) in *. destruct X as (CL & AL & Q & lfA & rtA & lfB & rtB & CA & CB & FA & FB) eqn:EX. clear EX.
  assert (X0 : exact_pair h tsA tsB e osA osB q chi) by exact X. clear X FA FB.
  assert (IA1 : In x1 osA) by (eapply Permutation_in; [symmetry; exact PA|simpl; auto]). assert (IA2 : In x2 osA) by (eapply Permutation_in; [symmetry; exact PA|simpl; auto]).
  assert (IB1 : In y1 osB) by (eapply Permutation_in; [symmetry; exact PB|simpl; auto]). assert (IB2 : In y2 osB) by (eapply Permutation_in; [symmetry; exact PB|simpl; auto]).
  assert (NX : x1 <> x2) by (pose proof (Permutation_NoDup PA (ch_ndo _ _ _ _ _ _ CA)) as N; inversion N; subst; simpl in *; intuition).
  assert (NY : y1 <> y2) by (pose proof (Permutation_NoDup PB (ch_ndo _ _ _ _ _ _ CB)) as N; inversion N; subst; simpl in *; intuition).
  destruct (bond_indices h tsA tsB e osA osB lfA rtA lfB rtB CA CB CL x1 y1 bd1 chia acta chib actb IA1 IB1 L1 B1) as (i1 & j1 & G1 & I1 & J1 & NI1 & NJ1).
  destruct (bond_indices h tsA tsB e osA osB lfA rtA lfB rtB CA CB CL x2 y2 bd2 chia acta chib actb IA2 IB2 L2 B2) as (i2 & j2 & G2 & I2 & J2 & NI2 & NJ2).
  assert (NI : i1 <> i2) by congruence. assert (NJ : j1 <> j2) by congruence.
  destruct (adjacent_exact lib PF h tsA tsB e osA osB q chi chia acta i1 i2 X0 ltac:(lia) I1 I2 NI) as (h1 & tsA1 & osA1 & acta1 & ka & E1 & X1 & P1 & K1 & N1 & U1 & KL1 & SF1 & V1).
  destruct (adjacent_exact lib PF h1 tsB tsA1 e osB osA1 q chi chib actb j1 j2 (exact_sym _ _ _ _ _ _ _ _ X1) ltac:(lia) J1 J2 NJ) as (h2 & tsB2 & osB2 & actb2 & kb & E2 & X2 & P2 & K2 & N2 & U2 & KL2 & SF2 & V2).
  apply exact_sym in X2. rewrite NI1, NI2 in N1. rewrite NJ1, NJ2 in N2.
  assert (UA : kept_legs h1 h2 osA1).
  { eapply kept_incl; [|apply (ut_kept _ _ _ U2)]. intros l Hl. rewrite all_legs_app. apply in_app_iff. left. exact (exact_legA _ _ _ _ _ _ _ _ X1 l Hl). }
  assert (UB : kept_legs h h1 osB).
  { eapply kept_incl; [|apply (ut_kept _ _ _ U1)]. intros l Hl. rewrite all_legs_app. apply in_app_iff. left. exact (os_all _ _ _ _ _ _ _ CB l Hl). }
  assert (KA : kept_legs h h2 osA). { eapply kept_trans; [exact KL1|]. eapply kept_incl; [|exact UA]. intros l Hl. eapply Permutation_in; [symmetry; exact P1|auto]. }
  assert (KB : kept_legs h h2 osB) by (eapply kept_trans; [exact UB|exact KL2]).
  assert (W0 := exact_wf _ _ _ _ _ _ _ _ X0). assert (W1 := exact_wf _ _ _ _ _ _ _ _ X1). assert (W1' := exact_wf _ _ _ _ _ _ _ _ (exact_sym _ _ _ _ _ _ _ _ X1)). assert (W2' := exact_wf _ _ _ _ _ _ _ _ (exact_sym _ _ _ _ _ _ _ _ X2)).
  destruct (double_exact lib PF RK h2 tsA1 tsB2 e osA1 osB2 q chia chib acta1 actb2 ka kb RA RB x1 x2 y1 y2 X2 K1 K2 (Permutation_trans P1 PA) (Permutation_trans P2 PB)
    (kept_linked _ _ _ _ _ KA IA1 L1) (kept_linked _ _ _ _ _ KA IA2 L2) N1 N2) as (h' & tsA' & tsB' & osA' & osB' & x & y & bd & q' & E3 & X3 & PA' & PB' & L' & BD & QX & QY & QO & U3 & K3 & SF3 & V3).
  assert (UE : untouched h e h').
  { eapply ut_trans; [|exact U3]. eapply ut_trans; [eapply ut_incl; [|exact U1]; sub|eapply ut_incl; [|exact U2]; sub]. }
  assert (W3 := exact_wf _ _ _ _ _ _ _ _ X3). assert (W3' := exact_wf _ _ _ _ _ _ _ _ (exact_sym _ _ _ _ _ _ _ _ X3)).
  assert (IX : In x osA') by (eapply Permutation_in; [symmetry; exact PA'|simpl; auto]). assert (IY : In y osB') by (eapply Permutation_in; [symmetry; exact PB'|simpl; auto]).
  assert (DJ := exact_disj _ _ _ _ _ _ _ _ X3).
  assert (QO' : forall l, In l (RA ++ RB ++ all_legs h e) -> q' l = q l).
  { intros l Hl. apply QO; intros ->.
    - apply in_app_iff in Hl. destruct Hl as [Hl|Hl].
      + pose proof (Permutation_NoDup PA' (exact_ndA _ _ _ _ _ _ _ _ X3)) as N. now inversion N.
      + apply (DJ x (or_introl IX)). apply in_app_iff in Hl. destruct Hl as [Hl|Hl]; [left; eapply Permutation_in; [symmetry; exact PB'|simpl; auto]|right; now rewrite (ut_all _ _ _ UE)].
    - apply in_app_iff in Hl. destruct Hl as [Hl|Hl].
      + apply (DJ y); [left; eapply Permutation_in; [symmetry; exact PA'|simpl; auto]|auto].
      + apply in_app_iff in Hl. destruct Hl as [Hl|Hl].
        * pose proof (Permutation_NoDup PB' (exact_ndA _ _ _ _ _ _ _ _ (exact_sym _ _ _ _ _ _ _ _ X3))) as N. now inversion N.
        * apply (exact_disj _ _ _ _ _ _ _ _ (exact_sym _ _ _ _ _ _ _ _ X3) y (or_introl IY)). right. now rewrite (ut_all _ _ _ UE). }
  exists h', tsA', tsB', osA', osB', x, y, bd, q'. split.
  - unfold doubleMergeByBond. erewrite bind_ok by (unfold readsR; rewrite G1; reflexivity). cbn beta iota. erewrite bind_ok by (unfold readsR; rewrite G2; reflexivity). cbn beta iota.
    rewrite (bind_ok _ _ _ _ _ E1). cbn beta iota. rewrite (bind_ok _ _ _ _ _ E2). cbn beta iota.
    replace (Z.eqb (Z.of_nat ka + 1) (Z.of_nat (S ka)) && Z.eqb (Z.of_nat kb + 1) (Z.of_nat (S kb))) with true; [|symmetry; apply andb_true_iff; split; apply Z.eqb_eq; lia].
    erewrite bind_ok by reflexivity. exact E3.
  - assert (SF2' : same_free h1 (tsA1 ++ tsB ++ e) h2 (tsA1 ++ tsB2 ++ e)) by (eapply same_free_perm; [apply st_perm|apply st_perm|exact W1'|exact W2'|exact SF2]).
    assert (V2' : same_value h1 (tsA1 ++ tsB ++ e) h2 (tsA1 ++ tsB2 ++ e)) by (eapply same_value_perm; [apply st_perm|apply st_perm|exact W1'|exact W2'|exact V2]).
    split; [exact X3|]. split; auto. split; auto. split; auto. split; auto. split; auto. split; [|split; [|split; [exact UE|split; [|split]]]].
    + rewrite (prodn_perm' _ _ (Permutation_map q' PA')), (prodn_perm' _ _ (Permutation_map q PA)). cbn [map]. rewrite !prodn_cons', QX, Nat.mul_assoc. f_equal. f_equal. apply map_ext_in. intros l Hl. apply QO', in_app_iff. auto.
    + rewrite (prodn_perm' _ _ (Permutation_map q' PB')), (prodn_perm' _ _ (Permutation_map q PB)). cbn [map]. rewrite !prodn_cons', QY, Nat.mul_assoc. f_equal. f_equal. apply map_ext_in. intros l Hl. apply QO', in_app_iff. right. apply in_app_iff. auto.
    + eapply kept_trans; [|exact K3]. apply kept_app; [eapply kept_incl; [|exact KA]|eapply kept_incl; [|exact KB]]; intros l Hl; (eapply Permutation_in; [symmetry; eassumption|simpl; auto]).
    + eapply same_free_trans; [exact SF1|]. eapply same_free_trans; [exact SF2'|exact SF3].
    + eapply same_value_trans; [exact SF1|exact V1|]. eapply same_value_trans; [exact SF2'|exact V2'|exact V3].
Qed.

Theorem merge_bonds chia chib e RA RB : forall Ps bds (h : heap) tsA tsB osA osB q acta actb x1 y1 bd1,
  exact_pair h tsA tsB e osA osB q (Z.min chia chib) ->
  Permutation osA (x1 :: map fst Ps ++ RA) -> Permutation osB (y1 :: map snd Ps ++ RB) -> linked h x1 y1 -> l_bond (legs h x1) = Some bd1 ->
  (forall l l', In (l, l') Ps -> linked h l l') -> map Some bds = map (fun p => l_bond (legs h (fst p))) Ps ->
  exists h' tsA' tsB' osA' osB' x y bd q', 
    mergeBonds lib (mkMps tsA chia acta) (mkMps tsB chib actb) bd1 bds h = (h', Ok (mkMps tsA' chia (if Ps then acta else None), mkMps tsB' chib (if Ps then actb else None))) /\
    merged h tsA tsB e osA osB RA RB q (Z.min chia chib) h' tsA' tsB' osA' osB' q' x y bd.
Proof.
  induction Ps as [|(x2 & y2) Ps IH]; intros bds h tsA tsB osA osB q acta actb x1 y1 bd1 X PA PB L1 B1 LP EB.
  - destruct bds as [|b bds]; [|discriminate]. cbn [map app] in PA, PB. exists h, tsA, tsB, osA, osB, x1, y1, bd1, q. split; [reflexivity|]. split; auto. split; auto. split; auto. split; auto. split; auto. split; auto. split; auto. split; auto.
    split; [apply ut_refl|]. split; [intros l _; split; auto; split; auto; reflexivity|]. split; [split; auto|intros s _; reflexivity].
  - destruct bds as [|bd2 bds]; [discriminate|]. cbn [map fst] in EB. injection EB as B2 EB. cbn [map app fst snd] in PA, PB.
    destruct (by_bond h tsA tsB e osA osB q chia chib acta actb (map fst Ps ++ RA) (map snd Ps ++ RB) x1 x2 y1 y2 bd1 bd2 X PA PB L1 (LP _ _ (or_introl eq_refl)) B1 (eq_sym B2))
      as (h1 & tsA1 & tsB1 & osA1 & osB1 & x & y & bd & q1 & E1 & X1 & PA1 & PB1 & LX & BX & Q1 & QA1 & QB1 & U1 & K1 & SF1 & V1).
    assert (KP : forall l l', In (l, l') Ps -> In l ((map fst Ps ++ RA) ++ map snd Ps ++ RB)).
    { intros l l' I. apply in_app_iff. left. apply in_app_iff. left. apply in_map_iff. exists (l, l'). auto. }
    destruct (IH bds h1 tsA1 tsB1 osA1 osB1 q1 None None x y bd X1 PA1 PB1 LX BX) as (h' & tsA' & tsB' & osA' & osB' & x' & y' & bd' & q' & E2 & X2 & PA2 & PB2 & LX2 & BX2 & Q2 & QA2 & QB2 & U2 & K2 & SF2 & V2).
    { intros l l' I. apply (kept_linked _ _ _ _ _ K1 (KP l l' I)). apply LP. simpl. auto. }
    { rewrite EB. apply map_ext_in. intros (l & l') I. cbn [fst]. symmetry. apply (K1 l (KP l l' I)). }
    exists h', tsA', tsB', osA', osB', x', y', bd', q'. split.
    + cbn [mergeBonds]. rewrite (bind_ok _ _ _ _ _ E1). cbn beta iota. rewrite E2. now destruct Ps.
    + split; auto. split; auto. split; auto. split; auto. split; auto. split; [|split; [congruence|split; [congruence|split; [eapply ut_trans; eauto|split; [|split]]]]].
      * intros l Hl. rewrite Q2; [apply Q1|].
        -- revert l Hl. change (incl (RA ++ RB ++ all_legs h e) ((map fst Ps ++ RA) ++ (map snd Ps ++ RB) ++ all_legs h e)). sub.
        -- rewrite <- (ut_all _ _ _ U1) in Hl. exact Hl.
      * eapply kept_trans; [|exact K2]. eapply kept_incl; [|exact K1]. sub.
      * eapply same_free_trans; eauto.
      * eapply same_value_trans; eauto.
Qed.

Lemma link_one (h : heap) l a b : linked h l a -> linked h l b -> a = b.
Proof. intros (b1 & B1 & E1) (b2 & B2 & E2). assert (b1 = b2) by congruence. subst b2. destruct E1 as [E1|E1], E2 as [E2|E2]; rewrite E1 in E2; injection E2; congruence. Qed.
Section Pairs.
Context (h : heap) (tsA tsB e : list tid) (osA osB : list lid) (lfA rtA lfB rtB : nat -> lid).
Hypothesis CA : chain h tsA osA (tsB ++ e) lfA rtA.
Hypothesis CB : chain h tsB osB (tsA ++ e) lfB rtB.
Hypothesis CL : closed h (tsA ++ tsB ++ e).
Let P := pairs_between h osA osB.

Lemma pairs_snd_nodup : NoDup (map snd P).
Proof.
  assert (ND : NoDup P) by (apply pairs_nodup'; exact (ch_ndo _ _ _ _ _ _ CA)).
  assert (SUB : forall l l', In (l, l') P -> In l osA /\ linked h l l') by (intros l l' I; apply pairs_In in I; tauto). clearbody P.
  induction P as [|(a & b) P' IH]; [constructor|]. apply NoDup_cons_iff in ND. destruct ND as [NI ND]. cbn [map snd]. constructor.
  - intros I. apply in_map_iff in I. destruct I as ((a' & b') & E & I). cbn [snd] in E. subst b'. destruct (SUB a b (or_introl eq_refl)) as [Ia La]. destruct (SUB a' b (or_intror I)) as [Ia' La'].
    destruct (link_back _ _ _ _ _ _ _ CA CL a b Ia La) as (K & _). destruct (link_back _ _ _ _ _ _ _ CA CL a' b Ia' La') as (K' & _).
    assert (a = a') by exact (link_one h b a a' K K'). subst. auto.
  - apply IH; auto. intros l l' I. apply SUB. simpl. auto.
Qed.
Lemma pairs_split_fst : Permutation osA (map fst P ++ others osA (map fst P)).
Proof.
  rewrite Permutation_app_comm. symmetry. apply ContractProofs.others_perm; [exact (ch_ndo _ _ _ _ _ _ CA)|apply fst_pairs_nodup; exact (ch_ndo _ _ _ _ _ _ CA)|].
  intros l Hl. apply in_map_iff in Hl. destruct Hl as ((a & b) & E & I). cbn [fst] in E. subst. now apply pairs_In in I.
Qed.
Lemma pairs_split_snd : Permutation osB (map snd P ++ others osB (map snd P)).
Proof.
  rewrite Permutation_app_comm. symmetry. apply ContractProofs.others_perm; [exact (ch_ndo _ _ _ _ _ _ CB)|exact pairs_snd_nodup|].
  intros l Hl. apply in_map_iff in Hl. destruct Hl as ((a & b) & E & I). cbn [snd] in E. subst. now apply pairs_In in I.
Qed.
End Pairs.

Lemma all_same {X} (L : list X) x : NoDup L -> In x L -> (forall y, In y L -> y = x) -> L = [x].
Proof.
  intros ND I E. destruct L as [|a L]; [destruct I|]. assert (a = x) by (apply E; simpl; auto). subst a. destruct L as [|b L]; auto. assert (b = x) by (apply E; simpl; auto). subst b. inversion ND. elim H1. simpl; auto.
Qed.

Theorem merge_mps (h : heap) tsA tsB e osA osB q chia chib acta actb begin :
  exact_pair h tsA tsB e osA osB q (Z.min chia chib) -> let P := pairs_between h osA osB in 2 <= List.length P -> (begin = true \/ List.length P = 2) ->
  exists h' tsA' tsB' osA' osB' x y bd q', 
    mergeMPS lib (OMps (mkMps tsA chia acta)) (OMps (mkMps tsB chib actb)) begin h = (h', Ok (OMps (mkMps tsA' chia None), OMps (mkMps tsB' chib None))) /\
    merged h tsA tsB e osA osB (others osA (map fst P)) (others osB (map snd P)) q (Z.min chia chib) h' tsA' tsB' osA' osB' q' x y bd /\
    pairs_between h' osA' osB' = [(x, y)].
Proof.
  intros X P LE BG. destruct (exact_chains _ _ _ _ _ _ _ _ X) as (lfA & rtA & lfB & rtB & CA & CB). assert (CL := proj1 X).
  destruct (common_bonds h tsA tsB e osA osB lfA rtA lfB rtB CA CB CL chib actb) as (bds & CBE & EB). fold P in EB.
  assert (PA := pairs_split_fst _ _ _ _ _ osB _ _ CA). assert (PB := pairs_split_snd _ _ _ _ _ _ _ _ _ _ CA CB CL). fold P in PA, PB.
  assert (LP : forall l l', In (l, l') P -> In l osA /\ In l' osB /\ linked h l l') by (intros l l'; apply pairs_In).
  assert (PC : forall l l', In l osA -> In l' osB -> linked h l l' -> In (l, l') P) by (intros l l' I1 I2 L; apply pairs_In; auto).
  clearbody P. destruct P as [|(x1 & y1) [|(x2 & y2) Ps]]; cbn [List.length] in LE; [lia|lia|].
  destruct bds as [|bd1 [|bd2 bds]]; [discriminate|discriminate|]. cbn [map fst] in EB. injection EB as B1 B2 EB.
  assert (LB : List.length bds = List.length Ps) by (rewrite <- (map_length Some), EB; apply map_length).
  set (RA := others osA (map fst ((x1, y1) :: (x2, y2) :: Ps))) in *. set (RB := others osB (map snd ((x1, y1) :: (x2, y2) :: Ps))) in *.
  destruct (merge_bonds chia chib e RA RB ((x2, y2) :: Ps) (bd2 :: bds) h tsA tsB osA osB q acta actb x1 y1 bd1 X PA PB) as (h' & tsA' & tsB' & osA' & osB' & x & y & bd & q' & E & MG).
  { apply (LP x1 y1). simpl; auto. } { auto. } { intros l l' I. apply (LP l l'). right. exact I. } { cbn [map fst]. congruence. }
  exists h', tsA', tsB', osA', osB', x, y, bd, q'. split; [|split; [exact MG|]].
  - unfold mergeMPS. cbn [m_ts]. erewrite bind_ok by (unfold readsR; rewrite CBE; reflexivity). cbn beta iota.
    replace (begin || Nat.eqb (List.length (bd1 :: bd2 :: bds)) 2) with true; [|symmetry; apply orb_true_iff; destruct BG as [->|BG]; auto; right; apply Nat.eqb_eq; cbn [List.length] in *; lia].
    erewrite bind_ok by reflexivity. rewrite (bind_ok _ _ _ _ _ E). reflexivity.
  - destruct MG as (X' & PA' & PB' & L' & B' & _ & _ & _ & _ & K' & _). destruct (exact_chains _ _ _ _ _ _ _ _ X') as (lfA' & rtA' & lfB' & rtB' & CA' & CB').
    assert (IX : In x osA') by (eapply Permutation_in; [symmetry; exact PA'|simpl; auto]). assert (IY : In y osB') by (eapply Permutation_in; [symmetry; exact PB'|simpl; auto]).
    apply all_same; [apply pairs_nodup'; exact (ch_ndo _ _ _ _ _ _ CA')|apply pairs_In; auto|]. intros (l & l') I. apply pairs_In in I. destruct I as (I1 & I2 & L).
    destruct (Nat.eq_dec l x) as [->|NE]; [now rewrite (link_one h' x y l' L' L)|]. assert (J1 : In l RA) by (apply (Permutation_in _ PA') in I1; destruct I1; auto; congruence).
    apply (Permutation_in _ PB') in I2. destruct I2 as [<-|J2].
    + destruct (link_back _ _ _ _ _ _ _ CA' (proj1 X') l y I1 L) as (K & _). destruct (link_back _ _ _ _ _ _ _ CA' (proj1 X') x y IX L') as (K2 & _). elim NE. exact (link_one h' y l x K K2).
    + assert (LK : linked h l l') by (apply (K' l); auto; apply in_app_iff; auto). assert (J1' := J1). assert (J2' := J2). apply others_In in J1, J2. destruct J1 as [J1 NI]. destruct J2 as [J2 _].
      elim NI. apply in_map_iff. exists (l, l'). split; auto.
Qed.
Theorem merge_few (h : heap) tsA tsB e osA osB lfA rtA lfB rtB chia chib acta actb begin : chain h tsA osA (tsB ++ e) lfA rtA -> chain h tsB osB (tsA ++ e) lfB rtB -> closed h (tsA ++ tsB ++ e) ->
  List.length (pairs_between h osA osB) <= 1 ->
  mergeMPS lib (OMps (mkMps tsA chia acta)) (OMps (mkMps tsB chib actb)) begin h = (h, Ok (OMps (mkMps tsA chia acta), OMps (mkMps tsB chib actb))).
Proof.
  intros CA CB CL LE. destruct (common_bonds h tsA tsB e osA osB lfA rtA lfB rtB CA CB CL chib actb) as (bds & CBE & EB). apply (f_equal (@List.length _)) in EB. rewrite !map_length in EB.
  unfold mergeMPS. cbn [m_ts]. erewrite bind_ok by (unfold readsR; rewrite CBE; reflexivity). destruct bds as [|b [|b' bds]]; [reflexivity|reflexivity|cbn [List.length] in EB; lia].
Qed.
Theorem merge_refused (h : heap) tsA tsB e osA osB lfA rtA lfB rtB chia chib acta actb : chain h tsA osA (tsB ++ e) lfA rtA -> chain h tsB osB (tsA ++ e) lfB rtB -> closed h (tsA ++ tsB ++ e) ->
  2 < List.length (pairs_between h osA osB) ->
  mergeMPS lib (OMps (mkMps tsA chia acta)) (OMps (mkMps tsB chib actb)) false h = (h, Err AssertionError).
Proof.
  intros CA CB CL LE. destruct (common_bonds h tsA tsB e osA osB lfA rtA lfB rtB CA CB CL chib actb) as (bds & CBE & EB). apply (f_equal (@List.length _)) in EB. rewrite !map_length in EB.
  unfold mergeMPS. cbn [m_ts]. erewrite bind_ok by (unfold readsR; rewrite CBE; reflexivity). destruct bds as [|b [|b' [|b'' bds]]]; cbn [List.length] in EB; try lia. reflexivity.
Qed.
Theorem stray_bond (h : heap) a b bd bd2 :
  (forall x y, ends h bd x y -> In (l_tensor (legs h x)) (map Some (m_ts a)) -> ~ In (l_tensor (legs h y)) (map Some (m_ts b))) ->
  doubleMergeByBond lib a b bd bd2 h = (h, Err AssertionError).
Proof.
  intros H. assert (G : getBondTensorIndices h a b bd = Err AssertionError).
  { unfold getBondTensorIndices. destruct (bonds h bd) as [x y] eqn:E. cbn [b0 b1]. assert (E1 : ends h bd x y) by now left. assert (E2 : ends h bd y x) by now right.
    specialize (H x y E1) as H1. specialize (H y x E2) as H2. 
    assert (IB : forall (t : option tid) L, inb t L = true <-> In t L) by (intros; apply inb_true).
    destruct (inb (l_tensor (legs h x)) (map Some (m_ts a))) eqn:I1; cbn beta iota.
    - rewrite I1. cbn [negb]. destruct (inb (l_tensor (legs h y)) (map Some (m_ts b))) eqn:I2; [|reflexivity]. apply IB in I1, I2. now elim H1.
    - destruct (inb (l_tensor (legs h y)) (map Some (m_ts a))) eqn:I2; [|reflexivity]. cbn [negb]. destruct (inb (l_tensor (legs h x)) (map Some (m_ts b))) eqn:I3; [|reflexivity]. apply IB in I2, I3. now elim H2. }
  unfold doubleMergeByBond, bind, readsR. now rewrite G.
Qed.
End Mg.
