(** contractWithMPS (examples/MPS.py 546-580): the whole function, with a bond dimension at which nothing is cut off. *)
From Coq Require Import List Arith Bool Lia String ZArith Permutation Relations.
From Verif Require Import Base Sums NdModel NdProofs HeapModel FuncsModel FuncsProofs TensorModel TensorSpec TensorProofs
  ContractModel NetSpec ShareProofs LinkProofs ContractProofs NetProofs SearchModel SearchSpec SearchBase BfProofs GreedyProofs SearchProofs SeqProofs NetGraphModel NetGraphSpec NetGraphProofs NetSearchProofs RetProofs NetRunProofs GroupSpec GroupProofs NetSameProofs SearchSpec
  SvdModel SvdSpec MpsModel MpsSpec MpsProofs MpsCreateModel SchmidtProofs MpsSwapProofs MpsContractModel MpsContractSpec MpsOpenProofs MpsCommonProofs MpsContractProofs MpsDoubleSpec MpsDoubleProofs MpsBondProofs MpsMergeProofs
  MpsFuseProofs SumpairsProofs MpsNetSpec MpsNetProofs MpsNetMergeProofs MpsNetRunProofs MpsNetMainProofs MpsNetMakeProofs.
Import ListNotations.
Local Open Scope list_scope.
Local Open Scope nat_scope.

Lemma orderedPairs_In n i j : In (i, j) (orderedPairs n) <-> i < j < n.
Proof.
  unfold orderedPairs. rewrite in_flat_map. split.
  - intros (k & Hk & H). apply in_map_iff in H. destruct H as (m & E & Hm). injection E as -> ->. apply in_seq in Hk, Hm. lia.
  - intros H. exists i. split; [apply in_seq; lia|]. apply in_map_iff. exists j. split; auto. apply in_seq. lia.
Qed.

Section Final.
Context {A : Type} {HA : SR A}.
Notation heap := (heap A).
Variable lib : linalg A.
Hypothesis SP : svd_perfect lib.
Hypothesis SRK : svd_rank lib.

Lemma chain_connected (h : heap) ts os lf rt : chain h ts os [] lf rt -> closed h ts -> net_connected h ts.
Proof.
  intros CH CL. pose proof (ch_wf _ _ _ _ _ _ CH) as WO. rewrite app_nil_r in WO. pose proof (wo_net _ _ WO) as W.
  assert (ST : forall i, S i < List.length ts -> net_adjacent h ts (nth i ts 0) (nth (S i) ts 0) /\ net_adjacent h ts (nth (S i) ts 0) (nth i ts 0)).
  { intros i Hi. assert (I1 : In (nth i ts 0) ts) by (apply nth_In; lia). assert (I2 : In (nth (S i) ts 0) ts) by (apply nth_In; lia).
    assert (R : In (rt i) (legs_of h (nth i ts 0))) by (apply (ch_in_r _ _ _ _ _ _ CH); exact Hi).
    assert (L : In (lf (S i)) (legs_of h (nth (S i) ts 0))) by (apply (ch_in_l _ _ _ _ _ _ CH); exact Hi).
    pose proof (ch_link _ _ _ _ _ _ CH i Hi) as LK. split; split; auto; split; auto.
    - exists (rt i), (lf (S i)). auto.
    - exists (lf (S i)), (rt i). split; auto. split; auto. apply (closed_in h ts (rt i) (lf (S i)) W CL); auto. apply all_legs_In. eauto. }
  assert (UP : forall i, i < List.length ts -> clos_refl_trans tid (net_adjacent h ts) (nth 0 ts 0) (nth i ts 0) /\ clos_refl_trans tid (net_adjacent h ts) (nth i ts 0) (nth 0 ts 0)).
  { induction i as [|i IH]; intros Hi; [split; apply rt_refl|]. destruct (IH ltac:(lia)) as [I1 I2]. destruct (ST i Hi) as [S1 S2]. split.
    - eapply rt_trans; [exact I1|]. now apply rt_step.
    - eapply rt_trans; [|exact I2]. now apply rt_step. }
  intros t t' Ht Ht'. destruct (In_nth _ _ 0 Ht) as (i & Hi & <-). destruct (In_nth _ _ 0 Ht') as (j & Hj & <-).
  eapply rt_trans; [apply (UP i Hi)|apply (UP j Hj)].
Qed.

Lemma closed_closed_net (h : heap) ts : wf_net h ts -> closed h ts -> closed_net h ts.
Proof.
  intros W CL t l l' Ht Hl LK. destruct (closed_link h ts l l' W CL) as (ta & tb & Ha & Hb & NE & La & Lb & _); auto; [apply all_legs_In; eauto|].
  exists tb. split; auto. split; auto. intros ->. apply NE. eapply (one_owner h ts); eauto; apply W.
Qed.

Variable symdiff : list nat -> list nat -> list nat.
Hypothesis SD : symdiff_ok symdiff.

Lemma final_ok (h0 : heap) N (h : heap) chi ms : remains h0 N h chi ms -> exists fuel0 h' t cp, (forall fuel, fuel0 <= fuel -> finalTensor symdiff fuel ms h = (h', Ok (Some t))) /\ holds h0 N h' t cp.
Proof.
  intros [(m & os & q' & E & NT & B & SF & SV)|(t & E & EL & K & DG & WO & SF & SV)].
  - destruct ms as [|o ms]; [discriminate E|]. cbn in E. subst o.
    destruct (bu_part _ _ _ _ B _ (or_introl eq_refl)) as (lf & rt & CH & _ & _). cbn [fst snd] in CH.
    assert (ET : tids [(m_ts m, os)] = m_ts m) by (unfold tids; cbn [flat_map fst]; apply app_nil_r).
    specialize (CH []). rewrite ET, app_nil_r in CH. specialize (CH (Permutation_refl _)).
    pose proof (bu_wf _ _ _ _ B) as WO. pose proof (bu_closed _ _ _ _ B) as CL. pose proof (bu_alive _ _ _ _ B) as AL. rewrite ET in WO, CL, AL.
    pose proof (wo_net _ _ WO) as W.
    destruct (contractTensorList_ok symdiff SD h (m_ts m) W (closed_closed_net h _ W CL) (chain_connected _ _ _ _ _ CH CL) NT (alive_positive _ _ W AL)
      (fun t Ht => proj2 (ch_kind _ _ _ _ _ _ CH t Ht)) (closed_list h _ WO CL)) as (fuel0 & h' & t0 & cp & RUN & RL & VAL).
    { intros t Ht D. destruct (ch_kind _ _ _ _ _ _ CH t Ht) as [D' _]. congruence. }
    exists fuel0, h', t0, cp. split.
    { intros fuel Hf. cbn [finalTensor]. rewrite (bind_ok _ _ _ _ _ (RUN fuel Hf : mpsToTensor symdiff fuel m h = _)). reflexivity. }
    assert (FI : forall l, In l (free_legs h0 N) <-> In l (free_legs h (m_ts m))) by (intros l; split; apply Permutation_in; [symmetry|]; apply SF).
    constructor.
    + apply RL.
    + apply RL.
    + rewrite (rl_diag _ _ _ _ _ RL). destruct (m_ts m) as [|t1 ts1] eqn:Em; [now destruct NT|]. cbn. rewrite (proj1 (ch_kind _ _ _ _ _ _ CH t1 (or_introl eq_refl))). reflexivity.
    + intros l l' Hl Hl'. apply (rl_inj _ _ _ _ _ RL); now apply FI.
    + rewrite (rl_legs _ _ _ _ _ RL). apply Permutation_map, SF.
    + intros l Hl. rewrite (proj2 (rl_leg _ _ _ _ _ RL l (proj1 (FI l) Hl))). now apply SF.
    + intros s Hs. rewrite VAL; [apply SV; exact Hs|]. intros l Hl. rewrite (proj2 SF) by now apply FI. apply Hs. now apply FI.
  - destruct ms as [|o ms]; [discriminate E|]. cbn in E. subst o.
    assert (FN : free_legs h0 N = []).
    { destruct SF as [P _]. rewrite free_single, EL in P. now apply Permutation_nil. }
    exists 0, h, t, (fun l => l). split; [reflexivity|]. constructor; auto.
    + apply WO. simpl; auto.
    + rewrite FN, EL. reflexivity.
    + rewrite FN. intros l [].
    + intros s Hs. rewrite <- (SV _ Hs), netval_single. reflexivity.
Qed.

Lemma prepare (h : heap) tl c : wf_open h tl -> closed h tl -> alive h tl ->
  (forall t, In t tl -> t_like (tens h t) = false /\ legs_of h t <> [] /\ (List.length (legs_of h t) = 1 -> t_diag (tens h t) = false)) ->
  prodn (map (dim_of h) (all_legs h tl)) <= c ->
  exists h2 ms2 ps2 q2, (forall fuel sq g, contractWithMPS lib symdiff fuel tl c (Some sq) g h = (ms <- contractPairs lib (List.length tl) sq ms2 ;; finalTensor symdiff fuel ms) h2) /\
    bunch h2 ps2 q2 (Z.of_nat c) /\ Forall2 (obj (Z.of_nat c)) ps2 ms2 /\ stands h (map (fun t => [t]) tl) h2 ps2 /\ List.length ps2 = List.length tl /\
    same_free h tl h2 (tids ps2) /\ same_value h tl h2 (tids ps2).
Proof.
  intros WO CL AL US RM. pose proof (wo_net _ _ WO) as W. pose proof (alive_positive h tl W AL) as PD.
  set (q := fun l => Nat.max 1 (dim_of h l)). assert (Q1 : forall l, 1 <= q l) by (intros l; unfold q; lia).
  assert (QD : forall l, In l (all_legs h tl) -> q l = dim_of h l) by (intros l Hl; unfold q; specialize (PD l Hl); lia).
  assert (MK : making h [] tl q) by (constructor; auto; intros p []).
  destruct (create_all lib SP c q tl h [] MK) as (h1 & ms & ps & E1 & MK1 & F1 & EM & NP & SF1 & SV1 & LK1).
  { intros t Ht. split; [now apply US|]. destruct (in_split _ _ Ht) as (l1 & l2 & Es). 
    rewrite <- (map_ext_in q (dim_of h)) by (intros l Hl; apply QD, all_legs_In; eauto).
    rewrite <- (map_ext_in q (dim_of h)) in RM by exact QD. etransitivity; [|exact RM]. rewrite Es, all_legs_app. change (t :: l2) with ([t] ++ l2). rewrite all_legs_app.
    destruct (part_le q (all_legs h l1) (all_legs h [t] ++ all_legs h l2) Q1) as [_ P1]. destruct (part_le q (all_legs h [t]) (all_legs h l2) Q1) as [P2 _].
    unfold all_legs in P2 at 1. cbn [flat_map] in P2. rewrite app_nil_r in P2. lia. }
  cbn [app tids flat_map outs] in *.
  assert (LP : List.length ps = List.length tl) by (apply (f_equal (@List.length _)) in EM; now rewrite !map_length in EM).
  assert (OU : outs ps = all_legs h tl) by (unfold outs, all_legs; rewrite !flat_map_concat_map; now rewrite EM).
  assert (B1 : bunch h1 ps q (Z.of_nat c)).
  { destruct MK1 as [W1 C1 A1 P1 _]. rewrite app_nil_r in W1, C1, A1. constructor; auto.
    - rewrite OU, (map_ext_in q (dim_of h)) by exact QD. lia.
    - intros p Hp. destruct (P1 p Hp) as (lf & rt & CH & D & SL). exists lf, rt. rewrite app_nil_r in CH. auto. }
  assert (PK : forall k, snd (pt k ps) = nth k (map (legs_of h) tl) []) by (intros k; rewrite <- EM; unfold pt; symmetry; apply (map_nth snd ps ([], []) k)).
  destruct (merge_all lib SP SRK (orderedPairs (List.length tl)) h1 ps q (Z.of_nat c) ms B1 F1) as (h2 & ms2 & ps2 & q2 & E2 & B2 & F2 & EV & RD).
  { intros i j H. apply orderedPairs_In in H. rewrite LP. lia. }
  { intros k Hk. apply NP. now apply nth_In. }
  assert (CM : forall a b, a <> b -> C h2 ps2 a b = Nat.min 1 (C h1 ps a b)).
  { intros a b NE. destruct (le_lt_dec (List.length tl) (Nat.max a b)) as [O|I].
    - destruct (RD a b NE) as [[R|R] _]; auto. rewrite R. assert (Z0 : C h1 ps a b = 0); [|rewrite Z0; reflexivity].
      unfold C. rewrite !PK. destruct (Nat.max_spec a b) as [[_ M]|[_ M]]; rewrite M in O.
      + rewrite (nth_overflow _ _ (n := b)) by (now rewrite map_length). apply cnt_nil_r.
      + rewrite (nth_overflow _ _ (n := a)) by (now rewrite map_length). reflexivity.
    - apply RD; auto. destruct (Nat.lt_total a b) as [G|[G|G]]; [left|lia|right]; apply orderedPairs_In; lia. }
  assert (ST : stands h (map (fun t => [t]) tl) h2 ps2).
  { constructor.
    - rewrite map_length, (ev_len _ _ _ _ EV). symmetry. exact LP.
    - intros k. rewrite (ev_live _ _ _ _ EV). destruct (le_lt_dec (List.length tl) k) as [O|I].
      + rewrite (nth_overflow (map _ _)) by (now rewrite map_length). unfold pt. rewrite nth_overflow by (rewrite LP; exact O). tauto.
      + split; intros H; exfalso.
        * apply (NP (pt k ps)); auto. apply nth_In. rewrite LP. exact I.
        * rewrite (nth_indep _ [] [0]) in H by (now rewrite map_length). rewrite (map_nth (fun t => [t]) tl 0 k) in H. discriminate H.
    - intros a b NE. rewrite (CM a b NE). lia.
    - intros a b NE. rewrite (CM a b NE). assert (X : 1 <= Nat.min 1 (C h1 ps a b) <-> 1 <= C h1 ps a b) by lia. rewrite X. clear X. unfold C. rewrite cnt_pos, !PK.
      unfold touches.
      assert (AK : forall k, all_legs h (nth k (map (fun t => [t]) tl) []) = nth k (map (legs_of h) tl) []).
      { intros k. destruct (le_lt_dec (List.length tl) k) as [O|I]; [now rewrite !nth_overflow by (now rewrite map_length)|].
        rewrite (nth_indep (map (fun t => [t]) tl) [] [0]) by (now rewrite map_length). rewrite (map_nth (fun t => [t]) tl 0 k).
        rewrite (nth_indep (map (legs_of h) tl) [] (legs_of h 0)) by (now rewrite map_length). rewrite (map_nth (legs_of h) tl 0 k). unfold all_legs. cbn [flat_map]. apply app_nil_r. }
      rewrite !AK. split; intros (x & y & Hx & Hy & LK); exists x, y; split; auto; split; auto.
      + apply LK1 in LK; auto. rewrite <- PK in Hx. unfold pt in Hx. rewrite <- OU. apply in_flat_map. 
        destruct (nth_in_or_default a ps ([], [])) as [I|I]; [eauto|]. rewrite I in Hx. destruct Hx.
      + apply LK1; auto. rewrite <- PK in Hx. unfold pt in Hx. rewrite <- OU. apply in_flat_map. 
        destruct (nth_in_or_default a ps ([], [])) as [I|I]; [eauto|]. rewrite I in Hx. destruct Hx. }
  exists h2, ms2, ps2, q2. split.
  { intros fuel sq g. unfold contractWithMPS. rewrite (bind_ok _ _ h h sq eq_refl). rewrite (bind_ok _ _ _ _ _ E1). cbv zeta. now rewrite (bind_ok _ _ _ _ _ E2). }
  split; auto. split; auto. split; auto. split; [rewrite (ev_len _ _ _ _ EV); exact LP|].
  split; [eapply same_free_trans; [exact SF1|apply EV]|eapply same_value_trans; [exact SF1|exact SV1|apply EV]].
Qed.

Theorem contract_mps_ok (h : heap) tl sq g c : wf_open h tl -> closed h tl -> alive h tl ->
  (forall t, In t tl -> t_like (tens h t) = false /\ legs_of h t <> [] /\ (List.length (legs_of h t) = 1 -> t_diag (tens h t) = false)) ->
  prodn (map (dim_of h) (all_legs h tl)) <= c -> links_order h tl sq ->
  exists fuel0 h' t cp, (forall fuel, fuel0 <= fuel -> contractWithMPS lib symdiff fuel tl c (Some sq) g h = (h', Ok (Some t))) /\ holds h tl h' t cp.
Proof.
  intros WO CL AL US RM ORD. destruct (prepare h tl c WO CL AL US RM) as (h2 & ms2 & ps2 & q2 & EQ & B2 & F2 & ST & LP & SF & SV).
  destruct (contract_pairs lib SP SRK h (Z.of_nat c) (Zle_0_nat c) sq _ h2 ps2 q2 ms2 B2 F2 ST ORD) as (h3 & ms3 & E3 & RE).
  assert (RE' : remains h tl h3 (Z.of_nat c) ms3) by (eapply remains_trans; eauto).
  destruct (final_ok h tl h3 _ _ RE') as (fuel0 & h' & t & cp & RUN & HO).
  exists fuel0, h', t, cp. split; [|exact HO]. intros fuel Hf. rewrite EQ. rewrite LP in E3. rewrite (bind_ok _ _ _ _ _ E3). now apply RUN.
Qed.

(** a first pair of tensors without a link fails the assertion in contractMPS *)
Theorem contract_mps_unlinked (h : heap) tl s t sq g c : wf_open h tl -> closed h tl -> alive h tl ->
  (forall t, In t tl -> t_like (tens h t) = false /\ legs_of h t <> [] /\ (List.length (legs_of h t) = 1 -> t_diag (tens h t) = false)) ->
  prodn (map (dim_of h) (all_legs h tl)) <= c -> s < List.length tl -> t < List.length tl -> s <> t -> ~ touches h [nth s tl 0] [nth t tl 0] ->
  exists h', forall fuel, contractWithMPS lib symdiff fuel tl c (Some ((s, t) :: sq)) g h = (h', Err AssertionError).
Proof.
  intros WO CL AL US RM Hs Ht N NT. destruct (prepare h tl c WO CL AL US RM) as (h2 & ms2 & ps2 & q2 & EQ & B2 & F2 & ST & LP & SF & SV).
  exists h2. intros fuel. rewrite EQ. unfold part in *. rewrite <- LP in Hs, Ht.
  assert (GK : forall k, k < List.length ps2 -> nth k (map (fun t => [t]) tl) [] = [nth k tl 0]).
  { intros k Hk. rewrite (nth_indep _ [] [0]) by (rewrite map_length; lia). apply (map_nth (fun t => [t]) tl 0 k). }
  assert (Ls : forall k, k < List.length ps2 -> fst (pt k ps2) <> []) by (intros k Hk; rewrite (sd_live _ _ _ _ ST), (GK k Hk); discriminate).
  assert (Os : obj (Z.of_nat c) (pt s ps2) (nth s ms2 ONone)) by exact (Forall2_nth' _ _ _ ([], []) ONone F2 s Hs).
  assert (Ot : obj (Z.of_nat c) (pt t ps2) (nth t ms2 ONone)) by exact (Forall2_nth' _ _ _ ([], []) ONone F2 t Ht).
  destruct Os as [(E & _)|(_ & acta & Os)]; [exfalso; apply (Ls s Hs); now rewrite E|]. destruct Ot as [(E & _)|(_ & actb & Ot)]; [exfalso; apply (Ls t Ht); now rewrite E|].
  pose proof (Forall2_length _ _ _ F2) as LM.
  assert (C0 : C h2 ps2 s t = 0).
  { pose proof (sd_link _ _ _ _ ST s t N) as X. rewrite (GK s Hs), (GK t Ht) in X. destruct (C h2 ps2 s t); auto. exfalso. apply NT, X. lia. }
  destruct (take_two ps2 s t ([], []) Hs Ht N) as (R & PR & _ & _ & _).
  destruct (bunch_pair _ _ _ _ _ _ (bunch_perm _ _ _ _ _ PR B2)) as (CLP & _ & _ & lfA & rtA & lfB & rtB & CA & CB & _).
  assert (X0 : contractMPS lib (OMps (mkMps (fst (pt s ps2)) (Z.of_nat c) acta)) (OMps (mkMps (fst (pt t ps2)) (Z.of_nat c) actb)) h2 = (h2, Err AssertionError)).
  { apply (contract_refused lib h2 _ _ _ _ _ _ _ _ _ _ _ _ _ CA CB CLP). intros X. assert (C1 : C h2 ps2 s t = 1) by exact X. rewrite C0 in C1. discriminate C1. }
  cbn [contractPairs]. unfold contractPair.
  assert (X1 : nth_error ms2 s = Some (OMps (mkMps (fst (pt s ps2)) (Z.of_nat c) acta))) by (rewrite <- Os; apply nth_error_nth'; lia).
  assert (X2 : nth_error ms2 t = Some (OMps (mkMps (fst (pt t ps2)) (Z.of_nat c) actb))) by (rewrite <- Ot; apply nth_error_nth'; lia).
  rewrite X1, X2. unfold bind, liftR. rewrite X0. reflexivity.
Qed.
End Final.

(** ** The sequence found by the greedy search *)
Section Greedy.
Context {A : Type} {HA : SR A}.
Notation heap := (heap A).

(** the groups [gs] are the nonempty ones of the list [L], with their positions *)
Definition listed (gs : list (nat * list tid)) (L : list (list tid)) : Prop :=
  NoDup (map fst gs) /\ forall k G, In (k, G) gs <-> k < List.length L /\ G <> [] /\ nth k L [] = G.

Lemma joined_length s t gs : List.length (joined s t gs) = List.length gs.
Proof. unfold joined. now rewrite !set_nth_length. Qed.
Lemma complete_joins (h : heap) cost gs sq n : complete (touches h) cost gs sq n -> forall L, listed gs L -> joins h L sq.
Proof.
  induction 1 as [G|gs rest s t G1 G2 sq n ST P OK HC IH]; intros L [ND LI].
  - intros i. split.
    + intros H. destruct (le_lt_dec (List.length L) i) as [O|I]; [now rewrite nth_overflow in H|].
      assert (X : In (i, nth i L []) [(0, G)]) by (apply LI; auto). destruct X as [X|[]]. now injection X.
    + intros ->. assert (X : In (0, G) [(0, G)]) by (simpl; auto). apply LI in X. destruct X as (_ & X & ->). exact X.
  - assert (ND' : NoDup (s :: t :: map fst rest)) by (apply (Permutation_NoDup (Permutation_map fst P) ND)).
    assert (X1 : In (s, G1) gs) by (eapply Permutation_in; [symmetry; exact P|simpl; auto]).
    assert (X2 : In (t, G2) gs) by (eapply Permutation_in; [symmetry; exact P|simpl; auto]).
    apply LI in X1, X2. destruct X1 as (S1 & S2 & S3), X2 as (T1 & T2 & T3). cbn [joins].
    split; auto. split; auto. split; auto. split; [now rewrite S3, T3|]. apply IH.
    inversion ND' as [|a l Ns ND1]; subst a l. inversion ND1 as [|a l Nt ND2]; subst a l.
    assert (RI : forall k G, In (k, G) rest -> k <> s /\ k <> t /\ In (k, G) gs).
    { intros k G Hk. split; [|split].
      - intros ->. apply Ns. right. apply in_map_iff. exists (s, G). auto.
      - intros ->. apply Nt. apply in_map_iff. exists (t, G). auto.
      - eapply Permutation_in; [symmetry; exact P|]. simpl; auto. }
    split.
    + cbn [map fst]. constructor; auto. intros H. destruct (Nat.min_spec s t) as [[_ M]|[_ M]]; rewrite M in H; [apply Ns; right; exact H|auto].
    + intros k G. rewrite joined_length, joined_nth by auto. split.
      * intros [E|H].
        -- injection E as <- <-. split; [lia|]. split; [destruct G1; [now destruct S2|discriminate]|].
           destruct (Nat.eqb_spec (Nat.min s t) (Nat.max s t)) as [E|_]; [lia|]. rewrite Nat.eqb_refl. now rewrite S3, T3.
        -- destruct (RI k G H) as (N1 & N2 & I). apply LI in I. destruct I as (I1 & I2 & I3). split; auto. split; auto.
           destruct (Nat.eqb_spec k (Nat.max s t)) as [E|_]; [lia|]. destruct (Nat.eqb_spec k (Nat.min s t)) as [E|_]; [lia|]. exact I3.
      * intros (I1 & I2 & I3). destruct (Nat.eqb_spec k (Nat.max s t)) as [E|NE1]; [now rewrite I3 in I2|]. destruct (Nat.eqb_spec k (Nat.min s t)) as [E|NE2].
        -- left. rewrite <- I3, S3, T3, E. reflexivity.
        -- right. assert (X : In (k, G) gs) by (apply LI; auto). apply (Permutation_in _ P) in X. destruct X as [X|[X|X]]; auto; injection X; intros; lia.
Qed.
Lemma listed_singles ts : listed (singles ts) (map (fun t => [t]) ts).
Proof.
  unfold listed, singles. assert (LL : List.length (map (fun t : tid => [t]) ts) = List.length ts) by apply map_length. split.
  - assert (EQ : forall (K : list nat) (L : list (list tid)), List.length L = List.length K -> map fst (combine K L) = K).
    { induction K as [|k K IH]; intros [|x L] E; try discriminate; auto. cbn. f_equal. apply IH. now injection E. }
    rewrite EQ by (now rewrite seq_length). apply seq_NoDup.
  - intros k G. rewrite LL. rewrite <- LL at 1.
    assert (GEN : forall (L : list (list tid)) n, In (k, G) (combine (seq n (List.length L)) L) <-> n <= k < n + List.length L /\ nth (k - n) L [] = G).
    { clear. induction L as [|x L IH]; intros n; cbn [List.length seq combine In]; [split; [intros []|lia]|]. rewrite IH. split.
      - intros [E|[E1 E2]]; [injection E as <- <-; rewrite Nat.sub_diag; split; [lia|reflexivity]|]. split; [lia|]. replace (k - n) with (S (k - S n)) by lia. exact E2.
      - intros [E1 E2]. destruct (Nat.eq_dec n k) as [->|NE]; [left; rewrite Nat.sub_diag in E2; cbn in E2; now rewrite E2|]. right. split; [lia|].
        replace (k - n) with (S (k - S n)) in E2 by lia. exact E2. }
    rewrite GEN, LL, Nat.sub_0_r. split.
    + intros [H1 H2]. split; [lia|]. split; auto. rewrite <- H2. rewrite (nth_indep _ [] [0]) by (rewrite LL; lia). rewrite (map_nth (fun t => [t]) ts 0 k). discriminate.
    + intros (H1 & _ & H2). split; [lia|exact H2].
Qed.

Variable symdiff : list nat -> list nat -> list nat.
Hypothesis SD : symdiff_ok symdiff.
Lemma greedy_order (h : heap) ts : wf_net h ts -> closed_net h ts -> net_connected h ts -> ts <> [] ->
  exists sq c, (forall fuel, generateGreedySequence symdiff fuel h ts = Ok (sq, c)) /\ links_order h ts sq.
Proof.
  intros W CL NC NE. destruct (generate_ok symdiff h ts W CL) as (verts & eix & dimE & GO & _ & EG).
  pose proof (wf_verts h ts W CL verts eix dimE GO) as WV.
  assert (0 < List.length verts) as L by (rewrite (go_len _ _ _ _ _ GO); destruct ts; [congruence|simpl; lia]).
  destruct (greedy_connected symdiff verts dimE SD WV L (verts_connected h ts W NC verts eix dimE GO)) as (sq & c & EQ & HC).
  exists sq, c. split; [intros fuel; now rewrite EG|].
  destruct (complete_recost _ _ (fun _ _ => 0) _ _ _ HC) as (n & HN).
  apply (complete_joins h (fun _ _ => 0) (singles ts) sq n); [|apply listed_singles].
  rewrite <- (groups_singles h ts verts eix dimE GO). eapply (complete_gmap (vertices verts)); [|exact HN|..].
  - intros G1 G2 IN ND _ _ T. assert (HG : grp verts (G1 ++ G2)) by (split; auto). split; auto. unfold touching in T.
    destruct (common verts G1 G2) as [|e R] eqn:EC; [congruence|]. assert (In e (common verts G1 G2)) as He by (rewrite EC; simpl; auto).
    apply (common_link h ts W CL verts eix dimE GO) in He; auto. destruct He as (l & l' & H1 & H2 & H3 & _). exists l, l'. split; [eapply free_all; eauto|]. split; [eapply free_all; eauto|exact H3].
  - rewrite groups0_flat. intros x; auto.
  - rewrite groups0_flat. apply seq_NoDup.
  - intros g Hg. unfold groups0 in Hg. apply in_map_iff in Hg. destruct Hg as (i & <- & Hi). discriminate.
Qed.

(** without a sequence, contractWithMPS generates one *)
Lemma contract_generates (lib : linalg A) fuel tl c (g : bool) (h : heap) sq cost :
  (if g then generateGreedySequence symdiff fuel h tl else generateOptimalSequence symdiff fuel h tl false (Some 10)) = Ok (sq, cost) ->
  contractWithMPS lib symdiff fuel tl c None g h = contractWithMPS lib symdiff fuel tl c (Some sq) g h.
Proof.
  intros E. unfold contractWithMPS.
  unfold bind, readsR, ret. rewrite E. reflexivity.
Qed.
Lemma contract_generate_fails (lib : linalg A) fuel tl c (g : bool) (h : heap) e :
  (if g then generateGreedySequence symdiff fuel h tl else generateOptimalSequence symdiff fuel h tl false (Some 10)) = Err e ->
  contractWithMPS lib symdiff fuel tl c None g h = (h, Err e).
Proof.
  intros E. unfold contractWithMPS, bind at 1, bind at 1, readsR. rewrite E. reflexivity.
Qed.
Theorem contract_mps_greedy (lib : linalg A) (h : heap) tl c : svd_perfect lib -> svd_rank lib -> wf_open h tl -> closed h tl -> alive h tl -> tl <> [] -> net_connected h tl ->
  (forall t, In t tl -> t_like (tens h t) = false /\ legs_of h t <> [] /\ (List.length (legs_of h t) = 1 -> t_diag (tens h t) = false)) ->
  prodn (map (dim_of h) (all_legs h tl)) <= c ->
  exists fuel0 h' t cp, (forall fuel, fuel0 <= fuel -> contractWithMPS lib symdiff fuel tl c None true h = (h', Ok (Some t))) /\ holds h tl h' t cp.
Proof.
  intros SP SRK WO CL AL NE NC US RM. pose proof (wo_net _ _ WO) as W.
  destruct (greedy_order h tl W (closed_closed_net h tl W CL) NC NE) as (sq & cost & EG & LO).
  destruct (contract_mps_ok lib SP SRK symdiff SD h tl sq true c WO CL AL US RM LO) as (fuel0 & h' & t & cp & RUN & HO).
  exists fuel0, h', t, cp. split; auto. intros fuel Hf. rewrite (contract_generates lib fuel tl c true h sq cost (EG fuel)). now apply RUN.
Qed.
End Greedy.
