(** contractWithMPS (examples/MPS.py 546-580): the sequence of contractions. *)
From Coq Require Import List Arith Bool Lia String ZArith Permutation.
From Verif Require Import Base Sums NdModel NdProofs HeapModel FuncsModel FuncsProofs TensorModel TensorSpec TensorProofs
  ContractModel NetSpec ShareProofs LinkProofs ContractProofs NetProofs GroupSpec GroupProofs NetSameProofs
  SvdModel SvdSpec MpsModel MpsSpec MpsProofs SchmidtProofs MpsSwapProofs MpsContractModel MpsContractSpec MpsOpenProofs MpsCommonProofs MpsContractProofs MpsDoubleSpec MpsDoubleProofs MpsBondProofs MpsMergeProofs
  MpsFuseProofs SumpairsProofs MpsNetSpec MpsNetProofs MpsNetMergeProofs MpsNetRunProofs.
Import ListNotations.
Local Open Scope list_scope.
Local Open Scope nat_scope.

Section Groups.
Context {A : Type}.
Variable h : heap A.
Lemma touches_nil_l G : ~ touches h [] G.
Proof. intros (l & l' & [] & _). Qed.
Lemma touches_nil_r G : ~ touches h G [].
Proof. intros (l & l' & _ & [] & _). Qed.
Lemma touches_app_l G G' K : touches h (G ++ G') K <-> touches h G K \/ touches h G' K.
Proof.
  split.
  - intros (l & l' & H1 & H2 & H3). rewrite all_legs_app in H1. apply in_app_iff in H1. destruct H1; [left|right]; exists l, l'; auto.
  - intros [(l & l' & H1 & H2 & H3)|(l & l' & H1 & H2 & H3)]; exists l, l'; rewrite all_legs_app; (split; [apply in_app_iff; auto|auto]).
Qed.
Lemma touches_app_r G G' K : touches h K (G ++ G') <-> touches h K G \/ touches h K G'.
Proof.
  split.
  - intros (l & l' & H1 & H2 & H3). rewrite all_legs_app in H2. apply in_app_iff in H2. destruct H2; [left|right]; exists l, l'; auto.
  - intros [(l & l' & H1 & H2 & H3)|(l & l' & H1 & H2 & H3)]; exists l, l'; rewrite all_legs_app; (split; [auto|split; [apply in_app_iff; auto|auto]]).
Qed.
Lemma joined_nth s t gs k : s < List.length gs -> t < List.length gs -> s <> t ->
  nth k (joined s t gs) [] = if Nat.eqb k (Nat.max s t) then [] else if Nat.eqb k (Nat.min s t) then nth s gs [] ++ nth t gs [] else nth k gs [].
Proof. intros Hs Ht N. unfold joined. rewrite !set_nth_nth by (rewrite ?set_nth_length; lia). reflexivity. Qed.

Lemma isolated : forall sq gs a, joins h gs sq -> nth a gs [] <> [] -> 
  (forall k, k <> a -> ~ touches h (nth a gs []) (nth k gs []) /\ ~ touches h (nth k gs []) (nth a gs [])) -> sq = [].
Proof.
  induction sq as [|[s t] sq IH]; intros gs a J LA IS; auto. exfalso. destruct J as (Hs & Ht & N & T & J).
  destruct (Nat.eq_dec a s) as [->|Ns]; [destruct (IS t); [auto|contradiction]|]. destruct (Nat.eq_dec a t) as [->|Nt]; [destruct (IS s); [auto|contradiction]|].
  assert (EA : nth a (joined s t gs) [] = nth a gs []).
  { rewrite joined_nth by auto. destruct (Nat.eqb_spec a (Nat.max s t)); [lia|]. destruct (Nat.eqb_spec a (Nat.min s t)); [lia|auto]. }
  assert (E : sq = []).
  { apply (IH (joined s t gs) a J); rewrite EA; auto. intros k Hk. rewrite joined_nth by auto. destruct (Nat.eqb k (Nat.max s t)); [split; [apply touches_nil_r|apply touches_nil_l]|].
    destruct (Nat.eqb k (Nat.min s t)); [|now apply IS]. rewrite touches_app_l, touches_app_r. destruct (IS s), (IS t); auto. tauto. }
  subst sq. cbn in J. assert (a = 0) by (apply J; now rewrite EA). assert (Nat.min s t = 0); [|lia]. apply J. rewrite joined_nth by auto.
  destruct (Nat.eqb_spec (Nat.min s t) (Nat.max s t)); [lia|]. rewrite Nat.eqb_refl. intros E. apply app_eq_nil in E. destruct E as [E _]. rewrite E in T. now apply touches_nil_l in T.
Qed.
End Groups.

Section Main.
Context {A : Type} {HA : SR A}.
Notation heap := (heap A).
Variable lib : linalg A.
Hypothesis SP : svd_perfect lib.
Hypothesis SRK : svd_rank lib.

Lemma skip_others loc : forall js ms (h : heap), (forall j, In j js -> j <> loc -> nth j ms ONone = ONone) -> mergeOthers lib loc js ms h = (h, Ok ms).
Proof.
  induction js as [|j js IH]; intros ms h D; [reflexivity|]. cbn [mergeOthers]. assert (D' : forall k, In k js -> k <> loc -> nth k ms ONone = ONone) by (intros; apply D; simpl; auto).
  destruct (Nat.eqb_spec j loc); [destruct (nth j ms ONone); now apply IH|]. rewrite (D j) by (simpl; auto). now apply IH.
Qed.
Lemma only_first ps : (forall k, k <> 0 -> fst (pt k ps) = []) -> tids ps = fst (pt 0 ps).
Proof.
  destruct ps as [|p ps]; intros H; [reflexivity|]. change (fst p ++ tids ps = fst p). rewrite <- (app_nil_r (fst p)) at 2. f_equal.
  assert (H' : forall k, fst (pt k ps) = []) by (intros k; apply (H (S k)); lia). clear H. induction ps as [|p' ps IH]; [reflexivity|]. change (fst p' ++ tids ps = []).
  rewrite IH by (intros k; apply (H' (S k))). pose proof (H' 0) as E. cbn in E. now rewrite E.
Qed.
Lemma tids_nil ps : (forall p, In p ps -> fst p = []) -> tids ps = [].
Proof. induction ps as [|p ps IH]; intros H; [reflexivity|]. change (fst p ++ tids ps = []). rewrite H by (simpl; auto). apply IH. intros; apply H; simpl; auto. Qed.
Lemma bunch_nil (h : heap) p R q chi : bunch h (p :: R) q chi -> bunch h (p :: ([], []) :: R) q chi.
Proof.
  intros [W CL AL Q RM PT]. constructor; auto. intros p' [<-|[<-|Hp]]; [apply PT; simpl; auto| |apply PT; simpl; auto].
  exists (fun _ => 0), (fun _ => 0). cbn [fst snd]. split; [|split; [intros l []|intros k Hk; cbn in Hk; lia]].
  intros e Pe. constructor; cbn [List.length]; auto; try (intros; lia); try (intros ? []); try (intros ? ? []).
  apply (wf_open_perm h (tids (p :: R)) e Pe W).
Qed.

(** the objects and the groups of tensors they stand for *)
Record stands (h0 : heap) (gs : list (list tid)) (h : heap) (ps : list part) : Prop := {
  sd_len : List.length gs = List.length ps;
  sd_live : forall k, fst (pt k ps) = [] <-> nth k gs [] = [];
  sd_one : forall a b, a <> b -> C h ps a b <= 1;
  sd_link : forall a b, a <> b -> 1 <= C h ps a b <-> touches h0 (nth a gs []) (nth b gs []) }.

(** what is left: an MPS or a tensor without legs *)
Definition remains (h : heap) (N : list tid) (h' : heap) (chi : Z) (ms : list mobj) : Prop :=
  (exists m os q', nth 0 ms ONone = OMps m /\ m_ts m <> [] /\ bunch h' [(m_ts m, os)] q' chi /\ same_free h N h' (m_ts m) /\ same_value h N h' (m_ts m)) \/
  (exists t, nth 0 ms ONone = OTensor t /\ legs_of h' t = [] /\ t_like (tens h' t) = false /\ t_diag (tens h' t) = false /\ wf_open h' [t] /\ same_free h N h' [t] /\ same_value h N h' [t]).

Lemma remains_trans (h h1 h' : heap) N N1 chi ms : same_free h N h1 N1 -> same_value h N h1 N1 -> remains h1 N1 h' chi ms -> remains h N h' chi ms.
Proof.
  intros F V [(m & os & q' & E & NE & B & F1 & V1)|(t & E & L & K & D & W & F1 & V1)].
  - left. exists m, os, q'. split; auto. split; auto. split; auto. split; [eapply same_free_trans; eauto|eapply same_value_trans; eauto].
  - right. exists t. split; auto. split; auto. split; auto. split; auto. split; auto. split; [eapply same_free_trans; eauto|eapply same_value_trans; eauto].
Qed.

Theorem contract_pairs h0 chi : Z.le 0 chi -> forall sq gs (h : heap) ps q ms, bunch h ps q chi -> Forall2 (obj chi) ps ms -> stands h0 gs h ps -> joins h0 gs sq ->
  exists h' ms', contractPairs lib (List.length ps) sq ms h = (h', Ok ms') /\ remains h (tids ps) h' chi ms'.
Proof.
  intros CP. induction sq as [|[s t] sq IH]; intros gs h ps q ms B F SD J.
  - exists h, ms. split; [reflexivity|]. left. cbn in J.
    assert (D : forall k, k <> 0 -> fst (pt k ps) = []).
    { intros k Hk. apply (sd_live _ _ _ _ SD). destruct (nth k gs []) eqn:E; auto. exfalso. apply Hk, J. rewrite E. discriminate. }
    pose proof (only_first ps D) as ET. assert (L0 : fst (pt 0 ps) <> []) by (rewrite (sd_live _ _ _ _ SD); now apply J).
    assert (Hn : 0 < List.length ps) by (destruct ps; [now destruct L0|cbn; lia]).
    assert (O0 : obj chi (pt 0 ps) (nth 0 ms ONone)) by exact (Forall2_nth' _ _ _ ([], []) ONone F 0 Hn).
    destruct O0 as [(E & _)|(_ & act & E)]; [rewrite E in L0; now destruct L0|]. rewrite ET.
    exists (mkMps (fst (pt 0 ps)) chi act), (snd (pt 0 ps)), q. cbn [m_ts]. split; auto. split; auto. split; [|split; [split; auto|intros z _; auto]].
    destruct B as [W CL AL Q RM PT]. destruct ps as [|p ps]; [cbn in Hn; lia|]. change (pt 0 (p :: ps)) with p in *.
    assert (ET' : tids (p :: ps) = tids [(fst p, snd p)]) by (rewrite ET; cbn; now rewrite app_nil_r). rewrite ET' in *.
    constructor; auto.
    + cbn [outs flat_map snd]. rewrite app_nil_r. change (outs (p :: ps)) with (snd p ++ outs ps) in RM. destruct (part_le q (snd p) (outs ps) Q) as [L1 _]. lia.
    + intros p' [<-|[]]. apply (PT p). simpl; auto.
  - destruct J as (Hs & Ht & N & T & J). rewrite (sd_len _ _ _ _ SD) in Hs, Ht.
    assert (Ls : fst (pt s ps) <> []) by (rewrite (sd_live _ _ _ _ SD); intros E; rewrite E in T; now apply touches_nil_l in T).
    assert (Lt : fst (pt t ps) <> []) by (rewrite (sd_live _ _ _ _ SD); intros E; rewrite E in T; now apply touches_nil_r in T).
    assert (Os : obj chi (pt s ps) (nth s ms ONone)) by exact (Forall2_nth' _ _ _ ([], []) ONone F s Hs).
    assert (Ot : obj chi (pt t ps) (nth t ms ONone)) by exact (Forall2_nth' _ _ _ ([], []) ONone F t Ht).
    destruct Os as [(E & _)|(_ & acta & Os)]; [rewrite E in Ls; now destruct Ls|]. destruct Ot as [(E & _)|(_ & actb & Ot)]; [rewrite E in Lt; now destruct Lt|].
    pose proof (Forall2_length _ _ _ F) as LM.
    assert (C1 : C h ps s t = 1). { pose proof (sd_one _ _ _ _ SD s t N). apply (sd_link _ _ _ _ SD s t N) in T. lia. }
    destruct (take_two ps s t ([], []) Hs Ht N) as (R & PR & SRR & TR & VR).
    destruct (contract_step lib SP h ps q chi s t acta actb R B CP Hs Ht N PR) as (h1 & o & os & E1 & U & W1 & SF1 & SV1 & CN & CASE); auto.
    set (loc := Nat.min s t) in *. set (oth := Nat.max s t) in *.
    assert (NLO : loc <> oth /\ loc < List.length ps /\ oth < List.length ps /\ s + t - loc = oth) by (unfold loc, oth; lia). destruct NLO as (NLO & HLoc & HOth & EST).
    assert (LOC : (loc = s /\ oth = t) \/ (loc = t /\ oth = s)) by (unfold loc, oth; lia).
    set (ms1 := set_nth oth ONone (set_nth loc o ms)).
    assert (EQ : contractPairs lib (List.length ps) ((s, t) :: sq) ms h = (ms2 <- mergeOthers lib loc (seq 0 (List.length ps)) ms1 ;; contractPairs lib (List.length ps) sq ms2) h1).
    { cbn [contractPairs]. unfold contractPair. fold loc. rewrite EST. 
      assert (X1 : nth_error ms s = Some (OMps (mkMps (fst (pt s ps)) chi acta))) by (rewrite <- Os; apply nth_error_nth'; lia).
      assert (X2 : nth_error ms t = Some (OMps (mkMps (fst (pt t ps)) chi actb))) by (rewrite <- Ot; apply nth_error_nth'; lia).
      rewrite X1, X2. unfold bind, liftR. rewrite E1. reflexivity. }
    rewrite EQ. clear EQ.
    assert (GN : forall k, nth k (joined s t gs) [] = if Nat.eqb k oth then [] else if Nat.eqb k loc then nth s gs [] ++ nth t gs [] else nth k gs []) by (intros k; apply joined_nth; rewrite ?(sd_len _ _ _ _ SD); auto).
    assert (LG : List.length (joined s t gs) = List.length ps) by (unfold joined; rewrite !set_nth_length; apply (sd_len _ _ _ _ SD)).
    clearbody loc oth.
    destruct CASE as [(E0 & t0 & EO & TL & TK & TD)|(E0 & ts & q' & EO & NT & B1)].
    + (* the result has no legs: nothing else is left *)
      assert (Z0 : forall k, k <> s -> k <> t -> C h ps s k = 0 /\ C h ps t k = 0) by (intros k K1 K2; specialize (CN k K1 K2); rewrite E0 in CN; cbn in CN; lia).
      assert (GL : nth loc (joined s t gs) [] <> []).
      { rewrite GN. destruct (Nat.eqb_spec loc oth); [lia|]. rewrite Nat.eqb_refl. intros X. apply app_eq_nil in X. destruct X as [X _]. now apply (sd_live _ _ _ _ SD) in X. }
      assert (ESQ : sq = []).
      { apply (isolated h0 sq (joined s t gs) loc J GL). intros k Hk. rewrite (GN loc), (GN k). destruct (Nat.eqb_spec loc oth); [lia|]. rewrite Nat.eqb_refl.
        destruct (Nat.eqb_spec k oth) as [->|Ko]; [split; [apply touches_nil_r|apply touches_nil_l]|]. destruct (Nat.eqb_spec k loc); [lia|].
        assert (K1 : k <> s) by lia. assert (K2 : k <> t) by lia. destruct (Z0 k K1 K2) as [Z1 Z2].
        rewrite touches_app_l, touches_app_r. rewrite <- !(sd_link _ _ _ _ SD) by auto. rewrite (C_sym h ps q chi k s), (C_sym h ps q chi k t) by auto. lia. }
      subst sq. cbn in J. assert (L0 : loc = 0) by (apply J; auto).
      assert (D : forall k, k <> s -> k <> t -> fst (pt k ps) = []).
      { intros k K1 K2. apply (sd_live _ _ _ _ SD). destruct (nth k gs []) as [|z zs] eqn:X; auto. exfalso. assert (k = 0); [|lia]. apply J. rewrite GN.
        destruct (Nat.eqb_spec k oth); [lia|]. destruct (Nat.eqb_spec k loc); [lia|]. rewrite X. discriminate. }
      assert (TN : tids R = []) by (apply tids_nil; intros p Hp; destruct (VR p Hp) as (k & K1 & K2 & _ & ->); now apply D).
      assert (SK : mergeOthers lib loc (seq 0 (List.length ps)) ms1 h1 = (h1, Ok ms1)).
      { apply skip_others. intros j Hj NJ. apply in_seq in Hj. unfold ms1. rewrite !set_nth_nth by (rewrite ?set_nth_length; lia). destruct (Nat.eqb_spec j oth); auto.
        destruct (Nat.eqb_spec j loc); [lia|]. assert (Oj : obj chi (pt j ps) (nth j ms ONone)) by exact (Forall2_nth' _ _ _ ([], []) ONone F j (proj2 Hj)).
        destruct Oj as [(_ & X)|(X & _)]; auto. exfalso. apply X, D; lia. }
      rewrite (bind_ok _ _ _ _ _ SK). exists h1, ms1. split; [reflexivity|]. right. exists t0. rewrite TN, EO in *. cbn [sites app] in *.
      split; [|auto 10]. unfold ms1. rewrite L0 in *. rewrite !set_nth_nth by (rewrite ?set_nth_length; lia). destruct (Nat.eqb_spec 0 oth); [lia|]. exact EO.
    + subst o. cbn [sites m_ts] in *. set (ps1 := set_nth oth (([], []) : part) (set_nth loc ((ts, os) : part) ps) : list part).
      assert (PP : Permutation ps1 ((ts, os) :: ([], []) :: R)).
      { unfold ps1. destruct LOC as [[-> ->]|[-> ->]]; [apply SRR|]. rewrite set_nth_comm by auto. rewrite SRR. apply perm_swap. }
      assert (BB : bunch h1 ps1 q' chi) by (apply (bunch_perm h1 ((ts, os) :: ([], []) :: R)); [now symmetry|]; now apply bunch_nil).
      assert (F1 : Forall2 (obj chi) ps1 ms1).
      { unfold ps1, ms1. apply Forall2_set; [apply Forall2_set; auto|left; auto]. right. cbn. eauto. }
      assert (LN1 : List.length ps1 = List.length ps) by (unfold ps1; now rewrite !set_nth_length).
      assert (PT1 : forall k, pt k ps1 = if Nat.eqb k oth then ([], []) else if Nat.eqb k loc then (ts, os) else pt k ps).
      { intros k. unfold pt, ps1. rewrite !set_nth_nth by (rewrite ?set_nth_length; lia). reflexivity. }
      assert (PTl : pt loc ps1 = (ts, os)) by (rewrite PT1; destruct (Nat.eqb_spec loc oth); [lia|]; now rewrite Nat.eqb_refl).
      assert (PTo : pt oth ps1 = ([], [])) by (rewrite PT1; now rewrite Nat.eqb_refl).
      assert (PTk : forall k, k <> s -> k <> t -> pt k ps1 = pt k ps).
      { intros k K1 K2. rewrite PT1. destruct (Nat.eqb_spec k oth); [lia|]. destruct (Nat.eqb_spec k loc); [lia|auto]. }
      assert (Clk : forall k, k <> s -> k <> t -> C h1 ps1 loc k = C h ps s k + C h ps t k).
      { intros k K1 K2. unfold C at 1. rewrite PTl, (PTk k K1 K2). cbn [snd]. now apply CN. }
      assert (Co : forall k, C h1 ps1 oth k = 0) by (intros k; unfold C; rewrite PTo; reflexivity).
      assert (Co' : forall k, C h1 ps1 k oth = 0) by (intros k; unfold C; rewrite PTo; apply cnt_nil_r).
      assert (Cab : forall a b, a <> s -> a <> t -> b <> s -> b <> t -> C h1 ps1 a b = C h ps a b).
      { intros a b A1 A2 B1' B2'. unfold C. rewrite (PTk a A1 A2), (PTk b B1' B2'). apply cnt_ext; try now apply (pt_nd _ _ _ _ _ B).
        assert (KR : forall l, In l (snd (pt a ps)) -> In l (all_legs h (tids R))).
        { intros l Hl. destruct (le_lt_dec (List.length ps) a) as [G|G]; [unfold pt in Hl; rewrite nth_overflow in Hl by auto; destruct Hl|].
          specialize (TR a G A1 A2). apply (part_outs _ _ _ _ _ B) in Hl; [|now apply nth_In]. revert Hl. apply all_incl. intros z. now apply tids_In. }
        intros u v. split; intros (H1 & H2 & H3); (split; [auto|split; [auto|]]); apply (ut_links _ _ _ U); auto. }
      assert (C2 : forall j, j <> loc -> C h1 ps1 loc j <= 2).
      { intros j Hj. destruct (Nat.eq_dec j oth) as [->|Ho]; [rewrite Co'; lia|]. rewrite Clk by lia. pose proof (sd_one _ _ _ _ SD s j). pose proof (sd_one _ _ _ _ SD t j). lia. }
      destruct (merge_others lib SP SRK loc (seq 0 (List.length ps)) h1 ps1 q' chi ms1 BB F1) as (h2 & ms2 & ps2 & q2 & E2 & B2 & F2 & EV & RD).
      { unfold part in *. lia. }
      { now rewrite PTl. }
      { intros j Hj. apply in_seq in Hj. unfold part in *. lia. }
      { exact C2. }
      rewrite (bind_ok _ _ _ _ _ E2). pose proof (ev_len _ _ _ _ EV) as LN2. rewrite LN1 in LN2.
      assert (LK1 : forall a b, a <> b -> 1 <= C h1 ps1 a b <-> touches h0 (nth a (joined s t gs) []) (nth b (joined s t gs) [])).
      { intros a b NE. destruct (Nat.eq_dec a oth) as [->|Ao].
        { rewrite Co, (GN oth), Nat.eqb_refl. split; [lia|]. intros X. now apply touches_nil_l in X. }
        destruct (Nat.eq_dec b oth) as [->|Bo].
        { rewrite Co', (GN oth), Nat.eqb_refl. split; [lia|]. intros X. now apply touches_nil_r in X. }
        rewrite (GN a), (GN b). destruct (Nat.eqb_spec a oth); [lia|]. destruct (Nat.eqb_spec b oth); [lia|].
        destruct (Nat.eqb_spec a loc) as [->|Al].
        - destruct (Nat.eqb_spec b loc); [lia|]. rewrite Clk by lia. rewrite touches_app_l. rewrite <- !(sd_link _ _ _ _ SD) by lia. lia.
        - destruct (Nat.eqb_spec b loc) as [->|Bl].
          + rewrite (C_sym h1 ps1 q' chi) by auto. rewrite Clk by lia. rewrite touches_app_r. rewrite <- !(sd_link _ _ _ _ SD) by lia.
            rewrite (C_sym h ps q chi a s), (C_sym h ps q chi a t) by auto. lia.
          + rewrite Cab by lia. apply (sd_link _ _ _ _ SD); auto. }
      destruct (IH (joined s t gs) h2 ps2 q2 ms2 B2 F2) as (h' & ms' & E' & RM); auto.
      { constructor.
        - now rewrite LG, LN2.
        - intros k. rewrite (ev_live _ _ _ _ EV). rewrite PT1, GN. destruct (Nat.eqb k oth); [reflexivity|]. destruct (Nat.eqb k loc); [|apply (sd_live _ _ _ _ SD)].
          cbn [fst]. split; [tauto|]. intros X. apply app_eq_nil in X. destruct X as [X _]. now apply (sd_live _ _ _ _ SD) in X.
        - intros a b NE. destruct (RD a b NE) as [R1 R2].
          destruct (Nat.eq_dec a loc) as [->|Al].
          { destruct (le_lt_dec (List.length ps) b) as [G|G].
            - rewrite (C_sym h2 ps2 q2 chi) by auto. unfold C, pt. rewrite (nth_overflow ps2) by lia. cbn. lia.
            - rewrite R2; [lia|]. left. apply in_map_iff. exists b. split; auto. apply in_seq. lia. }
          destruct (Nat.eq_dec b loc) as [->|Bl].
          { destruct (le_lt_dec (List.length ps) a) as [G|G].
            - unfold C, pt. rewrite (nth_overflow ps2) by lia. cbn. lia.
            - rewrite R2; [lia|]. right. apply in_map_iff. exists a. split; auto. apply in_seq. lia. }
          assert (H : C h1 ps1 a b <= 1); [|lia].
          destruct (Nat.eq_dec a oth) as [->|Ao]; [rewrite Co; lia|]. destruct (Nat.eq_dec b oth) as [->|Bo]; [rewrite Co'; lia|]. rewrite Cab by lia. now apply (sd_one _ _ _ _ SD).
        - intros a b NE. rewrite <- LK1 by auto. destruct (RD a b NE) as [R1 R2]. lia. }
      exists h', ms'. rewrite LN2 in E'. split; [exact E'|].
      assert (P2 : Permutation (ts ++ tids R) (tids ps1)) by (symmetry; exact (tids_perm _ _ PP)).
      assert (WB : wf_net h (tids ps)) by apply (bu_wf _ _ _ _ B).
      apply (remains_trans h h2 h' (tids ps) (tids ps2)); auto.
      * eapply same_free_trans; [|apply (ev_free _ _ _ _ EV)]. apply (same_free_perm h h1 _ _ _ _ (Permutation_refl _) P2); auto. apply W1.
      * eapply same_value_trans; [| |apply (ev_value _ _ _ _ EV)]; [apply (same_free_perm h h1 _ _ _ _ (Permutation_refl _) P2)|apply (same_value_perm h h1 _ _ _ _ (Permutation_refl _) P2)]; auto; apply W1.
Qed.
End Main.
