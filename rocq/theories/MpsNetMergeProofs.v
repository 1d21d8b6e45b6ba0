(** contractWithMPS (examples/MPS.py 546-580): merging the bonds between the MPSes of a collection. *)
From Coq Require Import List Arith Bool Lia String ZArith Permutation.
From Verif Require Import Base Sums NdModel NdProofs HeapModel FuncsModel FuncsProofs TensorModel TensorSpec TensorProofs
  ContractModel NetSpec ShareProofs LinkProofs ContractProofs NetProofs GroupSpec GroupProofs NetSameProofs
  SvdModel SvdSpec MpsModel MpsSpec MpsProofs SchmidtProofs MpsSwapProofs MpsContractModel MpsContractSpec MpsOpenProofs MpsCommonProofs MpsContractProofs MpsDoubleSpec MpsDoubleProofs MpsBondProofs MpsMergeProofs
  MpsFuseProofs SumpairsProofs MpsNetSpec MpsNetProofs.
Import ListNotations.
Local Open Scope list_scope.
Local Open Scope nat_scope.

Section Net.
Context {A : Type} {HA : SR A}.
Notation heap := (heap A).

(** *** Numbers of links *)
Definition cnt (h : heap) (L K : list lid) : nat := List.length (pairs_between h L K).
Definition C (h : heap) (ps : list part) (a b : nat) : nat := cnt h (snd (pt a ps)) (snd (pt b ps)).

Lemma cnt_ext (h h' : heap) L K L' K' : NoDup L -> NoDup L' ->
  (forall x y, (In x L /\ In y K /\ linked h x y) <-> (In x L' /\ In y K' /\ linked h' x y)) -> cnt h L K = cnt h' L' K'.
Proof.
  intros N1 N2 E. apply Permutation_length, NoDup_Permutation; try now apply pairs_nodup'. intros [x y]. rewrite !pairs_In. apply E.
Qed.
Lemma cnt_nil_r (h : heap) L : cnt h L [] = 0.
Proof. unfold cnt. destruct (pairs_between h L []) as [|[x y] P] eqn:E; auto. assert (I : In (x, y) (pairs_between h L [])) by (rewrite E; simpl; auto). apply pairs_In in I. now destruct I as (_ & [] & _). Qed.
Lemma cnt_app (h : heap) L1 L2 K : cnt h (L1 ++ L2) K = cnt h L1 K + cnt h L2 K.
Proof. unfold cnt, pairs_between. now rewrite flat_map_app, app_length. Qed.
Lemma cnt_sym (h : heap) L K : NoDup L -> NoDup K -> (forall x y, In x L -> In y K -> linked h x y <-> linked h y x) -> cnt h L K = cnt h K L.
Proof.
  intros N1 N2 E. unfold cnt. rewrite <- (map_length (fun p => (snd p, fst p)) (pairs_between h K L)). apply Permutation_length, NoDup_Permutation.
  - now apply pairs_nodup'.
  - apply FinFun.Injective_map_NoDup; [|now apply pairs_nodup']. intros [u v] [u' v'] H. cbn in H. congruence.
  - intros [x y]. rewrite in_map_iff, pairs_In. split.
    + intros (H1 & H2 & H3). exists (y, x). rewrite pairs_In. split; auto. split; auto. split; auto. now apply (E x y).
    + intros ([u v] & H & I). cbn in H. injection H as -> ->. apply pairs_In in I. destruct I as (H1 & H2 & H3). split; auto. split; auto. now apply (E x y).
Qed.
Lemma cnt_pos (h : heap) L K : 1 <= cnt h L K <-> exists x y, In x L /\ In y K /\ linked h x y.
Proof.
  unfold cnt. split.
  - destruct (pairs_between h L K) as [|[x y] P] eqn:E; [cbn; lia|]. intros _. exists x, y. apply pairs_In. rewrite E. simpl; auto.
  - intros (x & y & H). apply pairs_In in H. destruct (pairs_between h L K); [destruct H|cbn; lia].
Qed.

(** *** Parts of a collection *)
Lemma part_nd (h : heap) ps q chi p : bunch h ps q chi -> In p ps -> NoDup (snd p).
Proof.
  intros B Hp. destruct (tids_split ps p Hp) as (e & Pe & R & PR & _). apply (bunch_perm _ _ _ _ _ PR) in B.
  destruct (bu_part _ _ _ _ B p) as (lf & rt & CH & _); [simpl; auto|]. specialize (CH _ (Permutation_refl _)). apply (ch_ndo _ _ _ _ _ _ CH).
Qed.
Lemma pt_nd (h : heap) ps q chi a : bunch h ps q chi -> NoDup (snd (pt a ps)).
Proof.
  intros B. unfold pt. destruct (le_lt_dec (List.length ps) a) as [G|G]; [rewrite nth_overflow by auto; constructor|]. eapply part_nd; eauto. now apply nth_In.
Qed.
Lemma pt_legs (h : heap) ps q chi a : bunch h ps q chi -> incl (snd (pt a ps)) (all_legs h (tids ps)).
Proof.
  intros B. unfold pt. destruct (le_lt_dec (List.length ps) a) as [G|G]; [rewrite nth_overflow by auto; intros l []|]. intros l Hl.
  apply (part_outs _ _ _ _ _ B) in Hl; [|now apply nth_In]. revert Hl. apply all_incl. intros t. apply tids_In. now apply nth_In.
Qed.
Lemma bunch_back (h : heap) ps q chi x y : bunch h ps q chi -> In x (all_legs h (tids ps)) -> linked h x y -> linked h y x.
Proof. intros B Hx LK. destruct (closed_in h _ x y (wo_net _ _ (bu_wf _ _ _ _ B)) (bu_closed _ _ _ _ B) Hx LK) as [_ BK]. exact BK. Qed.
Lemma C_sym (h : heap) ps q chi a b : bunch h ps q chi -> C h ps a b = C h ps b a.
Proof.
  intros B. apply cnt_sym; try eapply pt_nd; eauto. intros x y Hx Hy. split; eapply bunch_back; eauto; eapply pt_legs; eauto.
Qed.
Lemma pt_disj (h : heap) ps q chi a b l : bunch h ps q chi -> a <> b -> In l (snd (pt a ps)) -> In l (snd (pt b ps)) -> False.
Proof.
  intros B N Ha Hb. unfold pt in *. destruct (le_lt_dec (List.length ps) a) as [G|G]; [rewrite nth_overflow in Ha by auto; destruct Ha|].
  destruct (le_lt_dec (List.length ps) b) as [G'|G']; [rewrite nth_overflow in Hb by auto; destruct Hb|].
  destruct (take_two ps a b ([], []) G G' N) as (R & P & _). apply (bunch_perm _ _ _ _ _ P) in B.
  apply (part_outs _ _ _ _ _ B) in Ha; [|simpl; auto]. apply (part_outs _ _ _ _ _ B) in Hb; [|simpl; auto].
  pose proof (wn_nodup _ _ (wo_net _ _ (bu_wf _ _ _ _ B))) as ND. change (tids (?x :: ?y :: R)) with (fst x ++ fst y ++ tids R) in ND.
  rewrite all_legs_app in ND. apply (NoDup_app_disj _ _ l ND Ha). rewrite all_legs_app. apply in_app_iff. auto.
Qed.

(** objects and parts *)
Definition obj (chi : Z) (p : part) (o : mobj) : Prop := (p = ([], []) /\ o = ONone) \/ (fst p <> [] /\ exists act, o = OMps (mkMps (fst p) chi act)).
(** the collection [ps] has become [ps']: same positions in use, same free legs, same value *)
Record evolved (h : heap) (ps : list part) (h' : heap) (ps' : list part) : Prop := {
  ev_len : List.length ps' = List.length ps;
  ev_live : forall k, fst (pt k ps') = [] <-> fst (pt k ps) = [];
  ev_free : same_free h (tids ps) h' (tids ps');
  ev_value : same_value h (tids ps) h' (tids ps') }.
Lemma ev_refl (h : heap) ps : evolved h ps h ps.
Proof. constructor; auto; [reflexivity|split; auto|intros s _; auto]. Qed.
Lemma ev_trans (h h1 h2 : heap) ps ps1 ps2 : evolved h ps h1 ps1 -> evolved h1 ps1 h2 ps2 -> evolved h ps h2 ps2.
Proof.
  intros [L1 V1 F1 S1] [L2 V2 F2 S2]. constructor; [congruence|intros k; rewrite V2; auto|eapply same_free_trans; eauto|eapply same_value_trans; eauto].
Qed.

Definition pairb (i j a b : nat) : bool := (Nat.eqb a i && Nat.eqb b j) || (Nat.eqb a j && Nat.eqb b i).
Lemma pairb_spec i j a b : pairb i j a b = true <-> (a = i /\ b = j) \/ (a = j /\ b = i).
Proof. unfold pairb. rewrite orb_true_iff, !andb_true_iff, !Nat.eqb_eq. reflexivity. Qed.

(** the links of the other pairs after a merge *)
Lemma merged_counts (h h' : heap) ps q q' chi i j tsA' tsB' osA' osB' x y : bunch h ps q chi -> i < List.length ps -> j < List.length ps -> i <> j ->
  let ps' := set_nth j (tsB', osB') (set_nth i (tsA', osA') ps) in
  let P := pairs_between h (snd (pt i ps)) (snd (pt j ps)) in
  bunch h' ps' q' chi -> (forall e, Permutation (tids ps) (fst (pt i ps) ++ fst (pt j ps) ++ e) -> untouched h e h') ->
  Permutation osA' (x :: others (snd (pt i ps)) (map fst P)) -> Permutation osB' (y :: others (snd (pt j ps)) (map snd P)) -> linked h' x y ->
  kept_legs h h' (others (snd (pt i ps)) (map fst P) ++ others (snd (pt j ps)) (map snd P)) -> pairs_between h' osA' osB' = [(x, y)] -> 2 <= C h ps i j ->
  forall a b, a <> b -> C h' ps' a b = if pairb i j a b then Nat.min 1 (C h ps a b) else C h ps a b.
Proof.
  intros B Hi Hj N ps' P B' UT PA PB LK KL PP C2.
  assert (NT : forall k, pt k ps' = if Nat.eqb k j then (tsB', osB') else if Nat.eqb k i then (tsA', osA') else pt k ps).
  { intros k. unfold pt, ps'. rewrite set_nth_nth by (now rewrite set_nth_length). destruct (Nat.eqb k j); auto. now rewrite set_nth_nth. }
  assert (Ei : pt i ps' = (tsA', osA')) by (rewrite NT; destruct (Nat.eqb_spec i j); [lia|]; now rewrite Nat.eqb_refl).
  assert (Ej : pt j ps' = (tsB', osB')) by (rewrite NT; now rewrite Nat.eqb_refl).
  assert (Eo : forall k, k <> i -> k <> j -> pt k ps' = pt k ps) by (intros k K1 K2; rewrite NT; destruct (Nat.eqb_spec k j); [lia|]; destruct (Nat.eqb_spec k i); [lia|auto]).
  destruct (take_two ps i j ([], []) Hi Hj N) as (R & PR & _ & TR & _). fold (pt i ps) (pt j ps) in PR.
  assert (U : untouched h (tids R) h') by (apply UT; exact (tids_perm _ _ PR)).
  assert (KR : forall k l, k <> i -> k <> j -> In l (snd (pt k ps)) -> In l (all_legs h (tids R))).
  { intros k l K1 K2 Hl. destruct (le_lt_dec (List.length ps) k) as [G|G]; [unfold pt in Hl; rewrite nth_overflow in Hl by auto; destruct Hl|].
    specialize (TR k G K1 K2). apply (part_outs _ _ _ _ _ B) in Hl; [|now apply nth_In]. revert Hl. apply all_incl. intros t. now apply tids_In. }
  assert (LINK1 : forall u v, linked h u v -> In u (snd (pt i ps)) -> ~ In v (snd (pt j ps)) -> In u (others (snd (pt i ps)) (map fst P))).
  { intros u v L1 H1 H2. apply others_In. split; auto. intros H3. apply in_map_iff in H3. destruct H3 as ([u' v'] & E & H3). cbn in E. subst u'. apply pairs_In in H3.
    destruct H3 as (_ & H3 & H4). rewrite (link_one _ _ _ _ L1 H4) in H2. contradiction. }
  assert (LINK2 : forall u v, linked h u v -> In u (snd (pt j ps)) -> ~ In v (snd (pt i ps)) -> In u (others (snd (pt j ps)) (map snd P))).
  { intros u v L1 H1 H2. apply others_In. split; auto. intros H3. apply in_map_iff in H3. destruct H3 as ([v' u'] & E & H3). cbn in E. subst u'. apply pairs_In in H3.
    destruct H3 as (H3 & _ & H4). apply (bunch_back _ _ _ _ _ _ B) in H4; [|eapply pt_legs; eauto]. rewrite (link_one _ _ _ _ L1 H4) in H2. contradiction. }
  assert (LKB : linked h' y x).
  { apply (bunch_back _ _ _ _ _ _ B' ) in LK; auto. apply (pt_legs _ _ _ _ i B'). rewrite Ei. cbn. rewrite PA. simpl; auto. }
  assert (HA1 : forall k, k <> i -> k <> j -> C h' ps' i k = C h ps i k).
  { intros k K1 K2. unfold C. rewrite Ei, (Eo k K1 K2). cbn [snd]. apply cnt_ext.
    - pose proof (pt_nd _ _ _ _ i B') as H. now rewrite Ei in H.
    - now apply (pt_nd _ _ _ _ i B).
    - intros u v. split.
      + intros (H1 & H2 & H3). rewrite PA in H1. destruct H1 as [<-|H1].
        * exfalso. rewrite (link_one _ _ _ _ H3 LK) in H2. apply (pt_disj _ _ _ _ j k y B'); auto; [rewrite Ej; cbn; rewrite PB; simpl; auto|now rewrite Eo].
        * destruct (KL u) as (_ & _ & L); [apply in_app_iff; auto|]. apply L in H3. apply others_In in H1. tauto.
      + intros (H1 & H2 & H3). assert (H4 : In u (others (snd (pt i ps)) (map fst P))) by (apply (LINK1 u v); auto; intros H; apply (pt_disj _ _ _ _ j k v B); auto).
        split; [rewrite PA; simpl; auto|]. split; auto. apply KL; auto. apply in_app_iff; auto. }
  assert (HB1 : forall k, k <> i -> k <> j -> C h' ps' j k = C h ps j k).
  { intros k K1 K2. unfold C. rewrite Ej, (Eo k K1 K2). cbn [snd]. apply cnt_ext.
    - pose proof (pt_nd _ _ _ _ j B') as H. now rewrite Ej in H.
    - now apply (pt_nd _ _ _ _ j B).
    - intros u v. split.
      + intros (H1 & H2 & H3). rewrite PB in H1. destruct H1 as [<-|H1].
        * exfalso. rewrite (link_one _ _ _ _ H3 LKB) in H2. apply (pt_disj _ _ _ _ i k x B'); auto; [rewrite Ei; cbn; rewrite PA; simpl; auto|now rewrite Eo].
        * destruct (KL u) as (_ & _ & L); [apply in_app_iff; auto|]. apply L in H3. apply others_In in H1. tauto.
      + intros (H1 & H2 & H3). assert (H4 : In u (others (snd (pt j ps)) (map snd P))) by (apply (LINK2 u v); auto; intros H; apply (pt_disj _ _ _ _ i k v B); auto).
        split; [rewrite PB; simpl; auto|]. split; auto. apply KL; auto. apply in_app_iff; auto. }
  assert (HIJ : C h' ps' i j = 1) by (unfold C; rewrite Ei, Ej; unfold cnt; cbn [snd]; now rewrite PP).
  intros a b NE. destruct (pairb i j a b) eqn:EP.
  - apply pairb_spec in EP. destruct EP as [[-> ->]|[-> ->]]; [|rewrite (C_sym h' ps' q' chi), (C_sym h ps q chi) by auto]; rewrite HIJ; lia.
  - assert (NP : ~ ((a = i /\ b = j) \/ (a = j /\ b = i))) by (rewrite <- pairb_spec, EP; discriminate).
    destruct (Nat.eq_dec a i) as [->|Ai]; [apply HA1; auto|]. destruct (Nat.eq_dec a j) as [->|Aj]; [apply HB1; auto|].
    destruct (Nat.eq_dec b i) as [->|Bi]; [rewrite (C_sym h' ps' q' chi), (C_sym h ps q chi) by auto; apply HA1; auto|].
    destruct (Nat.eq_dec b j) as [->|Bj]; [rewrite (C_sym h' ps' q' chi), (C_sym h ps q chi) by auto; apply HB1; auto|].
    unfold C. rewrite !Eo by auto. apply cnt_ext; try now apply (pt_nd _ _ _ _ _ B). intros u v. split; intros (H1 & H2 & H3); (split; [auto|split; [auto|]]); apply (ut_links _ _ _ U) in H3 || apply (ut_links _ _ _ U); auto; now apply (KR a).
Qed.

Variable lib : linalg A.
Hypothesis SP : svd_perfect lib.
Hypothesis SRK : svd_rank lib.

Lemma merge_step (h : heap) ps q chi ms i j begin : bunch h ps q chi -> Forall2 (obj chi) ps ms -> i < List.length ps -> j < List.length ps -> i <> j ->
  fst (pt i ps) <> [] -> fst (pt j ps) <> [] -> (begin = true \/ C h ps i j <= 2) ->
  exists h' ms' ps' q', mergePair lib begin i j ms h = (h', Ok ms') /\ bunch h' ps' q' chi /\ Forall2 (obj chi) ps' ms' /\ evolved h ps h' ps' /\
    forall a b, a <> b -> C h' ps' a b = if pairb i j a b then Nat.min 1 (C h ps a b) else C h ps a b.
Proof.
  intros B F Hi Hj N Li Lj BG.
  assert (Oi : obj chi (pt i ps) (nth i ms ONone)) by exact (Forall2_nth' _ _ _ ([], []) ONone F i Hi).
  assert (Oj : obj chi (pt j ps) (nth j ms ONone)) by exact (Forall2_nth' _ _ _ ([], []) ONone F j Hj).
  destruct Oi as [(E & _)|(_ & acta & Oi)]; [rewrite E in Li; now destruct Li|]. destruct Oj as [(E & _)|(_ & actb & Oj)]; [rewrite E in Lj; now destruct Lj|].
  destruct (take_two ps i j ([], []) Hi Hj N) as (R & PR & SR & TR & _). fold (pt i ps) (pt j ps) in PR.
  pose proof (bunch_perm _ _ _ _ _ PR B) as B1. pose proof (bunch_pair _ _ _ _ _ _ B1) as EP.
  unfold mergePair. rewrite Oi, Oj. destruct (le_lt_dec (C h ps i j) 1) as [LE|GT].
  - exists h, ms, ps, q. destruct (exact_chains _ _ _ _ _ _ _ _ EP) as (lfA & rtA & lfB & rtB & CA & CB).
    rewrite (bind_ok _ _ _ _ _ (merge_few lib h _ _ _ _ _ _ _ _ _ chi chi acta actb begin CA CB (proj1 EP) LE)). cbn beta iota.
    split.
    { unfold ret. do 2 f_equal. rewrite <- Oi, <- Oj. apply (nth_ext _ _ ONone ONone); [now rewrite !set_nth_length|]. intros k Hk. rewrite !set_nth_length in Hk.
      pose proof (Forall2_length _ _ _ F) as EL. rewrite !set_nth_nth by (rewrite ?set_nth_length; lia).
      destruct (Nat.eqb_spec k j) as [->|]; auto. destruct (Nat.eqb_spec k i) as [->|]; auto. }
    split; auto. split; auto. split; [apply ev_refl|]. intros a b NE. destruct (pairb i j a b) eqn:EPB; auto. apply pairb_spec in EPB.
    destruct EPB as [[-> ->]|[-> ->]]; [lia|]. rewrite (C_sym h ps q chi j i) by auto. lia.
  - assert (EP' : exact_pair h (fst (pt i ps)) (fst (pt j ps)) (tids R) (snd (pt i ps)) (snd (pt j ps)) q (Z.min chi chi)) by (now rewrite Z.min_id).
    destruct (merge_mps lib SP SRK h _ _ _ _ _ _ chi chi acta actb begin EP') as (h' & tsA' & tsB' & osA' & osB' & x & y & bd & q' & E & M & PP); [exact GT|fold (C h ps i j); unfold C, cnt in *; intuition lia|].
    rewrite Z.min_id in M. destruct M as (X & PA & PB & LK & _ & QE & Q1 & Q2 & U & KL & SF & SV).
    set (ps' := set_nth j (tsB', osB') (set_nth i (tsA', osA') ps)).
    assert (PR' : Permutation ps' ([(tsA', osA'); (tsB', osB')] ++ R)) by apply SR.
    assert (EN : tids [(tsA', osA'); (tsB', osB')] ++ tids R = tsA' ++ tsB' ++ tids R) by (cbn; now rewrite app_nil_r, app_assoc).
    assert (W' : wf_open h' (tsA' ++ tsB' ++ tids R)).
    { destruct (exact_chains _ _ _ _ _ _ _ _ X) as (lfA & rtA & _ & _ & CA & _). apply (ch_wf _ _ _ _ _ _ CA). }
    assert (B' : bunch h' ps' q' chi).
    { apply (bunch_perm h' ([(tsA', osA'); (tsB', osB')] ++ R)); [now symmetry|]. apply (bunch_put h h' [pt i ps; pt j ps] _ R q); auto; rewrite ?EN.
      - exact W'.
      - apply X.
      - apply X.
      - apply X.
      - intros l Hl. apply QE. apply in_app_iff. right. apply in_app_iff. auto.
      - cbn [outs flat_map snd]. rewrite !app_nil_r, !prodn_map_app, Q1, Q2. lia.
      - destruct X as (_ & _ & _ & lfA & rtA & lfB & rtB & CA & CB & (D1 & S1 & _) & (D2 & S2 & _)).
        intros p [<-|[<-|[]]]; cbn [fst snd]; [exists lfA, rtA, (tsB' ++ tids R)|exists lfB, rtB, (tsA' ++ tids R)]; (split; [|split; [auto|split; auto]]).
        + reflexivity.
        + apply st_perm. }
    assert (NE' : tsA' <> [] /\ tsB' <> []).
    { destruct (exact_chains _ _ _ _ _ _ _ _ X) as (lfA & rtA & lfB & rtB & CA & CB). split; intros ->; [pose proof (ch_len _ _ _ _ _ _ CA) as H; rewrite PA in H|pose proof (ch_len _ _ _ _ _ _ CB) as H; rewrite PB in H]; discriminate H. }
    exists h', (set_nth j (OMps (mkMps tsB' chi None)) (set_nth i (OMps (mkMps tsA' chi None)) ms)), ps', q'.
    split; [now rewrite (bind_ok _ _ _ _ _ E)|]. split; [exact B'|]. split.
    { apply Forall2_set; [apply Forall2_set; auto|]; right; cbn; split; try tauto; eauto. }
    split.
    { assert (P1 : Permutation (fst (pt i ps) ++ fst (pt j ps) ++ tids R) (tids ps)) by (symmetry; exact (tids_perm _ _ PR)).
      assert (P2 : Permutation (tsA' ++ tsB' ++ tids R) (tids ps')) by (rewrite <- EN, <- tids_app; symmetry; exact (tids_perm _ _ PR')).
      constructor.
      - unfold ps'. now rewrite !set_nth_length.
      - intros k. unfold pt, ps'. rewrite !set_nth_nth by (now rewrite ?set_nth_length). destruct (Nat.eqb_spec k j) as [->|]; [cbn [fst]; fold (pt j ps); tauto|].
        destruct (Nat.eqb_spec k i) as [->|]; [cbn [fst]; fold (pt i ps); tauto|reflexivity].
      - apply (same_free_perm h h' _ _ _ _ P1 P2); auto; [apply (exact_wf _ _ _ _ _ _ _ _ EP)|apply W'].
      - apply (same_value_perm h h' _ _ _ _ P1 P2); auto; [apply (exact_wf _ _ _ _ _ _ _ _ EP)|apply W']. }
    apply (merged_counts h h' ps q q' chi i j tsA' tsB' osA' osB' x y); auto.
    intros e Pe. apply (ut_incl h h' (tids R)); auto. intros t Ht. 
    assert (P1 : Permutation (fst (pt i ps) ++ fst (pt j ps) ++ tids R) (fst (pt i ps) ++ fst (pt j ps) ++ e)) by (rewrite <- Pe; symmetry; exact (tids_perm _ _ PR)).
    do 2 apply Permutation_app_inv_l in P1. now rewrite P1.
Qed.
End Net.
