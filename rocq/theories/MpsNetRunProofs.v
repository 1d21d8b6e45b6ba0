(** contractWithMPS (examples/MPS.py 546-580): the loops over the collection of MPSes. *)
From Coq Require Import List Arith Bool Lia String ZArith Permutation.
From Verif Require Import Base Sums NdModel NdProofs HeapModel FuncsModel FuncsProofs TensorModel TensorSpec TensorProofs
  ContractModel NetSpec ShareProofs LinkProofs ContractProofs NetProofs GroupSpec GroupProofs NetSameProofs
  SvdModel SvdSpec MpsModel MpsSpec MpsProofs SchmidtProofs MpsSwapProofs MpsContractModel MpsContractSpec MpsOpenProofs MpsCommonProofs MpsContractProofs MpsDoubleSpec MpsDoubleProofs MpsBondProofs MpsMergeProofs
  MpsFuseProofs SumpairsProofs MpsNetSpec MpsNetProofs MpsNetMergeProofs.
Import ListNotations.
Local Open Scope list_scope.
Local Open Scope nat_scope.

Lemma set_nth_comm {X} (l : list X) i j a b : i <> j -> set_nth i a (set_nth j b l) = set_nth j b (set_nth i a l).
Proof. revert i j. induction l as [|x l IH]; intros [|i] [|j] N; cbn; auto; [lia|]. f_equal. apply IH. lia. Qed.
Lemma without_perm {X} (l : list X) i d : i < List.length l -> Permutation l (nth i l d :: without i l).
Proof.
  revert i. induction l as [|x l IH]; intros [|i] Hi; cbn in Hi; try lia; [reflexivity|]. unfold without in *. cbn [nth firstn skipn app].
  rewrite perm_swap. apply perm_skip. apply IH. lia.
Qed.

Section Run.
Context {A : Type} {HA : SR A}.
Notation heap := (heap A).
Variable lib : linalg A.
Hypothesis SP : svd_perfect lib.
Hypothesis SRK : svd_rank lib.

(** several links between two parts may have become one, and have for the pairs in [qs] *)
Definition reduced (qs : list (nat * nat)) (h : heap) (ps : list part) (h' : heap) (ps' : list part) : Prop :=
  forall a b, a <> b -> (C h' ps' a b = C h ps a b \/ C h' ps' a b = Nat.min 1 (C h ps a b)) /\ (In (a, b) qs \/ In (b, a) qs -> C h' ps' a b = Nat.min 1 (C h ps a b)).

Lemma reduced_cons (h h1 h2 : heap) ps ps1 ps2 i j qs :
  (forall a b, a <> b -> C h1 ps1 a b = if pairb i j a b then Nat.min 1 (C h ps a b) else C h ps a b) -> reduced qs h1 ps1 h2 ps2 -> reduced ((i, j) :: qs) h ps h2 ps2.
Proof.
  intros H R a b N. destruct (R a b N) as [R1 R2]. rewrite (H a b N) in R1, R2. destruct (pairb i j a b) eqn:E.
  - split; [lia|]. intros _. lia.
  - split; [exact R1|]. assert (NP : ~ ((a = i /\ b = j) \/ (a = j /\ b = i))) by (rewrite <- pairb_spec, E; discriminate).
    intros [[X|X]|[X|X]]; auto; exfalso; apply NP; injection X; auto.
Qed.

Lemma merge_all : forall qs (h : heap) ps q chi ms, bunch h ps q chi -> Forall2 (obj chi) ps ms ->
  (forall i j, In (i, j) qs -> i < List.length ps /\ j < List.length ps /\ i <> j) -> (forall k, k < List.length ps -> fst (pt k ps) <> []) ->
  exists h' ms' ps' q', mergeAll lib qs ms h = (h', Ok ms') /\ bunch h' ps' q' chi /\ Forall2 (obj chi) ps' ms' /\ evolved h ps h' ps' /\ reduced qs h ps h' ps'.
Proof.
  induction qs as [|[i j] qs IH]; intros h ps q chi ms B F IN LV.
  - exists h, ms, ps, q. split; [reflexivity|]. split; auto. split; auto. split; [apply ev_refl|]. intros a b N. split; auto. intros [[]|[]].
  - destruct (IN i j) as (Hi & Hj & N); [simpl; auto|].
    destruct (merge_step lib SP SRK h ps q chi ms i j true) as (h1 & ms1 & ps1 & q1 & E1 & B1 & F1 & EV1 & C1); auto.
    destruct (IH h1 ps1 q1 chi ms1 B1 F1) as (h2 & ms2 & ps2 & q2 & E2 & B2 & F2 & EV2 & R2).
    { intros a b Hab. rewrite (ev_len _ _ _ _ EV1). apply IN. simpl; auto. }
    { intros k Hk. rewrite (ev_len _ _ _ _ EV1) in Hk. rewrite (ev_live _ _ _ _ EV1). auto. }
    exists h2, ms2, ps2, q2. split; [cbn [mergeAll]; now rewrite (bind_ok _ _ _ _ _ E1)|]. split; auto. split; auto. split; [eapply ev_trans; eauto|].
    eapply reduced_cons; eauto.
Qed.

Lemma dead_part (h : heap) ps q chi k : bunch h ps q chi -> fst (pt k ps) = [] -> snd (pt k ps) = [].
Proof.
  intros B E. unfold pt in *. destruct (le_lt_dec (List.length ps) k) as [G|G]; [now rewrite nth_overflow|].
  pose proof (part_len _ _ _ _ _ B (nth_In ps ([], []) G)) as L. rewrite E in L. now destruct (snd (nth k ps ([], []))).
Qed.
Lemma merge_others loc : forall js (h : heap) ps q chi ms, bunch h ps q chi -> Forall2 (obj chi) ps ms ->
  loc < List.length ps -> fst (pt loc ps) <> [] -> (forall j, In j js -> j < List.length ps) -> (forall j, j <> loc -> C h ps loc j <= 2) ->
  exists h' ms' ps' q', mergeOthers lib loc js ms h = (h', Ok ms') /\ bunch h' ps' q' chi /\ Forall2 (obj chi) ps' ms' /\ evolved h ps h' ps' /\ reduced (map (fun j => (loc, j)) js) h ps h' ps'.
Proof.
  induction js as [|j js IH]; intros h ps q chi ms B F HL LV IN C2.
  - exists h, ms, ps, q. split; [reflexivity|]. split; auto. split; auto. split; [apply ev_refl|]. intros a b N. split; auto. intros [[]|[]].
  - cbn [mergeOthers map]. assert (Hj : j < List.length ps) by (apply IN; simpl; auto).
    assert (IN' : forall j0, In j0 js -> j0 < List.length ps) by (intros; apply IN; simpl; auto).
    assert (Oj : obj chi (pt j ps) (nth j ms ONone)) by exact (Forall2_nth' _ _ _ ([], []) ONone F j Hj).
    destruct (Nat.eqb_spec j loc) as [->|NE].
    + destruct (IH h ps q chi ms B F HL LV IN' C2) as (h' & ms' & ps' & q' & E & B' & F' & EV & R). exists h', ms', ps', q'. split; [destruct (nth loc ms ONone); exact E|].
      split; auto. split; auto. split; auto. intros a b N. destruct (R a b N) as [R1 R2]. split; auto. intros [[X|X]|[X|X]]; auto; injection X; intros; lia.
    + destruct Oj as [(E0 & Oj)|(L0 & act & Oj)]; rewrite Oj.
      * destruct (IH h ps q chi ms B F HL LV IN' C2) as (h' & ms' & ps' & q' & E & B' & F' & EV & R). exists h', ms', ps', q'. split; auto.
        split; auto. split; auto. split; auto. intros a b N. destruct (R a b N) as [R1 R2]. split; auto. 
        assert (D : snd (pt j ps) = []) by (now rewrite E0).
        intros [[X|X]|[X|X]]; auto; injection X as <- <-; destruct R1 as [R1|R1]; auto; rewrite R1; unfold C; rewrite D; [rewrite cnt_nil_r|]; reflexivity.
      * destruct (merge_step lib SP SRK h ps q chi ms loc j false) as (h1 & ms1 & ps1 & q1 & E1 & B1 & F1 & EV1 & C1); auto.
        destruct (IH h1 ps1 q1 chi ms1 B1 F1) as (h2 & ms2 & ps2 & q2 & E2 & B2 & F2 & EV2 & R2).
        { now rewrite (ev_len _ _ _ _ EV1). }
        { now rewrite (ev_live _ _ _ _ EV1). }
        { intros k Hk. rewrite (ev_len _ _ _ _ EV1). auto. }
        { intros k Hk. rewrite C1 by auto. specialize (C2 k Hk). destruct (pairb loc j loc k); lia. }
        exists h2, ms2, ps2, q2. split; [now rewrite (bind_ok _ _ _ _ _ E1)|]. split; auto. split; auto. split; [eapply ev_trans; eauto|].
        eapply reduced_cons; eauto.
Qed.

(** one contraction *)
Lemma contract_step (h : heap) ps q chi s t acta actb R : bunch h ps q chi -> Z.le 0 chi -> s < List.length ps -> t < List.length ps -> s <> t ->
  Permutation ps (pt s ps :: pt t ps :: R) -> (forall k, k < List.length ps -> k <> s -> k <> t -> In (pt k ps) R) -> C h ps s t = 1 ->
  exists h1 o os, contractMPS lib (OMps (mkMps (fst (pt s ps)) chi acta)) (OMps (mkMps (fst (pt t ps)) chi actb)) h = (h1, Ok o) /\ 
    untouched h (tids R) h1 /\ wf_open h1 (sites o ++ tids R) /\
    same_free h (tids ps) h1 (sites o ++ tids R) /\ same_value h (tids ps) h1 (sites o ++ tids R) /\
    (forall k, k <> s -> k <> t -> cnt h1 os (snd (pt k ps)) = C h ps s k + C h ps t k) /\
    ((os = [] /\ exists t0, o = OTensor t0 /\ legs_of h1 t0 = [] /\ t_like (tens h1 t0) = false /\ t_diag (tens h1 t0) = false) \/
     (os <> [] /\ exists ts q', o = OMps (mkMps ts chi None) /\ ts <> [] /\ bunch h1 ((ts, os) :: R) q' chi)).
Proof.
  intros B CP Hs Ht N PR TR C1. pose proof (bunch_perm _ _ _ _ _ PR B) as B1. pose proof (bunch_pair _ _ _ _ _ _ B1) as EP.
  destruct EP as (CL & AL & Q1 & lfA & rtA & lfB & rtB & CA & CB & FA & FB).
  set (osA := snd (pt s ps)) in *. set (osB := snd (pt t ps)) in *. set (tsA := fst (pt s ps)) in *. set (tsB := fst (pt t ps)) in *.
  assert (exists x y, pairs_between h osA osB = [(x, y)]) as (x & y & EP).
  { unfold C, cnt in C1. fold osA osB in C1. destruct (pairs_between h osA osB) as [|[x y] [|? ?]]; try discriminate C1. eauto. }
  assert (IP : In (x, y) (pairs_between h osA osB)) by (rewrite EP; simpl; auto). apply pairs_In in IP. destruct IP as (Hx & Hy & LK).
  destruct (In_nth osA x 0 Hx) as (ia & Ha & Ea). destruct (In_nth osB y 0 Hy) as (ib & Hb & Eb).
  pose proof (ch_len _ _ _ _ _ _ CA) as LA. pose proof (ch_len _ _ _ _ _ _ CB) as LB.
  assert (ST : svd_total lib) by (intros m r c W E; apply (SP m r c W E)).
  destruct (contract_mps lib ST h tsA tsB (tids R) osA osB lfA rtA lfB rtB ia ib chi chi acta actb CA CB CL) as (h1 & o & E & CT & SV); auto; try lia.
  { now rewrite EP, Ea, Eb. }
  rewrite Z.min_id in CT. set (os := without ia osA ++ without ib osB) in *.
  pose proof (without_perm osA ia 0 Ha) as PA. rewrite Ea in PA. pose proof (without_perm osB ib 0 Hb) as PB. rewrite Eb in PB.
  assert (SVV : same_value h (tsA ++ tsB ++ tids R) h1 (sites o ++ tids R)).
  { apply SV; right; (split; [exact SP|]); [apply (fits_roomy h q tsA osA (tsB ++ tids R) lfA rtA chi ia)|apply (fits_roomy h q tsB osB (tsA ++ tids R) lfB rtB chi ib)]; auto; lia. }
  assert (P1 : Permutation (tsA ++ tsB ++ tids R) (tids ps)) by (symmetry; exact (tids_perm _ _ PR)).
  assert (W : wf_net h (tsA ++ tsB ++ tids R)) by apply (ch_wf _ _ _ _ _ _ CA).
  pose proof (ct_wf _ _ _ _ _ _ _ _ _ _ _ _ CT) as W1. pose proof (ct_env _ _ _ _ _ _ _ _ _ _ _ _ CT) as U. pose proof (ct_kept _ _ _ _ _ _ _ _ _ _ _ _ CT) as KL.
  pose proof (ct_free _ _ _ _ _ _ _ _ _ _ _ _ CT) as SF.
  assert (NDA : NoDup osA) by apply (pt_nd _ _ _ _ s B). assert (NDB : NoDup osB) by apply (pt_nd _ _ _ _ t B).
  assert (KR : forall k l, k <> s -> k <> t -> In l (snd (pt k ps)) -> In l (all_legs h (tids R))).
  { intros k l K1 K2 Hl. destruct (le_lt_dec (List.length ps) k) as [G|G]; [unfold pt in Hl; rewrite nth_overflow in Hl by auto; destruct Hl|].
    specialize (TR k G K1 K2). apply (part_outs _ _ _ _ _ B) in Hl; [|now apply nth_In]. revert Hl. apply all_incl. intros z. now apply tids_In. }
  assert (LKB : linked h y x) by (apply (bunch_back _ _ _ _ _ _ B) in LK; auto; apply (pt_legs _ _ _ _ s B); auto).
  exists h1, o, os. split; [exact E|]. split; [exact U|]. split; [exact W1|].
  split; [apply (same_free_perm h h1 _ _ _ _ P1 (Permutation_refl _)); auto; apply W1|].
  split; [apply (same_value_perm h h1 _ _ _ _ P1 (Permutation_refl _)); auto; apply W1|].
  split.
  { intros k K1 K2. unfold os. rewrite cnt_app. unfold C. fold osA osB. f_equal; apply cnt_ext; auto.
    - assert (H : NoDup (x :: without ia osA)) by (eapply Permutation_NoDup; eauto). now inversion H.
    - intros u v. split; intros (H1 & H2 & H3).
      + split; [rewrite PA; simpl; auto|]. split; auto. apply KL in H3; auto. unfold os. apply in_app_iff; auto.
      + assert (H4 : In u (x :: without ia osA)) by (now rewrite <- PA). destruct H4 as [<-|H4].
        * exfalso. rewrite (link_one _ _ _ _ H3 LK) in H2. apply (pt_disj _ _ _ _ t k y B); auto.
        * split; auto. split; auto. apply KL; auto. unfold os. apply in_app_iff; auto.
    - assert (H : NoDup (y :: without ib osB)) by (eapply Permutation_NoDup; eauto). now inversion H.
    - intros u v. split; intros (H1 & H2 & H3).
      + split; [rewrite PB; simpl; auto|]. split; auto. apply KL in H3; auto. unfold os. apply in_app_iff; auto.
      + assert (H4 : In u (y :: without ib osB)) by (now rewrite <- PB). destruct H4 as [<-|H4].
        * exfalso. rewrite (link_one _ _ _ _ H3 LKB) in H2. apply (pt_disj _ _ _ _ s k x B); auto.
        * split; auto. split; auto. apply KL; auto. unfold os. apply in_app_iff; auto. }
  assert (DEC : {os = []} + {os <> []}) by (destruct os; [left; auto|right; discriminate]). destruct DEC as [E0|E0].
  - left. split; auto. destruct (ct_scalar _ _ _ _ _ _ _ _ _ _ _ _ CT E0) as (t0 & T1 & T2 & T3 & T4). exists t0. auto.
  - right. split; auto. destruct (ct_chain _ _ _ _ _ _ _ _ _ _ _ _ CT E0) as (ts & lf & rt & EO & CH & SQ).
    destruct FA as (DA & SA & RA). destruct FB as (DB & SB & RB).
    destruct (SQ q Q1) as (q' & G1 & G2 & G3 & G4); auto.
    { intros l Hl. apply in_app_iff in Hl. destruct Hl; auto. }
    exists ts, q'. split; auto. assert (NT : ts <> []) by (intros ->; pose proof (ch_len _ _ _ _ _ _ CH) as H; destruct os; [now apply E0|discriminate H]). split; auto.
    subst o. cbn [sites m_ts] in *.
    assert (OD : forall l, In l os -> In l (osA ++ osB)).
    { intros l Hl. unfold os in Hl. rewrite PA, PB. apply in_app_iff in Hl. apply in_app_iff. destruct Hl; [left|right]; simpl; auto. }
    apply (bunch_put h h1 [pt s ps; pt t ps] [(ts, os)] R q q' chi); auto; cbn [tids flat_map fst snd outs app]; rewrite ?app_nil_r.
    + exact W1.
    + apply (ct_closed _ _ _ _ _ _ _ _ _ _ _ _ CT).
    + apply (alive_same h h1 (tsA ++ tsB ++ tids R)); auto.
    + intros l. specialize (Q1 l). specialize (G1 l). lia.
    + intros l Hl. apply G2. intros H. apply OD in H. pose proof (wn_nodup _ _ W) as ND. rewrite !all_legs_app, app_assoc in ND.
      refine (NoDup_app_disj _ _ l ND _ Hl). apply in_app_iff in H. apply in_app_iff.
      destruct H as [H|H]; [left; apply (part_outs _ _ _ _ (pt s ps) B1)|right; apply (part_outs _ _ _ _ (pt t ps) B1)]; simpl; auto.
    + rewrite G3, prodn_map_app. reflexivity.
    + intros p [<-|[]]. cbn [fst snd]. exists lf, rt, (tids R). split; [reflexivity|]. split; [exact CH|]. split; [|exact G4].
      intros l Hl. destruct (KL l Hl) as (-> & _). specialize (G1 l). apply OD in Hl. apply in_app_iff in Hl. etransitivity; [|exact G1]. destruct Hl; auto.
Qed.
End Run.
