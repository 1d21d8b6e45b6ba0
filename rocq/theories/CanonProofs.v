(** One step of FreeBoundaryMPS.canonicalize: two linked tensors become u and s v. *)
From Coq Require Import List Arith Bool Lia String ZArith Permutation.
From Verif Require Import Base Sums NdModel NdProofs HeapModel FuncsModel FuncsProofs TensorModel TensorSpec
  ContractModel NetSpec ShareProofs LinkProofs SumpairsProofs ContractProofs OuterProofs NetProofs MergeLinkProofs GroupSpec GroupProofs NetSameProofs
  FtnNetSpec FtnMainProofs SvdModel SvdSpec SchmidtSpec MergeSvdProofs SchmidtProofs TripleSpec TripleProofs TripleSvdProofs
  MpsModel MpsSpec MpsPairProofs MpsProofs MpsSwapProofs.
Import ListNotations.
Local Open Scope list_scope.
Local Open Scope nat_scope.

Section Mp.
Context {A : Type} {HA : SR A}.
Notation heap := (heap A).
Variable lib : linalg A.

(** the tensors [ta] and [tb] replaced by [u] and [w] *)
Record canon_pair (h h' : heap) (ta tb : tid) (rest : list tid) (La Lb : list lid) (u w : tid) (x y : lid) (k : nat) (na nb : pname) : Prop := {
  cp_link : linked h' x y /\ linked h' y x;
  cp_dims : dim_of h' x = k /\ dim_of h' y = k;
  cp_names : l_name (legs h' x) = na /\ l_name (legs h' y) = nb;
  cp_u : legs_of h' u = La ++ [x];
  cp_w : legs_of h' w = Lb ++ [y];
  cp_new : nleg h <= x /\ nleg h <= y;
  cp_flags : t_diag (tens h' u) = false /\ t_like (tens h' u) = false /\ t_diag (tens h' w) = false /\ t_like (tens h' w) = false;
  cp_legs : forall l, In l (La ++ Lb) ->
    dim_of h' l = dim_of h l /\ l_name (legs h' l) = l_name (legs h l) /\ l_bond (legs h' l) = l_bond (legs h l);
  cp_rest : forall t, In t rest -> tens h' t = tens h t;
  cp_restlegs : forall l, In l (all_legs h rest) -> legs h' l = legs h l;
  cp_links : forall l l', In l (La ++ Lb ++ all_legs h rest) -> linked h' l l' <-> linked h l l';
  cp_wf : wf_open h' (u :: w :: rest);
  cp_free : Permutation (free_legs h' (u :: w :: rest)) (free_legs h (ta :: tb :: rest)) }.

Lemma called_nil (h : heap) l : called h [] l = false.
Proof. unfold called. now destruct (l_name (legs h l)). Qed.
Lemma filter_none (h : heap) L : filter (called h []) L = [] /\ filter (fun l => negb (called h [] l)) L = L.
Proof. induction L as [|l L [I1 I2]]; [auto|]. cbn [filter]. rewrite called_nil. cbn [negb]. rewrite I1, I2. auto. Qed.
Lemma side_nil (h : heap) ta tb : sideA h ta tb [] [] = restA h ta tb /\ sideB h ta tb [] [] = restB h ta tb.
Proof.
  unfold sideA, sideB. destruct (filter_none h (restA h ta tb)) as [-> ->], (filter_none h (restB h ta tb)) as [-> ->].
  now rewrite app_nil_r.
Qed.

Lemma others_last (L : list nat) x : ~ In x L -> others (L ++ [x]) [x] = L.
Proof.
  intros N. unfold others. rewrite filter_app. cbn [filter inb]. assert (inb x [x] = true) as -> by (apply inb_true; simpl; auto). cbn [negb]. rewrite app_nil_r.
  induction L as [|a L IH]; [auto|]. cbn [filter]. assert (inb a [x] = false) as ->.
  { apply inb_false. intros [->|[]]. apply N. simpl; auto. }
  cbn [negb]. rewrite IH; auto. intros H. apply N. simpl; auto.
Qed.
Lemma others_first (L : list nat) x : ~ In x L -> others (x :: L) [x] = L.
Proof.
  intros N. unfold others. cbn [filter]. assert (inb x [x] = true) as -> by (apply inb_true; simpl; auto). cbn [negb].
  induction L as [|a L IH]; [auto|]. cbn [filter]. assert (inb a [x] = false) as ->.
  { apply inb_false. intros [->|[]]. apply N. simpl; auto. }
  cbn [negb]. rewrite IH; auto. intros H. apply N. simpl; auto.
Qed.

Section Pair.
Variables (h h1 : heap) (ta tb : tid) (rest : list tid) (La Lb : list lid) (u s v : tid) (x0 x1 x2 x3 : lid) (k : nat) (na nb : pname).
Hypothesis WO : wf_open h (ta :: tb :: rest).
Hypothesis TR : split_triple h h1 ta tb rest La Lb u s v x0 x1 x2 x3 k na nb.

Lemma cp_perm : Permutation (u :: s :: v :: rest) (s :: v :: u :: rest).
Proof. rewrite (perm_swap s u (v :: rest)). apply perm_skip. apply perm_swap. Qed.
Lemma cp_open : wf_open h1 (s :: v :: u :: rest).
Proof. eapply wf_open_perm; [apply cp_perm|]. apply TR. Qed.
Lemma cp_rests : restA h1 s v = [x1] /\ restB h1 s v = Lb.
Proof.
  pose proof (wp_nodup _ _ _ (open_pair _ _ _ _ cp_open)) as ND. 
  rewrite (s3_s _ _ _ _ _ _ _ _ _ _ _ _ _ _ _ _ _ TR), (s3_v _ _ _ _ _ _ _ _ _ _ _ _ _ _ _ _ _ TR) in ND.
  unfold restA, restB. rewrite (s3_s _ _ _ _ _ _ _ _ _ _ _ _ _ _ _ _ _ TR), (s3_v _ _ _ _ _ _ _ _ _ _ _ _ _ _ _ _ _ TR), (s3_sv _ _ _ _ _ _ _ _ _ _ _ _ _ _ _ _ _ TR).
  cbn [map fst snd]. cbn [app] in ND. apply NoDup_cons_iff in ND. destruct ND as [N1 ND]. apply NoDup_cons_iff in ND. destruct ND as [N2 ND]. apply NoDup_cons_iff in ND. destruct ND as [N3 ND].
  split; [|now apply others_first]. apply (others_last [x1] x2). intros [->|[]]. apply N1. simpl; auto.
Qed.

(** contracting the diagonal tensor into the second one *)
Lemma canon_contract : exists h2 w, contractTwoTensors s v h1 = (h2, Ok w) /\ canon_pair h h2 ta tb rest La Lb u w x0 x1 k na nb /\
  (forall a, entry h2 u a = entry h1 u a) /\
  (forall a, in_bounds h1 (free_legs h1 (u :: s :: v :: rest)) a -> netval h2 (u :: w :: rest) a = netval h1 (u :: s :: v :: rest) a).
Proof.
  destruct cp_rests as [RA RB]. pose proof cp_open as WO1.
  destruct (s3_like _ _ _ _ _ _ _ _ _ _ _ _ _ _ _ _ _ TR) as (KU & KS & KV). destruct (s3_diag _ _ _ _ _ _ _ _ _ _ _ _ _ _ _ _ _ TR) as (DU & DS & DV).
  pose proof (s3_us _ _ _ _ _ _ _ _ _ _ _ _ _ _ _ _ _ TR) as SU. pose proof (s3_sv _ _ _ _ _ _ _ _ _ _ _ _ _ _ _ _ _ TR) as SV.
  pose proof (s3_u _ _ _ _ _ _ _ _ _ _ _ _ _ _ _ _ _ TR) as LU. pose proof (s3_s _ _ _ _ _ _ _ _ _ _ _ _ _ _ _ _ _ TR) as LS.
  pose proof (s3_v _ _ _ _ _ _ _ _ _ _ _ _ _ _ _ _ _ TR) as LV. pose proof (s3_wf _ _ _ _ _ _ _ _ _ _ _ _ _ _ _ _ _ TR) as WT.
  destruct (contract_diag_first h1 s v (open_pair _ _ _ _ WO1) KS KV DS DV) as (h2 & w & E & CT & DW & KW & EV); [rewrite SV; discriminate|].
  rewrite RA, RB in CT, EV.
  assert (PL : Permutation (Lb ++ [x1]) (restA h1 s v ++ restB h1 s v)) by (rewrite RA, RB; apply Permutation_app_comm).
  assert (WN := wo_net _ _ WO1).
  pose proof (step_wf h1 h2 s v w _ (u :: rest) WN CT PL) as W2.
  pose proof (step_free h1 h2 s v w _ (u :: rest) WN CT PL) as F2.
  pose proof (step_incl h1 h2 s v w _ (u :: rest) WN CT PL) as I2.
  assert (ALT : forall l, In l (all_legs h1 (u :: s :: v :: rest)) -> l < nleg h1).
  { intros l Hl. apply (net_alloc h1 s v (u :: rest) WN). unfold all_legs in *. rewrite in_flat_map in *. destruct Hl as (t & Ht & Hl). exists t. split; auto.
    eapply Permutation_in; [apply cp_perm|auto]. }
  assert (XLT : forall x, In x [x0; x1; x2; x3] -> x < nleg h1).
  { intros x Hx. apply ALT. unfold all_legs. cbn [flat_map]. rewrite LU, LS, LV, !in_app_iff. cbn [In app] in *. tauto. }
  assert (LLT : forall l, In l (La ++ Lb ++ all_legs h rest) -> l < nleg h1).
  { intros l Hl. apply ALT. unfold all_legs. cbn [flat_map]. rewrite LU, LS, LV. rewrite !in_app_iff in *. cbn [In]. destruct Hl as [Hl|[Hl|Hl]]; auto.
    right; right; right. unfold all_legs in Hl. apply in_flat_map in Hl. destruct Hl as (t & Ht & Hl). apply in_flat_map. exists t. split; auto.
    unfold legs_of in *. now rewrite (s3_rest _ _ _ _ _ _ _ _ _ _ _ _ _ _ _ _ _ TR). }
  assert (UR : forall t, In t (u :: rest) -> tens h2 t = tens h1 t) by (intros t Ht; apply (step_rest h1 h2 s v w _ (u :: rest) WN CT t Ht)).
  assert (UE : tens h2 u = tens h1 u) by (apply UR; simpl; auto).
  assert (WO2 : wf_open h2 (w :: u :: rest)).
  { constructor; auto.
    - intros l b Hl Hb. rewrite (ct_nbond _ _ _ _ _ _ CT). apply I2 in Hl. destruct (step_leg h1 h2 s v w _ CT l) as (EB & _).
      { now apply (net_alloc h1 s v (u :: rest) WN). }
      rewrite EB in Hb. now apply (wo_bonds _ _ WO1 l).
    - intros l l' Hl LK. rewrite (ct_nleg _ _ _ _ _ _ CT). apply I2 in Hl. apply (wo_alloc _ _ WO1 l l' Hl).
      apply (step_linked h1 h2 s v w _ CT l l'); auto. now apply (net_alloc h1 s v (u :: rest) WN). }
  exists h2, w. split; auto. split; [|split].
  - assert (LK : linked h1 x0 x1 /\ linked h1 x1 x0).
    { assert (In (x0, x1) (shared h1 u s)) as IN by (rewrite SU; simpl; auto). unfold shared in IN. apply pairs_In in IN. destruct IN as (H1 & H2 & H3). split; auto.
      apply (link_back h1 (all_legs h1 (u :: s :: v :: rest))); auto; [apply WT| |]; unfold all_legs; cbn [flat_map]; rewrite !in_app_iff; auto. }
    constructor.
    + split; apply (step_linked h1 h2 s v w _ CT); try (apply XLT; simpl; tauto); apply LK.
    + split; [destruct (step_leg h1 h2 s v w _ CT x0) as (_ & -> & _)|destruct (step_leg h1 h2 s v w _ CT x1) as (_ & -> & _)]; try (apply XLT; simpl; tauto);
        apply (s3_dims _ _ _ _ _ _ _ _ _ _ _ _ _ _ _ _ _ TR); simpl; tauto.
    + destruct (s3_names _ _ _ _ _ _ _ _ _ _ _ _ _ _ _ _ _ TR) as (N0 & N1 & _).
      split; [destruct (step_leg h1 h2 s v w _ CT x0) as (_ & _ & ->)|destruct (step_leg h1 h2 s v w _ CT x1) as (_ & _ & ->)]; auto; try (apply XLT; simpl; tauto).
    + unfold legs_of in *. now rewrite UE.
    + apply CT.
    + split; apply (s3_new _ _ _ _ _ _ _ _ _ _ _ _ _ _ _ _ _ TR); simpl; tauto.
    + rewrite UE. auto.
    + intros l Hl. assert (l < nleg h1) as HL by (apply LLT; rewrite !in_app_iff in *; tauto).
      destruct (step_leg h1 h2 s v w _ CT l HL) as (-> & -> & ->). now apply (s3_legs _ _ _ _ _ _ _ _ _ _ _ _ _ _ _ _ _ TR).
    + intros t Ht. rewrite UR by (simpl; auto). now apply (s3_rest _ _ _ _ _ _ _ _ _ _ _ _ _ _ _ _ _ TR).
    + intros l Hl. rewrite (ct_out _ _ _ _ _ _ CT).
      * now apply (s3_restlegs _ _ _ _ _ _ _ _ _ _ _ _ _ _ _ _ _ TR).
      * apply LLT. rewrite !in_app_iff. auto.
      * intros HI. pose proof (wn_nodup _ _ (wo_net _ _ WT)) as ND. unfold all_legs in ND. cbn [flat_map] in ND. rewrite LS, LV in ND. rewrite !app_assoc in ND.
        assert (In l (flat_map (legs_of h1) rest)) as HR.
        { unfold all_legs in Hl. apply in_flat_map in Hl. destruct Hl as (t & Ht & Hl). apply in_flat_map. exists t. split; auto.
          unfold legs_of in *. now rewrite (s3_rest _ _ _ _ _ _ _ _ _ _ _ _ _ _ _ _ _ TR). }
        refine (NoDup_app_disj _ _ l ND _ HR). rewrite !in_app_iff in *. simpl in *. tauto.
    + intros l l' Hl. rewrite (step_linked h1 h2 s v w _ CT l l') by auto. now apply (s3_links _ _ _ _ _ _ _ _ _ _ _ _ _ _ _ _ _ TR).
    + eapply wf_open_perm; [apply perm_swap|exact WO2].
    + rewrite (free_perm h2 (u :: w :: rest) (w :: u :: rest) (perm_swap _ _ _)) by (apply (wf_net_perm h2 (w :: u :: rest)); [apply perm_swap|auto]).
      rewrite F2. rewrite <- (free_perm h1 _ _ cp_perm (wo_net _ _ WT)). apply TR.
  - intros a. unfold entry. now rewrite UE.
  - intros a Ha. rewrite (netval_perm h2 (u :: w :: rest) (w :: u :: rest) a (perm_swap _ _ _)) by (apply (wf_net_perm h2 (w :: u :: rest)); [apply perm_swap|auto]).
    rewrite (step_value h1 h2 s v w _ (u :: rest) WN CT PL); [now rewrite <- (netval_perm h1 _ _ a cp_perm (wo_net _ _ WT))| |].
    + rewrite RA, RB. exact EV.
    + intros l Hl. apply Ha. eapply Permutation_in; [symmetry; apply (free_perm h1 _ _ cp_perm (wo_net _ _ WT))|auto].
Qed.
End Pair.
End Mp.
