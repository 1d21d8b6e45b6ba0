(** commonLegs, commonBonds and getBondTensorIndices on two chains of a closed network. *)
From Coq Require Import List Arith Bool Lia String ZArith Permutation.
From Verif Require Import Base Sums NdModel NdProofs HeapModel FuncsModel FuncsProofs TensorModel TensorSpec MatrixProofs
  ContractModel NetSpec ShareProofs LinkProofs SumpairsProofs ContractProofs OuterProofs NetProofs MergeLinkProofs GroupSpec GroupProofs SvdModel MpsModel MpsSpec MpsProofs MpsSwapProofs MpsMoveProofs
  MpsContractSpec MpsContractModel MpsOpenProofs.
Import ListNotations.
Local Open Scope list_scope.
Local Open Scope nat_scope.

Section Mp.
Context {A : Type} {HA : SR A}.
Notation heap := (heap A).

Lemma skipn_nth {X} (l : list X) i d : i < List.length l -> skipn i l = nth i l d :: skipn (S i) l.
Proof. revert i. induction l as [|a l IH]; intros i Hi; [cbn in Hi; lia|]. destruct i; [reflexivity|]. rewrite skipn_cons. rewrite (IH i) by (cbn in Hi; lia). reflexivity. Qed.

(** the leg "o" of a site *)
Lemma out_leg (h : heap) ts os env lf rt i : chain h ts os env lf rt -> i < List.length ts -> outLeg h (nth i ts 0) = Ok (nth i os 0).
Proof.
  intros CH Hi. unfold outLeg. assert (getLeg h (nth i ts 0) (NStr "o") false = Some (nth i os 0)) as ->; [|reflexivity].
  apply getLeg_first_named. destruct (in_split _ _ (ch_in_o _ _ _ _ _ _ CH i Hi)) as (u & v & E). exists u, v. split; auto. split; [now apply (ch_o _ _ _ _ _ _ CH)|].
  intros l' Hl' N. assert (ND : NoDup (legs_of h (nth i ts 0))) by exact (wt_nodup _ _ (wn_wf _ _ (wo_net _ _ (ch_wf _ _ _ _ _ _ CH)) (nth i ts 0) (in_or_app _ _ _ (or_introl (nth_In ts 0 Hi))))).
  assert (IL : In l' (legs_of h (nth i ts 0))) by (rewrite E; apply in_app_iff; auto).
  apply (Permutation_in _ (ch_legs _ _ _ _ _ _ CH i Hi)) in IL. rewrite !in_app_iff in IL. destruct IL as [IL|[IL|[IL|[]]]].
  - destruct i as [|i]; [destruct IL|]. change (Nat.ltb 0 (S i)) with true in IL. destruct IL as [<-|[]]. rewrite (ch_l _ _ _ _ _ _ CH i Hi) in N. discriminate.
  - destruct (Nat.ltb_spec (S i) (List.length ts)) as [LT|]; [|destruct IL]. destruct IL as [<-|[]]. rewrite (ch_r _ _ _ _ _ _ CH i LT) in N. discriminate.
  - subst l'. rewrite E in ND. apply NoDup_remove_2 in ND. apply ND, in_app_iff; auto.
Qed.

Section Two.
Variables (h : heap) (tsA tsB e : list tid) (osA osB : list lid) (lfA rtA lfB rtB : nat -> lid).
Hypothesis CA : chain h tsA osA (tsB ++ e) lfA rtA.
Hypothesis CB : chain h tsB osB (tsA ++ e) lfB rtB.
Hypothesis CL : closed h (tsA ++ tsB ++ e).

Lemma two_net : wf_net h (tsA ++ tsB ++ e). Proof. apply (ch_wf _ _ _ _ _ _ CA). Qed.
Lemma two_disj l : In l (all_legs h tsA) -> In l (all_legs h tsB) -> False.
Proof.
  intros H1 H2. pose proof (wn_nodup _ _ two_net) as ND. unfold all_legs in ND. rewrite flat_map_app in ND. refine (NoDup_app_disj _ _ l ND H1 _).
  rewrite flat_map_app. apply in_app_iff; auto.
Qed.
Lemma two_disjt t : In t tsA -> In t tsB -> False.
Proof. intros H1 H2. refine (NoDup_app_disj _ _ t (wn_ids _ _ two_net) H1 _). apply in_app_iff; auto. Qed.
Lemma os_all l : In l osA -> In l (all_legs h tsA).
Proof. intros H. apply (ch_os _ _ _ _ _ _ CA) in H. destruct H as (i & Hi & ->). apply (ch_all _ _ i _ Hi), (ch_in_o _ _ _ _ _ _ CA _ Hi). Qed.

(** the tensor at the other end of a bond of the first chain is in the second chain exactly if that end is one of its outgoing legs *)
Lemma other_end l l' : In l osA -> linked h l l' -> exists t', l_tensor (legs h l') = Some t' /\ In l' (legs_of h t') /\ (In t' tsB <-> In l' osB).
Proof.
  intros Hl LK. assert (Hl' : In l (all_legs h (tsA ++ tsB ++ e))) by (unfold all_legs; rewrite flat_map_app; apply in_app_iff; left; now apply os_all).
  destruct (closed_in h _ l l' two_net CL Hl' LK) as [HN BK]. unfold all_legs in HN. apply in_flat_map in HN. destruct HN as (t' & Ht & HL).
  exists t'. split; [exact (wn_owned _ _ two_net t' Ht l' HL)|]. split; auto. split.
  - intros Hb. assert (HB : In l' (all_legs h tsB)) by (unfold all_legs; apply in_flat_map; eauto).
    destruct (chain_leg _ _ _ _ _ _ _ CB HB) as [H|[(k & Hk & ->)|(k & Hk & ->)]]; auto; exfalso.
    + rewrite (linked_fun h _ _ _ BK (ch_link _ _ _ _ _ _ CB k Hk)) in *. apply (two_disj (lfB (S k))); [now apply os_all|].
      apply (ch_all _ _ (S k) _ Hk), (ch_in_l _ _ _ _ _ _ CB _ Hk).
    + rewrite (linked_fun h _ _ _ BK (ch_link' _ _ _ _ _ _ CB k Hk)) in *. apply (two_disj (rtB k)); [now apply os_all|]. assert (Hk' : k < List.length tsB) by lia.
      apply (ch_all _ _ k _ Hk'), (ch_in_r _ _ _ _ _ _ CB _ Hk).
  - intros Hb. apply (ch_os _ _ _ _ _ _ CB) in Hb. destruct Hb as (j & Hj & E). rewrite E in HL.
    assert (t' = nth j tsB 0) as ->; [|now apply nth_In].
    refine (one_owner h _ t' (nth j tsB 0) (nth j osB 0) (wn_nodup _ _ two_net) Ht _ HL (ch_in_o _ _ _ _ _ _ CB _ Hj)).
    rewrite !in_app_iff. right; left. now apply nth_In.
Qed.
Lemma end_index l l' t' : In l osA -> linked h l l' -> l_tensor (legs h l') = Some t' -> In t' tsB ->
  exists j, index_of (Some t') (map Some tsB) = Some j /\ j < List.length tsB /\ nth j osB 0 = l'.
Proof.
  intros Hl LK OW Hb. destruct (other_end l l' Hl LK) as (t2 & OW2 & HL & I). rewrite OW in OW2. injection OW2 as <-.
  assert (Ho : In l' osB) by now apply I. apply (ch_os _ _ _ _ _ _ CB) in Ho. destruct Ho as (j & Hj & ->).
  assert (t' = nth j tsB 0) as ->.
  { refine (one_owner h _ t' (nth j tsB 0) (nth j osB 0) (wn_nodup _ _ two_net) _ _ HL (ch_in_o _ _ _ _ _ _ CB _ Hj));
    rewrite !in_app_iff; right; left; auto. now apply nth_In. }
  exists j. split; [|auto].
  destruct (index_of_In (map Some tsB) (Some (nth j tsB 0))) as (k & E); [apply in_map, nth_In, Hj|]. rewrite E. f_equal.
  pose proof (index_of_lt _ _ _ E) as Hk. rewrite map_length in Hk. apply (index_of_Some (Some (nth j tsB 0)) (map Some tsB) k) in E. 
  destruct E as [E _]. rewrite (nth_error_nth' _ (Some 0)) in E by (rewrite map_length; auto). rewrite (map_nth Some tsB 0 k) in E. injection E as E.
  apply (NoDup_nth tsB 0) in E; auto. exact (ch_ids _ _ _ _ _ _ CB).
Qed.

(** the end of a bond as seen from the first chain *)
Lemma leg_case l : In l osA -> (legbond h l = None /\ partner h l = None) \/ (exists b l', legbond h l = Some b /\ partner h l = Some l' /\ linked h l l' /\ otherTensor h l = Ok (l_tensor (legs h l'))).
Proof.
  intros Hl. unfold legbond. destruct (l_bond (legs h l)) as [b|] eqn:E.
  - right. destruct (wn_links _ _ two_net l b) as (l' & EN & _); auto.
    { unfold all_legs. rewrite flat_map_app. apply in_app_iff; left. now apply os_all. }
    assert (LK : linked h l l') by (exists b; auto). exists b, l'. split; auto. assert (P := proj2 (partner_Some h l l') LK). split; auto. split; auto.
    unfold otherTensor. now rewrite (AS h l l' P).
  - left. split; auto. unfold partner. now rewrite E.
Qed.

Definition at_ends (p : nat * nat) (q : lid * lid) : Prop :=
  fst p < List.length tsA /\ snd p < List.length tsB /\ nth (fst p) osA 0 = fst q /\ nth (snd p) osB 0 = snd q.

Lemma inb_some (t : tid) ts : inb (Some t) (map Some ts) = true <-> In t ts.
Proof. rewrite inb_true, in_map_iff. split; [intros (x & E & H); now injection E as ->|eauto]. Qed.

Lemma pairs_one l L : pairs_between h (l :: L) osB = (match partner h l with Some l' => if inb l' osB then [(l, l')] else [] | None => [] end) ++ pairs_between h L osB.
Proof. reflexivity. Qed.

Lemma common_legs_from chi act k : forall i, i + k = List.length tsA -> exists r, commonLegsFrom h i (skipn i tsA) (OMps (mkMps tsB chi act)) = Ok r /\
  Forall2 at_ends r (pairs_between h (skipn i osA) osB).
Proof.
  pose proof (ch_len _ _ _ _ _ _ CA) as LA.
  induction k as [|k IH]; intros i Hi.
  { rewrite (skipn_all2 tsA), (skipn_all2 osA) by lia. exists []. split; [reflexivity|constructor]. }
  assert (Hn : i < List.length tsA) by lia. rewrite (skipn_nth tsA i 0 Hn), (skipn_nth osA i 0) by lia. rewrite pairs_one. cbn [commonLegsFrom].
  rewrite (out_leg _ _ _ _ _ _ _ CA Hn). cbn [rbind]. destruct (IH (S i)) as (r & E & F); [lia|].
  assert (Hl : In (nth i osA 0) osA) by (apply nth_In; lia).
  destruct (leg_case _ Hl) as [[-> ->]|(b & l' & -> & -> & LK & ->)]; [cbn [app]; eauto|].
  destruct (other_end _ l' Hl LK) as (t' & OW & HL & I). rewrite OW. cbn [rbind hasTensor m_ts].
  destruct (inb (Some t') (map Some tsB)) eqn:EB.
  - apply inb_some in EB. destruct (end_index _ l' t' Hl LK OW EB) as (j & EJ & Hj & NJ). cbn [tensorIndex m_ts]. rewrite EJ. cbn [rbind]. rewrite E. cbn [rbind].
    assert (inb l' osB = true) as -> by (apply inb_true, I, EB). eexists. split; [reflexivity|]. cbn [app]. constructor; auto. split; auto.
  - assert (inb l' osB = false) as ->; [|cbn [app]; eauto]. apply inb_false. intros H. apply I in H. apply inb_some in H. congruence.
Qed.
Lemma common_legs chia acta chi act : exists r, commonLegs h (mkMps tsA chia acta) (OMps (mkMps tsB chi act)) = Ok r /\ Forall2 at_ends r (pairs_between h osA osB).
Proof. unfold commonLegs. cbn [m_ts]. destruct (common_legs_from chi act (List.length tsA) 0) as (r & E & F); [lia|]. rewrite !skipn_O in *. eauto. Qed.

Lemma common_bonds_from chi act k : forall i, i + k = List.length tsA -> exists r, commonBonds h (skipn i tsA) (OMps (mkMps tsB chi act)) = Ok r /\
  map Some r = map (fun q => l_bond (legs h (fst q))) (pairs_between h (skipn i osA) osB).
Proof.
  pose proof (ch_len _ _ _ _ _ _ CA) as LA.
  induction k as [|k IH]; intros i Hi.
  { rewrite (skipn_all2 tsA), (skipn_all2 osA) by lia. exists []. split; reflexivity. }
  assert (Hn : i < List.length tsA) by lia. rewrite (skipn_nth tsA i 0 Hn), (skipn_nth osA i 0) by lia. rewrite pairs_one. cbn [commonBonds].
  rewrite (out_leg _ _ _ _ _ _ _ CA Hn). cbn [rbind]. destruct (IH (S i)) as (r & E & F); [lia|].
  assert (Hl : In (nth i osA 0) osA) by (apply nth_In; lia).
  destruct (leg_case _ Hl) as [[-> ->]|(b & l' & EBD & -> & LK & ->)]; [cbn [app]; eauto|]. rewrite EBD.
  destruct (other_end _ l' Hl LK) as (t' & OW & HL & I). rewrite OW. cbn [rbind hasTensor m_ts]. rewrite E. cbn [rbind].
  destruct (inb (Some t') (map Some tsB)) eqn:EB.
  - apply inb_some in EB. assert (inb l' osB = true) as -> by (apply inb_true, I, EB). eexists. split; [reflexivity|]. cbn [app map fst]. unfold legbond in EBD. congruence.
  - assert (inb l' osB = false) as ->; [|cbn [app]; eauto]. apply inb_false. intros H. apply I in H. apply inb_some in H. congruence.
Qed.
Lemma common_bonds chi act : exists r, commonBonds h tsA (OMps (mkMps tsB chi act)) = Ok r /\
  map Some r = map (fun q => l_bond (legs h (fst q))) (pairs_between h osA osB).
Proof. destruct (common_bonds_from chi act (List.length tsA) 0) as (r & E & F); [lia|]. rewrite !skipn_O in *. eauto. Qed.
End Two.
End Mp.
