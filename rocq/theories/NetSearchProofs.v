(** The graph of a network against the network itself: boundaries of vertex groups are the free legs of tensor
    groups, join costs are contraction costs, and a complete sequence for one is complete for the other. *)
From Coq Require Import List Arith Bool Lia Permutation Relations.
From Verif Require Import Base Sums FuncsModel FuncsProofs NdModel HeapModel NdProofs TensorModel TensorSpec TensorProofs
  ContractModel NetSpec ShareProofs ContractProofs NetProofs SumpairsProofs SeqProofs SearchModel SearchSpec SearchBase BfProofs GreedyProofs GraphModel
  GraphProofs NetGraphModel NetGraphSpec RetProofs NetGraphProofs.
Import ListNotations.
Local Open Scope nat_scope.

(** *** counting in an image *)
Lemma count_map (f : nat -> nat) L e : count_occ Nat.eq_dec (map f L) e = List.length (filter (fun l => Nat.eqb (f l) e) L).
Proof. induction L as [|l L IH]; simpl; auto. destruct (Nat.eq_dec (f l) e) as [->|N]; [rewrite Nat.eqb_refl; simpl; auto|]. apply Nat.eqb_neq in N. now rewrite N. Qed.
Lemma count_one (f : nat -> nat) L e : NoDup L -> count_occ Nat.eq_dec (map f L) e = 1 <->
  exists l, In l L /\ f l = e /\ forall l', In l' L -> f l' = e -> l' = l.
Proof.
  intros ND. rewrite count_map. assert (FI : forall l, In l (filter (fun l => Nat.eqb (f l) e) L) <-> In l L /\ f l = e).
  { intros l. rewrite filter_In, Nat.eqb_eq. tauto. }
  assert (FN : NoDup (filter (fun l => Nat.eqb (f l) e) L)) by (now apply NoDup_filter).
  destruct (filter (fun l => Nat.eqb (f l) e) L) as [|a [|b K]] eqn:E; simpl; split; try discriminate.
  - intros (l & Hl & He & _). exfalso. apply (FI l). auto.
  - intros _. destruct (proj1 (FI a) (or_introl eq_refl)) as (Ha & Fa). exists a. split; auto. split; auto.
    intros l' H1 H2. destruct (proj2 (FI l') (conj H1 H2)) as [|[]]; auto.
  - reflexivity.
  - intros (l & Hl & He & U). exfalso. destruct (proj1 (FI a) (or_introl eq_refl)) as (Ha & Fa).
    destruct (proj1 (FI b) (or_intror (or_introl eq_refl))) as (Hb & Fb). rewrite (U a Ha Fa), (U b Hb Fb) in FN.
    inversion FN; subst. simpl in *. tauto.
Qed.
Lemma count_two (f : nat -> nat) L e : NoDup L ->
  (forall a b c, In a L -> In b L -> In c L -> f a = e -> f b = e -> f c = e -> a = b \/ b = c \/ a = c) ->
  count_occ Nat.eq_dec (map f L) e <= 2.
Proof.
  intros ND H. rewrite count_map. assert (FI : forall l, In l (filter (fun l => Nat.eqb (f l) e) L) -> In l L /\ f l = e).
  { intros l. rewrite filter_In, Nat.eqb_eq. tauto. }
  assert (FN : NoDup (filter (fun l => Nat.eqb (f l) e) L)) by (now apply NoDup_filter).
  destruct (filter (fun l => Nat.eqb (f l) e) L) as [|a [|b [|c K]]]; simpl; try lia. exfalso.
  destruct (FI a) as (A1 & A2); [simpl; auto|]. destruct (FI b) as (B1 & B2); [simpl; auto|]. destruct (FI c) as (C1 & C2); [simpl; auto|].
  inversion FN as [|? ? N1 FN']; subst. inversion FN' as [|? ? N2 FN'']; subst. simpl in *.
  destruct (H a b c A1 B1 C1 eq_refl B2 C2) as [|[|]]; subst; tauto.
Qed.
Lemma NoDup_map_on (f : nat -> nat) L : NoDup L -> (forall a b, In a L -> In b L -> f a = f b -> a = b) -> NoDup (map f L).
Proof.
  induction L as [|l L IH]; intros ND INJ; simpl; [constructor|]. inversion ND; subst. constructor.
  - intros X. apply in_map_iff in X. destruct X as (l' & EE & Hl'). assert (l' = l) as -> by (apply INJ; simpl; auto). contradiction.
  - apply IH; auto. intros. apply INJ; simpl; auto.
Qed.

(** a property of groups kept along a sequence may be used at each step *)
Lemma complete_inv (Q : list nat -> Prop) (ok : list nat -> list nat -> Prop) (cost : list nat -> list nat -> nat) V :
  (forall G1 G2, NoDup (G1 ++ G2) -> incl (G1 ++ G2) V -> Q G1 -> Q G2 -> ok G1 G2 -> Q (G1 ++ G2)) ->
  forall gs sq n, complete ok cost gs sq n -> NoDup (flat_map snd gs) -> incl (flat_map snd gs) V -> (forall g, In g gs -> Q (snd g)) ->
  complete (fun G1 G2 => ok G1 G2 /\ Q G1 /\ Q G2) cost gs sq n.
Proof.
  intros HQ. induction 1 as [G|gs rest s t G1 G2 sq n ST P OK HC IH]; intros ND IN QS; [constructor|].
  assert (PF : Permutation (flat_map snd gs) (G1 ++ G2 ++ flat_map snd rest)).
  { rewrite (Permutation_flat_map snd P). reflexivity. }
  assert (Q1 : Q G1) by (apply (QS (s, G1)); rewrite P; simpl; auto).
  assert (Q2 : Q G2) by (apply (QS (t, G2)); rewrite P; simpl; auto).
  assert (N12 : NoDup ((G1 ++ G2) ++ flat_map snd rest)) by (rewrite <- app_assoc; eapply Permutation_NoDup; eauto).
  assert (I12 : incl ((G1 ++ G2) ++ flat_map snd rest) V).
  { intros x Hx. apply IN. rewrite PF. now rewrite app_assoc. }
  econstructor; eauto. apply IH; auto.
  intros g [<-|Hg]; simpl.
  - apply HQ; auto; [apply NoDup_app_inv in N12; tauto|]. intros x Hx. apply I12. apply in_app_iff. auto.
  - apply QS. rewrite P. simpl. auto.
Qed.

Section NetSearch.
Context {A : Type} {HA : SR A}.
Notation heap := (heap A).
Variables (h : heap) (ts : list tid).
Hypothesis W : wf_net h ts.
Hypothesis CL : closed_net h ts.
Variables (verts : list vres) (eix dimE : nat -> nat).
Hypothesis GO : graph_of h ts verts eix dimE.
Let tn (i : nat) : tid := nth i ts 0.
Notation bnd := (bnd verts).
Notation common := (common verts).
Notation vs := (vertices verts).

Lemma tn_nth i : In i vs -> nth_error ts i = Some (tn i).
Proof. intros H. apply in_seq in H. rewrite (go_len _ _ _ _ _ GO) in H. unfold tn. apply nth_error_nth'. lia. Qed.
Lemma tn_In i : In i vs -> In (tn i) ts.
Proof. intros H. eapply nth_error_In, tn_nth; auto. Qed.
Lemma tn_inj i j : In i vs -> In j vs -> tn i = tn j -> i = j.
Proof.
  intros Hi Hj E. apply tn_nth in Hi. apply tn_nth in Hj. eapply (NoDup_nth_error ts); [apply W|apply nth_error_Some; congruence|congruence].
Qed.
Lemma map_tn : map tn vs = ts.
Proof.
  unfold vs. unfold vertices. rewrite (go_len _ _ _ _ _ GO). apply nth_ext with (d := 0) (d' := 0); [now rewrite map_length, seq_length|].
  intros k Hk. rewrite map_length, seq_length in Hk. rewrite (nth_indep _ 0 (tn 0)) by (now rewrite map_length, seq_length).
  rewrite map_nth, seq_nth; auto.
Qed.
Lemma grp_tn G : grp verts G -> NoDup (map tn G) /\ incl (map tn G) ts.
Proof.
  intros (ND & IN). split.
  - apply NoDup_map_on; auto. intros a b Ha Hb. apply tn_inj; auto.
  - intros t Ht. apply in_map_iff in Ht. destruct Ht as (i & <- & Hi). apply tn_In. auto.
Qed.
Lemma sub_wf G : grp verts G -> wf_net h (map tn G).
Proof.
  intros HG. destruct (grp_tn G HG) as (ND & IN). destruct (split_off (map tn G) ts ND (wn_ids _ _ W) IN) as (R & P).
  apply (wf_net_sub h (map tn G) R ts); auto. now symmetry.
Qed.
Lemma sub_legs G l : incl (map tn G) ts -> In l (all_legs h (map tn G)) -> In l (all_legs h ts).
Proof. intros IN Hl. apply all_legs_In in Hl. destruct Hl as (t & Ht & Hl). apply all_legs_In. eauto. Qed.

Lemma edges_legs G : incl G vs -> Permutation (flat_map (vedges verts) G) (map eix (all_legs h (map tn G))).
Proof.
  induction G as [|i G IH]; intros IN; [constructor|]. cbn [flat_map map]. unfold all_legs. cbn [map flat_map]. rewrite map_app.
  apply Permutation_app.
  - apply (go_edges _ _ _ _ _ GO). apply tn_nth, IN. simpl; auto.
  - apply IH. intros x Hx. apply IN. simpl; auto.
Qed.
(** two legs on one edge, in a group *)
Lemma same_edge G l l' : grp verts G -> In l (all_legs h (map tn G)) -> In l' (all_legs h (map tn G)) -> eix l = eix l' ->
  l = l' \/ inner_link h (map tn G) l l'.
Proof.
  intros HG Hl Hl' EE. destruct (grp_tn G HG) as (ND & IN).
  pose proof (sub_legs G l IN Hl) as Al. pose proof (sub_legs G l' IN Hl') as Al'.
  apply (go_eix _ _ _ _ _ GO l l' Al Al') in EE. destruct EE as [|LK]; auto. right.
  apply all_legs_In in Hl. apply all_legs_In in Hl'. destruct Hl as (t & Ht & Hl), Hl' as (t' & Ht' & Hl').
  exists t, t'. repeat (split; auto). intros <-. destruct (CL t l l' (IN _ Ht) Hl LK) as (t2 & H2 & N2 & L2). apply N2.
  destruct W as [_ _ W3 W4 _]. eapply one_owner; eauto.
Qed.
Lemma inner_edge G l l' : incl (map tn G) ts -> inner_link h (map tn G) l l' -> eix l = eix l' /\ l <> l' /\ In l' (all_legs h (map tn G)).
Proof.
  intros IN (t & t' & Ht & Ht' & N & Hl & Hl' & LK).
  assert (Al : In l (all_legs h ts)) by (apply all_legs_In; eauto). assert (Al' : In l' (all_legs h ts)) by (apply all_legs_In; eauto).
  split; [apply (go_eix _ _ _ _ _ GO l l' Al Al'); auto|]. split.
  - intros <-. apply N. destruct W as [_ _ W3 W4 _]. eapply one_owner; eauto.
  - apply all_legs_In. eauto.
Qed.

Lemma bnd_free G e : grp verts G -> In e (bnd G) <-> exists l, In l (free_legs h (map tn G)) /\ eix l = e.
Proof.
  intros HG. pose proof (sub_wf G HG) as WG. destruct (grp_tn G HG) as (ND & IN).
  rewrite bnd_In. unfold cnt.
  pose proof (proj1 (Permutation_count_occ Nat.eq_dec _ _) (edges_legs G (proj2 HG)) e) as PC. rewrite PC.
  rewrite count_one by apply WG. split.
  - intros (l & Hl & He & U). exists l. split; auto. apply free_In; try apply WG. split; auto. intros l' I.
    destruct (inner_edge G l l' IN I) as (E1 & E2 & E3). apply E2. symmetry. apply U; auto. congruence.
  - intros (l & Hl & He). apply free_In in Hl; try apply WG. destruct Hl as (Hl & NI). exists l. split; auto. split; auto.
    intros l' Hl' He'. destruct (same_edge G l l' HG Hl Hl' ltac:(congruence)) as [|I]; auto. exfalso. eapply NI; eauto.
Qed.
Lemma eix_free_inj G l l' : grp verts G -> In l (free_legs h (map tn G)) -> In l' (free_legs h (map tn G)) -> eix l = eix l' -> l = l'.
Proof.
  intros HG Hl Hl' EE. pose proof (sub_wf G HG) as WG. apply free_In in Hl; try apply WG. apply free_In in Hl'; try apply WG.
  destruct Hl as (Hl & NI), Hl' as (Hl' & _). destruct (same_edge G l l' HG Hl Hl' EE) as [|I]; auto. exfalso. eapply NI; eauto.
Qed.
Lemma bnd_perm_free G : grp verts G -> Permutation (bnd G) (map eix (free_legs h (map tn G))).
Proof.
  intros HG. pose proof (sub_wf G HG) as WG. apply NoDup_Permutation.
  - apply bnd_NoDup.
  - apply NoDup_map_on; [apply free_NoDup, WG|]. intros a b Ha Hb. apply (eix_free_inj G); auto.
  - intros e. rewrite (bnd_free G e HG), in_map_iff. split; intros (l & H1 & H2); eauto.
Qed.
Lemma free_legs_all G l : grp verts G -> In l (free_legs h (map tn G)) -> In l (all_legs h ts).
Proof. intros HG Hl. destruct (grp_tn G HG) as (ND & IN). eapply sub_legs; eauto. eapply free_all; eauto. Qed.

Lemma common_link G1 G2 e : grp verts (G1 ++ G2) -> In e (common G1 G2) <->
  exists l l', In l (free_legs h (map tn G1)) /\ In l' (free_legs h (map tn G2)) /\ linked h l l' /\ eix l = e.
Proof.
  intros HG. destruct (grp_app verts G1 G2 HG) as (HG1 & HG2). rewrite common_In, <- !bnd_In, (bnd_free G1 e HG1), (bnd_free G2 e HG2).
  pose proof (sub_wf _ HG) as W12. rewrite map_app in W12.
  split.
  - intros ((l & Hl & He) & (l' & Hl' & He')). exists l, l'. split; auto. split; auto. split; auto.
    assert (EE : eix l = eix l') by congruence. apply (go_eix _ _ _ _ _ GO) in EE; [|apply (free_legs_all G1); auto|apply (free_legs_all G2); auto].
    destruct EE as [->|]; auto. exfalso. apply free_all in Hl. apply free_all in Hl'.
    pose proof (wn_nodup _ _ W12) as N. rewrite all_legs_app in N. exact (NoDup_app_disj _ _ _ N Hl Hl').
  - intros (l & l' & Hl & Hl' & LK & He). split; [eauto|]. exists l'. split; auto. rewrite <- He. symmetry.
    apply (go_eix _ _ _ _ _ GO); auto; [apply (free_legs_all G1)|apply (free_legs_all G2)]; auto.
Qed.
Lemma common_perm_pairs G1 G2 : grp verts (G1 ++ G2) ->
  Permutation (common G1 G2) (map eix (map fst (pairs_between h (free_legs h (map tn G1)) (free_legs h (map tn G2))))).
Proof.
  intros HG. destruct (grp_app verts G1 G2 HG) as (HG1 & HG2). pose proof (sub_wf _ HG1) as W1. apply NoDup_Permutation.
  - apply common_NoDup.
  - apply NoDup_map_on; [apply pairs_fst_NoDup, free_NoDup, W1|]. intros a b Ha Hb. apply pairs_fst_incl in Ha. apply pairs_fst_incl in Hb. apply (eix_free_inj G1); auto.
  - intros e. rewrite (common_link G1 G2 e HG), in_map_iff. split.
    + intros (l & l' & Hl & Hl' & LK & He). exists l. split; auto. apply in_map_iff. exists (l, l'). split; auto. apply pairs_In. auto.
    + intros (l & He & Hl). apply in_map_iff in Hl. destruct Hl as ([a b] & <- & Hp). apply pairs_In in Hp. simpl in *. destruct Hp as (H1 & H2 & H3). eauto 8.
Qed.
Lemma all_dg_tn G : incl G vs -> all_dg verts G = all_diag h (map tn G).
Proof.
  induction G as [|i G IH]; intros IN; auto. unfold all_dg, all_diag in *. cbn [map forallb]. rewrite IH by (intros x Hx; apply IN; simpl; auto).
  now rewrite (go_diag _ _ _ _ _ GO i (tn i)) by (apply tn_nth, IN; simpl; auto).
Qed.
Lemma dim_eix L : incl L (all_legs h ts) -> map dimE (map eix L) = map (dim_of h) L.
Proof. intros IN. rewrite map_map. apply map_ext_in. intros l Hl. apply (go_dim _ _ _ _ _ GO). auto. Qed.

Lemma wf_verts : wf_graph verts dimE.
Proof.
  constructor.
  - intros i Hi. assert (HG : grp verts [i]).
    { split; [repeat constructor; auto|intros x [<-|[]]; auto]. }
    eapply Permutation_NoDup; [symmetry; apply (go_edges _ _ _ _ _ GO i (tn i)); now apply tn_nth|].
    assert (wf_tensor h (tn i)) by (apply W, tn_In; auto). apply NoDup_map_on; [apply wt_nodup; auto|].
    intros a b Ha Hb EE. destruct (same_edge [i] a b HG) as [|(t & t' & [<-|[]] & [<-|[]] & N & _)]; auto; try congruence.
    + unfold all_legs. simpl. rewrite app_nil_r. auto.
    + unfold all_legs. simpl. rewrite app_nil_r. auto.
  - intros i Hi. apply (go_shape _ _ _ _ _ GO i (tn i)). now apply tn_nth.
  - intros e. pose proof (proj1 (Permutation_count_occ Nat.eq_dec _ _) (edges_legs vs (fun x H => H)) e) as ->. rewrite map_tn.
    apply count_two; [apply W|]. intros a b c Ha Hb Hc Ea Eb Ec.
    assert (E1 : eix a = eix b) by congruence. assert (E2 : eix a = eix c) by congruence.
    apply (go_eix _ _ _ _ _ GO) in E1; auto. apply (go_eix _ _ _ _ _ GO) in E2; auto.
    destruct E1 as [->|L1]; auto. destruct E2 as [->|L2]; auto. right. left. eapply linked_fun; eauto.
  - intros i e e' Hi Dg He He'. rewrite (go_diag _ _ _ _ _ GO i (tn i)) in Dg by (now apply tn_nth).
    pose proof (go_edges _ _ _ _ _ GO i (tn i) (tn_nth i Hi)) as P. rewrite P in He, He'. apply in_map_iff in He. apply in_map_iff in He'.
    destruct He as (l & <- & Hl), He' as (l' & <- & Hl'). 
    rewrite !(go_dim _ _ _ _ _ GO) by (apply all_legs_In; eauto using tn_In).
    destruct (wt_diag h (tn i) (wn_wf _ _ W _ (tn_In i Hi)) Dg) as (_ & D). now rewrite !D.
Qed.

Lemma join_is_cost G1 G2 : grp verts (G1 ++ G2) -> flat verts dimE G1 ->
  join_cost verts dimE None G1 G2 = group_cost h (map tn G1) (map tn G2).
Proof.
  intros HG FL. destruct (grp_app verts G1 G2 HG) as (HG1 & HG2). unfold join_cost, group_cost.
  rewrite <- !all_dg_tn by (apply HG1 || apply HG2). rewrite <- map_app.
  assert (PB : forall G, grp verts G -> prodn (map dimE (bnd G)) = prodn (map (dim_of h) (free_legs h (map tn G)))).
  { intros G H. rewrite (prod_perm dimE _ _ (bnd_perm_free G H)). f_equal. apply dim_eix. intros l Hl. eapply free_legs_all; eauto. }
  assert (SB : size_of dimE None (bnd (G1 ++ G2)) = prodn (map (dim_of h) (free_legs h (map tn (G1 ++ G2))))) by (unfold size_of; apply PB; auto).
  destruct (all_dg verts G1) eqn:D1, (all_dg verts G2) eqn:D2; auto.
  - pose proof (bnd_perm_free G1 HG1) as P. destruct (free_legs h (map tn G1)) as [|l L] eqn:EF.
    + simpl in P. apply Permutation_sym, Permutation_nil in P. now rewrite P.
    + destruct (bnd G1) as [|e B] eqn:EB; [apply Permutation_nil in P; discriminate|].
      rewrite <- (go_dim _ _ _ _ _ GO l) by (eapply (free_legs_all G1 l HG1); rewrite EF; simpl; auto).
      apply (FL D1); rewrite EB; [simpl; auto|]. rewrite P. simpl; auto.
  - unfold size_of. rewrite (map_app dimE), (map_app (dim_of h)), !prodn_app. f_equal; [apply PB; auto|].
    rewrite (prod_perm dimE _ _ (common_perm_pairs G1 G2 HG)). f_equal. apply dim_eix.
    intros l Hl. apply pairs_fst_incl in Hl. eapply (free_legs_all G1); eauto.
Qed.
Lemma joinable_ok G1 G2 : grp verts (G1 ++ G2) -> joinable verts G1 G2 ->
  ok_ret h (map tn G1) (map tn G2) /\ ok_val h (map tn G1) (map tn G2).
Proof.
  intros HG J. destruct (grp_app verts G1 G2 HG) as (HG1 & HG2).
  assert (X : all_diag h (map tn G1) = true -> all_diag h (map tn G2) = true ->
    exists l l', In l (free_legs h (map tn G1)) /\ In l' (free_legs h (map tn G2)) /\ linked h l l').
  { rewrite <- !all_dg_tn by (apply HG1 || apply HG2). intros D1 D2. specialize (J D1 D2).
    destruct (common G1 G2) as [|e R] eqn:EC; [congruence|]. assert (In e (common G1 G2)) as He by (rewrite EC; simpl; auto).
    apply common_link in He; auto. destruct He as (l & l' & H1 & H2 & H3 & _). eauto. }
  split; intros D1 D2; destruct (X D1 D2) as (l & l' & H1 & H2 & H3).
  - split; intros E; rewrite E in *; contradiction.
  - exists l, l'. split; [eapply free_all; eauto|]. split; [eapply free_all; eauto|auto].
Qed.

Lemma groups_singles : map (fun g => (fst g, map tn (snd g))) (groups0 verts) = singles ts.
Proof.
  unfold groups0, singles, vertices. rewrite map_map. cbn [fst snd map]. rewrite (go_len _ _ _ _ _ GO). unfold tn.
  clear. assert (G : forall (T : list tid) k pre, List.length pre = k -> map (fun x => (x, [nth x (pre ++ T) 0])) (seq k (List.length T)) = combine (seq k (List.length T)) (map (fun t => [t]) T)).
  { induction T as [|t T IH]; intros k pre L; simpl; auto. f_equal.
    - rewrite app_nth2 by lia. now rewrite L, Nat.sub_diag.
    - rewrite <- (IH (S k) (pre ++ [t])) by (rewrite app_length; simpl; lia). now rewrite <- app_assoc. }
  apply (G ts 0 []). reflexivity.
Qed.
Lemma groups0_flat : flat_map snd (groups0 verts) = vs.
Proof. unfold groups0. induction vs as [|i L IH]; simpl; congruence. Qed.

Lemma complete_recost (ok : list nat -> list nat -> Prop) (cost cost' : list nat -> list nat -> nat) gs sq n : complete ok cost gs sq n ->
  exists n', complete ok cost' gs sq n'.
Proof.
  induction 1 as [G|gs rest s t G1 G2 sq n ST P OK HC (n' & IH)]; [eexists; constructor|]. eexists. econstructor; eauto.
Qed.
Lemma complete_weaken (ok ok' : list nat -> list nat -> Prop) (cost : list nat -> list nat -> nat) gs sq n : (forall G1 G2, ok G1 G2 -> ok' G1 G2) ->
  complete ok cost gs sq n -> complete ok' cost gs sq n.
Proof. intros H. induction 1; econstructor; eauto. Qed.

Lemma flat_kept G1 G2 : NoDup (G1 ++ G2) -> incl (G1 ++ G2) vs -> flat verts dimE G1 -> flat verts dimE G2 -> joinable verts G1 G2 ->
  flat verts dimE (G1 ++ G2).
Proof.
  intros ND IN F1 F2 J D. pose proof D as D'. rewrite all_dg_app in D'. apply andb_true_iff in D'. destruct D' as (D1 & D2).
  revert D. assert (HG : grp verts (G1 ++ G2)) by (split; auto). pose proof wf_verts. apply flat_join; auto.
Qed.
Lemma vs_NoDup : NoDup vs. Proof. apply seq_NoDup. Qed.

(** sequences found under [joinable]: value and, with exact dimensions, cost *)
Lemma transfer_joinable typ sq c : complete (joinable verts) (join_cost verts dimE typ) (groups0 verts) sq c ->
  exists n, complete (fun G1 G2 => ok_ret h G1 G2 /\ (True -> ok_val h G1 G2)) (group_cost h) (singles ts) sq n /\ (typ = None -> n = c).
Proof.
  intros HC. pose proof wf_verts as WV.
  assert (HC2 : complete (fun G1 G2 => joinable verts G1 G2 /\ flat verts dimE G1 /\ flat verts dimE G2) (join_cost verts dimE typ) (groups0 verts) sq c).
  { eapply (complete_inv (flat verts dimE) (joinable verts) _ vs); eauto.
    - intros. now apply flat_kept.
    - rewrite groups0_flat. apply vs_NoDup.
    - rewrite groups0_flat. intros x; auto.
    - intros g Hg. unfold groups0 in Hg. apply in_map_iff in Hg. destruct Hg as (i & <- & Hi). apply flat_single; auto. }
  assert (T : forall cost n, complete (fun G1 G2 => joinable verts G1 G2 /\ flat verts dimE G1 /\ flat verts dimE G2) cost (groups0 verts) sq n ->
     (forall G1 G2, grp verts (G1 ++ G2) -> flat verts dimE G1 -> cost G1 G2 = group_cost h (map tn G1) (map tn G2)) ->
     complete (fun G1 G2 => ok_ret h G1 G2 /\ (True -> ok_val h G1 G2)) (group_cost h) (singles ts) sq n).
  { intros cost n HX HE. rewrite <- groups_singles. eapply (complete_gmap vs tn); [|exact HX|..].
    - intros G1 G2 IN ND _ _ (J & F1 & F2). assert (HG : grp verts (G1 ++ G2)) by (split; auto). destruct (joinable_ok G1 G2 HG J). split; auto. symmetry. auto.
    - rewrite groups0_flat. intros x; auto.
    - rewrite groups0_flat. apply vs_NoDup.
    - intros g Hg. unfold groups0 in Hg. apply in_map_iff in Hg. destruct Hg as (i & <- & Hi). discriminate. }
  destruct typ as [d|].
  - destruct (complete_recost _ _ (fun G1 G2 => group_cost h (map tn G1) (map tn G2)) _ _ _ HC2) as (n & Hn). exists n. split; [|discriminate]. eapply T; eauto.
  - exists c. split; auto. eapply T; eauto. intros. now apply join_is_cost.
Qed.

(** brute force: the cost, when the diagonal tensors have one dimension and no diagonal group is closed *)
Lemma transfer_uniform sq c : diagonals_uniform h ts -> complete (fun _ _ => True) (join_cost verts dimE None) (groups0 verts) sq c ->
  complete (fun G1 G2 => ok_ret h G1 G2 /\ (False -> ok_val h G1 G2)) (group_cost h) (singles ts) sq c.
Proof.
  intros (DU1 & DU2) HC. rewrite <- groups_singles. eapply (complete_gmap vs tn); [|exact HC|..].
  - intros G1 G2 IN ND N1 N2 _. assert (HG : grp verts (G1 ++ G2)) by (split; auto). destruct (grp_app verts G1 G2 HG) as (HG1 & HG2).
    destruct (grp_tn _ HG) as (ND' & IN'). rewrite map_app in ND', IN'.
    assert (M1 : map tn G1 <> []) by (destruct G1; simpl; congruence). assert (M2 : map tn G2 <> []) by (destruct G2; simpl; congruence).
    split; [split; [|tauto]|].
    + intros D1 D2. split; [eapply (DU2 (map tn G1) (map tn G2)); eauto|]. eapply (DU2 (map tn G2) (map tn G1)); eauto.
      * eapply Permutation_NoDup; [apply Permutation_app_comm|]; auto.
      * intros x Hx. apply IN'. apply in_app_iff. apply in_app_iff in Hx. tauto.
    + symmetry. apply join_is_cost; auto. intros D e e' He He'. apply bnd_free in He; auto. apply bnd_free in He'; auto.
      destruct He as (l & Hl & <-), He' as (l' & Hl' & <-).
      rewrite !(go_dim _ _ _ _ _ GO) by (eapply (free_legs_all G1); eauto).
      apply free_all in Hl. apply free_all in Hl'. apply all_legs_In in Hl. apply all_legs_In in Hl'.
      destruct Hl as (t & Ht & Hl), Hl' as (t' & Ht' & Hl'). rewrite all_dg_tn in D by apply HG1. unfold all_diag in D. rewrite forallb_forall in D.
      apply (DU1 t t'); auto; apply IN', in_app_iff; auto.
  - rewrite groups0_flat. intros x; auto.
  - rewrite groups0_flat. apply vs_NoDup.
  - intros g Hg. unfold groups0 in Hg. apply in_map_iff in Hg. destruct Hg as (i & <- & Hi). discriminate.
Qed.
(** the condition brute force needs, from the tensors *)
Lemma uniform_verts : diagonals_uniform h ts -> diag_uniform verts dimE.
Proof.
  intros (DU1 & DU2). constructor.
  - intros i j e e' Hi Hj Di Dj He He'. pose proof (go_edges _ _ _ _ _ GO i (tn i) (tn_nth i Hi)) as Pi. pose proof (go_edges _ _ _ _ _ GO j (tn j) (tn_nth j Hj)) as Pj.
    rewrite Pi in He. rewrite Pj in He'. apply in_map_iff in He. apply in_map_iff in He'. destruct He as (l & <- & Hl), He' as (l' & <- & Hl').
    rewrite (go_diag _ _ _ _ _ GO i (tn i)) in Di by (now apply tn_nth). rewrite (go_diag _ _ _ _ _ GO j (tn j)) in Dj by (now apply tn_nth).
    rewrite !(go_dim _ _ _ _ _ GO) by (apply all_legs_In; eauto using tn_In). eapply (DU1 (tn i) (tn j)); eauto using tn_In.
  - intros G1 G2 ND IN N1 N2 D1 D2. assert (HG : grp verts (G1 ++ G2)) by (split; auto). destruct (grp_app verts G1 G2 HG) as (HG1 & HG2).
    destruct (grp_tn _ HG) as (ND' & IN'). rewrite map_app in ND', IN'.
    assert (M1 : map tn G1 <> []) by (destruct G1; simpl; congruence). assert (M2 : map tn G2 <> []) by (destruct G2; simpl; congruence).
    rewrite all_dg_tn in D1 by apply HG1. rewrite all_dg_tn in D2 by apply HG2.
    pose proof (DU2 _ _ ND' IN' M1 M2 D1 D2) as F. intros EB. pose proof (bnd_perm_free G1 HG1) as P. rewrite EB in P.
    apply Permutation_nil in P. destruct (free_legs h (map tn G1)); [congruence|discriminate].
Qed.
End NetSearch.
