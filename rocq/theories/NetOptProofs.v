(** The sequence found costs no more, when executed, than any other one. *)
From Coq Require Import List Arith Bool Lia Permutation Relations.
From Verif Require Import Base Sums FuncsModel FuncsProofs NdModel HeapModel NdProofs TensorModel TensorSpec TensorProofs
  ContractModel NetSpec ShareProofs ContractProofs NetProofs SumpairsProofs SeqProofs CopyListProofs SearchModel SearchSpec SearchBase BfProofs
  GreedyProofs CapProofs SearchProofs GraphModel GraphProofs NetGraphModel NetGraphSpec RetProofs NetGraphProofs NetSearchProofs NetRunProofs.
Import ListNotations.
Local Open Scope nat_scope.

(** every complete sequence is a tree *)
Section Trees.
Variables (verts : list vres) (dim : nat -> nat) (typ : option nat).
Variables (okp : list nat -> list nat -> Prop) (Q : tree -> Prop).
Hypothesis QN : forall a b, Q a -> Q b -> okp (leaves a) (leaves b) -> Q (Node a b).
Notation cost := (join_cost verts dim typ).
Notation tcost := (tree_cost verts dim typ).
Lemma complete_tree gs sq n : complete okp cost gs sq n -> forall trs, gs = map (fun p => (fst p, leaves (snd p))) trs ->
  Forall (fun p => Q (snd p)) trs ->
  exists T, Permutation (leaves T) (flat_map (fun p => leaves (snd p)) trs) /\ Q T /\ tcost T = list_sum (map (fun p => tcost (snd p)) trs) + n.
Proof.
  induction 1 as [G|gs rest s t G1 G2 sq n ST P OK HC IH]; intros trs EG FQ.
  - destruct trs as [|[k T] [|? ?]]; try discriminate. injection EG as EK ET. inversion FQ; subst. exists T. simpl. rewrite app_nil_r. split; auto. split; auto. lia.
  - subst gs. apply Permutation_sym in P. apply Permutation_map_inv in P. destruct P as (trs' & EQ & P).
    destruct trs' as [|[k1 t1] [|[k2 t2] tr]]; try discriminate. cbn [map fst snd] in EQ. injection EQ as E1 E2 E3 E4 E5. subst k1 G1 k2 G2 rest.
    assert (FQ' : Forall (fun p => Q (snd p)) ((s, t1) :: (t, t2) :: tr)) by (eapply Permutation_Forall; eauto).
    inversion FQ' as [|? ? Q1 FQ2]; subst. inversion FQ2 as [|? ? Q2 FQ3]; subst. cbn [snd] in *.
    destruct (IH ((Nat.min s t, Node t1 t2) :: tr)) as (T & PT & QT & CT); [reflexivity|constructor; [apply QN; auto|exact FQ3]|].
exists T. split; [rewrite PT; rewrite (Permutation_flat_map _ P); simpl; now rewrite app_assoc|]. split; auto. rewrite CT.
    assert (L : forall (f : nat * tree -> nat) l l', Permutation l l' -> list_sum (map f l) = list_sum (map f l')).
    { intros f l l' PL. induction PL; simpl; lia. }
    rewrite (L _ _ _ P). cbn [map list_sum snd fold_right]. unfold list_sum. cbn [map snd fold_right tree_cost]. lia.
Qed.
Lemma complete_spans sq n : (forall i, Q (Leaf i)) -> complete okp cost (groups0 verts) sq n -> exists T, spans verts T /\ Q T /\ tcost T = n.
Proof.
  intros QL HC. destruct (complete_tree _ _ _ HC (map (fun i => (i, Leaf i)) (vertices verts))) as (T & P & QT & CT).
  - unfold groups0. now rewrite map_map.
  - apply Forall_forall. intros p Hp. apply in_map_iff in Hp. destruct Hp as (i & <- & _). simpl. auto.
  - exists T. split; [|split; auto].
    + unfold spans. rewrite P. assert (flat_map (fun p => leaves (snd p)) (map (fun i => (i, Leaf i)) (vertices verts)) = vertices verts) as ->; [|reflexivity].
      clear. induction (vertices verts) as [|i L IH]; [reflexivity|]. cbn [map flat_map snd leaves app]. f_equal. exact IH.
    + rewrite CT. assert (list_sum (map (fun p => tcost (snd p)) (map (fun i => (i, Leaf i)) (vertices verts))) = 0) as ->; auto.
      clear. induction (vertices verts) as [|i L IH]; [reflexivity|exact IH].
Qed.
End Trees.

Section Opt.
Context {A : Type} {HA : SR A}.
Notation heap := (heap A).
Variables (h : heap) (ts : list tid).
Hypothesis W : wf_net h ts.
Hypothesis CL : closed_net h ts.
Variables (verts : list vres) (eix dimE : nat -> nat).
Hypothesis GO : graph_of h ts verts eix dimE.
Let tn (i : nat) : tid := nth i ts 0.
Definition pos (t : tid) : nat := match index_of t ts with Some k => k | None => 0 end.
Lemma pos_tn t : In t ts -> tn (pos t) = t /\ In (pos t) (vertices verts).
Proof.
  intros Ht. unfold pos. destruct (index_of_In ts t Ht) as (k & Ek). rewrite Ek. apply index_of_nth in Ek. destruct Ek as (E & L).
  split; [rewrite <- E; apply nth_indep; auto|]. apply in_seq. rewrite (go_len _ _ _ _ _ GO). lia.
Qed.
Lemma pos_map G : incl G ts -> map tn (map pos G) = G /\ incl (map pos G) (vertices verts).
Proof.
  intros IN. split.
  - rewrite map_map. rewrite <- (map_id G) at 2. apply map_ext_in. intros t Ht. now apply pos_tn, IN.
  - intros i Hi. apply in_map_iff in Hi. destruct Hi as (t & <- & Ht). apply pos_tn, IN; auto.
Qed.
Lemma pos_grp G : NoDup G -> incl G ts -> grp verts (map pos G).
Proof.
  intros ND IN. split; [|apply pos_map; auto]. apply NoDup_map_on; auto. intros a b Ha Hb E.
  destruct (pos_tn a (IN _ Ha)) as (<- & _), (pos_tn b (IN _ Hb)) as (<- & _). congruence.
Qed.
Lemma val_joinable G1 G2 : NoDup (G1 ++ G2) -> incl (G1 ++ G2) ts -> ok_val h G1 G2 -> joinable verts (map pos G1) (map pos G2).
Proof.
  intros ND IN OV D1 D2. pose proof (pos_grp _ ND IN) as HG. rewrite map_app in HG. destruct (grp_app verts _ _ HG) as (HG1 & HG2).
  assert (I1 : incl G1 ts) by (intros x Hx; apply IN, in_app_iff; auto). assert (I2 : incl G2 ts) by (intros x Hx; apply IN, in_app_iff; auto).
  destruct (pos_map G1 I1) as (M1 & _), (pos_map G2 I2) as (M2 & _).
  rewrite (all_dg_tn h ts verts eix dimE GO) in D1 by apply HG1. rewrite (all_dg_tn h ts verts eix dimE GO) in D2 by apply HG2. fold tn in D1, D2. rewrite M1 in D1. rewrite M2 in D2.
  destruct (OV D1 D2) as (l & l' & Hl & Hl' & LK). intros EC.
  assert (In (eix l) (common verts (map pos G1) (map pos G2))) as X; [|rewrite EC in X; exact X].
  apply (common_link h ts W CL verts eix dimE GO); auto. fold tn. rewrite M1, M2. exists l, l'.
  destruct (split_off (G1 ++ G2) ts ND (wn_ids _ _ W) IN) as (R & P). apply Permutation_sym in P. rewrite <- app_assoc in P.
  split; [eapply (link_free1 h ts G1 G2 R W P); eauto|]. split; [eapply (link_free2 h ts G1 G2 R W P); eauto|]. auto.
Qed.
Lemma singles_groups : map (fun g => (fst g, map pos (snd g))) (singles ts) = groups0 verts.
Proof.
  rewrite <- (groups_singles h ts verts eix dimE GO). rewrite map_map. cbn [fst snd]. unfold groups0. rewrite map_map. apply map_ext_in.
  intros i Hi. cbn [fst snd map]. f_equal. f_equal.
  assert (Hti : In (tn i) ts) by (apply (tn_In h ts verts eix dimE GO); auto).
  eapply (tn_inj h ts W verts eix dimE GO); auto; [apply pos_tn|apply pos_tn]; auto.
Qed.
Lemma singles_snd : flat_map snd (singles ts) = ts.
Proof. apply singles_flat. Qed.
(** back from the tensors to the graph *)
Lemma back_joinable sq n : complete (ok_val h) (group_cost h) (singles ts) sq n -> complete (joinable verts) (join_cost verts dimE None) (groups0 verts) sq n.
Proof.
  intros HC. pose proof (wf_verts h ts W CL verts eix dimE GO) as WV.
  assert (HC2 : complete (fun G1 G2 => ok_val h G1 G2 /\ flat verts dimE (map pos G1) /\ flat verts dimE (map pos G2)) (group_cost h) (singles ts) sq n).
  { eapply (complete_inv (fun G => flat verts dimE (map pos G)) (ok_val h) _ ts); eauto.
    - intros G1 G2 ND IN F1 F2 OV. pose proof (pos_grp _ ND IN) as HG. rewrite map_app in *. 
      apply (flat_kept h ts W CL verts eix dimE GO); auto; try apply HG. now apply val_joinable.
    - rewrite singles_snd. apply W.
    - rewrite singles_snd. intros x; auto.
    - intros [k G] Hg. unfold singles in Hg. apply in_combine_r in Hg. apply in_map_iff in Hg. destruct Hg as (t & <- & Ht). cbn [snd map].
      apply flat_single; auto. now apply pos_tn. }
  rewrite <- singles_groups. eapply (complete_gmap ts pos); [|exact HC2|..].
  - intros G1 G2 IN ND _ _ (OV & F1 & F2). split; [now apply val_joinable|].
    pose proof (pos_grp _ ND IN) as HG. rewrite map_app in HG. rewrite (join_is_cost h ts W CL verts eix dimE GO) by auto. fold tn.
    assert (I1 : incl G1 ts) by (intros x Hx; apply IN, in_app_iff; auto). assert (I2 : incl G2 ts) by (intros x Hx; apply IN, in_app_iff; auto).
    now rewrite (proj1 (pos_map G1 I1)), (proj1 (pos_map G2 I2)).
  - rewrite singles_snd. intros x; auto.
  - rewrite singles_snd. apply W.
  - intros [k G] Hg. unfold singles in Hg. apply in_combine_r in Hg. apply in_map_iff in Hg. destruct Hg as (t & <- & Ht). discriminate.
Qed.
Lemma back_uniform sq n : diagonals_uniform h ts -> complete (fun _ _ => True) (group_cost h) (singles ts) sq n ->
  complete (fun _ _ => True) (join_cost verts dimE None) (groups0 verts) sq n.
Proof.
  intros DU HC. pose proof (uniform_verts h ts W CL verts eix dimE GO DU) as DV.
  rewrite <- singles_groups. eapply (complete_gmap ts pos); [|exact HC|..].
  - intros G1 G2 IN ND N1 N2 _. split; auto. pose proof (pos_grp _ ND IN) as HG. rewrite map_app in HG.
    rewrite (join_is_cost h ts W CL verts eix dimE GO); auto.
    + fold tn. assert (I1 : incl G1 ts) by (intros x Hx; apply IN, in_app_iff; auto). assert (I2 : incl G2 ts) by (intros x Hx; apply IN, in_app_iff; auto).
      now rewrite (proj1 (pos_map G1 I1)), (proj1 (pos_map G2 I2)).
    + apply (ft_flat1 _ _ None _ (map pos G2)); auto. apply bf_fits; auto; destruct G1, G2; simpl; congruence.
  - rewrite singles_snd. intros x; auto.
  - rewrite singles_snd. apply W.
  - intros [k G] Hg. unfold singles in Hg. apply in_combine_r in Hg. apply in_map_iff in Hg. destruct Hg as (t & <- & Ht). discriminate.
Qed.
End Opt.

Section Cheapest.
Context {A : Type} {HA : SR A}.
Notation heap := (heap A).
Variable symdiff : list nat -> list nat -> list nat.
Hypothesis SD : symdiff_ok symdiff.
Variables (h : heap) (ts : list tid).
Hypothesis W : wf_net h ts.
Hypothesis CL : closed_net h ts.
Lemma capping_cheapest fuel sq c sq' n' : (forall l, In l (all_legs h ts) -> 0 < dim_of h l) ->
  generateOptimalSequence symdiff fuel h ts false None = Ok (sq, c) ->
  complete (fun G1 G2 => all_diag h G1 = true -> all_diag h G2 = true -> groups_linked h G1 G2) (group_cost h) (singles ts) sq' n' -> c <= n'.
Proof.
  intros POS E HC. destruct (generate_ok symdiff h ts W CL) as (verts & eix & dimE & GO & EO & _). rewrite EO in E.
  pose proof (wf_verts h ts W CL verts eix dimE GO) as WV.
  assert (PC : positive_costs verts dimE None).
  { apply positive_dims; auto; [discriminate|]. intros i e Hi He. rewrite (go_edges _ _ _ _ _ GO i _ (tn_nth h ts verts eix dimE GO i Hi)) in He.
    apply in_map_iff in He. destruct He as (l & <- & Hl). assert (In l (all_legs h ts)) by (apply all_legs_In; eauto using tn_In).
    rewrite (go_dim _ _ _ _ _ GO); auto. }
  destruct (cap_optimal symdiff verts dimE None SD WV fuel sq c PC E) as (_ & _ & OPT).
  pose proof (back_joinable h ts W CL verts eix dimE GO sq' n' HC) as HB.
  destruct (complete_spans verts dimE None (joinable verts) (no_diag_outer verts)) with (sq := sq') (n := n') as (T & ST & NT & <-); auto.
  - intros a b Qa Qb J. simpl. auto.
  - intros i. exact I.
Qed.
Lemma bf_cheapest fuel sq c sq' n' : ts <> [] -> diagonals_uniform h ts ->
  generateOptimalSequence symdiff fuel h ts true None = Ok (sq, c) ->
  complete (fun _ _ => True) (group_cost h) (singles ts) sq' n' -> c <= n'.
Proof.
  intros NE DU E HC. destruct (generate_ok symdiff h ts W CL) as (verts & eix & dimE & GO & EO & _). rewrite EO in E.
  pose proof (wf_verts h ts W CL verts eix dimE GO) as WV. pose proof (uniform_verts h ts W CL verts eix dimE GO DU) as DV.
  assert (0 < List.length verts) as L by (rewrite (go_len _ _ _ _ _ GO); destruct ts; [congruence|simpl; lia]).
  destruct (bf_optimal symdiff verts dimE None SD WV L (fun _ => DV)) as (sq0 & c0 & E0 & _ & _ & OPT). rewrite E0 in E. injection E as -> ->.
  pose proof (back_uniform h ts W CL verts eix dimE GO sq' n' DU HC) as HB.
  destruct (complete_spans verts dimE None (fun _ _ => True) (fun _ => True)) with (sq := sq') (n := n') as (T & ST & NT & <-); auto.
Qed.
End Cheapest.
