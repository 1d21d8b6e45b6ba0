(** Contractions of TensorLikes, compared with the contractions of the tensors they stand for. *)
From Coq Require Import List Arith Bool Lia Permutation ZArith.
From Verif Require Import Base Sums NdModel HeapModel FuncsModel TensorModel TensorSpec ContractModel NetSpec
  FuncsProofs NdProofs TensorProofs MatrixProofs MergeProofs CopyProofs ShareProofs SumpairsProofs ContractProofs DiagContractProofs OneDiagProofs OuterProofs NetProofs SeqProofs
  CopyListProofs NetGraphSpec RetProofs.
Import ListNotations.
Local Open Scope nat_scope.

Section Lk.
Context {A : Type} {HA : SR A}.
Notation heap := (heap A).

(** ** One diagonal tensor without legs against one with legs *)
Lemma mul_small_0l (a b : arr A) n : wfa b -> ashape a = [] -> ashape b = [n] ->
  exists d, np_mul_small a b = Ok d /\ wfa d /\ ashape d = [n] /\ forall j, j < n -> aget d [j] = rmul (aget a []) (aget b [j]).
Proof.
  intros Wb Ea Eb. unfold np_mul_small. rewrite Ea, Eb. eexists. split; [reflexivity|]. unfold wfa in *. simpl. rewrite map_length. rewrite Eb in Wb. simpl in Wb.
  split; [auto|]. split; [auto|]. intros j Hj. unfold aget. simpl. rewrite Eb. simpl.
  rewrite (nth_indep _ r0 (rmul (nth (ravel (ashape a) []) (adata a) r0) r0)) by (rewrite map_length, Wb; lia).
  now rewrite (map_nth (fun y => rmul (nth (ravel (ashape a) []) (adata a) r0) y)).
Qed.
Lemma mul_small_0r (a b : arr A) n : wfa a -> ashape a = [n] -> ashape b = [] ->
  exists d, np_mul_small a b = Ok d /\ wfa d /\ ashape d = [n] /\ forall j, j < n -> aget d [j] = rmul (aget a [j]) (aget b []).
Proof.
  intros Wa Ea Eb. unfold np_mul_small. rewrite Ea, Eb. eexists. split; [reflexivity|]. unfold wfa in *. simpl. rewrite map_length. rewrite Ea in Wa. simpl in Wa.
  split; [auto|]. split; [auto|]. intros j Hj. unfold aget. simpl. rewrite Ea. simpl.
  rewrite (nth_indep _ r0 (rmul r0 (nth (ravel (ashape b) []) (adata b) r0))) by (rewrite map_length, Wa; lia).
  now rewrite (map_nth (fun x => rmul x (nth (ravel (ashape b) []) (adata b) r0))).
Qed.

Lemma contract_diag_scalar (h : heap) ta tb : wf_pair h ta tb -> 
  t_like (tens h ta) = false -> t_like (tens h tb) = false -> t_diag (tens h ta) = true -> t_diag (tens h tb) = true ->
  (legs_of h ta = [] /\ legs_of h tb <> []) \/ (legs_of h ta <> [] /\ legs_of h tb = []) -> 
  exists h' tc, contractTwoTensors ta tb h = (h', Ok tc) /\
    contracted h h' ta tb tc (legs_of h ta ++ legs_of h tb) /\ 
    t_diag (tens h' tc) = true /\ t_like (tens h' tc) = false /\
    forall s, in_bounds h (legs_of h ta ++ legs_of h tb) s -> entry h' tc s = rmul (entry h ta s) (entry h tb s).
Proof.
  intros W La Lb Da Db CS. 
  assert (ES : shared h ta tb = []).
  { destruct (shared h ta tb) eqn:ES; auto. destruct (shared_ne_legs h ta tb); [congruence|]. tauto. }
  unfold contractTwoTensors, bind, reads. rewrite Da, Db. cbn [negb andb].
  destruct (ordered_step h ta tb W) as (h1 & bs & O & E0 & E1 & EO); [congruence|]. rewrite EO, La, ES. cbn [List.length Nat.eqb].
  pose proof (wf_pair_ob _ _ _ _ O W) as W1. assert (ET : tens h1 = tens h) by apply O.
  destruct (wf_arr h ta (wp_a _ _ _ W) La) as (a & Ea & Wa & Sa). destruct (wf_arr h tb (wp_b _ _ _ W) Lb) as (b & Eb & Wb & Sb).
  rewrite Da in Sa. rewrite Db in Sb.
  assert (exists d n l0, np_mul_small a b = Ok d /\ wfa d /\ ashape d = [n] /\ In l0 (legs_of h ta ++ legs_of h tb) /\
    (forall l, In l (legs_of h ta ++ legs_of h tb) -> dim_of h l = n) /\
    forall s, s l0 < n -> (if all_eqb (map s (legs_of h ta ++ legs_of h tb)) then aget d [s l0] else r0) = rmul (entry h ta s) (entry h tb s)) as (d & n & l0 & Ed & Wd & Sd & Hl0 & Hn & Gd).
  { destruct CS as [(NA & NB)|(NA & NB)].
    - rewrite NA in Sa. destruct (legs_of h tb) as [|l0 LB] eqn:ELB; [congruence|]. rewrite <- ELB in *.
      assert (Hl0 : In l0 (legs_of h tb)) by (rewrite ELB; simpl; auto).
      destruct (mul_small_0l a b _ Wb Sa Sb) as (d & Ed & Wd & Sd & Gd). exists d, (t_len (tens h tb)), l0. rewrite NA. cbn [app].
      split; auto. split; auto. split; auto. split; auto. split; [intros l Hl; apply diag_dim; auto; apply W|].
      intros s Hs. rewrite (entry_diag h tb b l0 s) by auto. unfold entry at 1, entry_of. unfold legs_of in NA. rewrite Ea, Da, NA.
      destruct (all_eqb _); [now apply Gd|]. now rewrite rmul_comm, rmul_0_l.
    - rewrite NB in Sb. destruct (legs_of h ta) as [|l0 LA] eqn:ELA; [congruence|]. rewrite <- ELA in *.
      assert (Hl0 : In l0 (legs_of h ta)) by (rewrite ELA; simpl; auto).
      destruct (mul_small_0r a b _ Wa Sa Sb) as (d & Ed & Wd & Sd & Gd). exists d, (t_len (tens h ta)), l0. rewrite NB, app_nil_r.
      split; auto. split; auto. split; auto. split; auto. split; [intros l Hl; apply diag_dim; auto; apply W|].
      intros s Hs. rewrite (entry_diag h ta a l0 s) by auto. unfold entry, entry_of. unfold legs_of in NB. rewrite Eb, Db, NB.
      destruct (all_eqb _); [now apply Gd|]. now rewrite rmul_0_l. }
  unfold contractOuter. unfold bind at 1, reads at 1. unfold bind at 1, reads at 1. unfold bind at 1, reads at 1.
  unfold bind at 1, reads at 1. unfold bind at 1, reads at 1. rewrite ET, Da, Db. cbn [andb].
  unfold bind at 1. unfold getArr at 1. unfold bind at 1, reads at 1. rewrite ET, Ea. unfold ret at 1.
  unfold bind at 1. unfold getArr at 1. unfold bind at 1, reads at 1. rewrite ET, Eb. unfold ret at 1.
  unfold bind at 1, liftR at 1. rewrite Ed.
  rewrite !(shape_ob h h1) by (auto; apply W). rewrite !(labels_ob h h1) by auto. unfold tlegs. rewrite ET.
  fold (legs_of h ta) (legs_of h tb). rewrite <- !map_app.
  assert (Edim : map (dim_of h1) (legs_of h ta ++ legs_of h tb) = map (dim_of h) (legs_of h ta ++ legs_of h tb)).
  { unfold dim_of. now rewrite (ob_legs _ _ O). }
  rewrite <- Edim.
  destruct (mkDiag_legs h1 (legs_of h ta ++ legs_of h tb) d (Some (map (fun l => l_name (legs h l)) (legs_of h ta ++ legs_of h tb))) n) 
     as (h' & tc & Ec & NT & Wc & Oc & Lc & Dc & Kc & Tc & Ac); auto.
  { apply W. } { apply both_alloc; auto. } { intros EE. rewrite EE in Hl0. destruct Hl0. }
  { intros l Hl. rewrite <- (Hn l Hl). unfold dim_of. now rewrite (ob_legs _ _ O). }
  { now rewrite (ob_legs _ _ O). }
  rewrite Ec. exists h', tc. split; auto. split; [|repeat (split; [now auto|])].
  - eapply contracted_intro; eauto using only_tensor_refl. apply reordered_refl; [apply W1|auto].
  - intros s Hs. rewrite (entry_diag h' tc d l0 s) by (auto; rewrite Lc; auto). rewrite Lc. apply Gd. rewrite <- (Hn l0 Hl0). now apply Hs.
Qed.

(** ** Contracting two TensorLikes *)
Lemma bonds_like (h h1 : heap) ta tb bs : wf_pair h ta tb -> only_bonds h h1 -> (t_diag (tens h tb) = true -> t_diag (tens h ta) = true) ->
  map (fun b => b0 (bonds h1 b)) bs = map fst (shared h ta tb) ->
  map (fun b => b1 (bonds h1 b)) bs = map snd (shared h ta tb) -> shared h ta tb <> [] ->
  exists h' tc, contractBonds ta tb true bs h1 = (h', Ok tc) /\
    contracted h h' ta tb tc (restA h ta tb ++ restB h ta tb) /\ 
    t_diag (tens h' tc) = t_diag (tens h ta) && t_diag (tens h tb) /\ t_like (tens h' tc) = true.
Proof.
  intros W O DI EB0 EB1 NE. pose proof (wf_pair_ob _ _ _ _ O W) as W1. assert (ET : tens h1 = tens h) by apply O.
  destruct (complements h h1 ta tb W O) as (CA & CB). destruct (rest_alloc h ta tb W) as (ND & AL).
  unfold contractBonds. unfold bind at 1, reads at 1. unfold bind at 1, reads at 1. rewrite EB0, EB1.
  unfold bind at 1, readsR at 1. rewrite CA. unfold bind at 1, readsR at 1. rewrite CB.
  unfold bind at 1, reads at 1. unfold bind at 1, reads at 1. unfold bind at 1, reads at 1. rewrite ET. change (legdim h1) with (dim_of h1).
  assert (AL1 : forall l, In l (restA h ta tb ++ restB h ta tb) -> l < nleg h1) by (intros l Hl; rewrite (ob_nleg _ _ O); auto).
  destruct (t_diag (tens h ta)) eqn:Da, (t_diag (tens h tb)) eqn:Db; try (exfalso; discriminate (DI eq_refl)); cbn [andb].
  - destruct (mkDiag_legs_like h1 (restA h ta tb ++ restB h ta tb) None (t_len (tens h ta))) as (h' & tc & Ec & NT & Wc & Oc & Lc & Dc & Kc & _); auto.
    { intros l Hl. assert (dim_of h1 l = dim_of h l) as -> by (unfold dim_of; now rewrite (ob_legs _ _ O)). 
      apply in_app_iff in Hl. unfold restA, restB, others in Hl. destruct Hl as [Hl|Hl]; apply filter_In in Hl; [|rewrite <- (diag_len_eq h ta tb W Da Db NE)]; apply diag_dim; auto; try apply W; apply Hl. }
    rewrite Ec. exists h', tc. split; auto. split; [|auto]. eapply contracted_intro; eauto using only_tensor_refl. apply reordered_refl; [apply W1|auto].
  - destruct (mkDense_legs_like h1 (restA h ta tb ++ restB h ta tb) None (Some (map (dim_of h1) (restA h ta tb ++ restB h ta tb)))) as (h' & tc & Ec & NT & Wc & Oc & Lc & Dc & Kc & _); auto.
    rewrite Ec. exists h', tc. split; auto. split; [|auto]. eapply contracted_intro; eauto using only_tensor_refl. apply reordered_refl; [apply W1|auto].
  - destruct (mkDense_legs_like h1 (restA h ta tb ++ restB h ta tb) None (Some (map (dim_of h1) (restA h ta tb ++ restB h ta tb)))) as (h' & tc & Ec & NT & Wc & Oc & Lc & Dc & Kc & _); auto.
    rewrite Ec. exists h', tc. split; auto. split; [|auto]. eapply contracted_intro; eauto using only_tensor_refl. apply reordered_refl; [apply W1|auto].
Qed.

Definition flat (h : heap) (L : list lid) : Prop := forall l l', In l L -> In l' L -> dim_of h l = dim_of h l'.

Lemma outer_like (h h1 : heap) ta tb : wf_pair h ta tb -> only_bonds h h1 -> (t_diag (tens h tb) = true -> t_diag (tens h ta) = true) ->
  (t_diag (tens h ta) = true -> t_diag (tens h tb) = true -> flat h (legs_of h ta ++ legs_of h tb)) ->
  exists h' tc, contractOuter ta tb true h1 = (h', Ok tc) /\
    contracted h h' ta tb tc (legs_of h ta ++ legs_of h tb) /\ 
    t_diag (tens h' tc) = t_diag (tens h ta) && t_diag (tens h tb) /\ t_like (tens h' tc) = true.
Proof.
  intros W O DI FL. pose proof (wf_pair_ob _ _ _ _ O W) as W1. assert (ET : tens h1 = tens h) by apply O.
  unfold contractOuter. unfold bind at 1, reads at 1. unfold bind at 1, reads at 1. unfold bind at 1, reads at 1.
  unfold bind at 1, reads at 1. unfold bind at 1, reads at 1. rewrite ET.
  rewrite !(shape_ob h h1) by (auto; apply W). rewrite !(labels_ob h h1) by auto. unfold tlegs. rewrite ET.
  fold (legs_of h ta) (legs_of h tb). rewrite <- !map_app.
  assert (Edim : map (dim_of h1) (legs_of h ta ++ legs_of h tb) = map (dim_of h) (legs_of h ta ++ legs_of h tb)).
  { unfold dim_of. now rewrite (ob_legs _ _ O). }
  assert (EN : map (fun l => l_name (legs h l)) (legs_of h ta ++ legs_of h tb) = map (fun l => l_name (legs h1 l)) (legs_of h ta ++ legs_of h tb)).
  { now rewrite (ob_legs _ _ O). }
  assert (AL1 := both_alloc h h1 ta tb W O). rewrite <- Edim, EN.
  assert (DN : exists h' tc, mkDense (Some (map (dim_of h1) (legs_of h ta ++ legs_of h tb))) (Some (map (fun l => l_name (legs h1 l)) (legs_of h ta ++ legs_of h tb))) None None
                  (Some (legs_of h ta ++ legs_of h tb)) true h1 = (h', Ok tc) /\ contracted h h' ta tb tc (legs_of h ta ++ legs_of h tb) /\ t_diag (tens h' tc) = false /\ t_like (tens h' tc) = true).
  { destruct (mkDense_legs_like h1 (legs_of h ta ++ legs_of h tb) (Some (map (fun l => l_name (legs h1 l)) (legs_of h ta ++ legs_of h tb))) (Some (map (dim_of h1) (legs_of h ta ++ legs_of h tb)))) 
      as (h' & tc & Ec & NT & Wc & Oc & Lc & Dc & Kc & _); auto. { apply W. }
    exists h', tc. split; auto. split; [|auto]. eapply contracted_intro; eauto using only_tensor_refl. apply reordered_refl; [apply W1|auto]. }
  destruct (t_diag (tens h ta)) eqn:Da, (t_diag (tens h tb)) eqn:Db; try (exfalso; discriminate (DI eq_refl)); cbn [andb]; auto.
  destruct (mkDiag_legs_like h1 (legs_of h ta ++ legs_of h tb) (Some (map (fun l => l_name (legs h1 l)) (legs_of h ta ++ legs_of h tb))) (match legs_of h ta ++ legs_of h tb with [] => 1 | l :: _ => dim_of h l end)) 
    as (h' & tc & Ec & NT & Wc & Oc & Lc & Dc & Kc & _); auto. { apply W. }
  { intros l Hl. assert (dim_of h1 l = dim_of h l) as -> by (unfold dim_of; now rewrite (ob_legs _ _ O)).
    specialize (FL eq_refl eq_refl). destruct (legs_of h ta ++ legs_of h tb) as [|x X]; [destruct Hl|]. apply FL; simpl; auto. }
  rewrite Ec. exists h', tc. split; auto. split; [|auto]. eapply contracted_intro; eauto using only_tensor_refl. apply reordered_refl; [apply W1|auto].
Qed.

Definition like_legs (h : heap) (ta tb : tid) : list lid :=
  if negb (t_diag (tens h ta)) && t_diag (tens h tb) then restB h ta tb ++ restA h ta tb else restA h ta tb ++ restB h ta tb.

Lemma ordered_like (h : heap) ta tb : wf_pair h ta tb -> t_like (tens h ta) = true -> t_like (tens h tb) = true ->
  (t_diag (tens h tb) = true -> t_diag (tens h ta) = true) ->
  (t_diag (tens h ta) = true -> t_diag (tens h tb) = true -> flat h (restA h ta tb ++ restB h ta tb)) ->
  exists h' tc, contractOrdered ta tb h = (h', Ok tc) /\ contracted h h' ta tb tc (restA h ta tb ++ restB h ta tb) /\
    t_diag (tens h' tc) = t_diag (tens h ta) && t_diag (tens h tb) /\ t_like (tens h' tc) = true.
Proof.
  intros W La Lb DI FL. destruct (ordered_step h ta tb W) as (h1 & bs & O & E0 & E1 & EO); [congruence|]. rewrite EO, La.
  destruct (Nat.eqb_spec (List.length (shared h ta tb)) 0) as [En|Nn].
  - assert (ES : shared h ta tb = []) by (destruct (shared h ta tb); [auto|discriminate]).
    destruct (shared_nil_rest h ta tb ES) as (RA & RB). rewrite RA, RB in *. apply outer_like; auto.
  - apply bonds_like; auto. intros ES. rewrite ES in Nn. now apply Nn.
Qed.

Lemma contract_like (h : heap) ta tb : wf_pair h ta tb -> t_like (tens h ta) = true -> t_like (tens h tb) = true ->
  (t_diag (tens h ta) = true -> t_diag (tens h tb) = true -> flat h (restA h ta tb ++ restB h ta tb)) ->
  exists h' tc, contractTwoTensors ta tb h = (h', Ok tc) /\ contracted h h' ta tb tc (like_legs h ta tb) /\
    t_diag (tens h' tc) = t_diag (tens h ta) && t_diag (tens h tb) /\ t_like (tens h' tc) = true.
Proof.
  intros W La Lb FL. unfold contractTwoTensors, bind, reads, like_legs.
  destruct (t_diag (tens h ta)) eqn:Da, (t_diag (tens h tb)) eqn:Db; cbn [negb andb].
  - destruct (ordered_like h ta tb W La Lb) as (h' & tc & E & C & D & K); try congruence; try (intros; now apply FL). rewrite Da, Db in D. exists h', tc. auto.
  - destruct (ordered_like h ta tb W La Lb) as (h' & tc & E & C & D & K); try congruence. rewrite Da, Db in D. exists h', tc. auto.
  - destruct (rest_sym h ta tb W) as (R1 & R2). rewrite <- R1, <- R2.
    destruct (ordered_like h tb ta (wf_pair_sym _ _ _ W) Lb La) as (h' & tc & E & C & D & K); try congruence. rewrite Da, Db in D.
    exists h', tc. split; auto. split; [now apply contracted_sym|auto].
  - destruct (ordered_like h ta tb W La Lb) as (h' & tc & E & C & D & K); try congruence. rewrite Da, Db in D. exists h', tc. auto.
Qed.

(** ** What the real contraction returns, without any proviso *)
Lemma contract_real (h : heap) ta tb h2 tc : wf_pair h ta tb -> t_like (tens h ta) = false -> t_like (tens h tb) = false ->
  contractTwoTensors ta tb h = (h2, Ok tc) ->
  exists L, contracted h h2 ta tb tc L /\ Permutation L (restA h ta tb ++ restB h ta tb) /\
    (t_diag (tens h ta) = t_diag (tens h tb) -> L = restA h ta tb ++ restB h ta tb) /\
    t_diag (tens h2 tc) = t_diag (tens h ta) && t_diag (tens h tb) /\ t_like (tens h2 tc) = false /\
    (t_diag (tens h ta) = true -> t_diag (tens h tb) = true -> flat h (restA h ta tb ++ restB h ta tb)).
Proof.
  intros W La Lb E.
  destruct (t_diag (tens h ta)) eqn:Da, (t_diag (tens h tb)) eqn:Db.
  - assert (FL : forall n, (forall l, In l (legs_of h ta) -> dim_of h l = n) -> (forall l, In l (legs_of h tb) -> dim_of h l = n) -> flat h (restA h ta tb ++ restB h ta tb)).
    { intros n HA0 HB0. assert (forall l, In l (restA h ta tb ++ restB h ta tb) -> dim_of h l = n) as X; [|intros l l' Hl Hl'; now rewrite (X l), (X l')].
      intros l Hl. unfold restA, restB, others in Hl. apply in_app_iff in Hl. destruct Hl as [Hl|Hl]; apply filter_In in Hl; [apply HA0|apply HB0]; apply Hl. }
    destruct (shared h ta tb) as [|p Q] eqn:ES.
    + destruct (shared_nil_rest h ta tb ES) as (RA & RB).
      destruct (legs_of h ta) as [|la LA] eqn:ELA, (legs_of h tb) as [|lb LB] eqn:ELB.
      * destruct (contract_scalar_diag2 h ta tb W La Lb Da Db ELA ELB) as (h' & E' & _). rewrite E in E'. discriminate.
      * destruct (contract_diag_scalar h ta tb W La Lb Da Db) as (h' & tc' & E' & C & D & K & _); [left; rewrite ELA, ELB; split; [auto|discriminate]|].
        rewrite E in E'. injection E' as <- <-. rewrite ELA, ELB in C. rewrite RA, RB. exists ([] ++ lb :: LB). split; auto. split; [reflexivity|]. split; auto. split; auto. split; auto.
        intros _ _. rewrite RA, RB in FL. apply (FL (t_len (tens h tb))); [intros ? []|]. rewrite <- ELB. intros l Hl. apply diag_dim; auto. apply W.
      * destruct (contract_diag_scalar h ta tb W La Lb Da Db) as (h' & tc' & E' & C & D & K & _); [right; rewrite ELA, ELB; split; [discriminate|auto]|].
        rewrite E in E'. injection E' as <- <-. rewrite ELA, ELB in C. rewrite RA, RB. exists ((la :: LA) ++ []). split; auto. split; [reflexivity|]. split; auto. split; auto. split; auto.
        intros _ _. rewrite RA, RB in FL. apply (FL (t_len (tens h ta))); [|intros ? []]. rewrite <- ELA. intros l Hl. apply diag_dim; auto. apply W.
      * assert (NA : legs_of h ta <> []) by (rewrite ELA; discriminate). assert (NB : legs_of h tb <> []) by (rewrite ELB; discriminate).
        destruct (Nat.eq_dec (t_len (tens h ta)) (t_len (tens h tb))) as [EN|EN].
        -- destruct (contract_diag2_outer h ta tb W La Lb Da Db ES NA NB EN) as (h2' & tc' & E2 & CT & DG & LI & _).
           rewrite E in E2. injection E2 as <- <-. rewrite RA, RB. rewrite ELA, ELB in CT. exists ((la :: LA) ++ lb :: LB). split; auto. split; [reflexivity|]. split; auto. split; auto. split; auto.
           intros _ _. rewrite RA, RB in FL. apply (FL (t_len (tens h ta))); [rewrite <- ELA|rewrite <- ELB, EN]; intros l Hl; apply diag_dim; auto; apply W.
        -- destruct (contract_diag2_len h ta tb W La Lb Da Db NA NB EN) as (h2' & E2 & _). rewrite E in E2. discriminate.
    + destruct (contract_diag2 h ta tb W La Lb Da Db) as (h' & tc' & E' & C & D & K & _); [congruence|]. rewrite E in E'. injection E' as <- <-.
      exists (restA h ta tb ++ restB h ta tb). split; auto. split; [reflexivity|]. split; auto. split; auto. split; auto.
      intros _ _. assert (NE : shared h ta tb <> []) by (rewrite ES; discriminate). apply (FL (t_len (tens h ta))); [|rewrite <- (diag_len_eq h ta tb W Da Db NE)]; intros l Hl; apply diag_dim; auto; apply W.
  - destruct (legs_of h ta) as [|x X] eqn:EA.
    + destruct (contract_scalar_diag h ta tb W La Lb Da Db EA) as (h2' & ? & E2 & _). rewrite E in E2. discriminate.
    + destruct (contract_any h ta tb W La Lb) as (L & PL & h2' & tc' & E2 & CT & DG & LI & V). { unfold contractible. rewrite Da, Db, EA. repeat split; intros; discriminate. }
      rewrite E in E2. injection E2 as <- <-. exists L. rewrite Da, Db in DG. split; auto. split; auto. split; [discriminate|]. split; auto. split; auto. discriminate.
  - destruct (legs_of h tb) as [|x X] eqn:EB.
    + destruct (contract_scalar_diag h tb ta (wf_pair_sym _ _ _ W) Lb La Db Da EB) as (? & h2' & _ & E2 & _). rewrite E in E2. discriminate.
    + destruct (contract_any h ta tb W La Lb) as (L & PL & h2' & tc' & E2 & CT & DG & LI & V). { unfold contractible. rewrite Da, Db, EB. repeat split; intros; discriminate. }
      rewrite E in E2. injection E2 as <- <-. exists L. rewrite Da, Db in DG. split; auto. split; auto. split; [discriminate|]. split; auto. split; auto. discriminate.
  - destruct (contract_dense h ta tb W La Lb Da Db) as (h' & tc' & E' & C & D & K & _). rewrite E in E'. injection E' as <- <-.
    exists (restA h ta tb ++ restB h ta tb). split; auto. split; [reflexivity|]. split; auto. split; auto. split; auto. discriminate.
Qed.
End Lk.
