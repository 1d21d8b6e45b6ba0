(** What can be said of a contraction sequence from the fact that its execution returned. *)
From Coq Require Import List Arith Bool Lia Permutation ZArith.
From Verif Require Import Base Sums NdModel HeapModel FuncsModel TensorModel TensorSpec ContractModel NetSpec
  FuncsProofs NdProofs TensorProofs MatrixProofs MergeProofs CopyProofs ShareProofs SumpairsProofs ContractProofs DiagContractProofs OneDiagProofs OuterProofs NetProofs SeqProofs
  CopyListProofs NetGraphSpec.
Import ListNotations.
Local Open Scope nat_scope.

(** renaming the members of groups *)
Lemma complete_gmap (V : list nat) (f : nat -> nat) (ok : list nat -> list nat -> Prop) (cost : list nat -> list nat -> nat) (ok' : list nat -> list nat -> Prop) (cost' : list nat -> list nat -> nat) :
  (forall G1 G2, incl (G1 ++ G2) V -> NoDup (G1 ++ G2) -> G1 <> [] -> G2 <> [] -> ok G1 G2 ->
     ok' (map f G1) (map f G2) /\ cost' (map f G1) (map f G2) = cost G1 G2) ->
  forall gs sq n, complete ok cost gs sq n -> incl (flat_map snd gs) V -> NoDup (flat_map snd gs) ->
  (forall g, In g gs -> snd g <> []) ->
  complete ok' cost' (map (fun g => (fst g, map f (snd g))) gs) sq n.
Proof.
  intros H. induction 1 as [G|gs rest s t G1 G2 sq n Hst P OK CC IH]; intros HI ND NE; [constructor|].
  assert (PF : Permutation (flat_map snd gs) (flat_map snd ((s, G1) :: (t, G2) :: rest))) by (apply Permutation_flat_map; exact P).
  assert (HI2 : incl (flat_map snd ((s, G1) :: (t, G2) :: rest)) V) by (intros x Hx; apply HI; eapply Permutation_in; [symmetry; exact PF|exact Hx]).
  assert (ND2 := Permutation_NoDup PF ND). simpl in HI2, ND2. rewrite app_assoc in HI2, ND2.
  assert (HI3 : incl (G1 ++ G2) V) by (intros x Hx; apply HI2, in_app_iff; auto).
  assert (ND3 : NoDup (G1 ++ G2)) by (apply NoDup_app_inv in ND2; tauto).
  assert (NE2 : forall g, In g ((s, G1) :: (t, G2) :: rest) -> snd g <> []) by (intros g Hg; apply NE; eapply Permutation_in; [symmetry; exact P|exact Hg]).
  assert (NE3 : G1 <> []) by (apply (NE2 (s, G1)); simpl; auto).
  destruct (H G1 G2 HI3 ND3 NE3 (NE2 (t, G2) (or_intror (or_introl eq_refl))) OK) as (OK' & <-).
  apply (complete_step _ _ _ (map (fun g => (fst g, map f (snd g))) rest) s t (map f G1) (map f G2)); auto.
  - apply (Permutation_map (fun g => (fst g, map f (snd g)))) in P. exact P.
  - rewrite <- map_app. apply IH; simpl; auto. intros g [<-|Hg]; simpl; [destruct G1; [congruence|discriminate]|]. apply NE2. simpl; auto.
Qed.

Section Rt.
Context {A : Type} {HA : SR A}.
Notation heap := (heap A).

(** a step whose cost is predicted by [group_cost] if it returns *)
Definition ok_ret (h : heap) (G1 G2 : list tid) : Prop :=
  all_diag h G1 = true -> all_diag h G2 = true -> free_legs h G1 <> [] /\ free_legs h G2 <> [].
Definition ok_val (h : heap) (G1 G2 : list tid) : Prop :=
  all_diag h G1 = true -> all_diag h G2 = true -> groups_linked h G1 G2.

Lemma contractCost_ret (h : heap) ta tb h' c lv : wf_pair h ta tb -> contractCost ta tb h = (h', Ok (c, lv)) ->
  c = pair_cost h ta tb /\ only_bonds h h'.
Proof.
  intros W E. destruct (t_diag (tens h ta) && t_diag (tens h tb)) eqn:D.
  - apply andb_prop in D. destruct D as [Da Db]. unfold contractCost, pair_cost, bind, reads, readsR, bondDimension in *. rewrite Da, Db in E. rewrite Da, Db. cbn -[Z.of_nat] in E.
    rewrite Da in E. unfold ret in E. injection E as E1 E2 E3; subst. split; auto. apply only_bonds_refl.
  - destruct (existsb (fun p => Nat.eqb (dim_of h (fst p)) 0) (shared h ta tb)) eqn:EX.
    + apply existsb_exists in EX. destruct EX as (p & Hp & Z). apply Nat.eqb_eq in Z.
      destruct (contractCost_zero h ta tb W D) as (h2 & E2 & _); [eauto|]. rewrite E2 in E. discriminate.
    + destruct (contractCost_ok h ta tb W) as (h2 & E2 & O).
      * intros p Hp. destruct (dim_of h (fst p)) eqn:Z; [|lia]. exfalso. apply not_true_iff_false in EX. apply EX. apply existsb_exists. exists p. split; auto. now rewrite Z.
      * rewrite E2 in E. injection E as <- <- _. auto.
Qed.

Lemma contract_ret (h : heap) ta tb h2 tc : wf_pair h ta tb -> t_like (tens h ta) = false -> t_like (tens h tb) = false ->
  (t_diag (tens h ta) = true -> t_diag (tens h tb) = true -> legs_of h ta <> [] /\ legs_of h tb <> []) ->
  contractTwoTensors ta tb h = (h2, Ok tc) ->
  exists L, contracted h h2 ta tb tc L /\ Permutation L (restA h ta tb ++ restB h ta tb) /\
    t_diag (tens h2 tc) = t_diag (tens h ta) && t_diag (tens h tb) /\ t_like (tens h2 tc) = false /\
    ((t_diag (tens h ta) = true -> t_diag (tens h tb) = true -> shared h ta tb <> []) ->
     forall s, in_bounds h (restA h ta tb ++ restB h ta tb) s -> entry h2 tc s = einsum h ta tb s).
Proof.
  intros W La Lb NE E.
  assert (Any : contractible h ta tb -> exists L, contracted h h2 ta tb tc L /\ Permutation L (restA h ta tb ++ restB h ta tb) /\
    t_diag (tens h2 tc) = t_diag (tens h ta) && t_diag (tens h tb) /\ t_like (tens h2 tc) = false /\
    forall s, in_bounds h (restA h ta tb ++ restB h ta tb) s -> entry h2 tc s = einsum h ta tb s).
  { intros C. destruct (contract_any h ta tb W La Lb C) as (L & PL & h2' & tc' & E2 & CT & DG & LI & V).
    rewrite E in E2. injection E2 as <- <-. exists L. auto. }
  assert (Fin : contractible h ta tb -> exists L, contracted h h2 ta tb tc L /\ Permutation L (restA h ta tb ++ restB h ta tb) /\
    t_diag (tens h2 tc) = t_diag (tens h ta) && t_diag (tens h tb) /\ t_like (tens h2 tc) = false /\
    ((t_diag (tens h ta) = true -> t_diag (tens h tb) = true -> shared h ta tb <> []) ->
    forall s, in_bounds h (restA h ta tb ++ restB h ta tb) s -> entry h2 tc s = einsum h ta tb s)).
  { intros C. destruct (Any C) as (L & X1 & X2 & X3 & X4 & X5). exists L. auto. }
  clear Any. unfold contractible in Fin.
  destruct (t_diag (tens h ta)) eqn:Da, (t_diag (tens h tb)) eqn:Db.
  - destruct (shared h ta tb) as [|p Q] eqn:ES.
    + clear Fin. destruct (NE eq_refl eq_refl) as (NA & NB).
      destruct (Nat.eq_dec (t_len (tens h ta)) (t_len (tens h tb))) as [EN|EN].
      * destruct (contract_diag2_outer h ta tb W La Lb Da Db ES NA NB EN) as (h2' & tc' & E2 & CT & DG & LI & _).
        rewrite E in E2. injection E2 as <- <-. exists (legs_of h ta ++ legs_of h tb). split; auto.
        destruct (shared_nil_rest h ta tb ES) as [-> ->]. split; [reflexivity|]. split; auto. split; auto. intros C. now destruct (C eq_refl eq_refl).
      * destruct (contract_diag2_len h ta tb W La Lb Da Db NA NB EN) as (h2' & E2 & _). rewrite E in E2. discriminate.
    + apply Fin. repeat split; intros; discriminate.
  - destruct (legs_of h ta) as [|x X] eqn:EA.
    + destruct (contract_scalar_diag h ta tb W La Lb Da Db EA) as (h2' & ? & E2 & _). rewrite E in E2. discriminate.
    + apply Fin. repeat split; intros; discriminate.
  - destruct (legs_of h tb) as [|x X] eqn:EB.
    + destruct (contract_scalar_diag h tb ta (wf_pair_sym _ _ _ W) Lb La Db Da EB) as (? & h2' & _ & E2 & _). rewrite E in E2. discriminate.
    + apply Fin. repeat split; intros; discriminate.
  - apply Fin. repeat split; intros; discriminate.
Qed.

Lemma inv_step_ret (vok : Prop) (h : heap) ts hc cur s t G1 G2 rest cs cost hc' cur' cost' : wf_net h ts ->
  seq_inv false vok h ts hc cur ((s, G1) :: (t, G2) :: rest) cs -> ok_ret h G1 G2 -> (vok -> ok_val h G1 G2) ->
  seqStep (cur, cost) (s, t) hc = (hc', Ok (cur', cost')) ->
  cost' = cost + group_cost h G1 G2 /\ exists cs', seq_inv false vok h ts hc' cur' ((Nat.min s t, G1 ++ G2) :: rest) cs'.
Proof.
  intros W0 I OR OV E.
  destruct (inv_pair false vok h ts hc cur s t G1 G2 rest _ W0 I) as (c1 & c2 & crest & -> & Wc & Hp1 & Hp2 & (K1 & D1 & PL1) & (K2 & D2 & PL2) & PR & SH & PF & DM & EPC).
  pose proof (wf_net_pair _ _ _ _ Wc) as WP. unfold seqStep in E. rewrite Hp1, Hp2 in E. unfold bind at 1 in E.
  destruct (contractCost c1 c2 hc) as [h1 [[c lv]|e]] eqn:EC; [|discriminate].
  destruct (contractCost_ret hc c1 c2 h1 c lv WP EC) as (-> & O1).
  unfold bind in E. destruct (contractTwoTensors c1 c2 h1) as [h2 [tc|e]] eqn:E2; [|discriminate]. unfold ret in E. injection E as <- <- <-.
  rewrite EPC by (intros X Y; apply (OR X Y)). split; auto.
  pose proof (inv_ob false vok h hc h1 ts cur _ _ O1 I) as I1. pose proof (si_wf _ _ _ _ _ _ _ _ I1) as Wc1. pose proof (wf_net_pair _ _ _ _ Wc1) as WP1.
  assert (Et : tens h1 = tens hc) by apply O1.
  assert (ESH : shared h1 c1 c2 = shared hc c1 c2) by (apply shared_ob; auto).
  assert (LN : forall c G, Permutation (legs_of hc c) (free_legs h G) -> free_legs h G <> [] -> legs_of h1 c <> []).
  { intros c G P N EE. apply N. apply Permutation_nil. rewrite <- P. unfold legs_of in *. rewrite <- Et, EE. auto. }
  destruct (contract_ret h1 c1 c2 h2 tc WP1) as (L & CT & PL & DG & LI & V).
  { now rewrite Et. } { now rewrite Et. }
  { rewrite Et, D1, D2. intros X Y. destruct (OR X Y). split; eapply LN; eauto. }
  { exact E2. }
  exists (tc :: crest). apply (inv_join false vok h ts h1 h2 cur s t G1 G2 rest c1 c2 crest tc L); auto.
  intros VK. apply V. rewrite Et, D1, D2, ESH. intros X Y. destruct (OV VK X Y) as (l & l' & Hl & Hl' & Z). intros EE.
  assert (In (l, l') (shared hc c1 c2)) as II; [|rewrite EE in II; destruct II]. apply SH. repeat split; auto.
  - eapply (link_free1 h ts G1 G2 _ W0 PR); eauto.
  - eapply (link_free2 h ts G1 G2 _ W0 PR); eauto.
Qed.

Lemma seq_run_ret (vok : Prop) (h : heap) ts gs sq n : wf_net h ts ->
  complete (fun G1 G2 => ok_ret h G1 G2 /\ (vok -> ok_val h G1 G2)) (group_cost h) gs sq n ->
  forall hc cur cs cost hc' cur' cost', seq_inv false vok h ts hc cur gs cs ->
  foldM seqStep sq (cur, cost) hc = (hc', Ok (cur', cost')) ->
  cost' = cost + n /\ exists c G, seq_inv false vok h ts hc' cur' [(0, G)] [c].
Proof.
  intros W. induction 1 as [G|gs rest s t G1 G2 sq n N P [OR OV] CP IH]; intros hc cur cs cost hc' cur' cost' I E.
  - simpl in E. unfold ret in E. injection E as <- <- <-. split; [lia|].
    pose proof (si_pos _ _ _ _ _ _ _ _ I) as F. inversion F as [|? ? ? ? _ F']; subst. inversion F'; subst. eauto.
  - destruct (inv_perm false vok h hc ts cur gs _ cs P I) as (cs1 & PC & I1).
    cbn [foldM] in E. unfold bind in E. destruct (seqStep (cur, cost) (s, t) hc) as [h1 [[cur1 c1]|e]] eqn:E1; [|discriminate].
    destruct (inv_step_ret vok h ts hc cur s t G1 G2 rest cs1 cost h1 cur1 c1 W I1 OR OV E1) as (-> & cs2 & I2).
    destruct (IH _ _ _ _ _ _ _ I2 E) as (-> & R). split; [lia|auto].
Qed.

Lemma inplace_ret (vok : Prop) (h : heap) ts sq n h' t0 c cur : wf_net h ts -> (forall t, In t ts -> t_like (tens h t) = false) ->
  complete (fun G1 G2 => ok_ret h G1 G2 /\ (vok -> ok_val h G1 G2)) (group_cost h) (singles ts) sq n ->
  contractWithSeq ts sq true h = (h', Ok (t0, c, cur)) ->
  c = n /\ result_legs h h' ts t0 (fun l => l) /\
  (vok -> forall s, in_bounds h (free_legs h ts) s -> entry h' t0 s = netval h ts s).
Proof.
  intros W LI CP E. unfold contractWithSeq, bind in E. cbn [ret] in E. unfold ret at 1 in E.
  destruct (foldM seqStep sq (ts, 0) h) as [h1 [[cur1 c1]|e]] eqn:EF; [|discriminate].
  destruct cur1 as [|t1 cur1]; [discriminate|]. unfold ret in E. injection E as <- <- <- <-.
  destruct (seq_run_ret vok h ts _ sq n W CP h ts ts 0 _ _ _ (inv_init false vok h ts W LI) EF) as (-> & x & G & I).
  pose proof (si_pos _ _ _ _ _ _ _ _ I) as F. inversion F as [|? ? ? ? F0 _]; subst. simpl in F0. injection F0 as ->.
  split; auto.
  pose proof (si_grp _ _ _ _ _ _ _ _ I) as F1. inversion F1 as [|? ? ? ? (K & D & P) _]; subst. simpl in *.
  pose proof (si_part _ _ _ _ _ _ _ _ I) as PP. simpl in PP. rewrite app_nil_r in PP.
  assert (WG : wf_net h G) by (apply (wf_net_sub h G [] ts); auto; now rewrite app_nil_r).
  split; [constructor; auto|].
  - apply I. simpl; auto.
  - rewrite D. unfold all_diag. clear - PP. induction PP; simpl; try congruence. rewrite !andb_assoc. f_equal. apply andb_comm.
  - rewrite map_id, P. apply free_perm; auto.
  - intros l Hl. destruct (si_legs _ _ _ _ _ _ _ _ I l) as (X & Y & Z); auto. apply free_all in Hl. apply all_legs_In in Hl.
    destruct Hl as (u & Hu & Hl). eapply wt_alloc; eauto. now apply W.
  - intros VK s Hs. rewrite <- (si_val _ _ _ _ _ _ _ _ I VK s Hs). now rewrite netval_one.
Qed.

Lemma mapM_Err_at {X Y} (f : X -> M Y) : forall l (h : heap) h' ys, mapM f l h = (h', Ok ys) -> 
  forall pre x post, l = pre ++ x :: post -> exists h1 ys1 h2 y, mapM f pre h = (h1, Ok ys1) /\ f x h1 = (h2, Ok y).
Proof.
  intros l h h' ys E pre. revert l h h' ys E. induction pre as [|z pre IH]; intros l h h' ys E x post ->.
  - cbn [app mapM] in E. unfold bind in E. destruct (f x h) as [h1 [y|e]] eqn:E1; [|discriminate]. exists h, [], h1, y. auto.
  - cbn [app mapM] in E. unfold bind in E. destruct (f z h) as [h1 [y|e]] eqn:E1; [|discriminate].
    destruct (mapM f (pre ++ x :: post) h1) as [h2 [ys2|e]] eqn:E2; [|discriminate].
    destruct (IH _ _ _ _ E2 x post eq_refl) as (h3 & ys3 & h4 & y4 & E3 & E4).
    exists h3, (y :: ys3), h4, y4. split; auto. cbn [mapM]. unfold bind. now rewrite E1, E3.
Qed.

Lemma copyList_copyable (h : heap) ts h' cs : (forall t, In t ts -> wf_tensor h t) ->
  copyTensorList ts false h = (h', Ok cs) -> forall t, In t ts -> copyable h t.
Proof.
  intros W E. unfold copyTensorList, bind in E. destruct (mapM _ ts h) as [h1 [cs1|e]] eqn:EM; [|discriminate]. clear E.
  assert (forall n pre t post, List.length pre = n -> ts = pre ++ t :: post -> copyable h t) as G.
  { induction n as [n IH] using lt_wf_ind. intros pre t post Hn Ets (D & K & LE).
    destruct (mapM_Err_at _ _ _ _ _ EM pre t post Ets) as (h2 & ys & h3 & y & E1 & E2).
    destruct (phase1_ok false pre h) as (h2' & cs' & E1' & PH).
    - intros u Hu. apply W. rewrite Ets. apply in_app_iff; auto.
    - intros _ u Hu. apply in_split in Hu. destruct Hu as (p1 & p2 & ->). apply (IH (List.length p1)) with (pre := p1) (post := p2 ++ t :: post); auto.
      + rewrite app_length in Hn. simpl in Hn. lia.
      + rewrite Ets, <- app_assoc. reflexivity.
    - rewrite E1' in E1. injection E1 as -> ->.
      assert (Wt : wf_tensor h t) by (apply W; rewrite Ets; apply in_app_iff; simpl; auto).
      assert (ET : tens h2 t = tens h t) by (apply (p1_tens _ _ _ _ _ PH); apply Wt).
      rewrite copy_scalar_diag in E2; [discriminate| | | |].
      + apply (wf_same h h2); auto; [|apply PH|apply PH]. intros l Hl. unfold dim_of. rewrite (p1_legs _ _ _ _ _ PH); auto. now apply Wt.
      + now rewrite ET.
      + now rewrite ET.
      + unfold legs_of in *. now rewrite ET. }
  intros t Ht. apply in_split in Ht. destruct Ht as (pre & post & E). eapply G; eauto.
Qed.

Lemma outplace_ret (vok : Prop) (h : heap) ts sq n h' t0 c cur : wf_list h ts -> (forall t, In t ts -> t_like (tens h t) = false) ->
  complete (fun G1 G2 => ok_ret h G1 G2 /\ (vok -> ok_val h G1 G2)) (group_cost h) (singles ts) sq n ->
  contractWithSeq ts sq false h = (h', Ok (t0, c, cur)) ->
  c = n /\ exists cp, result_legs h h' ts t0 cp /\
  (vok -> forall s, in_bounds h (free_legs h ts) (fun l => s (cp l)) -> entry h' t0 s = netval h ts (fun l => s (cp l))).
Proof.
  intros WL LI CP E. pose proof (wl_net _ _ WL) as W.
  unfold contractWithSeq, bind in E. destruct (copyTensorList ts false h) as [h1 [cs|e]] eqn:EC; [|discriminate].
  destruct (copyTensorList_ok h ts false WL) as (h1' & ct & cp & EC2 & N & LK & EN).
  { intros _. eapply copyList_copyable; eauto. apply W. }
  rewrite EC in EC2. injection EC2 as <- ->.
  assert (CP2 : complete (fun G1 G2 => ok_ret h1 G1 G2 /\ (vok -> ok_val h1 G1 G2)) (group_cost h1) (singles (map ct ts)) sq n).
  { rewrite <- (singles_map ct ts).
    eapply (complete_gmap ts ct); [|exact CP| | |].
    - intros G1 G2 HI ND N1 N2 (OR & OV). 
      assert (I1 : incl G1 ts) by (intros x Hx; apply HI, in_app_iff; auto). assert (I2 : incl G2 ts) by (intros x Hx; apply HI, in_app_iff; auto).
      apply NoDup_app_inv in ND as ND'. destruct ND' as (ND1 & ND2 & _).
      split; [|apply (group_cost_map h h1 ts ct cp N); auto]. split.
      + unfold ok_ret. rewrite !(all_diag_map h h1 ts ct cp N) by auto. rewrite !(free_map h h1 ts ct cp N) by auto.
        intros X Y. destruct (OR X Y) as (P & Q). split; now apply map_nil_iff.
      + intros VK. unfold ok_val. rewrite !(all_diag_map h h1 ts ct cp N) by auto. intros X Y. destruct (OV VK X Y) as (l & l' & Hl & Hl' & Z).
        exists (cp l), (cp l'). rewrite !(all_legs_map h h1 ts ct cp N) by auto. split; [now apply in_map|]. split; [now apply in_map|].
        apply (nc_linked _ _ _ _ _ N); auto; [apply (al_sub h ts G1)|apply (al_sub h ts G2)]; auto.
    - rewrite singles_flat. apply incl_refl.
    - rewrite singles_flat. apply W.
    - intros g Hg. unfold singles in Hg. destruct g as [i G]. apply in_combine_r in Hg. apply in_map_iff in Hg. destruct Hg as (x & <- & _). discriminate. }
  destruct (inplace_ret vok h1 (map ct ts) sq n h' t0 c cur) as (-> & R & V).
  - apply N.
  - intros x Hx. apply in_map_iff in Hx. destruct Hx as (t & <- & Ht). rewrite (LK t Ht). now apply LI.
  - exact CP2.
  - unfold contractWithSeq, bind. unfold ret at 1. exact E.
  - split; auto. exists cp.
    assert (FM : free_legs h1 (map ct ts) = map cp (free_legs h ts)) by (apply (free_map h h1 ts ct cp N); [apply incl_refl|apply W]).
    assert (FS := free_sub h ts ts (incl_refl ts)). destruct R as [R1 R2 R3 R4 R5 R6]. rewrite FM in *. split; [constructor; auto|].
    + rewrite R3. apply (all_diag_map h h1 ts ct cp N). apply incl_refl.
    + intros l l' Hl Hl'. apply (nc_inj _ _ _ _ _ N); auto.
    + now rewrite map_id in R5.
    + intros l Hl. destruct (R6 (cp l)) as (-> & ->); [now apply in_map|]. apply (nc_leg _ _ _ _ _ N). auto.
    + intros VK s B. rewrite (V VK). apply (netval_copy h h1 ts ct cp W N); auto.
      intros x Hx. apply in_map_iff in Hx. destruct Hx as (l & <- & Hl). destruct (nc_leg _ _ _ _ _ N l) as (_ & ->); [apply FS; exact Hl|]. apply (B l Hl).
Qed.
End Rt.
