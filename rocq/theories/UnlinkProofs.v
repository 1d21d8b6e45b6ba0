(** The legs of a tensor returned by contract carry no bond: contractions link nothing, and the legs that are left were never linked. *)
From Coq Require Import List Arith Bool String Ascii Lia Permutation.
From Verif Require Import Base Sums NdModel HeapModel FuncsModel TensorModel TensorSpec ContractModel NetSpec SearchModel SearchSpec GraphModel NetGraphModel NetGraphSpec FtnModel FtnSpec FtnNetSpec NamedSpec
  FuncsProofs NdProofs TensorProofs LabelProofs CopyProofs LinkProofs NetProofs SumpairsProofs MergeProofs SeqProofs RetProofs NetRunProofs FrameProofs FtnFrameProofs FtnCopyProofs FtnLinkProofs FtnNetProofs
  FtnRunProofs FtnPostProofs FtnMainProofs FtnStaleProofs NamedProofs.
Import ListNotations.
Local Open Scope nat_scope.

Section Un.
Context {A : Type} {HA : SR A}.
Notation heap := (heap A).
Notation world := (world A).

Ltac nlp := apply nolink_pure; first [apply pure_ret|apply pure_raise|apply pure_reads|apply pure_readsR|apply pure_liftR|apply pure_check|apply pure_assert].
Ltac nl := repeat first [nlp | apply nolink_bind; [|intros ?] ].
Lemma nolink_setLegTensor l t : nolink (@setLegTensor A l t).
Proof. intros h. unfold setLegTensor, modify. simpl. split; auto. intros x b Hx. unfold upd. destruct (Nat.eqb_spec x l) as [->|]; simpl; auto. Qed.
Lemma nolink_alloc_tens f : nolink (@allocs A tid (fun h => alloc_tens h (f h))).
Proof. intros h. cbn. split; auto. Qed.
Lemma nolink_mapM {X Y} (f : X -> @M A Y) l : (forall x, nolink (f x)) -> nolink (mapM f l).
Proof. intros H. induction l as [|x l IH]; cbn [mapM]; [nl|]. apply nolink_bind; [apply H|]. intros y. apply nolink_bind; [exact IH|]. intros ys. nl. Qed.
Lemma nolink_makeLegs t labs sh : nolink (@makeLegs A t labs sh).
Proof.
  revert sh. induction labs as [|n labs IH]; intros [|d sh]; cbn [makeLegs]; [nlp|nlp|nlp|]. apply nolink_bind; [apply nolink_newLeg|]. intros l. apply nolink_bind; [apply IH|]. intros ls. nl.
Qed.
Lemma nolink_generateData sh data like : nolink (@generateData A sh data like).
Proof.
  unfold generateData. destruct like; [nl|]. destruct data as [a|]; [destruct (dec (ashape a) sh); nl|]. apply nolink_bind; [|intros l; nl]. intros h. cbn. split; auto.
Qed.
Lemma nolink_legs t ls labs sh : nolink (match ls with Some ls => bind (iterM (fun l => @setLegTensor A l (Some t)) ls) (fun _ => ret ls) | None => makeLegs t labs sh end).
Proof. destruct ls; [|apply nolink_makeLegs]. apply nolink_bind; [|intros ?; nl]. apply nolink_iterM. intros l1. apply nolink_setLegTensor. Qed.
Lemma nolink_mkDense sh labs data name ls like : nolink (@mkDense A sh labs data name ls like).
Proof.
  unfold mkDense. apply nolink_bind.
  - destruct ls; [nl|]. destruct sh; [nl; destruct labs; nl|]. destruct data; [nl; destruct labs; nl|]. destruct like, labs; nl.
  - intros [sh' labs']. apply nolink_bind; [apply nolink_generateData|]. intros data'. apply nolink_bind; [nl|]. intros t. apply nolink_bind; [apply nolink_legs|]. intros ls'. apply nolink_alloc_tens.
Qed.
Lemma nolink_mkDiag sh labs data name ls like : nolink (@mkDiag A HA sh labs data name ls like).
Proof.
  unfold mkDiag. destruct (match ls, labs with None, None => _ | _, _ => _ end); [apply nolink_alloc_tens|]. apply nolink_bind.
  - destruct ls; [nl|]. destruct sh as [[n|l]|]; [nl; destruct labs; nl|nl; destruct labs; nl|]. destruct data; [|nl]. nl. destruct labs; nl.
  - intros [sh' labs']. apply nolink_bind; [nl|]. intros data'. apply nolink_bind; [nl|]. intros t. apply nolink_bind; [apply nolink_legs|]. intros ls'. apply nolink_alloc_tens.
Qed.
Lemma nolink_shareBonds ta tb : nolink (@shareBonds A ta tb).
Proof.
  unfold shareBonds. nl. apply nolink_mapM. intros l. unfold shareLeg. nl. destruct x0 as [l'|]; [|nl]. destruct x2 as [b|]; [|nl]. destruct (inb l' x1); [|nl]. nl.
  destruct (Nat.eqb _ _); [|nl]. intros h. cbn. split; auto.
Qed.
Lemma nolink_getArr t : nolink (@getArr A t).
Proof. unfold getArr. nl. destruct x; nl. Qed.
Ltac nc := repeat first [nlp | apply nolink_getArr | apply nolink_mkDense | apply nolink_mkDiag | apply nolink_keeps, keeps_moveLegsToFront | apply nolink_bind; [|intros ?]
  | match goal with |- nolink (if ?b then _ else _) => destruct b end | progress cbv zeta ].
Lemma nolink_contractTwoTensors ta tb : nolink (@contractTwoTensors A HA ta tb).
Proof.
  assert (O : forall a b, nolink (@contractOrdered A HA a b)).
  { intros a b. unfold contractOrdered, contractOuter, contractBonds. apply nolink_bind; [apply nolink_shareBonds|]. intros bs. nc. }
  unfold contractTwoTensors. apply nolink_bind; [nl|]. intros da. apply nolink_bind; [nl|]. intros db. destruct (_ && _); apply O.
Qed.
Lemma nolink_contractCost ta tb : nolink (@contractCost A ta tb).
Proof.
  unfold contractCost. apply nolink_bind; [nl|]. intros da. apply nolink_bind; [nl|]. intros db. destruct (da && db); [nl|]. apply nolink_bind; [apply nolink_shareBonds|]. intros bs. nl.
  cbv zeta. destruct (Nat.eqb _ 0); nl.
Qed.
Lemma nolink_run sq : forall st, nolink (foldM (@seqStep A HA) sq st).
Proof.
  induction sq as [|p sq IH]; intros st; cbn [foldM]; [nl|]. apply nolink_bind; [|auto]. destruct st as [ts c], p as [s t]. unfold seqStep.
  destruct (nth_error ts s); [|nl]. destruct (nth_error ts t); [|nl]. apply nolink_bind; [apply nolink_contractCost|]. intros [c' z]. apply nolink_bind; [apply nolink_contractTwoTensors|]. intros ?. nl.
Qed.
Lemma nolink_contractWithSeq ts sq : nolink (@contractWithSeq A HA ts sq true).
Proof. unfold contractWithSeq. apply nolink_bind; [nl|]. intros ts0. apply nolink_bind; [apply nolink_run|]. intros [ts' c]. destruct ts'; nl. Qed.
Lemma nolink_renameLabel t a b : nolink (@renameLabel A t a b).
Proof. unfold renameLabel. nl. destruct x; [|nl]. apply nolink_setLegName. Qed.
Lemma nolink_removeTensorTag t : nolink (@removeTensorTag A t).
Proof.
  unfold removeTensorTag. nl. apply nolink_iterM. intros l. apply nolink_bind; [nl|]. intros x0. destruct x0; nl. destruct (findDash s); nl. apply nolink_setLegName.
Qed.
Lemma nolink_postNames t l : nolink (@postNames A t l).
Proof. unfold postNames. apply nolink_iterM. intros [[a b] c]. apply nolink_renameLabel. Qed.

Notation Cof := FtnLinkProofs.Cof.
Notation cs := FtnNetProofs.cs.
Lemma base_unlinked (h0 hT hL : heap) d loc pre ps : (forall p, In p d -> wf_tensor h0 (snd p)) -> (forall p, In p d -> t_like (tens h0 (snd p)) = false) ->
  locals h0 hT (fun p => map (tag_name (fst p)) (pre p)) d loc -> links_made hT hL (map (FtnLinkProofs.cp2 h0 hT d loc) ps) -> incl (role_plegs ps) (roles h0 d) ->
  (forall p, In p (map (FtnLinkProofs.cp2 h0 hT d loc) ps) -> dim_of hT (fst p) = dim_of hT (snd p)) -> proper ps ->
  forall us, Permutation us d -> NoDup (map fst us) -> forall sq (h' : heap) t0 c cur, seq_fits h0 us ps sq -> contractWithSeq (cs loc us) sq true hL = (h', Ok (t0, c, cur)) ->
  wf_tensor h' t0 /\ forall l, In l (legs_of h' t0) -> l_bond (legs h' l) = None.
Proof.
  intros Wd Ld Lo LM IR DM PR us P Nu sq h' t0 c cur SF R. assert (Iu : incl us d) by (intros x Hx; eapply Permutation_in; eauto).
  destruct (fits_to h0 hT hL d loc pre ps Wd Lo LM IR DM us Iu Nu sq SF) as (n & RO).
  pose proof (cs_wf h0 hT hL d loc pre ps Wd Lo LM IR DM us Iu Nu) as W.
  assert (TL : forall t, In t (cs loc us) -> t_like (tens hL t) = false).
  { intros t Ht. apply cs_In in Ht as (nm & t' & H & ->). rewrite (mi_like _ _ _ _ _ (mir_L h0 hT hL d loc pre ps Lo LM nm t' (Iu _ H))). apply (Ld (nm, t')). auto. }
  destruct (inplace_ret True hL (cs loc us) sq n h' t0 c cur W TL RO R) as (_ & RL & EV).
  pose proof (free_is h0 hT hL d loc pre ps Wd Lo LM IR DM PR us Iu Nu) as FI.
  split; [apply (rl_wf _ _ _ _ _ RL)|]. intros l Hl.
  assert (Hl' : In l (map (FtnLinkProofs.cp h0 hT d loc) (filter (free_role (within us ps)) (roles h0 us)))).
  { eapply Permutation_in; [exact FI|]. eapply Permutation_in; [|exact Hl]. eapply Permutation_trans; [apply RL|]. rewrite map_id. apply Permutation_refl. }
  apply in_map_iff in Hl' as (r & <- & Hr). apply filter_In in Hr as (Hr & Hf). apply (roles_incl h0 d us Iu) in Hr.
  rewrite (within_all us d ps h0 P IR) in Hf.
  assert (B0 : l_bond (legs hL (FtnLinkProofs.cp h0 hT d loc r)) = None).
  { rewrite (la_out _ _ _ (lm_added _ _ _ LM)); [apply (bond_free h0 hT d loc pre Wd Lo); auto|].
    intros X. change (In (FtnLinkProofs.cp h0 hT d loc r) (plegs (map (FtnLinkProofs.cp2 h0 hT d loc) ps))) in X. rewrite plegs_cp2 in X. apply in_map_iff in X as (r1 & E & J).
    assert (r1 = r) as -> by (apply (cp_inj h0 hT d loc pre Wd Lo); auto).
    unfold free_role in Hf. apply negb_true_iff in Hf. apply inb_false in Hf. auto. }
  pose proof (nolink_contractWithSeq (cs loc us) sq hL) as NL. rewrite R in NL. cbn [fst] in NL. destruct NL as (L1 & L2).
  destruct (l_bond (legs h' (FtnLinkProofs.cp h0 hT d loc r))) as [b|] eqn:E; [|reflexivity].
  destruct (L2 (FtnLinkProofs.cp h0 hT d loc r) b (wt_alloc _ _ (rl_wf _ _ _ _ _ RL) _ Hl) E) as (_ & X). rewrite B0 in X. discriminate X.
Qed.

Variable symdiff : list nat -> list nat -> list nat.
Hypothesis Hsd : symdiff_ok symdiff.
Variable fuel : nat.
(** nothing was joined at the end, so every leg of the result is one of the copies *)
Lemma contract_unlinked w f d b (w' : world) t names links after : contract symdiff fuel f d b w = (w', Ok t) -> ftn_is w f names links [] after ->
  (forall p, In p d -> wf_tensor (w_heap w) (snd p) /\ t_like (tens (w_heap w) (snd p)) = false /\ t_diag (tens (w_heap w) (snd p)) = false) -> NoDup (map fst d) -> plinks_ok links ->
  wf_tensor (w_heap w') t -> forall l, In l (legs_of (w_heap w') t) -> l_bond (legs (w_heap w') l) = None.
Proof.
  intros R FI Ud ND PL WF. destruct (contract_inv _ _ _ _ _ _ _ _ R) as (loc & hT & hL & sq & CR). set (h0 := w_heap w) in *.
  assert (Wd : forall p, In p d -> wf_tensor h0 (snd p)) by (intros p Hp; now apply Ud). assert (Ld : forall p, In p d -> t_like (tens h0 (snd p)) = false) by (intros p Hp; now apply Ud).
  destruct (contract_declares symdiff fuel w f d b w' t links R Wd ND (fi_links _ _ _ _ _ _ FI)) as [PN (ps & FD)].
  assert (FD1 := FD). rewrite (fi_before _ _ _ _ _ _ FI) in FD1. destruct (declares_ports _ _ _ _ FD1) as [El Hin].
  assert (PR : proper ps) by (apply (ports_proper (w_heap w)); rewrite <- El; exact PL).
  pose proof (run_locals _ _ _ _ _ _ _ _ _ _ _ _ CR Wd ND) as Lo. fold h0 in Lo. set (pre := pre_names h0 (f_before (w_ftn w f))) in *.
  pose proof (cr_links _ _ _ _ _ _ _ _ _ _ _ _ CR) as RL. rewrite (fi_links _ _ _ _ _ _ FI) in RL.
  destruct (linkAll_ok h0 hT d loc pre Wd Lo (f_before (w_ftn w f)) links (fun p => eq_refl) ps hT hL eq_refl (fun l => eq_refl) FD (proj1 PR) RL) as (LM & IR & DM).
  destruct (perm_dict _ _ PN) as (us & PU & NU).
  assert (Nu : NoDup (map fst us)) by (eapply Permutation_NoDup; [|exact ND]; apply Permutation_map; now symmetry).
  assert (Iu : incl us d) by (intros x Hx; eapply Permutation_in; eauto).
  assert (ECS : map (Cof loc) (namesOf w f) = cs loc us) by (rewrite NU, map_map; reflexivity).
  assert (SF : seq_fits h0 us ps sq).
  { destruct (cr_from _ _ _ _ _ _ _ _ _ _ _ _ CR) as [(H & _)|(_ & c & H)].
    - destruct (fi_seq _ _ _ _ _ _ FI sq H) as (h1 & us0 & ps0 & L0 & SF0).
      eapply dense_fits; [|intros p Hp; apply Ud; eapply Permutation_in; eauto|exact SF0]. rewrite L0, <- (fi_names _ _ _ _ _ _ FI), NU, map_length. reflexivity.
    - rewrite ECS in H. destruct (capping_fits symdiff Hsd fuel hL (cs loc us) (f_typ (w_ftn w f)) sq c) as (n & RO & _); auto.
      + apply (cs_wf h0 hT hL d loc pre ps Wd Lo LM IR DM us Iu Nu).
      + apply (cs_closed h0 hT hL d loc pre ps Wd Lo LM IR PR us PU).
      + exact (fits_from h0 hT hL d loc pre ps Wd Lo LM IR us Iu Nu sq n RO). }
  destruct (cr_run _ _ _ _ _ _ _ _ _ _ _ _ CR) as (hR & c & cur & h2 & h3 & E1 & E2 & E3 & E4). rewrite ECS in E1.
  pose proof (base_unlinked h0 hT hL d loc pre ps Wd Ld Lo LM IR DM PR us PU Nu sq hR t c cur SF E1) as (WR & BU).
  rewrite (fi_out _ _ _ _ _ _ FI) in E2. cbn in E2. injection E2 as <-.
  assert (NL : forall l bd, l < nleg (w_heap w') -> l_bond (legs (w_heap w') l) = Some bd -> l_bond (legs hR l) = Some bd).
  { intros l bd Hl Eb. pose proof (nolink_postNames t (f_after (w_ftn w f)) hR) as N3. rewrite E3 in N3. cbn [fst] in N3. destruct N3 as (_ & N3).
    destruct b; [|rewrite E4 in *; apply (N3 l bd); auto]. pose proof (nolink_removeTensorTag t h3) as N4. rewrite E4 in N4. cbn [fst] in N4. destruct N4 as (_ & N4).
    destruct (N4 l bd Hl Eb) as (H1 & H2). apply (N3 l bd); auto. }
  assert (EL : legs_of (w_heap w') t = legs_of hR t).
  { pose proof (postNames_tens t _ _ _ (wt_nodup _ _ WR) E3) as T3. assert (L3 : legs_of h3 t = legs_of hR t) by (unfold legs_of; now rewrite T3).
    destruct b; [|rewrite E4; exact L3]. rewrite <- L3. unfold legs_of. rewrite (untag_tens t h3 (w_heap w')); auto. rewrite L3. apply WR. }
  intros l Hl. destruct (l_bond (legs (w_heap w') l)) as [bd|] eqn:E; [|reflexivity]. apply NL in E; [|apply (wt_alloc _ _ WF); exact Hl]. rewrite EL in Hl. rewrite (BU l Hl) in E. discriminate.
Qed.
End Un.
