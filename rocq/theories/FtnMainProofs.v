(** FiniteTensorNetwork.contract computes the declared network. *)
From Coq Require Import List Arith Bool String Ascii Lia Permutation.
From Verif Require Import Base Sums NdModel HeapModel FuncsModel TensorModel TensorSpec ContractModel NetSpec SearchModel SearchSpec GraphModel NetGraphModel NetGraphSpec FtnModel FtnSpec FtnNetSpec
  FuncsProofs NdProofs TensorProofs LabelProofs CopyProofs LinkProofs NetProofs SumpairsProofs MergeProofs SeqProofs RetProofs NetRunProofs FrameProofs FtnProofs FtnCopyProofs FtnLinkProofs FtnNetProofs FtnRunProofs FtnPostProofs.
Import ListNotations.
Local Open Scope nat_scope.

Section Main.
Context {A : Type} {HA : SR A}.
Notation heap := (heap A).
Notation world := (world A).
Variable symdiff : list nat -> list nat -> list nat.
Hypothesis SD : symdiff_ok symdiff.
Variable fuel : nat.

Lemma wbind_inv {X Y} (m : @WM A X) (k : X -> @WM A Y) w w' y : wbind m k w = (w', Ok y) -> exists w1 x, m w = (w1, Ok x) /\ k x w1 = (w', Ok y).
Proof. unfold wbind. destruct (m w) as (w1 & [x|]); [eauto|discriminate]. Qed.
Lemma lift_inv {X} (m : @M A X) w w' x : lift m w = (w', Ok x) ->
  exists h', m (w_heap w) = (h', Ok x) /\ w' = mkWorld h' (w_names w) (w_nnames w) (w_ftn w) (w_nftn w).
Proof. unfold lift. destruct (m (w_heap w)) as (h' & r). intros E. injection E as <- ->. eauto. Qed.
Lemma locals_get loc names : forall (h h' : heap) ts, mapM (localGet loc) names h = (h', Ok ts) -> h' = h /\ ts = map (Cof loc) names.
Proof.
  induction names as [|n names IH]; intros h h' ts; cbn [mapM map]; [intros E; injection E as <- <-; auto|]. unfold bind at 1. unfold localGet at 1, Cof at 1.
  destruct (dictGet loc n) as [c|]; [|discriminate]. cbn [ret]. unfold bind. destruct (mapM (localGet loc) names h) as (h1 & [ys|]) eqn:E; [|discriminate]. intros R. injection R as <- <-.
  destruct (IH _ _ _ E) as (-> & ->). auto.
Qed.

Record contract_run (w : world) (f : nat) (d : list (string * tid)) (b : bool) (w' : world) (t : tid) (loc : list (string * tid)) (hT hL : heap) (sq : list (nat * nat)) : Prop := {
  cr_perm : Permutation (namesOf w f) (map fst d);
  cr_copies : exists h1 h2, localCopies d (w_heap w) = (h1, Ok loc) /\ preNames loc (f_before (w_ftn w f)) h1 = (h2, Ok tt) /\ tagAll loc h2 = (hT, Ok tt);
  cr_links : linkAll loc (f_links (w_ftn w f)) hT = (hL, Ok tt);
  cr_seq : f_seq (w_ftn w' f) = Some sq;
  cr_from : f_seq (w_ftn w f) = Some sq /\ (f_real (w_ftn w f) = false \/ snd (loadBondDims hL loc (f_dims (w_ftn w f), false)) = false) \/
            (f_seq (w_ftn w f) = None \/ f_real (w_ftn w f) = true /\ snd (loadBondDims hL loc (f_dims (w_ftn w f), false)) = true) /\
            exists c, generateOptimalSequence symdiff fuel hL (map (Cof loc) (namesOf w f)) false (f_typ (w_ftn w f)) = Ok (sq, c);
  cr_run : exists hR c cur h2 h3, contractWithSeq (map (Cof loc) (namesOf w f)) sq true hL = (hR, Ok (t, c, cur)) /\
            postOut t (f_out (w_ftn w f)) hR = (h2, Ok tt) /\ postNames t (f_after (w_ftn w f)) h2 = (h3, Ok tt) /\
            (if b then removeTensorTag t h3 = (w_heap w', Ok tt) else w_heap w' = h3);
  cr_dims : f_dims (w_ftn w' f) = fst (loadBondDims hL loc (f_dims (w_ftn w f), false)) }.

Lemma contract_inv w f d b w' t : contract symdiff fuel f d b w = (w', Ok t) -> exists loc hT hL sq, contract_run w f d b w' t loc hT hL sq.
Proof.
  intros R. unfold contract in R. unfold wbind at 1, lock at 1, setF at 1 in R.
  set (w0 := mkWorld (w_heap w) (w_names w) (w_nnames w) (upd (w_ftn w) f (set_locked true (w_ftn w f))) (w_nftn w)) in R.
  assert (F0 : w_ftn w0 f = set_locked true (w_ftn w f)) by (unfold w0; simpl; now rewrite upd_same).
  assert (N0 : namesOf w0 f = namesOf w f) by (unfold namesOf; rewrite F0; reflexivity).
  unfold wbind at 1, wreads at 1 in R. rewrite N0 in R. apply wbind_inv in R as (w1 & [] & E1 & R). destruct (compareLists (namesOf w f) (map fst d)) eqn:EC; [|discriminate]. injection E1 as <-.
  unfold wbind at 1, wreads at 1 in R. apply wbind_inv in R as (w1 & loc & E1 & R). apply lift_inv in E1 as (h1 & E1 & ->). change (w_heap w0) with (w_heap w) in E1.
  apply wbind_inv in R as (w2 & [] & E2 & R). apply lift_inv in E2 as (h2 & E2 & ->). cbn [w_heap w_names w_nnames w_ftn w_nftn] in *.
  apply wbind_inv in R as (w3 & [] & E3 & R). apply lift_inv in E3 as (hT & E3 & ->). cbn [w_heap w_names w_nnames w_ftn w_nftn] in *.
  apply wbind_inv in R as (w4 & [] & E4 & R). apply lift_inv in E4 as (hL & E4 & ->). cbn [w_heap w_names w_nnames w_ftn w_nftn] in *.
  unfold wbind at 1, wreads at 1 in R. unfold wbind at 1, setF at 1 in R. cbn [w_heap w_names w_nnames w_ftn w_nftn] in R.
  apply wbind_inv in R as (w5 & ts & E5 & R). apply lift_inv in E5 as (h5 & E5 & ->). cbn [w_heap w_names w_nnames w_ftn w_nftn] in *.
  apply locals_get in E5 as (-> & ->). unfold wbind at 1, wreads at 1 in R. cbn [w_heap w_names w_nnames w_ftn w_nftn] in R.
  rewrite upd_same in R. unfold w0 in F0, R, E2, E4. cbn [w_ftn w_names w_nnames w_nftn] in F0, R, E2, E4. rewrite F0 in R.
  rewrite F0 in E2, E4. change (f_before (set_locked true (w_ftn w f))) with (f_before (w_ftn w f)) in E2. change (f_links (set_locked true (w_ftn w f))) with (f_links (w_ftn w f)) in E4.
  change (f_dims (set_locked true (w_ftn w f))) with (f_dims (w_ftn w f)) in R.
  destruct (loadBondDims hL loc (f_dims (w_ftn w f), false)) as (m & ch) eqn:EL.
  set (r5 := set_dims m (set_changed ch (set_locked true (w_ftn w f)))) in R.
  change (f_seq r5) with (f_seq (w_ftn w f)) in R. change (f_real r5) with (f_real (w_ftn w f)) in R. change (f_changed r5) with ch in R. change (f_typ r5) with (f_typ (w_ftn w f)) in R.
  change (f_out r5) with (f_out (w_ftn w f)) in R. change (f_after r5) with (f_after (w_ftn w f)) in R.
  apply wbind_inv in R as (w6 & sq & E6 & R).
  apply wbind_inv in R as (w7 & t0 & E7 & R). apply lift_inv in E7 as (hR & E7 & ->).
  apply wbind_inv in R as (w8 & [] & E8 & R). apply lift_inv in E8 as (h8 & E8 & ->). cbn [w_heap w_names w_nnames w_ftn w_nftn] in *.
  apply wbind_inv in R as (w9 & [] & E9 & R). apply lift_inv in E9 as (h9 & E9 & ->). cbn [w_heap w_names w_nnames w_ftn w_nftn] in *.
  apply wbind_inv in R as (w10 & [] & E10 & R). injection R as <- <-.
  assert (K10 : w_ftn w10 = w_ftn w6 /\ if b then removeTensorTag t0 h9 = (w_heap w10, Ok tt) else w_heap w10 = h9).
  { destruct b; [apply lift_inv in E10 as (h10 & E10 & ->); auto|injection E10 as <-; auto]. }
  destruct K10 as (K10 & K11).
  assert (K6 : w_heap w6 = hL /\ f_seq (w_ftn w6 f) = Some sq /\ f_dims (w_ftn w6 f) = m /\
    (f_seq (w_ftn w f) = Some sq /\ (f_real (w_ftn w f) = false \/ ch = false) \/
     (f_seq (w_ftn w f) = None \/ f_real (w_ftn w f) = true /\ ch = true) /\
            exists c, generateOptimalSequence symdiff fuel hL (map (Cof loc) (namesOf w f)) false (f_typ (w_ftn w f)) = Ok (sq, c))).
  { assert (GEN : forall w5, w_heap w5 = hL -> w_ftn w5 f = r5 -> wbind (lift (readsR (fun h => generateOptimalSequence symdiff fuel h (map (Cof loc) (namesOf w f)) false (f_typ (w_ftn w f)))))
        (fun p => wbind (setF f (set_seq (Some (fst p)))) (fun _ => wret (fst p))) w5 = (w6, Ok sq) ->
        w_heap w6 = hL /\ f_seq (w_ftn w6 f) = Some sq /\ f_dims (w_ftn w6 f) = m /\ exists c, generateOptimalSequence symdiff fuel hL (map (Cof loc) (namesOf w f)) false (f_typ (w_ftn w f)) = Ok (sq, c)).
    { intros w5 EH EF E. apply wbind_inv in E as (w5' & p & Ea & Eb). apply lift_inv in Ea as (ha & Ea & ->). unfold readsR in Ea. injection Ea as <- Ea. rewrite EH in *. unfold wbind, setF, wret in Eb. injection Eb as <- <-.
      cbn [w_heap w_ftn]. rewrite upd_same. split; auto. split; [reflexivity|]. split; [rewrite EF; reflexivity|]. exists (snd p). rewrite Ea. now destruct p. }
    destruct (f_seq (w_ftn w f)) as [sq0|] eqn:ES; [destruct (f_real (w_ftn w f) && ch) eqn:EB|].
    - apply andb_true_iff in EB as (EB1 & ->). apply GEN in E6 as (H1 & H2 & H3 & H4); [|reflexivity|cbn [w_ftn]; now rewrite upd_same]. split; [auto|]. split; [auto|]. split; [auto|]. right. split; auto.
    - injection E6 as <- <-. cbn [w_heap w_ftn]. rewrite upd_same. split; [reflexivity|]. split; [exact ES|]. split; [reflexivity|]. left. split; auto. apply andb_false_iff in EB. exact EB.
    - apply GEN in E6 as (H1 & H2 & H3 & H4); [|reflexivity|cbn [w_ftn]; now rewrite upd_same]. split; [auto|]. split; [auto|]. split; [auto|]. right. split; auto. }
  destruct K6 as (K6 & K7 & K8 & K9). rewrite K6 in E7.
  exists loc, hT, hL, sq. apply Build_contract_run.
  - now apply compareLists_perm.
  - eauto 6.
  - exact E4.
  - now rewrite K10.
  - rewrite EL. exact K9.
  - unfold contractWithSequence, contractAndCost in E7. unfold bind at 1 in E7. unfold bind at 1 in E7. cbn [ret] in E7.
    destruct (contractWithSeq (map (Cof loc) (namesOf w f)) sq true hL) as (h10 & [[[t1 c1] cur1]|]) eqn:E11; [|discriminate]. injection E7 as <- <-. exists h10, c1, cur1, h8, h9. auto.
  - rewrite K10, EL. exact K8.
Qed.

(** the copies, as the proofs about them want it *)
Lemma run_locals w f d b w' t loc hT hL sq : contract_run w f d b w' t loc hT hL sq -> (forall p, In p d -> wf_tensor (w_heap w) (snd p)) -> NoDup (map fst d) ->
  locals (w_heap w) hT (fun p => map (tag_name (fst p)) (pre_names (w_heap w) (f_before (w_ftn w f)) p)) d loc.
Proof.
  intros CR W ND. destruct (cr_copies _ _ _ _ _ _ _ _ _ _ CR) as (h1 & h2 & E1 & E2 & E3). set (h0 := w_heap w) in *.
  destruct (localCopies_ok h0 d h0 h1 loc (ext_refl h0) W E1) as (X & MI & N1 & N2 & _ & N3).
  assert (L1 : locals h0 h1 (fun p => names_of h0 (snd p)) d loc) by (constructor; auto; intros l Hl; now apply N3).
  destruct (preNames_ok h0 d loc (f_before (w_ftn w f)) h1 h2 _ L1 E2) as (L2 & _).
  destruct (tagAll_ok h0 d loc (pre_names h0 (f_before (w_ftn w f))) loc [] h2 hT eq_refl L2 E3) as (L3 & _). exact L3.
Qed.

Lemma perm_dict (names : list string) (d : list (string * tid)) : Permutation names (map fst d) -> exists us, Permutation us d /\ names = map fst us.
Proof. intros P. apply Permutation_map_inv in P as (us & E & P). exists us. split; auto. now symmetry. Qed.
Lemma within_all us d ps (h : heap) : Permutation us d -> incl (role_plegs ps) (roles h d) -> within us ps = ps.
Proof.
  intros P I. unfold within. assert (K : forall r, In r (role_plegs ps) -> inb (fst r) (map fst us) = true).
  { intros r Hr. apply I, role_In in Hr as (t & Ht & _). apply inb_spec. apply in_map_iff. exists (fst r, t). split; auto. eapply Permutation_in; [symmetry; exact P|exact Ht]. }
  assert (K2 : forall p, In p ps -> inb (fst (fst p)) (map fst us) && inb (fst (snd p)) (map fst us) = true).
  { intros p Hp. rewrite !K; auto; unfold role_plegs; apply in_app_iff; [right|left]; now apply in_map. }
  clear K I. induction ps as [|p ps IH]; auto. cbn [filter]. rewrite K2 by (simpl; auto). apply (f_equal (cons p)). apply IH. intros q Hq. apply K2. simpl; auto.
Qed.

(** the part [us] of the dictionary that a cached or new sequence contracts *)
Lemma contract_part w f d b w' t links ps us xs : contract symdiff fuel f d b w = (w', Ok t) ->
  (forall p, In p d -> wf_tensor (w_heap w) (snd p) /\ t_like (tens (w_heap w) (snd p)) = false) -> NoDup (map fst d) ->
  f_links (w_ftn w f) = map stored links -> Forall2 (declares (w_heap w) (f_before (w_ftn w f)) d) links ps -> proper ps ->
  Permutation (us ++ xs) d -> namesOf w f = map fst (us ++ xs) ->
  (forall loc hT hL sq, contract_run w f d b w' t loc hT hL sq ->
     locals (w_heap w) hT (fun p => map (tag_name (fst p)) (pre_names (w_heap w) (f_before (w_ftn w f)) p)) d loc ->
     links_made hT hL (map (FtnLinkProofs.cp2 (w_heap w) hT d loc) ps) -> seq_fits (w_heap w) us ps sq \/ xs = []) ->
  (xs = [] -> forall sq, f_seq (w_ftn w f) = Some sq -> seq_fits (w_heap w) us ps sq) ->
  exists items sq, result_items (w_heap w) (f_before (w_ftn w f)) us (within us ps) (f_out (w_ftn w f)) (f_after (w_ftn w f)) b items /\
    represents (w_heap w) (w_heap w') t items (rval (w_heap w) us (within us ps)) /\
    f_seq (w_ftn w' f) = Some sq /\ seq_fits (w_heap w) us ps sq /\ incl (role_plegs ps) (roles (w_heap w) d) /\
    t_like (tens (w_heap w') t) = false /\ t_diag (tens (w_heap w') t) = forallb (fun p => t_diag (tens (w_heap w) (snd p))) us.
Proof.
  intros R Wd0 ND EL FD PR P EN FIT CACHE. destruct (contract_inv _ _ _ _ _ _ R) as (loc & hT & hL & sq & CR). set (h0 := w_heap w) in *.
  assert (Wd : forall p, In p d -> wf_tensor h0 (snd p)) by (intros p Hp; now apply Wd0). assert (Ld : forall p, In p d -> t_like (tens h0 (snd p)) = false) by (intros p Hp; now apply Wd0).
  pose proof (run_locals _ _ _ _ _ _ _ _ _ _ CR Wd ND) as Lo. fold h0 in Lo. set (pre := pre_names h0 (f_before (w_ftn w f))) in *.
  pose proof (cr_links _ _ _ _ _ _ _ _ _ _ CR) as RL. rewrite EL in RL.
  destruct (linkAll_ok h0 hT d loc pre Wd Lo (f_before (w_ftn w f)) links (fun p => eq_refl) ps hT hL eq_refl (fun l => eq_refl) FD (proj1 PR) RL) as (LM & IR & DM).
  assert (Iu : incl us d) by (intros x Hx; eapply Permutation_in; [exact P|apply in_app_iff; auto]).
  assert (Nd : NoDup (map fst (us ++ xs))) by (eapply Permutation_NoDup; [|exact ND]; apply Permutation_map; now symmetry).
  assert (Nu : NoDup (map fst us)) by (rewrite map_app in Nd; eapply NoDup_app_l; eauto).
  assert (ECS : map (Cof loc) (namesOf w f) = cs loc us ++ cs loc xs) by (rewrite EN, map_map, map_app; reflexivity).
  assert (SF : seq_fits h0 us ps sq).
  { destruct (FIT _ _ _ _ CR Lo LM) as [H|EX]; auto. subst xs. rewrite app_nil_r in *. clear ECS. assert (ECS : map (Cof loc) (namesOf w f) = cs loc us) by (rewrite EN, map_map; reflexivity).
    destruct (cr_from _ _ _ _ _ _ _ _ _ _ CR) as [(H & _)|(_ & c & H)]; [auto|]. rewrite ECS in H.
    destruct (capping_fits symdiff SD fuel hL (cs loc us) (f_typ (w_ftn w f)) sq c) as (n & RO & _); auto.
    - apply (cs_wf h0 hT hL d loc pre ps Wd Lo LM IR DM us Iu Nu).
    - apply (cs_closed h0 hT hL d loc pre ps Wd Lo LM IR PR us P).
    - exact (fits_from h0 hT hL d loc pre ps Wd Lo LM IR us Iu Nu sq n RO). }
  destruct (cr_run _ _ _ _ _ _ _ _ _ _ CR) as (hR & c & cur & h2 & h3 & E1 & E2 & E3 & E4). rewrite ECS in E1.
  destruct (base_represents h0 hT hL d loc pre ps Wd Ld Lo LM IR DM PR us Iu Nu (cs loc xs) sq hR t c cur SF E1) as (rs & PRS & RP & TL & TD).
  destruct (postOut_represents h0 t _ _ hR _ h2 RP TL E2) as (items1 & J & RP2 & TL2 & TD2).
  pose proof (postNames_represents h0 t _ _ h2 _ h3 RP2 E3) as RP3.
  exists (renamed (fun N => let N' := post_names (f_after (w_ftn w f)) N in if b then map untag_name N' else N') items1), sq. split; [|split; [|split; [|split; [|split]]]].
  - exists rs, items1. split; [exact PRS|]. split; [exact J|reflexivity].
  - destruct b.
    + apply (untag_represents h0 t _ h3 _ (w_heap w') RP3) in E4. rewrite renamed_comp in E4; [exact E4|]. now rewrite post_names_len, map_length.
    + rewrite E4. exact RP3.
  - apply (cr_seq _ _ _ _ _ _ _ _ _ _ CR).
  - exact SF.
  - exact IR.
  - assert (T3 : tens h3 = tens h2) by (apply (postNames_tens t (f_after (w_ftn w f))); [apply RP2|exact E3]).
    assert (T4 : tens (w_heap w') = tens h3) by (destruct b; [apply (untag_tens t); [apply RP3|exact E4]|now rewrite E4]).
    rewrite T4, T3. split; [exact TL2|]. now rewrite TD2.
Qed.

Lemma rprod_perm (h : heap) us us' s : Permutation us us' -> rprod h us s = rprod h us' s.
Proof.
  induction 1 as [|[n t] l l' _ IH|[n t] [n' t'] l|l l' l'' _ IH1 _ IH2]; cbn [rprod]; auto; [congruence| |congruence].
  rewrite !rmul_assoc. f_equal. apply rmul_comm.
Qed.
Lemma rsum_ext (h : heap) ps (f g : rassign -> A) : (forall s, f s = g s) -> forall s, rsum h ps f s = rsum h ps g s.
Proof. intros E. induction ps as [|[a b] ps IH]; intros s; cbn [rsum]; auto. apply sumN_ext. auto. Qed.
Lemma represents_ext (h0 h : heap) t items (F G : rassign -> A) : (forall s, F s = G s) -> represents h0 h t items F -> represents h0 h t items G.
Proof. intros E [H1 H2 H3 H4]. constructor; auto. intros s s' B X. rewrite <- E. auto. Qed.
Lemma perm_filter {X} (g : X -> bool) l l' : Permutation l l' -> Permutation (filter g l) (filter g l').
Proof. induction 1; simpl; auto; [destruct (g x); auto|destruct (g x), (g y); auto; constructor|eapply Permutation_trans; eauto]. Qed.

Theorem contract_value w f d b w' t links ps : contract symdiff fuel f d b w = (w', Ok t) ->
  (forall p, In p d -> wf_tensor (w_heap w) (snd p) /\ t_like (tens (w_heap w) (snd p)) = false) -> NoDup (map fst d) ->
  f_links (w_ftn w f) = map stored links -> Forall2 (declares (w_heap w) (f_before (w_ftn w f)) d) links ps -> proper ps ->
  (forall sq, f_seq (w_ftn w f) = Some sq -> exists us, Permutation us d /\ namesOf w f = map fst us /\ seq_fits (w_heap w) us ps sq) ->
  (exists items, result_items (w_heap w) (f_before (w_ftn w f)) d ps (f_out (w_ftn w f)) (f_after (w_ftn w f)) b items /\
    represents (w_heap w) (w_heap w') t items (rval (w_heap w) d ps)) /\
  exists us sq, Permutation us d /\ namesOf w f = map fst us /\ f_seq (w_ftn w' f) = Some sq /\ seq_fits (w_heap w) us ps sq.
Proof.
  intros R Wd0 ND EL FD PR CACHE. destruct (contract_inv _ _ _ _ _ _ R) as (loc & hT & hL & sq & CR).
  assert (exists us, Permutation us d /\ namesOf w f = map fst us /\ forall sq, f_seq (w_ftn w f) = Some sq -> seq_fits (w_heap w) us ps sq) as (us & P & EN & C).
  { destruct (f_seq (w_ftn w f)) as [sq0|] eqn:ES.
    - destruct (CACHE sq0 eq_refl) as (us & P & EN & F). exists us. split; [auto|]. split; [auto|]. intros sq1 E1. injection E1 as <-. exact F.
    - destruct (perm_dict _ _ (cr_perm _ _ _ _ _ _ _ _ _ _ CR)) as (us & P & EN). exists us. split; [auto|]. split; [auto|]. discriminate. }
  destruct (contract_part w f d b w' t links ps us [] R Wd0 ND EL FD PR) as (items & sq1 & RI & RP & FS & SF & IR & _); auto; [now rewrite app_nil_r|now rewrite app_nil_r|].
  rewrite (within_all us d ps (w_heap w) P IR) in *. split; [|eauto 8]. exists items. split.
  - destruct RI as (rs & i1 & PR1 & H). exists rs, i1. split; auto. eapply Permutation_trans; [exact PR1|]. apply perm_filter. unfold role_names. now apply Permutation_flat_map.
  - eapply represents_ext; [|exact RP]. intros s. apply rsum_ext. intros s2. now apply rprod_perm.
Qed.

Theorem contract_flags w f d b w' t links ps : contract symdiff fuel f d b w = (w', Ok t) ->
  (forall p, In p d -> wf_tensor (w_heap w) (snd p) /\ t_like (tens (w_heap w) (snd p)) = false) -> NoDup (map fst d) ->
  f_links (w_ftn w f) = map stored links -> Forall2 (declares (w_heap w) (f_before (w_ftn w f)) d) links ps -> proper ps ->
  (forall sq, f_seq (w_ftn w f) = Some sq -> exists us, Permutation us d /\ namesOf w f = map fst us /\ seq_fits (w_heap w) us ps sq) ->
  t_like (tens (w_heap w') t) = false /\ t_diag (tens (w_heap w') t) = forallb (fun p => t_diag (tens (w_heap w) (snd p))) d.
Proof.
  intros R Wd0 ND EL FD PR CACHE. destruct (contract_inv _ _ _ _ _ _ R) as (loc & hT & hL & sq & CR).
  assert (exists us, Permutation us d /\ namesOf w f = map fst us /\ forall sq, f_seq (w_ftn w f) = Some sq -> seq_fits (w_heap w) us ps sq) as (us & P & EN & C).
  { destruct (f_seq (w_ftn w f)) as [sq0|] eqn:ES.
    - destruct (CACHE sq0 eq_refl) as (us & P & EN & F). exists us. split; [auto|]. split; [auto|]. intros sq1 E1. injection E1 as <-. exact F.
    - destruct (perm_dict _ _ (cr_perm _ _ _ _ _ _ _ _ _ _ CR)) as (us & P & EN). exists us. split; [auto|]. split; [auto|]. discriminate. }
  destruct (contract_part w f d b w' t links ps us [] R Wd0 ND EL FD PR) as (items & sq1 & RI & RP & FS & SF & IR & FL & FD1); auto; [now rewrite app_nil_r|now rewrite app_nil_r|].
  split; [exact FL|]. rewrite FD1. clear -P. induction P; simpl; auto; try congruence. now rewrite !andb_assoc, (andb_comm (t_diag _)).
Qed.

(** ** Reuse of a cached sequence *)
Lemma fits_transfer (h h2 : heap) us us2 ps ps2 sq : map fst us = map fst us2 ->
  map (fun p => t_diag (tens h (snd p))) us = map (fun p => t_diag (tens h2 (snd p))) us2 ->
  (forall p, In p ps -> exists p2, In p2 ps2 /\ fst (fst p) = fst (fst p2) /\ fst (snd p) = fst (snd p2)) -> seq_fits h us ps sq -> seq_fits h2 us2 ps2 sq.
Proof.
  intros EN ED EP (n & C). assert (Len : List.length us = List.length us2) by (rewrite <- (map_length fst us), EN, map_length; auto).
  exists n. rewrite <- Len. eapply complete_mono with (P := fun _ => True); [exact C|auto| |auto].
  intros I J _ _ O D1 D2.
  assert (DG : forall K, diag_at h us K = diag_at h2 us2 K).
  { intros K. unfold diag_at. apply forallb_ext_in'. intros i _. pose proof (f_equal (fun l => nth_error l i) ED) as X. cbn in X. rewrite !nth_error_map in X. destruct (nth_error us i), (nth_error us2 i); simpl in X; congruence. }
  assert (UA : forall K nm, used_at us K nm -> used_at us2 K nm).
  { intros K nm (i & t & Hi & E). pose proof (f_equal (fun l => nth_error l i) EN) as X. cbn in X. rewrite !nth_error_map, E in X. destruct (nth_error us2 i) as [[n2 t2]|] eqn:E2; simpl in X; [|discriminate]. injection X as <-. exists i, t2. auto. }
  rewrite <- DG in D1, D2. destruct (O D1 D2) as (a & b & [H|H] & U1 & U2); destruct (EP _ H) as ([a2 b2] & H2 & X1 & X2); cbn [fst snd] in X1, X2.
  - exists a2, b2. rewrite <- X1, <- X2. auto.
  - exists b2, a2. rewrite <- X1, <- X2. auto.
Qed.
Lemma declares_names (h h2 : heap) before before2 d d2 links : forall ps ps2, Forall2 (declares h before d) links ps -> Forall2 (declares h2 before2 d2) links ps2 ->
  forall p, In p ps -> exists p2, In p2 ps2 /\ fst (fst p) = fst (fst p2) /\ fst (snd p) = fst (snd p2).
Proof.
  induction links as [|e links IH]; intros ps ps2 F F2; inversion F as [|? p0 ? ps' D F']; inversion F2 as [|? q0 ? ps2' D2 F2']; subst; [intros p []|].
  intros p [<-|Hp]; [|destruct (IH _ _ F' F2' p Hp) as (p2 & H1 & H2); exists p2; simpl; auto]. exists q0. split; [simpl; auto|].
  destruct D as ((? & ? & ? & _ & _ & _ & E1) & (? & ? & ? & _ & _ & _ & E2)), D2 as ((? & ? & ? & _ & _ & _ & E3) & (? & ? & ? & _ & _ & _ & E4)). split; congruence.
Qed.

(** all leg names known with the same dimensions: nothing counts as changed *)
Definition known (m : list (pname * nat)) (h : heap) (L : list lid) : Prop := forall l, In l L -> dictGet m (l_name (legs h l)) = Some (dim_of h l).
Lemma dictGet_snoc {X Y} `{Dec X} (m : list (X * Y)) x y z : dictGet (m ++ [(x, y)]) z = if dec z x then Some y else dictGet m z.
Proof.
  induction m as [|[a b] m IH]; cbn [app dictGet]; [destruct (dec z x); auto|]. rewrite IH. destruct (dec z x); auto.
Qed.
Lemma loadLegs_known (h : heap) L : forall m ch K, known m h K -> incl L K -> exists m', fold_left (loadLeg h) L (m, ch) = (m', ch) /\ known m' h K.
Proof.
  induction L as [|l L IH]; intros m ch K KN I; [exists m; auto|]. cbn [fold_left]. unfold loadLeg at 2. unfold legname, legdim.
  rewrite (KN l) by (apply I; simpl; auto). rewrite Nat.eqb_refl, orb_false_r. apply IH; [|intros x Hx; apply I; simpl; auto].
  intros x Hx. unfold dictSet. rewrite dictGet_snoc. destruct (dec (l_name (legs h x)) (l_name (legs h l))) as [E|]; [|auto].
  rewrite <- (KN x Hx), E. symmetry. apply KN. apply I; simpl; auto.
Qed.
Lemma load_known (h : heap) loc : forall m ch K, known m h K -> incl (all_legs h (map snd loc)) K -> exists m', loadBondDims h loc (m, ch) = (m', ch) /\ known m' h K.
Proof.
  unfold loadBondDims. induction loc as [|p loc IH]; intros m ch K KN I; [exists m; auto|]. cbn [fold_left].
  destruct (loadLegs_known h (tlegs h (snd p)) m ch K KN) as (m1 & E & K1). { intros x Hx. apply I. unfold all_legs. cbn [map flat_map]. apply in_app_iff. left. exact Hx. }
  rewrite E. apply IH; auto. intros x Hx. apply I. unfold all_legs in *. cbn [map flat_map]. apply in_app_iff. auto.
Qed.

Lemma same_seq w f d b w' t links ps sq loc hT hL sq' : contract_run w f d b w' t loc hT hL sq' ->
  (forall p, In p d -> wf_tensor (w_heap w) (snd p)) -> NoDup (map fst d) ->
  f_links (w_ftn w f) = map stored links -> Forall2 (declares (w_heap w) (f_before (w_ftn w f)) d) links ps -> proper ps ->
  f_seq (w_ftn w f) = Some sq -> not_recomputed (w_heap w) (w_ftn w f) d -> sq' = sq.
Proof.
  intros CR Wd ND EL FD PR ES NR.
  pose proof (run_locals _ _ _ _ _ _ _ _ _ _ CR Wd ND) as Lo. pose proof (cr_links _ _ _ _ _ _ _ _ _ _ CR) as RL. rewrite EL in RL.
  destruct (linkAll_ok (w_heap w) hT d loc _ Wd Lo (f_before (w_ftn w f)) links (fun p => eq_refl) ps hT hL eq_refl (fun l => eq_refl) FD (proj1 PR) RL) as (LM & _).
  destruct (cr_from _ _ _ _ _ _ _ _ _ _ CR) as [(H & _)|([H|(H1 & H2)] & _)]; [congruence|congruence|].
  destruct NR as [NR|NR]; [congruence|]. exfalso.
  destruct (load_known hL loc (f_dims (w_ftn w f)) false (all_legs hL (map snd loc))) as (m' & E & _); [|apply incl_refl|rewrite E in H2; discriminate].
  intros l Hl. pose proof (cs_all (w_heap w) hT hL d loc (pre_names (w_heap w) (f_before (w_ftn w f))) ps Wd Lo LM d (incl_refl d)) as CA.
  rewrite (loc_is (w_heap w) hT d loc (pre_names (w_heap w) (f_before (w_ftn w f))) Lo) in Hl. fold (cs loc d) in Hl.
  assert (Hl' : In l (map (FtnLinkProofs.cp (w_heap w) hT d loc) (roles (w_heap w) d))) by (rewrite <- CA; exact Hl).
  apply in_map_iff in Hl' as (r & <- & Hr). rewrite (L_name (w_heap w) hT hL d loc ps LM), (L_dim (w_heap w) hT hL d loc ps LM), (cp_dim (w_heap w) hT d loc _ Wd Lo r Hr).
  apply NR. unfold role_names. rewrite (role_names_is (w_heap w) hT d loc _ Wd Lo d (incl_refl d)). apply in_map_iff. exists r. auto.
Qed.

Theorem contract_stale w f d b w' t links ps us xs sq : contract symdiff fuel f d b w = (w', Ok t) ->
  (forall p, In p d -> wf_tensor (w_heap w) (snd p) /\ t_like (tens (w_heap w) (snd p)) = false) -> NoDup (map fst d) ->
  f_links (w_ftn w f) = map stored links -> Forall2 (declares (w_heap w) (f_before (w_ftn w f)) d) links ps -> proper ps ->
  Permutation (us ++ xs) d -> namesOf w f = map fst (us ++ xs) ->
  f_seq (w_ftn w f) = Some sq -> seq_fits (w_heap w) us ps sq -> not_recomputed (w_heap w) (w_ftn w f) d ->
  exists items, result_items (w_heap w) (f_before (w_ftn w f)) us (within us ps) (f_out (w_ftn w f)) (f_after (w_ftn w f)) b items /\
    represents (w_heap w) (w_heap w') t items (rval (w_heap w) us (within us ps)) /\ f_seq (w_ftn w' f) = Some sq.
Proof.
  intros R Wd0 ND EL FD PR P EN ES SF NR.
  assert (Wd : forall p, In p d -> wf_tensor (w_heap w) (snd p)) by (intros p Hp; now apply Wd0).
  destruct (contract_part w f d b w' t links ps us xs R Wd0 ND EL FD PR P EN) as (items & sq1 & RI & RP & FS & SF1 & IR & _).
  - intros loc hT hL sq' CR Lo LM. left. rewrite (same_seq _ _ _ _ _ _ _ _ _ _ _ _ _ CR Wd ND EL FD PR ES NR). exact SF.
  - intros _ sq' E. assert (sq' = sq) as -> by congruence. exact SF.
  - exists items. split; auto. split; auto. destruct (contract_inv _ _ _ _ _ _ R) as (loc & hT & hL & sq0 & CR).
    rewrite (cr_seq _ _ _ _ _ _ _ _ _ _ CR). f_equal. exact (same_seq _ _ _ _ _ _ _ _ _ _ _ _ _ CR Wd ND EL FD PR ES NR).
Qed.
End Main.
