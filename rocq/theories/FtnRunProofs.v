(** Contracting the local copies: a sequence for the first tensors leaves the others out, and the result holds the
    value of the declared network.  Then the outer products, the renamings and the removal of tags. *)
From Coq Require Import List Arith Bool String Ascii Lia Permutation.
From Verif Require Import Base Sums NdModel HeapModel FuncsModel TensorModel TensorSpec ContractModel NetSpec SearchModel SearchSpec GraphModel NetGraphModel NetGraphSpec FtnModel FtnSpec FtnNetSpec
  FuncsProofs NdProofs TensorProofs LabelProofs CopyProofs LinkProofs NetProofs SumpairsProofs MergeProofs SeqProofs RetProofs NetRunProofs FrameProofs FtnCopyProofs FtnLinkProofs FtnNetProofs.
Import ListNotations.
Local Open Scope nat_scope.

Lemma complete_bounds (ok : list nat -> list nat -> Prop) cost k gs sq n : complete ok cost gs sq n -> (forall g, In g gs -> fst g < k) -> forall p, In p sq -> fst p < k /\ snd p < k.
Proof.
  induction 1 as [G|gs rest s t G1 G2 sq n N P O C IH]; intros B p; [intros []|].
  assert (Bs : s < k) by (apply (B (s, G1)); eapply Permutation_in; [symmetry; exact P|simpl; auto]).
  assert (Bt : t < k) by (apply (B (t, G2)); eapply Permutation_in; [symmetry; exact P|simpl; auto]).
  intros [<-|Hp]; [auto|]. apply IH; auto. intros g [<-|Hg]; [simpl; lia|]. apply B. eapply Permutation_in; [symmetry; exact P|simpl; auto].
Qed.

Section Run.
Context {A : Type} {HA : SR A}.
Notation heap := (heap A).

Lemma set_nth_len {X} k (v : X) l : List.length (set_nth k v l) = List.length l.
Proof. revert k. induction l as [|x l IH]; intros [|k]; simpl; auto. Qed.
Lemma set_nth_app {X} k (v : X) l m : k < List.length l -> set_nth k v (l ++ m) = set_nth k v l ++ m.
Proof. revert k. induction l as [|x l IH]; intros [|k] H; simpl in *; try lia; auto. rewrite IH by lia. auto. Qed.
Lemma seqStep_app ts xs c p (h : heap) : fst p < List.length ts -> snd p < List.length ts ->
  seqStep (ts ++ xs, c) p h = match seqStep (ts, c) p h with (h', Ok (ts', c')) => (h', Ok (ts' ++ xs, c')) | (h', Err e) => (h', Err e) end.
Proof.
  destruct p as [s t]. cbn [fst snd]. intros Hs Ht. unfold seqStep. rewrite !nth_error_app1 by auto.
  destruct (nth_error ts s) as [ta|]; [|reflexivity]. destruct (nth_error ts t) as [tb|]; [|reflexivity].
  unfold bind. destruct (contractCost ta tb h) as (h1 & [[x y]|]); [|reflexivity]. destruct (contractTwoTensors ta tb h1) as (h2 & [tc|]); [|reflexivity].
  unfold ret. rewrite set_nth_app by lia. reflexivity.
Qed.
Lemma seqStep_len ts c p (h : heap) h' ts' c' : seqStep (ts, c) p h = (h', Ok (ts', c')) -> List.length ts' = List.length ts.
Proof.
  destruct p as [s t]. unfold seqStep. destruct (nth_error ts s) as [ta|]; [|discriminate]. destruct (nth_error ts t) as [tb|]; [|discriminate].
  unfold bind. destruct (contractCost ta tb h) as (h1 & [[x y]|]); [|discriminate]. destruct (contractTwoTensors ta tb h1) as (h2 & [tc|]); [|discriminate].
  unfold ret. intros E. injection E as <- <- <-. apply set_nth_len.
Qed.
Lemma foldM_app_seq sq xs : forall ts c (h : heap), (forall p, In p sq -> fst p < List.length ts /\ snd p < List.length ts) ->
  foldM seqStep sq (ts ++ xs, c) h = match foldM seqStep sq (ts, c) h with (h', Ok (ts', c')) => (h', Ok (ts' ++ xs, c')) | (h', Err e) => (h', Err e) end.
Proof.
  induction sq as [|p sq IH]; intros ts c h B; [reflexivity|]. cbn [foldM]. unfold bind. destruct (B p (or_introl eq_refl)) as (B1 & B2). rewrite seqStep_app by auto.
  destruct (seqStep (ts, c) p h) as (h1 & [[ts1 c1]|]) eqn:E; [|reflexivity]. apply IH. rewrite (seqStep_len _ _ _ _ _ _ _ E). intros q Hq. apply B. now right.
Qed.
Lemma foldM_len sq : forall ts c (h : heap) h' ts' c', foldM seqStep sq (ts, c) h = (h', Ok (ts', c')) -> List.length ts' = List.length ts.
Proof.
  induction sq as [|p sq IH]; intros ts c h h' ts' c'; cbn [foldM]; [intros E; now injection E as <- <- <-|]. unfold bind.
  destruct (seqStep (ts, c) p h) as (h1 & [[ts1 c1]|]) eqn:E; [|discriminate]. intros R. apply IH in R. rewrite R. eapply seqStep_len; eauto.
Qed.
(** tensors beyond those of the sequence change nothing *)
Lemma contractWithSeq_app ts xs sq (h h' : heap) t0 c cur : ts <> [] -> (forall p, In p sq -> fst p < List.length ts /\ snd p < List.length ts) ->
  contractWithSeq (ts ++ xs) sq true h = (h', Ok (t0, c, cur)) -> exists cur', contractWithSeq ts sq true h = (h', Ok (t0, c, cur')).
Proof.
  intros Ne B. unfold contractWithSeq, bind, ret. rewrite foldM_app_seq by auto. destruct (foldM seqStep sq (ts, 0) h) as (h1 & [[ts1 c1]|]) eqn:E; [|discriminate].
  apply foldM_len in E. destruct ts1 as [|t1 ts1]; [destruct ts; [congruence|discriminate]|]. cbn [app]. intros R. injection R as <- <- <- _. eauto.
Qed.
(** a sequence that uses a position beyond the list never returns *)
Lemma contractWithSeq_beyond sq : forall ts (h : heap), (exists p, In p sq /\ (List.length ts <= fst p \/ List.length ts <= snd p)) ->
  forall c h' r, foldM seqStep sq (ts, c) h <> (h', Ok r).
Proof.
  induction sq as [|p sq IH]; intros ts h (q & Hq & Bq) c h' r; [destruct Hq|]. cbn [foldM]. unfold bind.
  destruct (seqStep (ts, c) p h) as (h1 & [[ts1 c1]|]) eqn:E; [|discriminate]. destruct Hq as [->|Hq].
  - destruct q as [s t]. unfold seqStep in E. cbn [fst snd] in Bq. destruct (nth_error ts s) eqn:E1; [|discriminate]. destruct (nth_error ts t) eqn:E2; [|discriminate].
    assert (s < List.length ts) by (apply nth_error_Some; congruence). assert (t < List.length ts) by (apply nth_error_Some; congruence). lia.
  - apply IH. exists q. split; auto. now rewrite (seqStep_len _ _ _ _ _ _ _ E).
Qed.

(** ** The contraction *)
Section Base.
Variable h0 hT hL : heap.
Variable d loc : list (string * tid).
Variable pre : string * tid -> list pname.
Variable ps : list rlink.
Notation cp := (FtnLinkProofs.cp h0 hT d loc).
Notation cp2 := (FtnLinkProofs.cp2 h0 hT d loc).
Notation cs := (FtnNetProofs.cs loc).
Hypothesis Wd : forall p, In p d -> wf_tensor h0 (snd p).
Hypothesis Ld : forall p, In p d -> t_like (tens h0 (snd p)) = false.
Hypothesis Lo : locals h0 hT (fun p => map (tag_name (fst p)) (pre p)) d loc.
Hypothesis LM : links_made hT hL (map cp2 ps).
Hypothesis IR : incl (role_plegs ps) (roles h0 d).
Hypothesis DM : forall p, In p (map cp2 ps) -> dim_of hT (fst p) = dim_of hT (snd p).
Hypothesis PR : proper ps.
Variable us : list (string * tid).
Hypothesis Iu : incl us d.
Hypothesis Nu : NoDup (map fst us).
Notation ws := (within us ps).

Lemma base_represents xs sq (h' : heap) t0 c cur : seq_fits h0 us ps sq -> contractWithSeq (cs us ++ xs) sq true hL = (h', Ok (t0, c, cur)) ->
  exists rs, Permutation rs (filter (fun p => free_role ws (fst p)) (flat_map (fun p => combine (roles1 h0 p) (map (tag_name (fst p)) (pre p))) us)) /\
    represents h0 h' t0 (map (fun p => (snd p, [fst p])) rs) (rval h0 us ws) /\ t_like (tens h' t0) = false /\
    t_diag (tens h' t0) = forallb (fun p => t_diag (tens h0 (snd p))) us.
Proof.
  intros SF R.
  assert (Len : List.length (cs us) = List.length us) by (unfold FtnNetProofs.cs; now rewrite map_length).
  assert (Ne : cs us <> []). { intros E. destruct SF as (n & C). rewrite E in Len. destruct us; [|discriminate]. simpl in C. inversion C as [|? ? ? ? ? ? ? ? ? P]; subst. apply Permutation_nil in P. discriminate. }
  assert (B : forall p, In p sq -> fst p < List.length (cs us) /\ snd p < List.length (cs us)).
  { destruct SF as (n & C). eapply complete_bounds; [exact C|]. intros [k g] Hg. apply in_combine_l in Hg. rewrite seq_length in Hg. apply in_seq in Hg. simpl. lia. }
  apply contractWithSeq_app in R as (cur' & R); auto.
  destruct (fits_to h0 hT hL d loc pre ps Wd Lo LM IR DM us Iu Nu sq SF) as (n & RO).
  pose proof (cs_wf h0 hT hL d loc pre ps Wd Lo LM IR DM us Iu Nu) as W.
  assert (TL : forall t, In t (cs us) -> t_like (tens hL t) = false).
  { intros t Ht. apply cs_In in Ht as (nm & t' & H & ->). rewrite (mi_like _ _ _ _ _ (mir_L h0 hT hL d loc pre ps Lo LM nm t' (Iu _ H))). apply (Ld (nm, t')). auto. }
  destruct (inplace_ret True hL (cs us) sq n h' t0 c cur' W TL RO R) as (_ & RL & EV).
  pose proof (free_is h0 hT hL d loc pre ps Wd Lo LM IR DM PR us Iu Nu) as FI.
  assert (PL : Permutation (legs_of h' t0) (map cp (filter (free_role ws) (roles h0 us)))).
  { eapply Permutation_trans; [apply RL|]. rewrite map_id. exact FI. }
  apply Permutation_map_inv in PL as (rs0 & EL & PR0).
  assert (Hfree : forall r, In r rs0 -> In (cp r) (free_legs hL (cs us)) /\ In r (roles h0 d)).
  { intros r Hr. assert (Hr' : In r (filter (free_role ws) (roles h0 us))) by (eapply Permutation_in; [symmetry; exact PR0|exact Hr]). split.
    - eapply Permutation_in; [symmetry; exact FI|]. now apply in_map.
    - apply filter_In in Hr' as (H & _). now apply (roles_incl h0 d us Iu). }
  assert (Hname : forall r, In r rs0 -> l_name (legs h' (cp r)) = l_name (legs hT (cp r)) /\ dim_of h' (cp r) = rdim h0 r).
  { intros r Hr. destruct (Hfree r Hr) as (H1 & H2). destruct (rl_leg _ _ _ _ _ RL _ H1) as (-> & ->).
    rewrite (L_name h0 hT hL d loc ps LM), (L_dim h0 hT hL d loc ps LM). split; auto. apply (cp_dim h0 hT d loc pre Wd Lo); auto. }
  exists (map (fun r => (r, l_name (legs hT (cp r)))) rs0). split; [|split].
  - rewrite (role_names_is h0 hT d loc pre Wd Lo us Iu).
    assert (FM : forall (g : role -> pname) L, filter (fun p => free_role ws (fst p)) (map (fun r => (r, g r)) L) = map (fun r => (r, g r)) (filter (free_role ws) L)).
    { intros g L. induction L as [|x L IH]; auto. cbn [map filter fst]. destruct (free_role ws x); cbn [map]; now rewrite IH. }
    rewrite FM. apply Permutation_map. now symmetry.
  - rewrite map_map. cbn [fst snd]. apply Build_represents.
    + apply RL.
    + unfold names_of. rewrite EL, !map_map. cbn [fst]. apply map_ext_in. intros r Hr. apply Hname; auto.
    + unfold dims_of. rewrite EL, !map_map. cbn [snd map]. apply map_ext_in. intros r Hr. unfold prodn. cbn [fold_right]. rewrite Nat.mul_1_r. apply Hname; auto.
    + intros s s' Bs E. rewrite EL, !map_map in E. cbn [snd map] in E.
      assert (E' : forall r, In r rs0 -> s' (cp r) = s r).
      { intros r Hr. assert (X := ext_in_map E r Hr). cbn in X. rewrite X. lia. }
      assert (FR : flat_map snd (map (fun x : role => (l_name (legs hT (cp x)), [x])) rs0) = rs0) by (clear; induction rs0; simpl; congruence).
      rewrite FR in Bs.
      rewrite EV; auto.
      * rewrite (netval_is h0 hT hL d loc pre ps Wd Lo LM IR DM PR us Iu Nu). unfold rval.
        apply (rsum_on h0 (roles h0 us)); [intros s1 s2 H; apply (rprod_on h0 us (roles h0 us)); auto using incl_refl|].
        intros r Hr Hn. apply E'. eapply Permutation_in; [exact PR0|]. apply filter_In. split; auto. unfold free_role. apply negb_true_iff, inb_false. exact Hn.
      * intros l Hl. assert (Hl' : In l (map cp rs0)). { eapply Permutation_in; [|exact Hl]. eapply Permutation_trans; [exact FI|]. now apply Permutation_map. }
        apply in_map_iff in Hl' as (r & <- & Hr). rewrite E' by auto. destruct (Hfree r Hr) as (_ & Rd).
        rewrite (L_dim h0 hT hL d loc ps LM). rewrite (cp_dim h0 hT d loc pre Wd Lo r Rd). auto.
  - split; [apply RL|]. rewrite (rl_diag _ _ _ _ _ RL). unfold all_diag, FtnNetProofs.cs. clear -Iu Lo LM. induction us as [|[nm t'] l IH]; auto. cbn [map forallb fst snd]. f_equal.
    + apply (mi_diag _ _ _ _ _ (mir_L h0 hT hL d loc pre ps Lo LM nm t' (Iu _ (or_introl eq_refl)))).
    + apply IH. intros x Hx. apply Iu. now right.
Qed.
End Base.
End Run.
