(** Proofs about selfTrace. *)
From Coq Require Import List Arith Bool Lia Permutation.
From Verif Require Import Base Sums NdModel NdProofs HeapModel TensorModel TensorSpec TensorProofs ContractModel NetSpec NetsSpec CopyProofs LinkProofs ShareProofs NetProofs SumpairsProofs ContractProofs SeqProofs
  NamedMatProofs PairLinkProofs NamedSpec CtmrgModel CtmrgNetProofs TriStepProofs SelfTraceModel.
Import ListNotations.
Local Open Scope nat_scope.

Section Sp.
Context {A : Type} {HA : SR A}.
Notation heap := (heap A).
Add Ring Ast : (@SR_theory A HA).

Lemma link_legs (ps : list (lid * lid)) : forall (h : heap), linkable h ps ->
  exists h', iterM (fun p : lid * lid => bind (makeLink [RLeg (fst p)] [RLeg (snd p)] None None) (fun _ => ret tt)) ps h = (h', Ok tt) /\ links_made h h' ps.
Proof.
  induction ps as [|(x, y) ps IH]; intros h LK.
  - exists h. split; [reflexivity|]. split; [apply links_added_refl|intros l []].
  - destruct (linkable_cons _ _ _ _ LK) as (Nxy & Nx & Ny & Ed & LK').
    destruct (IH (linked_heap h x y) LK') as (h' & E & LM).
    exists h'. split; [|eapply links_made_cons; eauto]. cbn [iterM fst snd]. unfold bind at 1, bind at 1.
    rewrite (makeLink_read h [RLeg x] [RLeg y] None None [Some x] [Some y]); [|repeat constructor|repeat constructor|reflexivity].
    cbn [combine mapM]. unfold bind at 1. rewrite linkPair_ok by auto. unfold bind, ret. exact E.
Qed.

(** sums over the pairs as sums over multi-indices *)
Fixpoint put (s : assignment) (ps : list (lid * lid)) (idx : list nat) : assignment :=
  match ps, idx with (l, l') :: ps', i :: idx' => put (upd (upd s l i) l' i) ps' idx' | _, _ => s end.
Lemma sumpairs_indices d (f : assignment -> A) ps : forall s, sumpairs d ps f s = sumL (indices (map (fun p => d (fst p)) ps)) (fun idx => f (put s ps idx)).
Proof.
  induction ps as [|(l, l') ps IH]; intros s; cbn [sumpairs map fst indices].
  - cbn [sumL put]. ring.
  - rewrite sumL_flat_map. unfold sumN. apply sumL_ext. intros i _. rewrite sumL_map, IH. reflexivity.
Qed.
Lemma put_out ps : forall s idx l, ~ In l (map fst ps ++ map snd ps) -> put s ps idx l = s l.
Proof.
  induction ps as [|(x, y) ps IH]; intros s [|i idx] l N; try reflexivity. cbn [map fst snd app In] in N. rewrite in_app_iff in N. cbn [In] in N. cbn [put]. rewrite IH by (rewrite in_app_iff; tauto).
  unfold upd. destruct (Nat.eqb_spec l y); [subst; tauto|]. destruct (Nat.eqb_spec l x); [subst; tauto|reflexivity].
Qed.
Lemma put_in ps : forall s idx, NoDup (map fst ps ++ map snd ps) -> List.length idx = List.length ps -> map (put s ps idx) (map fst ps) = idx /\ map (put s ps idx) (map snd ps) = idx.
Proof.
  induction ps as [|(x, y) ps IH]; intros s [|i idx] N E; try discriminate; [auto|]. cbn [map fst snd app] in N. inversion N as [|? ? N1 N2]; subst. apply NoDup_remove in N2. destruct N2 as (N2 & N3).
  rewrite in_app_iff in N1. cbn [In] in N1. cbn in E. injection E as E. cbn [put map fst snd]. destruct (IH (upd (upd s x i) y i) idx N2 E) as (I1 & I2).
  rewrite I1, I2. rewrite (put_out ps _ idx x) by (rewrite in_app_iff; tauto). rewrite (put_out ps _ idx y) by exact N3. unfold upd. rewrite !Nat.eqb_refl. destruct (Nat.eqb_spec x y); auto.
Qed.
Lemma exists_asg (ls : list lid) : forall idx, NoDup ls -> List.length idx = List.length ls -> exists s : assignment, map s ls = idx.
Proof.
  induction ls as [|l ls IH]; intros [|i idx] N E; try discriminate; [exists (fun _ => 0); reflexivity|]. inversion N; subst. injection E as E. destruct (IH idx) as (s & Es); auto.
  exists (upd s l i). cbn [map]. f_equal; [unfold upd; now rewrite Nat.eqb_refl|]. rewrite <- Es. apply map_ext_in. intros x Hx. unfold upd. destruct (Nat.eqb_spec x l); [subst; tauto|reflexivity].
Qed.

(** the entry at a multi-index *)
Definition ent (dg : bool) (a : arr A) (idx : list nat) : A :=
  if dg then match idx with [] => aget a [] | i :: is => if forallb (fun j => Nat.eqb j i) is then aget a [i] else r0 end else aget a idx.
Lemma entry_ent (h : heap) t a s : t_arr (tens h t) = Some a -> entry h t s = ent (t_diag (tens h t)) a (map s (legs_of h t)).
Proof.
  intros E. unfold entry, entry_of, ent, legs_of. rewrite E. destruct (t_diag (tens h t)); [|reflexivity]. destruct (t_legs (tens h t)) as [|l ls]; [reflexivity|]. cbn [map].
  assert (X : forallb (fun j => Nat.eqb j (s l)) (map s ls) = forallb (fun l' => Nat.eqb (s l') (s l)) ls) by (induction ls as [|x ls IH]; cbn; [reflexivity|now rewrite IH]). now rewrite X.
Qed.
Lemma sum_data (a : arr A) (f : A -> A) : wfa a -> sumL (indices (ashape a)) (fun idx => f (aget a idx)) = sumL (adata a) f.
Proof.
  intros W. unfold aget. rewrite <- (sumN_indices (ashape a) (fun i => f (nth i (adata a) r0))). unfold wfa in W. rewrite <- W. clear W. unfold sumN.
  induction (adata a) as [|x l IH]; [reflexivity|]. cbn [List.length seq sumL nth]. f_equal. rewrite <- seq_shift, sumL_map. exact IH.
Qed.
Lemma sum_diag n i (v : A) : (i < n) -> forall k, sumL (indices (repeat n k)) (fun idx => let x := if forallb (fun j => Nat.eqb j i) idx then v else r0 in rmul x x) = rmul v v.
Proof.
  intros Hi. induction k as [|k IH]; [cbn; ring|]. cbn [repeat indices]. rewrite sumL_flat_map. rewrite (sumL_single (seq 0 n) _ i).
  - rewrite sumL_map. cbn [forallb]. rewrite Nat.eqb_refl. exact IH.
  - apply seq_NoDup.
  - apply in_seq. lia.
  - intros j _ Nj. rewrite sumL_map. apply sumL_zero. intros idx _. cbn [forallb]. destruct (Nat.eqb_spec j i); [contradiction|]. cbn. ring.
Qed.
Lemma sum_ent (h : heap) t a : wf_tensor h t -> t_like (tens h t) = false -> t_arr (tens h t) = Some a -> ~ (t_diag (tens h t) = true /\ legs_of h t = []) ->
  sumL (indices (dims_of h t)) (fun idx => rmul (ent (t_diag (tens h t)) a idx) (ent (t_diag (tens h t)) a idx)) = sumL (adata a) (fun x => rmul x x).
Proof.
  intros W NL E NS. pose proof (wt_data _ _ W) as DO. unfold data_ok in DO. rewrite NL, E in DO. destruct DO as (WA & SA). unfold ent, dims_of. destruct (t_diag (tens h t)) eqn:DG.
  - destruct (wt_diag _ _ W DG) as (_ & DL). change (t_legs (tens h t)) with (legs_of h t) in SA. destruct (legs_of h t) as [|l ls] eqn:EL; [exfalso; auto|].
    assert (ED : map (dim_of h) (l :: ls) = t_len (tens h t) :: repeat (t_len (tens h t)) (List.length ls)).
    { cbn [map]. rewrite DL by (simpl; auto). f_equal. assert (DL' : forall x, In x ls -> dim_of h x = t_len (tens h t)) by (intros; apply DL; simpl; auto). clear - DL'. induction ls as [|x ls IH]; [reflexivity|]. cbn. rewrite DL' by (simpl; auto). f_equal. apply IH. intros; apply DL'; simpl; auto. }
    rewrite ED. cbn [indices]. rewrite sumL_flat_map. rewrite <- (sum_data a (fun x => rmul x x)) by exact WA. rewrite SA. cbn [indices]. rewrite sumL_flat_map. apply sumL_ext. intros i Hi. apply in_seq in Hi.
    rewrite !sumL_map. cbn [sumL]. rewrite (sum_diag (t_len (tens h t)) i (aget a [i])) by lia. ring.
  - rewrite <- (sum_data a (fun x => rmul x x)) by exact WA. rewrite SA. reflexivity.
Qed.

Lemma combine_fst {X Y} (l : list X) : forall l' : list Y, List.length l = List.length l' -> map fst (combine l l') = l.
Proof. induction l as [|x l IH]; intros [|y l'] E; try discriminate; [reflexivity|]. cbn. f_equal. apply IH. now injection E. Qed.
Lemma combine_snd {X Y} (l : list X) : forall l' : list Y, List.length l = List.length l' -> map snd (combine l l') = l'.
Proof. induction l as [|x l IH]; intros [|y l'] E; try discriminate; [reflexivity|]. cbn. f_equal. apply IH. now injection E. Qed.
Lemma same_in {X} (f g : X -> nat) l : map f l = map g l -> forall x, In x l -> f x = g x.
Proof. induction l as [|q l IH]; intros E x Hx; [destruct Hx|]. cbn in E. injection E as E1 E2. destruct Hx as [<-|Hx]; auto. Qed.

Theorem selfTrace_ok (h : heap) t a : wf_tensor h t -> t_like (tens h t) = false -> t_arr (tens h t) = Some a -> ~ (t_diag (tens h t) = true /\ legs_of h t = []) ->
  exists h' r, selfTrace t h = (h', Ok r) /\ (forall u, u < ntens h -> tens h' u = tens h u) /\ (forall l, l < nleg h -> legs h' l = legs h l) /\ single h' r = Ok (sumL (adata a) (fun x => rmul x x)).
Proof.
  intros W NL EA NS. unfold selfTrace.
  destruct (copy_ok h t W) as (h1 & ta & E1 & C1 & L1 & V1); [tauto|]. pose proof (cp_new _ _ _ _ C1) as NT1. pose proof (new_grown _ _ _ NT1) as G1.
  assert (T1 : tens h1 t = tens h t) by (apply (gr_tens _ _ G1), W).
  assert (LG1 : legs_of h1 t = legs_of h t) by (unfold legs_of; now rewrite T1).
  assert (DM1 : forall l, In l (legs_of h t) -> dim_of h1 l = dim_of h l) by (intros l Hl; unfold dim_of; rewrite (gr_legs _ _ G1); auto; now apply W).
  assert (W1 : wf_tensor h1 t) by (apply (wf_same h h1); auto; apply G1).
  destruct (copy_ok h1 t W1) as (h2 & tb & E2 & C2 & L2 & V2); [rewrite T1, LG1; tauto|]. pose proof (cp_new _ _ _ _ C2) as NT2. pose proof (new_grown _ _ _ NT2) as G2.
  unfold bind at 1. rewrite E1. unfold bind at 1. rewrite E2. unfold bind at 1, reads at 1.
  pose proof (cp_wf _ _ _ _ C1) as Wa1. pose proof (cp_wf _ _ _ _ C2) as Wb.
  assert (T2 : tens h2 ta = tens h1 ta) by (apply (gr_tens _ _ G2), Wa1).
  assert (LGa : legs_of h2 ta = legs_of h1 ta) by (unfold legs_of; now rewrite T2).
  assert (DM2 : forall l, In l (legs_of h1 ta) -> dim_of h2 l = dim_of h1 l) by (intros l Hl; unfold dim_of; rewrite (gr_legs _ _ G2); auto; now apply Wa1).
  assert (Wa : wf_tensor h2 ta) by (apply (wf_same h1 h2); auto; apply G2).
  change (t_legs (tens h2 ta)) with (legs_of h2 ta). change (t_legs (tens h2 tb)) with (legs_of h2 tb).
  assert (Da : dims_of h2 ta = dims_of h t) by (rewrite <- (cp_dims _ _ _ _ C1); unfold dims_of; rewrite LGa; now apply map_ext_in).
  assert (Db : dims_of h2 tb = dims_of h t) by (rewrite (cp_dims _ _ _ _ C2); unfold dims_of; rewrite LG1; now apply map_ext_in).
  set (La := legs_of h2 ta) in *. set (Lb := legs_of h2 tb) in *. set (ps := combine La Lb).
  assert (LE : List.length La = List.length Lb) by (rewrite <- (map_length (dim_of h2) La), <- (map_length (dim_of h2) Lb); change (List.length (dims_of h2 ta) = List.length (dims_of h2 tb)); now rewrite Da, Db).
  assert (LT : List.length La = List.length (legs_of h t)) by (rewrite <- (map_length (dim_of h2) La), <- (map_length (dim_of h) (legs_of h t)); change (List.length (dims_of h2 ta) = List.length (dims_of h t)); now rewrite Da).
  assert (Fa : map fst ps = La) by (now apply combine_fst).
  assert (Fb : map snd ps = Lb) by (now apply combine_snd).
  assert (DJ : forall l, In l La -> ~ In l Lb) by (intros l Hl Hl'; rewrite LGa in Hl; apply (wt_alloc _ _ Wa1) in Hl; apply (new_legs _ _ _ NT2) in Hl'; lia).
  assert (ND : NoDup (La ++ Lb)) by (apply NoDup_app_intro; [apply Wa|apply Wb|exact DJ]).
  assert (UA : unlinked h2 ta).
  { intros l Hl. change (In l La) in Hl. rewrite LGa in Hl. rewrite (gr_legs _ _ G2) by (now apply Wa1). destruct (nt_legs _ _ _ _ NT1) as (_ & _ & U). now apply U. }
  assert (UB : unlinked h2 tb) by (intros l Hl; destruct (nt_legs _ _ _ _ NT2) as (_ & _ & U); now apply U).
  assert (DD : forall p, In p ps -> dim_of h2 (fst p) = dim_of h2 (snd p)).
  { apply same_in. rewrite <- (map_map fst (dim_of h2)), <- (map_map snd (dim_of h2)), Fa, Fb. change (dims_of h2 ta = dims_of h2 tb). congruence. }
  destruct (link_legs ps h2) as (hL & RL & LM).
  { split; [now rewrite Fa, Fb|]. split; [|exact DD]. rewrite Fa, Fb. intros l Hl. apply in_app_iff in Hl. destruct Hl as [Hl|Hl]; [split; [now apply Wa|now apply UA]|split; [now apply Wb|now apply UB]]. }
  unfold bind at 1. rewrite RL. pose proof (lm_added _ _ _ LM) as LA.
  assert (Nab : ta <> tb) by (rewrite (nt_id _ _ _ _ NT1), (nt_id _ _ _ _ NT2), (nt_ntens _ _ _ _ NT1); lia).
  assert (Pa : Permutation (legs_of h2 ta) (map fst ps ++ [])) by (rewrite app_nil_r, Fa; reflexivity).
  assert (Pb : Permutation (legs_of h2 tb) (map snd ps ++ [])) by (rewrite app_nil_r, Fb; reflexivity).
  pose proof (pl_pair_wf h2 hL ta tb ps [] [] Nab ND UA UB LA Pa Pb DD Wa Wb) as WP. pose proof (pl_shared h2 hL ta tb ps [] [] ND UA UB LA Pa Pb) as SH.
  pose proof (pl_restA h2 hL ta tb ps [] [] ND UA UB LA Pa Pb) as RA. pose proof (pl_restB h2 hL ta tb ps [] [] ND UA UB LA Pa Pb) as RB. apply Permutation_sym, Permutation_nil in RA, RB.
  assert (TLa : tens hL ta = tens h2 ta) by now rewrite (la_tens _ _ _ LA). assert (TLb : tens hL tb = tens h2 tb) by now rewrite (la_tens _ _ _ LA).
  assert (DGa : t_diag (tens h2 ta) = t_diag (tens h t)) by (rewrite T2; apply C1). assert (DGb : t_diag (tens h2 tb) = t_diag (tens h t)) by (rewrite (cp_diag _ _ _ _ C2); now rewrite T1).
  assert (NLa : t_like (tens h2 ta) = false) by (rewrite T2, L1; exact NL). assert (NLb : t_like (tens h2 tb) = false) by (rewrite L2, T1; exact NL).
  destruct (contract_any hL ta tb WP) as (L & PL & (h' & r & RC & C & _ & NLr & VR)); [now rewrite TLa|now rewrite TLb| |].
  { unfold contractible. rewrite TLa, TLb, DGa, DGb. split; [|split; intros; congruence]. intros DG _ X. rewrite X in SH. apply Permutation_nil in SH. apply NS. split; auto. rewrite SH in Fa. cbn in Fa. rewrite <- Fa in LT. destruct (legs_of h t); [reflexivity|discriminate]. }
  rewrite RA, RB in PL, VR. cbn [app] in PL, VR. apply Permutation_sym, Permutation_nil in PL. subst L.
  exists h', r. split; [exact RC|].
  pose proof (gr_nleg _ _ G1). pose proof (gr_nleg _ _ G2). pose proof (gr_ntens _ _ G1). pose proof (gr_ntens _ _ G2).
  pose proof (la_nleg _ _ _ LA) as Q3. pose proof (la_ntens _ _ _ LA) as Q4. pose proof (nt_id _ _ _ _ NT1) as I1. pose proof (nt_id _ _ _ _ NT2) as I2.
  split; [|split].
  - intros u Hu. rewrite (ct_tens _ _ _ _ _ _ C); [|lia|lia|lia]. rewrite (la_tens _ _ _ LA). rewrite (gr_tens _ _ G2) by lia. now apply (gr_tens _ _ G1).
  - intros l Hl. rewrite (ct_out _ _ _ _ _ _ C); [|lia|intros []]. rewrite (la_out _ _ _ LA).
    + rewrite (gr_legs _ _ G2) by lia. now apply (gr_legs _ _ G1).
    + rewrite Fa, Fb. intros X. apply in_app_iff in X. destruct X as [X|X]; [rewrite LGa in X; apply (new_legs _ _ _ NT1) in X; lia|apply (new_legs _ _ _ NT2) in X; lia].
  - assert (HL : has_legs h' r []) by (apply (listed_legs h' r [] []); [rewrite (ct_legs _ _ _ _ _ _ C)|]; reflexivity).
    rewrite (single_value h' r (ct_wf _ _ _ _ _ _ C) NLr HL). f_equal. unfold at_, at_names. rewrite VR by (intros l []). unfold einsum.
    rewrite (sumpairs_perm _ _ ps); [|intros x y Exy; f_equal; apply entry_ext; intros; apply Exy|exact SH|].
    2:{ eapply Permutation_NoDup; [|rewrite <- Fa, <- Fb in ND; exact ND]. symmetry. apply Permutation_app; apply Permutation_map; exact SH. }
    rewrite sumpairs_indices. rewrite <- (sum_ent h t a W NL EA NS). rewrite <- Da.
    assert (ED : map (fun p => dim_of hL (fst p)) ps = dims_of h2 ta).
    { unfold dims_of. fold La. rewrite <- Fa, map_map. apply map_ext. intros p. unfold dim_of. apply (la_fields _ _ _ LA). }
    rewrite ED. apply sumL_ext. intros idx Hi. apply indices_In, inrange_length in Hi. unfold dims_of in Hi. fold La in Hi. rewrite map_length in Hi.
    match goal with |- rmul (entry hL ta ?S) _ = _ => set (s := S) end.
    assert (LP : List.length idx = List.length ps) by (rewrite Hi, <- Fa, map_length; reflexivity).
    destruct (put_in ps (fun l : lid => NamedSpec.index_in [] (l_name (legs h' l))) idx) as (PI1 & PI2); [now rewrite Fa, Fb|exact LP|]. rewrite Fa in PI1. rewrite Fb in PI2.
    destruct (exists_asg (legs_of h t) idx (wt_nodup _ _ W)) as (s0 & Es0); [congruence|].
    assert (Va : entry hL ta s = ent (t_diag (tens h t)) a idx).
    { rewrite <- Es0, <- (entry_ent h t a s0 EA). rewrite <- (V1 s0 s) by (rewrite <- LGa, Es0; exact PI1). unfold entry. now rewrite TLa, T2. }
    assert (Vb : entry hL tb s = ent (t_diag (tens h t)) a idx).
    { rewrite <- Es0, <- (entry_ent h t a s0 EA). assert (X : entry h1 t s0 = entry h t s0) by (unfold entry; now rewrite T1). rewrite <- X. rewrite <- (V2 s0 s) by (rewrite LG1, Es0; exact PI2). unfold entry. now rewrite TLb. }
    now rewrite Va, Vb.
Qed.
Theorem selfTrace_scalar (h : heap) t : wf_tensor h t -> t_like (tens h t) = false -> t_diag (tens h t) = true -> legs_of h t = [] -> selfTrace t h = (h, Err IndexError).
Proof. intros W NL DG EL. unfold selfTrace, bind at 1. now rewrite (copy_scalar_diag h t W DG NL EL). Qed.
End Sp.
