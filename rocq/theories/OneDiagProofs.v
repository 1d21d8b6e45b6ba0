(** Proofs about contracting one diagonal tensor with a dense one, outer products, and contractTwoTensors. *)
From Coq Require Import List Arith Bool Lia Permutation.
From Verif Require Import Base Sums NdModel HeapModel FuncsModel TensorModel TensorSpec ContractModel NetSpec
  FuncsProofs NdProofs TensorProofs LabelProofs MatrixProofs MergeProofs CtorProofs DiagCtorProofs
  ShareProofs SumpairsProofs ContractProofs DiagContractProofs.
Import ListNotations.
Local Open Scope nat_scope.

Section Od.
Context {A : Type} {HA : SR A}.
Add Ring OdRing : (SR_theory (A := A)).
Notation heap := (heap A).

Lemma nth_app_at {X} (l : list X) x r d : nth (List.length l) (l ++ x :: r) d = x.
Proof. rewrite app_nth2 by lia. now rewrite Nat.sub_diag. Qed.
Lemma firstn_app_at {X} (l r : list X) : firstn (List.length l) (l ++ r) = l.
Proof. rewrite firstn_app, Nat.sub_diag, firstn_all. simpl. apply app_nil_r. Qed.
Lemma skipn_app_at {X} (l r : list X) : skipn (List.length l) (l ++ r) = r.
Proof. rewrite skipn_app, Nat.sub_diag, skipn_all. reflexivity. Qed.

Lemma diag_last_spec (b : arr A) sh k n : ashape b = sh ++ repeat n (S k) ->
  exists d, np_diag_last (S k) b = Ok d /\ wfa d /\ ashape d = sh ++ [n] /\
    forall idx j, inrange sh idx -> j < n -> aget d (idx ++ [j]) = aget b (idx ++ repeat j (S k)).
Proof.
  intros S. unfold np_diag_last, ndim. rewrite S, app_length, repeat_length.
  replace (List.length sh + Datatypes.S k - Datatypes.S k) with (List.length sh) by lia.
  destruct (Nat.ltb_spec (List.length sh + Datatypes.S k) (Datatypes.S k)); [lia|].
  rewrite skipn_app_at, all_eqb_repeat, firstn_app_at. cbn [negb]. eexists. split; [reflexivity|].
  split; [apply tab_wfa|]. split; [reflexivity|]. intros idx j Hi Hj.
  rewrite aget_tab.
  - pose proof (inrange_length _ _ Hi) as El. rewrite <- El. rewrite firstn_app_at, nth_app_at. reflexivity.
  - apply inrange_app; auto. repeat constructor. simpl. auto.
Qed.
Lemma mul_last_spec (d v : arr A) sh n : ashape d = sh ++ [n] -> ashape v = [n] ->
  exists e, np_mul_last d v = Ok e /\ wfa e /\ ashape e = sh ++ [n] /\
    forall idx j, inrange sh idx -> j < n -> aget e (idx ++ [j]) = rmul (aget d (idx ++ [j])) (aget v [j]).
Proof.
  intros S V. unfold np_mul_last, ndim. rewrite S, V, app_length. cbn [List.length].
  replace (List.length sh + 1 - 1) with (List.length sh) by lia. rewrite nth_app_at, Nat.eqb_refl.
  destruct (Nat.ltb_spec 0 (List.length sh + 1)); [|lia]. cbn [andb]. eexists. split; [reflexivity|].
  split; [apply tab_wfa|]. split; [reflexivity|]. intros idx j Hi Hj.
  rewrite aget_tab.
  - pose proof (inrange_length _ _ Hi) as El. rewrite <- El. now rewrite nth_app_at.
  - apply inrange_app; auto. repeat constructor. auto.
Qed.
Lemma sum_last_spec (d : arr A) sh n : ashape d = sh ++ [n] ->
  wfa (np_sum_last d) /\ ashape (np_sum_last d) = sh /\
  forall idx, inrange sh idx -> aget (np_sum_last d) idx = sumN n (fun j => aget d (idx ++ [j])).
Proof.
  intros S. unfold np_sum_last, ndim. rewrite S, app_length. cbn [List.length].
  replace (List.length sh + 1 - 1) with (List.length sh) by lia. rewrite nth_app_at, firstn_app_at.
  split; [apply tab_wfa|]. split; [reflexivity|]. intros idx Hi. now rewrite aget_tab.
Qed.
Lemma embed_last_spec (d : arr A) sh n k : ashape d = sh ++ [n] ->
  wfa (np_embed_last (S k) d) /\ ashape (np_embed_last (S k) d) = sh ++ repeat n (S k) /\
  forall idx j js, inrange sh idx -> inrange (repeat n (S k)) (j :: js) ->
    aget (np_embed_last (S k) d) (idx ++ j :: js) = if all_eqb (j :: js) then aget d (idx ++ [j]) else r0.
Proof.
  intros S. unfold np_embed_last, ndim. rewrite S, app_length. cbn [List.length].
  replace (List.length sh + 1 - 1) with (List.length sh) by lia. rewrite nth_app_at.
  rewrite <- app_assoc. replace (Datatypes.S k - 1) with k by lia.
  split; [apply tab_wfa|]. split; [reflexivity|]. intros idx j js Hi Hj.
  rewrite aget_tab.
  - pose proof (inrange_length _ _ Hi) as El. rewrite <- El. rewrite skipn_app_at, firstn_app_at, nth_app_at. reflexivity.
  - apply inrange_app; auto.
Qed.

Lemma aget_nth (a : arr A) sh idx : ashape a = sh -> nth (ravel sh idx) (adata a) r0 = aget a idx.
Proof. intros <-. reflexivity. Qed.

Lemma all_eqb_map_const (f : assignment) L n : (forall l, In l L -> f l = n) -> map f L = repeat n (List.length L).
Proof. apply repeat_map_const. Qed.

(** entries of tb after its remaining legs were moved to the front, on the diagonal of the contracted legs *)
Lemma contractBonds_diag1 (h h1 : heap) ta tb bs : wf_pair h ta tb -> only_bonds h h1 ->
  t_like (tens h ta) = false -> t_like (tens h tb) = false -> t_diag (tens h ta) = true -> t_diag (tens h tb) = false ->
  map (fun b => b0 (bonds h1 b)) bs = map fst (shared h ta tb) ->
  map (fun b => b1 (bonds h1 b)) bs = map snd (shared h ta tb) -> shared h ta tb <> [] ->
  exists h' tc, contractBonds ta tb false bs h1 = (h', Ok tc) /\
    contracted h h' ta tb tc (restB h ta tb ++ restA h ta tb) /\ 
    t_diag (tens h' tc) = false /\ t_like (tens h' tc) = false /\
    forall s, in_bounds h (restA h ta tb ++ restB h ta tb) s -> entry h' tc s = einsum h ta tb s.
Proof.
  intros W O La Lb Da Db E0 E1 NE.
  pose proof (wf_pair_ob _ _ _ _ O W) as W1. assert (ET : tens h1 = tens h) by apply O.
  destruct (complements h h1 ta tb W O) as [F1 F2]. destruct (shared_ne_legs h ta tb NE) as [NA NB].
  destruct (wf_arr_diag h ta (wp_a _ _ _ W) La Da NA) as (a & Ea & Wa & Sa).
  set (n := t_len (tens h ta)) in *.
  assert (Edim : forall l, dim_of h1 l = dim_of h l) by (intros; unfold dim_of; now rewrite (ob_legs _ _ O)).
  assert (EdimM : forall L, map (dim_of h1) L = map (dim_of h) L) by (intros; apply map_ext; auto).
  unfold contractBonds. unfold bind at 1, reads at 1. unfold bind at 1, reads at 1. rewrite E0, E1.
  unfold bind at 1, readsR at 1. rewrite F1. unfold bind at 1, readsR at 1. rewrite F2.
  unfold bind at 1, reads at 1. unfold bind at 1, reads at 1. unfold bind at 1, reads at 1. rewrite ET, Da, Db. cbn [andb].
  set (P := shared h ta tb) in *. set (RA := restA h ta tb) in *. set (RB := restB h ta tb) in *.
  assert (HRB : NoDup RB /\ incl RB (legs_of h tb)).
  { split; [apply others_NoDup, wt_nodup, W|]. intros l Hl. apply others_In in Hl. tauto. }
  assert (Lb1 : legs_of h1 tb = legs_of h tb) by (unfold legs_of; now rewrite ET).
  destruct (moveLegsToFront_ok h1 tb RB (wp_b _ _ _ W1)) as (h2 & E2 & OT & W2 & L2 & D2 & K2 & N2 & M2 & G2).
  { apply HRB. } { rewrite Lb1. apply HRB. }
  unfold bind at 1. rewrite E2.
  set (CB := filter (fun l => negb (inb l RB)) (legs_of h1 tb)) in *.
  assert (HCB : forall l, In l CB <-> In l (map snd P)).
  { intros l. unfold CB. rewrite filter_In, negb_true_iff, inb_false, Lb1. unfold RB, restB. fold P. rewrite others_In.
    split; [|intros H; split; [now apply (shared_snd h ta tb)|tauto]].
    intros [H1 H2]. destruct (in_dec Nat.eq_dec l (map snd P)); auto. exfalso. tauto. }
  assert (NCB : NoDup CB) by (apply NoDup_filter; rewrite Lb1; apply wt_nodup, W).
  assert (LCB : List.length CB = List.length P).
  { rewrite <- (map_length snd P). apply Nat.le_antisymm; apply NoDup_incl_length; auto.
    - intros l Hl. now apply HCB. - apply shared_snd_NoDup; auto. - intros l Hl. now apply HCB. }
  destruct P as [|p0 P0] eqn:EP; [congruence|]. set (k := List.length P0).
  assert (EP' : shared h ta tb = p0 :: P0) by exact EP.
  assert (HdB : forall l, In l (map snd (p0 :: P0)) -> dim_of h l = n).
  { intros l Hl. apply in_map_iff in Hl. destruct Hl as (p & <- & Hp). rewrite <- (shared_dim h ta tb); [|auto|rewrite EP'; auto].
    apply diag_dim; auto; [apply W|]. apply (shared_fst h ta tb). rewrite EP'. apply in_map; auto. }
  assert (K2' : t_like (tens h2 tb) = false) by (rewrite K2, ET; auto).
  assert (D2' : t_diag (tens h2 tb) = false) by (rewrite D2, ET; auto).
  destruct (wf_arr_dense h2 tb W2 K2' D2') as (b & Eb & Wb & Sb).
  assert (Edim2 : forall l, dim_of h2 l = dim_of h l).
  { intros. unfold dim_of. rewrite (ot_legs _ _ _ OT). apply Edim. }
  assert (EdimM2 : forall L, map (dim_of h2) L = map (dim_of h) L) by (intros; apply map_ext; auto).
  rewrite L2, EdimM2, map_app in Sb.
  assert (EdCB : map (dim_of h) CB = repeat n (S k)).
  { rewrite (repeat_map_const _ n); [f_equal; unfold k; now rewrite LCB|]. intros l Hl. apply HdB. now apply HCB. }
  rewrite EdCB in Sb.
  unfold bind at 1. unfold getArr at 1. unfold bind at 1, reads at 1. rewrite Eb. unfold ret at 1.
  unfold bind at 1. unfold getArr at 1. unfold bind at 1, reads at 1. rewrite (ot_tens _ _ _ OT) by apply W. rewrite ET, Ea. unfold ret at 1.
  rewrite map_length. cbn [List.length]. fold k.
  destruct (diag_last_spec b _ k n Sb) as (d0 & Ed0 & Wd0 & Sd0 & Gd0).
  unfold bind at 1, liftR at 1. rewrite Ed0.
  destruct (mul_last_spec d0 a _ n Sd0 Sa) as (d & Ed & Wd & Sd & Gd).
  unfold bind at 1, liftR at 1. rewrite Ed. unfold bind at 1, reads at 1.
  change (map (legdim h2)) with (map (dim_of h2)). rewrite EdimM2.
  destruct (rest_alloc h ta tb W) as [RN RL]. fold RA RB in RN, RL.
  assert (HdA : forall l, In l RA -> dim_of h l = n).
  { intros l Hl. apply others_In in Hl. apply diag_dim; auto; [apply W|tauto]. }
  (* entries of d *)
  assert (GD : forall s j, in_bounds h (RA ++ RB) s -> j < n -> 
            aget d (map s RB ++ [j]) = rmul (aget a [j]) (entry h tb (allj h ta tb s j))).
  { intros s j Hs Hj. rewrite Gd, Gd0; auto; try (apply inrange_map; intros; apply Hs; apply in_app_iff; auto).
    rewrite SRmul_comm with (rI := r1) (rO := r0) (radd := radd); [f_equal|apply SR_theory].
    assert (BB : in_bounds h (legs_of h tb) (allj h ta tb s j)).
    { apply shared_bounds; auto. rewrite (repeat_map_const _ n).
      - apply inrange_repeat; auto.
      - intros p Hp. apply diag_dim; auto; [apply W|]. apply (shared_fst h ta tb). apply in_map; auto. }
    transitivity (entry h2 tb (allj h ta tb s j)).
    - unfold entry, entry_of. rewrite Eb, D2'. fold (legs_of h2 tb). rewrite L2. f_equal. rewrite map_app. f_equal.
      + apply map_ext_in. intros l Hl. symmetry. apply allj_rest; auto.
      + rewrite (repeat_map_const _ j); [f_equal; unfold k; now rewrite LCB|]. intros l Hl. apply allj_snd; auto. rewrite EP'. now apply HCB.
    - rewrite G2; [unfold entry; now rewrite ET|]. rewrite Lb1. intros l Hl. rewrite Edim. now apply BB. }
  assert (RO : reordered h1 h2 tb).
  { constructor; auto. rewrite L2. apply rest_perm; [apply wt_nodup, W1|apply HRB|rewrite Lb1; apply HRB]. }
  assert (NL : NoDup (RB ++ RA)) by (eapply Permutation_NoDup; [apply Permutation_app_comm|auto]).
  assert (AL : forall l, In l (RB ++ RA) -> l < nleg h2).
  { intros l Hl. rewrite (ot_nleg _ _ _ OT), (ob_nleg _ _ O). apply RL. apply in_app_iff in Hl. apply in_app_iff. tauto. }
  destruct RA as [|l0 RA0] eqn:ERA.
  - cbn [List.length Nat.eqb]. destruct (sum_last_spec d _ n Sd) as (Ws & Ss & Gs).
    destruct (mkDense_legs h2 (RB ++ []) (np_sum_last d) None (Some (map (dim_of h) (RB ++ [])))) 
      as (h' & tc & Ec & NT & Wc & Oc & Lc & Dc & Kc & _ & Hc); auto.
    { rewrite Ss, EdimM2. now rewrite app_nil_r. }
    rewrite Ec. exists h', tc. split; auto. split; [|split; [auto|split; [auto|]]].
    + eapply contracted_intro; eauto.
    + intros s Hs. rewrite Hc. rewrite EdimM2, app_nil_r. rewrite (aget_nth _ _ _ Ss). 
      assert (IR : inrange (map (dim_of h) RB) (map s RB)) by (apply inrange_map; intros; apply Hs; auto).
      rewrite Gs by auto. unfold einsum. rewrite (diag_sum h ta tb a) by (auto; rewrite EP'; discriminate). fold n.
      change (restA h ta tb) with RA. rewrite ERA. cbn [forallb]. apply sumN_ext. intros j Hj. now apply GD.
  - cbn [List.length Nat.eqb]. set (m := List.length RA0). destruct (embed_last_spec d _ n m Sd) as (Ws & Ss & Gs).
    assert (EdRA : map (dim_of h) (l0 :: RA0) = repeat n (S m)).
    { unfold m. apply (repeat_map_const (dim_of h) n (l0 :: RA0)). auto. }
    destruct (mkDense_legs h2 (RB ++ l0 :: RA0) (np_embed_last (S m) d) None (Some (map (dim_of h) (RB ++ l0 :: RA0)))) 
      as (h' & tc & Ec & NT & Wc & Oc & Lc & Dc & Kc & _ & Hc); auto.
    { rewrite Ss, EdimM2, map_app, EdRA. reflexivity. }
    rewrite Ec. exists h', tc. split; auto. split; [|split; [auto|split; [auto|]]].
    + eapply contracted_intro; eauto.
    + intros s Hs. rewrite Hc. rewrite EdimM2, !map_app, EdRA. rewrite (aget_nth _ _ _ Ss).
      assert (IR : inrange (map (dim_of h) RB) (map s RB)) by (apply inrange_map; intros; apply Hs; apply in_app_iff; auto).
      assert (IRA : inrange (repeat n (S m)) (map s (l0 :: RA0))).
      { rewrite <- EdRA. apply inrange_map. intros; apply Hs; apply in_app_iff; auto. }
      cbn [map] in *. rewrite Gs by auto. unfold einsum. rewrite (diag_sum h ta tb a) by (auto; rewrite EP'; discriminate). fold n.
      change (restA h ta tb) with RA. rewrite ERA.
      assert (Hn : s l0 < n) by (rewrite <- (HdA l0) by (simpl; auto); apply Hs; simpl; auto).
      rewrite (sum_all_eq s (l0 :: RA0) n (fun j => rmul (aget a [j]) (entry h tb (allj h ta tb s j))) l0) by (simpl; auto).
      cbn [map]. destruct (all_eqb (s l0 :: map s RA0)); auto.
Qed.
End Od.
