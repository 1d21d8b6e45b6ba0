(** A sequence of contractions on TensorLikes follows the sequence on the tensors they stand for. *)
From Coq Require Import List Arith Bool Lia Permutation ZArith.
From Verif Require Import Base Sums NdModel HeapModel FuncsModel TensorModel TensorSpec ContractModel NetSpec
  FuncsProofs NdProofs TensorProofs MatrixProofs MergeProofs CopyProofs ShareProofs SumpairsProofs ContractProofs DiagContractProofs OneDiagProofs OuterProofs NetProofs SeqProofs
  CopyListProofs NetGraphSpec RetProofs LikeProofs LikeSpec.
Import ListNotations.
Local Open Scope nat_scope.

Section Lk.
Context {A : Type} {HA : SR A}.
Notation heap := (heap A).

Record mirrors (h : heap) (T : list tid) (h' : heap) (ct cp : nat -> nat) : Prop := {
  mi_free : forall G, incl G T -> NoDup G -> free_legs h' (map ct G) = map cp (free_legs h G);
  mi_diag : forall G, incl G T -> all_diag h' (map ct G) = all_diag h G;
  mi_cost : forall G1 G2, incl (G1 ++ G2) T -> NoDup (G1 ++ G2) -> group_cost h' (map ct G1) (map ct G2) = group_cost h G1 G2;
  mi_leg : forall l, In l (all_legs h T) -> l_name (legs h' (cp l)) = l_name (legs h l) /\ dim_of h' (cp l) = dim_of h l;
  mi_link : forall l l', In l (all_legs h T) -> In l' (all_legs h T) -> linked h' (cp l) (cp l') <-> linked h l l';
  mi_wf : wf_net h' (map ct T) }.

Lemma mirrors_id (h : heap) T : wf_net h T -> mirrors h T h (fun t => t) (fun l => l).
Proof.
  intros W. constructor; intros; rewrite ?map_id; auto; tauto.
Qed.
Lemma mirrors_copy (h h' : heap) T ct cp : net_copy h h' T ct cp -> mirrors h T h' ct cp.
Proof.
  intros N. constructor; intros.
  - now apply (free_map h h' T ct cp N).
  - now apply (all_diag_map h h' T ct cp N).
  - now apply (group_cost_map h h' T ct cp N).
  - now apply N.
  - now apply N.
  - apply N.
Qed.

Section Lock.
Variables (h h1 h2 : heap) (T : list tid) (c1 p1 c2 p2 : nat -> nat).
Hypothesis (WT : wf_net h T).
Hypothesis (M1 : mirrors h T h1 c1 p1).
Hypothesis (M2 : mirrors h T h2 c2 p2).

Definition rg (ct : nat -> nat) (g : nat * list tid) : nat * list tid := (fst g, map ct (snd g)).

Lemma mirror_shared (h' hc : heap) ct cp G1 G2 a b : mirrors h T h' ct cp -> incl (G1 ++ G2) T -> NoDup (G1 ++ G2) ->
  (forall l l', In (l, l') (shared hc a b) <-> In l (free_legs h' (map ct G1)) /\ In l' (free_legs h' (map ct G2)) /\ linked h' l l') ->
  (forall l, In l (free_legs h' (map ct G1)) \/ In l (free_legs h' (map ct G2)) -> dim_of hc l = dim_of h' l) ->
  (forall l l', In l (free_legs h G1) -> In l' (free_legs h G2) -> linked h l l' -> 0 < dim_of h l) <->
  (forall p, In p (shared hc a b) -> 0 < dim_of hc (fst p)).
Proof.
  intros M HI ND SH DM. assert (I1 : incl G1 T) by (intros x Hx; apply HI, in_app_iff; auto). assert (I2 : incl G2 T) by (intros x Hx; apply HI, in_app_iff; auto).
  apply NoDup_app_inv in ND as ND'. destruct ND' as (ND1 & ND2 & _).
  rewrite (mi_free _ _ _ _ _ M G1), (mi_free _ _ _ _ _ M G2) in SH by auto. rewrite (mi_free _ _ _ _ _ M G1), (mi_free _ _ _ _ _ M G2) in DM by auto.
  assert (F1 := free_sub h T G1 I1). assert (F2 := free_sub h T G2 I2). split.
  - intros H [m m'] Hp. apply SH in Hp. destruct Hp as (Hm & Hm' & Lm). simpl. rewrite DM by auto.
    apply in_map_iff in Hm. apply in_map_iff in Hm'. destruct Hm as (l & <- & Hl), Hm' as (l' & <- & Hl').
    destruct (mi_leg _ _ _ _ _ M l) as (_ & ->); auto. apply (H l l'); auto. apply (mi_link _ _ _ _ _ M); auto.
  - intros H l l' Hl Hl' LL. specialize (H (cp l, cp l')). simpl in H. rewrite DM in H by (left; now apply in_map).
    destruct (mi_leg _ _ _ _ _ M l) as (_ & E); auto. rewrite E in H. apply H. apply SH. repeat split; try now apply in_map. apply (mi_link _ _ _ _ _ M); auto.
Qed.

Lemma mirror_dim (h' hd : heap) ct cp G l : mirrors h T h' ct cp -> incl G T -> NoDup G ->
  (forall x, x < nleg h' -> dim_of hd x = dim_of h' x) -> In l (free_legs h G) -> dim_of hd (cp l) = dim_of h l.
Proof.
  intros M HI ND DD Hl. rewrite DD.
  - apply (mi_leg _ _ _ _ _ M). apply (free_sub h T G HI). exact Hl.
  - assert (In (cp l) (free_legs h' (map ct G))) as X by (rewrite (mi_free _ _ _ _ _ M) by auto; now apply in_map).
    apply free_all in X. apply all_legs_In in X. destruct X as (u & Hu & X). eapply wt_alloc; [|exact X]. apply (mi_wf _ _ _ _ _ M).
    apply in_map_iff in Hu. destruct Hu as (y & <- & Hy). apply in_map. auto.
Qed.

Lemma step_lock hc cur s t G1 G2 rest cs hc' cur' cost cost' gc curg ds :
  seq_inv false False h1 (map c1 T) hc cur ((s, map c1 G1) :: (t, map c1 G2) :: map (rg c1) rest) cs ->
  seq_inv true False h2 (map c2 T) gc curg ((s, map c2 G1) :: (t, map c2 G2) :: map (rg c2) rest) ds ->
  incl (G1 ++ G2) T -> NoDup (G1 ++ G2) ->
  seqStep (cur, cost) (s, t) hc = (hc', Ok (cur', cost')) ->
  exists gc' curg' cs' ds', seqStep (curg, cost) (s, t) gc = (gc', Ok (curg', cost')) /\
    seq_inv false False h1 (map c1 T) hc' cur' (map (rg c1) ((Nat.min s t, G1 ++ G2) :: rest)) cs' /\
    seq_inv true False h2 (map c2 T) gc' curg' (map (rg c2) ((Nat.min s t, G1 ++ G2) :: rest)) ds'.
Proof.
  intros I J HI ND E. assert (I1 : incl G1 T) by (intros x Hx; apply HI, in_app_iff; auto). assert (I2 : incl G2 T) by (intros x Hx; apply HI, in_app_iff; auto).
  pose proof (mi_wf _ _ _ _ _ M1) as W1. pose proof (mi_wf _ _ _ _ _ M2) as W2.
  destruct (inv_pair _ _ _ _ _ _ _ _ _ _ _ _ W1 I) as (a1 & a2 & arest & -> & Wa & Ha1 & Ha2 & (Ka1 & Da1 & Pa1) & (Ka2 & Da2 & Pa2) & PRa & SHa & PFa & DMa & EPa).
  destruct (inv_pair _ _ _ _ _ _ _ _ _ _ _ _ W2 J) as (b1 & b2 & brest & -> & Wb & Hb1 & Hb2 & (Kb1 & Db1 & Pb1) & (Kb2 & Db2 & Pb2) & PRb & SHb & PFb & DMb & EPb).
  pose proof (wf_net_pair _ _ _ _ Wa) as WPa. pose proof (wf_net_pair _ _ _ _ Wb) as WPb.
  pose proof (mirror_shared h1 hc c1 p1 G1 G2 a1 a2 M1 HI ND SHa DMa) as POa.
  pose proof (mirror_shared h2 gc c2 p2 G1 G2 b1 b2 M2 HI ND SHb DMb) as POb.
  apply NoDup_app_inv in ND as ND'. destruct ND' as (ND1 & ND2 & _).
  rewrite (mi_diag _ _ _ _ _ M1) in Da1, Da2 by auto. rewrite (mi_diag _ _ _ _ _ M2) in Db1, Db2 by auto.
  assert (FR1 := mi_free _ _ _ _ _ M1 G1 I1 ND1). assert (FR2 := mi_free _ _ _ _ _ M2 G1 I1 ND1).
  unfold seqStep in E. rewrite Ha1, Ha2 in E. unfold bind at 1 in E.
  destruct (contractCost a1 a2 hc) as [k1 [[c lv]|e]] eqn:EC; [|discriminate].
  destruct (contractCost_ret hc a1 a2 k1 c lv WPa EC) as (-> & O1).
  unfold bind in E. destruct (contractTwoTensors a1 a2 k1) as [k2 [tc|e]] eqn:E2; [|discriminate]. unfold ret in E. injection E as <- <- <-.
  (* cost of the shadow step *)
  assert (PC : pair_cost gc b1 b2 = pair_cost hc a1 a2).
  { rewrite (mi_diag _ _ _ _ _ M1), (mi_diag _ _ _ _ _ M1) in EPa by auto. rewrite (mi_diag _ _ _ _ _ M2), (mi_diag _ _ _ _ _ M2) in EPb by auto.
    rewrite (mi_cost _ _ _ _ _ M1) in EPa by auto. rewrite (mi_cost _ _ _ _ _ M2) in EPb by auto. rewrite FR1 in EPa. rewrite FR2 in EPb.
    destruct (free_legs h G1) as [|x X] eqn:EF.
    - simpl in FR1, FR2. destruct (all_diag h G1) eqn:A1, (all_diag h G2) eqn:A2;
        try (rewrite EPa, EPb by (intros; discriminate); reflexivity).
      unfold pair_cost. rewrite Da1, Da2, Db1, Db2. rewrite FR1 in Pa1. rewrite FR2 in Pb1. symmetry in Pa1, Pb1. apply Permutation_nil in Pa1. apply Permutation_nil in Pb1.
      rewrite (proj1 (wt_diag _ _ (wp_a _ _ _ WPa) Da1) Pa1), (proj1 (wt_diag _ _ (wp_a _ _ _ WPb) Db1) Pb1). reflexivity.
    - rewrite EPa, EPb by (intros; discriminate). reflexivity. }
  assert (CL : exists g1 lv', contractCost b1 b2 gc = (g1, Ok (pair_cost hc a1 a2, lv')) /\ only_bonds gc g1).
  { destruct (t_diag (tens gc b1) && t_diag (tens gc b2)) eqn:D.
    - apply andb_prop in D. destruct D as [D1 D2]. exists gc, 1%Z. split; [|apply only_bonds_refl]. rewrite <- PC.
      unfold contractCost, pair_cost, bind, reads, readsR, bondDimension. rewrite D1, D2. cbn -[Z.of_nat]. rewrite D1. reflexivity.
    - destruct (contractCost_ok gc b1 b2 WPb) as (g1 & Eg & Og).
      + apply POb. apply POa. intros p Hp. destruct (dim_of hc (fst p)) eqn:Z; [|lia]. exfalso.
        destruct (contractCost_zero hc a1 a2 WPa) as (k3 & E3 & _); [congruence|eauto|]. rewrite E3 in EC. discriminate.
      + rewrite PC in Eg. eauto. }
  destruct CL as (g1 & lv' & EL & OL).
  pose proof (inv_ob _ _ _ _ k1 _ _ _ _ O1 I) as Ia. pose proof (inv_ob _ _ _ _ g1 _ _ _ _ OL J) as Jb.
  pose proof (wf_pair_ob _ _ _ _ O1 WPa) as WPa1. pose proof (wf_pair_ob _ _ _ _ OL WPb) as WPb1.
  assert (Eta : tens k1 = tens hc) by apply O1. assert (Etb : tens g1 = tens gc) by apply OL.
  destruct (contract_real k1 a1 a2 k2 tc WPa1) as (L & CT & PL & _ & DG & LI & FL); [now rewrite Eta|now rewrite Eta|exact E2|].
  destruct (contract_like g1 b1 b2 WPb1) as (g2 & tg & E3 & CTg & DGg & LIg); [now rewrite Etb|now rewrite Etb| |].
  { rewrite Etb, Db1, Db2. intros A1 A2. rewrite Eta, Da1, Da2 in FL. specialize (FL A1 A2).
    destruct (inv_pair _ _ _ _ _ _ _ _ _ _ _ _ W1 Ia) as (x1 & x2 & xr & XE & _ & _ & _ & _ & _ & _ & _ & PF1 & _). injection XE as <- <- <-.
    destruct (inv_pair _ _ _ _ _ _ _ _ _ _ _ _ W2 Jb) as (y1 & y2 & yr & YE & _ & _ & _ & _ & _ & _ & _ & PF2 & _). injection YE as <- <- <-.
    rewrite <- map_app in PF1, PF2. 
    rewrite (mi_free _ _ _ _ _ M1) in PF1 by auto. rewrite (mi_free _ _ _ _ _ M2) in PF2 by auto.
    pose proof (fun l Hl => mirror_dim h1 k1 c1 p1 (G1 ++ G2) l M1 HI ND (fun x Hx => proj1 (proj2 (si_legs _ _ _ _ _ _ _ _ Ia x Hx))) Hl) as X1.
    pose proof (fun l Hl => mirror_dim h2 g1 c2 p2 (G1 ++ G2) l M2 HI ND (fun x Hx => proj1 (proj2 (si_legs _ _ _ _ _ _ _ _ Jb x Hx))) Hl) as X2.
    intros l l' Hl Hl'. apply (Permutation_in _ PF2) in Hl. apply (Permutation_in _ PF2) in Hl'. apply in_map_iff in Hl. apply in_map_iff in Hl'.
    destruct Hl as (x & <- & Hx), Hl' as (y & <- & Hy). rewrite !X2 by auto. rewrite <- !X1 by auto.
    apply FL; apply (Permutation_in _ (Permutation_sym PF1)); now apply in_map. }
  exists g2, (set_nth (Nat.min s t) tg curg), (tc :: arest), (tg :: brest).
  split.
  { unfold seqStep. rewrite Hb1, Hb2. unfold bind at 1. rewrite EL. unfold bind. rewrite E3. reflexivity. }
  cbn [map]. change (rg c1 (Nat.min s t, G1 ++ G2)) with (Nat.min s t, map c1 (G1 ++ G2)). change (rg c2 (Nat.min s t, G1 ++ G2)) with (Nat.min s t, map c2 (G1 ++ G2)). rewrite !map_app. split.
  - eapply inv_join; [exact W1|exact Ia|exact CT|exact PL|exact DG|exact LI|tauto].
  - eapply inv_join; [exact W2|exact Jb|exact CTg| |exact DGg|exact LIg|tauto].
    unfold like_legs. destruct (negb (t_diag (tens g1 b1)) && t_diag (tens g1 b2)); [apply Permutation_app_comm|reflexivity].
Qed.

Lemma run_lock ok cost gs sq n : complete ok cost gs sq n ->
  incl (flat_map snd gs) T -> NoDup (flat_map snd gs) ->
  forall hc cur cs k hc' cur' k' gc curg ds,
  seq_inv false False h1 (map c1 T) hc cur (map (rg c1) gs) cs ->
  seq_inv true False h2 (map c2 T) gc curg (map (rg c2) gs) ds ->
  foldM seqStep sq (cur, k) hc = (hc', Ok (cur', k')) ->
  exists gc' curg' a b G, foldM seqStep sq (curg, k) gc = (gc', Ok (curg', k')) /\
    seq_inv false False h1 (map c1 T) hc' cur' [(0, map c1 G)] [a] /\
    seq_inv true False h2 (map c2 T) gc' curg' [(0, map c2 G)] [b] /\ incl G T /\ NoDup G.
Proof.
  induction 1 as [G|gs rest s t G1 G2 sq n N P OK CP IH]; intros HI ND hc cur cs k hc' cur' k' gc curg ds I J E.
  - simpl in E. unfold ret in E. injection E as <- <- <-. cbn [map] in I, J. unfold rg in I, J. cbn [fst snd] in I, J.
    simpl in HI, ND. rewrite app_nil_r in HI, ND.
    pose proof (si_pos _ _ _ _ _ _ _ _ I) as F. inversion F as [|? ? ? ? _ F']; subst. inversion F'; subst. 
    pose proof (si_pos _ _ _ _ _ _ _ _ J) as F2. inversion F2 as [|? ? ? ? _ F2']; subst. inversion F2'; subst. 
    do 5 eexists. split; [reflexivity|]. eauto.
  - pose proof (Permutation_map (rg c1) P) as Q1. pose proof (Permutation_map (rg c2) P) as Q2.
    destruct (inv_perm _ _ _ _ _ _ _ _ _ Q1 I) as (cs1 & _ & I1). destruct (inv_perm _ _ _ _ _ _ _ _ _ Q2 J) as (ds1 & _ & J1).
    assert (PF : Permutation (flat_map snd gs) (flat_map snd ((s, G1) :: (t, G2) :: rest))) by (apply Permutation_flat_map; exact P).
    assert (HI2 : incl (flat_map snd ((s, G1) :: (t, G2) :: rest)) T) by (intros x Hx; apply HI; eapply Permutation_in; [symmetry; exact PF|exact Hx]).
    assert (ND2 := Permutation_NoDup PF ND). simpl in HI2, ND2. rewrite app_assoc in HI2, ND2.
    cbn [foldM] in E. unfold bind in E. destruct (seqStep (cur, k) (s, t) hc) as [k1 [[cur1 q]|e]] eqn:E1; [|discriminate].
    destruct (step_lock hc cur s t G1 G2 rest cs1 k1 cur1 k q gc curg ds1 I1 J1) as (gc1 & curg1 & cs' & ds' & ES & I2 & J2); auto.
    { intros x Hx; apply HI2, in_app_iff; auto. } { apply NoDup_app_inv in ND2; tauto. }
    destruct (IH HI2 ND2 _ _ _ _ _ _ _ _ _ _ I2 J2 E) as (gc' & curg' & a & b & G & EF & R).
    exists gc', curg', a, b, G. split; [|auto]. cbn [foldM]. unfold bind. now rewrite ES, EF.
Qed.

Lemma final_sig lk (hh : heap) ct cp hc cur G a : mirrors h T hh ct cp -> incl G T -> NoDup G ->
  seq_inv lk False hh (map ct T) hc cur [(0, map ct G)] [a] ->
  nth_error cur 0 = Some a /\ wf_tensor hc a /\ t_like (tens hc a) = lk /\ t_diag (tens hc a) = all_diag h G /\
  Permutation (map (sig hc) (legs_of hc a)) (map (sig h) (free_legs h G)).
Proof.
  intros M HI ND I. pose proof (si_pos _ _ _ _ _ _ _ _ I) as F. inversion F as [|? ? ? ? F0 _]; subst. simpl in F0. split; auto.
  pose proof (si_grp _ _ _ _ _ _ _ _ I) as F1. inversion F1 as [|? ? ? ? (K & D & P) _]; subst. simpl in D, P.
  split; [apply I; simpl; auto|]. split; auto. rewrite (mi_diag _ _ _ _ _ M) in D by auto. split; auto.
  rewrite (mi_free _ _ _ _ _ M) in P by auto. rewrite P, map_map. erewrite map_ext_in; [reflexivity|]. intros l Hl. unfold sig.
  rewrite (mirror_dim hh hc ct cp G l M HI ND) by (auto; intros x Hx; apply (si_legs _ _ _ _ _ _ _ _ I x Hx)). f_equal.
  assert (In (cp l) (free_legs hh (map ct G))) as X by (rewrite (mi_free _ _ _ _ _ M) by auto; now apply in_map).
  apply free_all in X. apply all_legs_In in X. destruct X as (u & Hu & X).
  destruct (si_legs _ _ _ _ _ _ _ _ I (cp l)) as (_ & _ & ->).
  - eapply wt_alloc; [|exact X]. apply (mi_wf _ _ _ _ _ M). apply in_map_iff in Hu. destruct Hu as (y & <- & Hy). apply in_map. auto.
  - apply (mi_leg _ _ _ _ _ M). apply (free_sub h T G HI). exact Hl.
Qed.

Lemma singles_rg ct : singles (map ct T) = map (rg ct) (singles T).
Proof. symmetry. apply (singles_map ct T). Qed.
End Lock.

(** the shadows of [ts]: what copyTensorList(ts, tensorLikeContract = True) makes *)
Lemma shadow_run (h hr : heap) T c p hc' cur' k ok cost sq n : wf_list h T -> (forall t, In t T -> t_like (tens hr (c t)) = false) -> mirrors h T hr c p ->
  complete ok cost (singles T) sq n ->
  foldM seqStep sq (map c T, 0) hr = (hc', Ok (cur', k)) ->
  exists h1 ss h2 s0 cur2 t0, copyTensorList T true h = (h1, Ok ss) /\
    contractWithSeq ss sq true h1 = (h2, Ok (s0, k, cur2)) /\ nth_error cur' 0 = Some t0 /\
    t_like (tens h2 s0) = true /\ t_arr (tens h2 s0) = None /\ t_diag (tens h2 s0) = t_diag (tens hc' t0) /\
    Permutation (map (sig h2) (legs_of h2 s0)) (map (sig hc') (legs_of hc' t0)).
Proof.
  intros WL LI M1 CP E. pose proof (wl_net _ _ WL) as W.
  destruct (copyTensorList_ok h T true WL) as (h1 & ct & cp & EC & N & LK & _); [discriminate|].
  pose proof (mirrors_copy _ _ _ _ _ N) as M2.
  destruct (run_lock h hr h1 T c p ct cp M1 M2 ok cost (singles T) sq n CP) with (hc := hr) (cur := map c T) (cs := map c T) (k := 0) (hc' := hc') (cur' := cur') (k' := k) (gc := h1) (curg := map ct T) (ds := map ct T)
    as (gc' & curg' & a & b & G & EF & I & J & HI & ND).
  - rewrite singles_flat. apply incl_refl.
  - rewrite singles_flat. apply W.
  - rewrite <- singles_rg. apply inv_init; [apply M1|]. intros t Ht. apply in_map_iff in Ht. destruct Ht as (x & <- & Hx). auto.
  - rewrite <- singles_rg. apply inv_init; [apply M2|]. intros t Ht. apply in_map_iff in Ht. destruct Ht as (x & <- & Hx). now apply LK.
  - exact E.
  - destruct (final_sig h T false hr c p hc' cur' G a M1 HI ND I) as (A1 & A2 & A3 & A4 & A5).
    destruct (final_sig h T true h1 ct cp gc' curg' G b M2 HI ND J) as (B1 & B2 & B3 & B4 & B5).
    exists h1, (map ct T), gc', b, curg', a. split; auto. split; [|split; [auto|split; [auto|split; [now apply wf_like|split; [congruence|now rewrite A5]]]]].
    unfold contractWithSeq, bind. unfold ret at 1. rewrite EF. destruct curg' as [|x y]; [discriminate|]. simpl in B1. now injection B1 as ->.
Qed.

Lemma shadow_predicts (h : heap) ts sq ip n h' t0 c cur : wf_list h ts -> (forall t, In t ts -> t_like (tens h t) = false) ->
  complete (fun _ _ => True) (group_cost h) (singles ts) sq n ->
  contractWithSeq ts sq ip h = (h', Ok (t0, c, cur)) ->
  exists h1 ss h2 s0 cur2, copyTensorList ts true h = (h1, Ok ss) /\
    contractWithSeq ss sq true h1 = (h2, Ok (s0, c, cur2)) /\
    t_like (tens h2 s0) = true /\ t_arr (tens h2 s0) = None /\ t_diag (tens h2 s0) = t_diag (tens h' t0) /\
    Permutation (map (sig h2) (legs_of h2 s0)) (map (sig h') (legs_of h' t0)).
Proof.
  intros WL LI CP E. pose proof (wl_net _ _ WL) as W.
  assert (X : exists hr ct cp cur', (forall t, In t ts -> t_like (tens hr (ct t)) = false) /\ mirrors h ts hr ct cp /\
      foldM seqStep sq (map ct ts, 0) hr = (h', Ok (cur', c)) /\ nth_error cur' 0 = Some t0).
  { unfold contractWithSeq, bind in E. destruct ip.
    - unfold ret at 1 in E. destruct (foldM seqStep sq (ts, 0) h) as [k1 [[cur1 c1]|e]] eqn:EF; [|discriminate].
      destruct cur1 as [|t1 cur1]; [discriminate|]. unfold ret in E. injection E as <- <- <- <-.
      exists h, (fun t => t), (fun l => l), (t1 :: cur1). split; auto. split; [now apply mirrors_id|]. rewrite map_id. auto.
    - destruct (copyTensorList ts false h) as [h1 [cs|e]] eqn:EC; [|discriminate].
      destruct (copyTensorList_ok h ts false WL) as (h1' & ct & cp & EC2 & N & LK & EN).
      { intros _. eapply copyList_copyable; eauto. apply W. }
      rewrite EC in EC2. injection EC2 as <- ->.
      destruct (foldM seqStep sq (map ct ts, 0) h1) as [k1 [[cur1 c1]|e]] eqn:EF; [|discriminate].
      destruct cur1 as [|t1 cur1]; [discriminate|]. unfold ret in E. injection E as <- <- <- <-.
      exists h1, ct, cp, (t1 :: cur1). split; [intros t Ht; rewrite LK by auto; now apply LI|]. split; [now apply mirrors_copy|]. auto. }
  destruct X as (hr & ct & cp & cur' & L1 & M & EF & EH).
  destruct (shadow_run h hr ts ct cp h' cur' c _ _ sq n WL L1 M CP EF) as (h1 & ss & h2 & s0 & cur2 & t0' & R1 & R2 & R3 & R4).
  assert (t0' = t0) by congruence. subst t0'. exists h1, ss, h2, s0, cur2. auto.
Qed.

(** ** One pair *)
Section Pair.
Variables (h g : heap) (ta tb sa sb : tid) (cp : lid -> lid).
Hypothesis (W : wf_pair h ta tb).
Hypothesis (V : wf_pair g sa sb).
Hypothesis (EA : legs_of g sa = map cp (legs_of h ta)).
Hypothesis (EB : legs_of g sb = map cp (legs_of h tb)).
Hypothesis (LN : forall l l', In l (legs_of h ta) -> In l' (legs_of h tb) -> linked g (cp l) (cp l') <-> linked h l l').
Let AL := legs_of h ta ++ legs_of h tb.
Let q (p : lid * lid) := (cp (fst p), cp (snd p)).

Lemma pcp_inj l l' : In l AL -> In l' AL -> cp l = cp l' -> l = l'.
Proof. apply map_inj_NoDup. unfold AL. rewrite map_app, <- EA, <- EB. apply V. Qed.
Lemma pinb l L : In l AL -> incl L AL -> inb (cp l) (map cp L) = inb l L.
Proof.
  intros Hl HL. destruct (inb l L) eqn:E.
  - apply inb_true in E. apply inb_true. now apply in_map.
  - apply inb_false in E. apply inb_false. intros Hi. apply in_map_iff in Hi. destruct Hi as (x & Ex & Hx). apply pcp_inj in Ex; auto. now subst.
Qed.
Lemma pshared : shared g sa sb = map q (shared h ta tb).
Proof.
  unfold shared. rewrite EA, EB.
  assert (H : incl (legs_of h ta) (legs_of h ta)) by apply incl_refl. revert H. generalize (legs_of h ta) at 1 3 4 as L. induction L as [|l L IH]; intros HL; auto.
  unfold pairs_between in *. simpl. rewrite map_app. rewrite IH by (intros x Hx; apply HL; simpl; auto). f_equal.
  assert (Hl : In l (legs_of h ta)) by (apply HL; simpl; auto).
  assert (Hal : In l AL) by (apply in_app_iff; auto).
  assert (HB : incl (legs_of h tb) AL) by (intros x Hx; apply in_app_iff; auto).
  destruct (partner h l) as [l2|] eqn:EP.
  - apply partner_Some in EP. destruct (inb l2 (legs_of h tb)) eqn:E2.
    + apply inb_true in E2. assert (E3 : partner g (cp l) = Some (cp l2)) by (apply partner_Some; now apply LN).
      rewrite E3, pinb by auto. apply inb_true in E2. now rewrite E2.
    + destruct (partner g (cp l)) as [m|] eqn:E3; auto. destruct (inb m (map cp (legs_of h tb))) eqn:E4; auto. exfalso.
      apply inb_true in E4. apply in_map_iff in E4. destruct E4 as (x & <- & Hx). apply partner_Some in E3. apply LN in E3; auto.
      assert (x = l2) by (eapply linked_fun; eauto). subst. apply inb_false in E2. auto.
  - destruct (partner g (cp l)) as [m|] eqn:E3; auto. destruct (inb m (map cp (legs_of h tb))) eqn:E4; auto. exfalso.
    apply inb_true in E4. apply in_map_iff in E4. destruct E4 as (x & <- & Hx). apply partner_Some in E3. apply LN in E3; auto. apply partner_Some in E3. congruence.
Qed.
Lemma pothers X Y : incl X AL -> incl Y AL -> others (map cp X) (map cp Y) = map cp (others X Y).
Proof.
  intros HX HY. unfold others. induction X as [|x X IH]; auto. simpl. rewrite pinb by (auto; apply HX; simpl; auto).
  rewrite IH by (intros z Hz; apply HX; simpl; auto). destruct (inb x Y); reflexivity.
Qed.
Lemma prests : restA g sa sb = map cp (restA h ta tb) /\ restB g sa sb = map cp (restB h ta tb).
Proof.
  unfold restA, restB. rewrite pshared, EA, EB, !map_map. split.
  - rewrite <- pothers; [now rewrite map_map|intros x Hx; apply in_app_iff; auto|].
    intros x Hx. apply in_app_iff. left. now apply (pairs_fst_incl h (legs_of h ta) (legs_of h tb)).
  - rewrite <- pothers; [now rewrite map_map|intros x Hx; apply in_app_iff; auto|].
    intros x Hx. apply in_app_iff. right. now apply (pairs_snd_incl h (legs_of h ta) (legs_of h tb)).
Qed.

Lemma pair_predicts h' tc : t_like (tens h ta) = false -> t_like (tens h tb) = false -> t_like (tens g sa) = true -> t_like (tens g sb) = true ->
  t_diag (tens g sa) = t_diag (tens h ta) -> t_diag (tens g sb) = t_diag (tens h tb) ->
  (forall l, In l (legs_of h ta ++ legs_of h tb) -> sig g (cp l) = sig h l) ->
  contractTwoTensors ta tb h = (h', Ok tc) ->
  exists g' sc, contractTwoTensors sa sb g = (g', Ok sc) /\ t_like (tens g' sc) = true /\ t_arr (tens g' sc) = None /\
    t_diag (tens g' sc) = t_diag (tens h' tc) /\
    Permutation (map (sig g') (legs_of g' sc)) (map (sig h') (legs_of h' tc)) /\
    (t_diag (tens h ta) = t_diag (tens h tb) -> map (sig g') (legs_of g' sc) = map (sig h') (legs_of h' tc)).
Proof.
  intros La Lb Ka Kb Da Db SG E.
  destruct (contract_real h ta tb h' tc W La Lb E) as (L & CT & PL & EL & DG & LI & FL).
  destruct prests as (RA & RB).
  assert (RI : forall l, In l (restA h ta tb ++ restB h ta tb) -> In l (legs_of h ta ++ legs_of h tb)).
  { intros l Hl. apply in_app_iff in Hl. apply in_app_iff. unfold restA, restB, others in Hl. rewrite !filter_In in Hl. tauto. }
  destruct (contract_like g sa sb V Ka Kb) as (g' & sc & E' & CTg & DGg & LIg).
  { rewrite Da, Db. intros X Y. specialize (FL X Y). rewrite RA, RB, <- map_app. intros l l' Hl Hl'. apply in_map_iff in Hl. apply in_map_iff in Hl'.
    destruct Hl as (x & <- & Hx), Hl' as (y & <- & Hy). pose proof (SG x (RI x Hx)) as S1. pose proof (SG y (RI y Hy)) as S2. unfold sig in S1, S2.
    injection S1 as _ ->. injection S2 as _ ->. now apply FL. }
  exists g', sc. split; auto. split; auto. split; [apply wf_like; auto; apply CTg|]. split; [congruence|].
  assert (SR1 : map (sig h') (legs_of h' tc) = map (sig h) L).
  { rewrite (ct_legs _ _ _ _ _ _ CT). apply map_ext_in. intros l Hl. unfold sig, dim_of. rewrite (ct_in _ _ _ _ _ _ CT l Hl). reflexivity. }
  assert (SL : forall M N, like_legs g sa sb = map cp M ++ map cp N -> (forall l, In l (M ++ N) -> In l (legs_of h ta ++ legs_of h tb)) -> map (sig g') (legs_of g' sc) = map (sig h) (M ++ N)).
  { intros M N EM HM. rewrite (ct_legs _ _ _ _ _ _ CTg), EM, <- map_app, map_map. apply map_ext_in. intros l Hl. rewrite <- SG by auto.
    unfold sig, dim_of. rewrite (ct_in _ _ _ _ _ _ CTg); [reflexivity|]. rewrite EM, <- map_app. now apply in_map. }
  rewrite SR1. unfold like_legs in SL. rewrite RA, RB, Da, Db in SL.
  destruct (t_diag (tens h ta)) eqn:D1, (t_diag (tens h tb)) eqn:D2; cbn [negb andb] in SL.
  - rewrite (SL _ _ eq_refl RI), (EL eq_refl). split; auto.
  - rewrite (SL _ _ eq_refl RI). split; [now rewrite PL|discriminate].
  - rewrite (SL _ _ eq_refl); [split; [|discriminate]|].
    + rewrite PL. apply Permutation_map, Permutation_app_comm.
    + intros l Hl. apply RI. apply in_app_iff in Hl. apply in_app_iff. tauto.
  - rewrite (SL _ _ eq_refl RI), (EL eq_refl). split; auto.
Qed.
End Pair.

Lemma pair_shadow (h g : heap) ta tb sa sb cp h' tc : wf_pair h ta tb -> wf_pair g sa sb -> stands_for h g ta tb sa sb cp ->
  t_like (tens h ta) = false -> t_like (tens h tb) = false ->
  contractTwoTensors ta tb h = (h', Ok tc) ->
  exists g' sc, contractTwoTensors sa sb g = (g', Ok sc) /\ t_like (tens g' sc) = true /\ t_arr (tens g' sc) = None /\
    t_diag (tens g' sc) = t_diag (tens h' tc) /\
    Permutation (map (sig g') (legs_of g' sc)) (map (sig h') (legs_of h' tc)) /\
    (t_diag (tens h ta) = t_diag (tens h tb) -> map (sig g') (legs_of g' sc) = map (sig h') (legs_of h' tc)).
Proof.
  intros W V [[K1 K2] [D1 D2] [E1 E2] SG LN] La Lb E. eapply pair_predicts; eauto.
Qed.

(** contraction of two TensorLikes succeeds unless both are diagonal and of different size *)
Lemma like_succeeds (h : heap) ta tb : wf_pair h ta tb -> t_like (tens h ta) = true -> t_like (tens h tb) = true ->
  (t_diag (tens h ta) = true -> t_diag (tens h tb) = true -> t_len (tens h ta) = t_len (tens h tb)) ->
  exists h' tc, contractTwoTensors ta tb h = (h', Ok tc) /\ t_like (tens h' tc) = true /\
    Permutation (legs_of h' tc) (restA h ta tb ++ restB h ta tb).
Proof.
  intros W La Lb EN. destruct (contract_like h ta tb W La Lb) as (h' & tc & E & C & D & K).
  - intros Da Db. specialize (EN Da Db).
    assert (forall l, In l (restA h ta tb ++ restB h ta tb) -> dim_of h l = t_len (tens h ta)) as X; [|intros l l' Hl Hl'; now rewrite (X l), (X l')].
    intros l Hl. unfold restA, restB, others in Hl. apply in_app_iff in Hl. destruct Hl as [Hl|Hl]; apply filter_In in Hl; [|rewrite EN]; apply diag_dim; auto; try apply W; apply Hl.
  - exists h', tc. split; auto. split; auto. rewrite (ct_legs _ _ _ _ _ _ C). unfold like_legs. destruct (negb (t_diag (tens h ta)) && t_diag (tens h tb)); [apply Permutation_app_comm|reflexivity].
Qed.
End Lk.
