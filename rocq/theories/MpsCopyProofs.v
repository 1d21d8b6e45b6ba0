(** FreeBoundaryMPS.copyOfTensors returns a mirror image of the chain (C68). *)
From Coq Require Import List Arith Bool Lia String ZArith Permutation.
From Verif Require Import Base Sums NdModel NdProofs HeapModel FuncsModel FuncsProofs TensorModel TensorSpec TensorProofs LabelProofs CopyProofs
  ContractModel NetSpec ShareProofs LinkProofs SumpairsProofs NetProofs CopyListProofs FreshNetProofs GroupSpec
  MpsModel MpsSpec MpsProofs MpsCopyModel.
Import ListNotations.
Local Open Scope list_scope.
Local Open Scope nat_scope.

Section Mc.
Context {A : Type} {HA : SR A}.
Notation heap := (heap A).

Lemma first_same (h h1 : heap) t nm l : (forall x, l_name (legs h1 x) = l_name (legs h x)) -> tens h1 = tens h -> first_named h t nm l -> first_named h1 t nm l.
Proof. intros E T (u & v & X & B & C). exists u, v. unfold legs_of in *. rewrite T, E. repeat split; auto. intros l' Hl'. rewrite E. auto. Qed.
Lemma only_first (h : heap) t nm l : NoDup (legs_of h t) -> In l (legs_of h t) -> l_name (legs h l) = nm ->
  (forall l', In l' (legs_of h t) -> l_name (legs h l') = nm -> l' = l) -> first_named h t nm l.
Proof.
  intros N Hl E U. destruct (in_split _ _ Hl) as (u & v & S0). exists u, v. split; auto. split; auto. intros l' Hl' E'.
  assert (l' = l) as -> by (apply U; auto; rewrite S0; apply in_app_iff; auto). rewrite S0 in N. apply NoDup_remove_2 in N. apply N, in_app_iff. auto.
Qed.

Lemma linkChain_ok : forall ps cs (h : heap), List.length cs = S (List.length ps) ->
  (forall i, i < List.length ps -> first_named h (nth i cs 0) (NStr "r") (fst (nth i ps (0, 0))) /\ first_named h (nth (S i) cs 0) (NStr "l") (snd (nth i ps (0, 0)))) ->
  linkable h ps -> exists h', linkChain cs h = (h', Ok tt) /\ links_made h h' ps.
Proof.
  induction ps as [|(x, y) ps IH]; intros [|ta cs] h L F LK; try discriminate.
  - destruct cs; [|discriminate]. exists h. split; [reflexivity|]. split; [apply links_added_refl|intros l []].
  - destruct cs as [|tb cs]; [discriminate|]. destruct (linkable_cons _ _ _ _ LK) as (Nxy & Nx & Ny & Ed & LK').
    destruct (F 0 ltac:(simpl; lia)) as (Fx & Fy). cbn [nth fst snd] in Fx, Fy.
    destruct (IH (tb :: cs) (linked_heap h x y)) as (h' & E & LM); [simpl in L |- *; lia| |exact LK'|].
    + intros i Hi. pose proof (linked_heap_added h x y Nxy) as L1. destruct (F (S i) ltac:(simpl; lia)) as (F1 & F2). cbn [nth] in F1, F2 |- *.
      split; (eapply first_same; [intros z; apply (la_fields _ _ _ L1)|apply (la_tens _ _ _ L1)|]); [exact F1|exact F2].
    + exists h'. split; [|eapply links_made_cons; eauto]. cbn [linkChain]. unfold bind at 1.
      rewrite (makeLink_read h [RStr "r"] [RStr "l"] (Some ta) (Some tb) [Some x] [Some y]); [|repeat constructor; auto|repeat constructor; auto|reflexivity].
      cbn [combine mapM]. unfold bind at 1. rewrite linkPair_ok by auto. unfold bind, ret. exact E.
Qed.
Lemma linkChain_nil (h : heap) : linkChain [] h = (h, Ok tt). Proof. reflexivity. Qed.

Section Chain.
Variables (h : heap) (ts : list tid) (os : list lid) (env : list tid) (lf rt : nat -> lid).
Hypothesis CH : chain h ts os env lf rt.
Notation n := (List.length ts).

Lemma site_leg i l : i < n -> In l (legs_of h (nth i ts 0)) ->
  (exists j, i = S j /\ l = lf i /\ l_name (legs h l) = NStr "l") \/ (S i < n /\ l = rt i /\ l_name (legs h l) = NStr "r") \/ (l = nth i os 0 /\ l_name (legs h l) = NStr "o").
Proof.
  intros Hi Hl. apply (Permutation_in _ (ch_legs _ _ _ _ _ _ CH i Hi)) in Hl. rewrite !in_app_iff in Hl. destruct Hl as [Hl|[Hl|Hl]].
  - left. destruct i as [|j]; [destruct Hl|]. destruct Hl as [<-|[]]. exists j. repeat split. now apply (ch_l _ _ _ _ _ _ CH).
  - right. left. destruct (Nat.ltb (S i) n) eqn:E; [|destruct Hl]. apply Nat.ltb_lt in E. destruct Hl as [<-|[]]. repeat split; auto. now apply (ch_r _ _ _ _ _ _ CH).
  - right. right. destruct Hl as [<-|[]]. split; auto. now apply (ch_o _ _ _ _ _ _ CH).
Qed.
Lemma leg_site l : In l (all_legs h ts) -> exists i, i < n /\ In l (legs_of h (nth i ts 0)).
Proof. intros Hl. apply all_legs_In in Hl as (t & Ht & Hl). destruct (In_nth ts t 0 Ht) as (i & Hi & E). exists i. rewrite E. auto. Qed.
(** the links inside the chain *)
Lemma chain_links l l' : In l (all_legs h ts) -> In l' (all_legs h ts) ->
  linked h l l' <-> exists i, S i < n /\ ((l = rt i /\ l' = lf (S i)) \/ (l = lf (S i) /\ l' = rt i)).
Proof.
  intros Hl Hl'. split.
  - intros LK. destruct (leg_site l Hl) as (i & Hi & H). destruct (site_leg i l Hi H) as [(j & -> & -> & _)|[(Si & -> & _)|(-> & _)]].
    + exists j. split; auto. right. split; auto. eapply (linked_fun h (lf (S j))); [exact LK|]. apply (ch_link' _ _ _ _ _ _ CH); auto.
    + exists i. split; auto. left. split; auto. eapply (linked_fun h (rt i)); [exact LK|]. now apply (ch_link _ _ _ _ _ _ CH).
    + exfalso. apply (ch_out _ _ _ _ _ _ CH (nth i os 0) l'); auto. apply nth_In. now rewrite (ch_len _ _ _ _ _ _ CH).
  - intros (i & Hi & [(-> & ->)|(-> & ->)]); [now apply (ch_link _ _ _ _ _ _ CH)|now apply (ch_link' _ _ _ _ _ _ CH)].
Qed.
Lemma chain_rt_in i : S i < n -> In (rt i) (all_legs h ts). Proof. intros Hi. apply (ch_all _ _ i); [lia|]. eapply ch_in_r; eauto. Qed.
Lemma chain_lf_in i : S i < n -> In (lf (S i)) (all_legs h ts). Proof. intros Hi. apply (ch_all _ _ (S i)); [lia|]. eapply ch_in_l; eauto. Qed.

Definition bondsOf : list (lid * lid) := map (fun i => (rt i, lf (S i))) (seq 0 (n - 1)).
Lemma bondsOf_In l l' : In (l, l') bondsOf <-> exists i, S i < n /\ l = rt i /\ l' = lf (S i).
Proof.
  unfold bondsOf. rewrite in_map_iff. split.
  - intros (i & E & Hi). apply in_seq in Hi. injection E as <- <-. exists i. split; auto. lia.
  - intros (i & Hi & -> & ->). exists i. split; auto. apply in_seq. lia.
Qed.
Lemma NoDup_map_on {X Y} (f : X -> Y) l : NoDup l -> (forall x y, In x l -> In y l -> f x = f y -> x = y) -> NoDup (map f l).
Proof.
  induction 1 as [|a l Ha N IH]; intros I; cbn [map]; constructor.
  - intros Hi. apply in_map_iff in Hi as (y & E & Hy). apply I in E; simpl; auto. now subst.
  - apply IH. intros; apply I; simpl; auto.
Qed.
Lemma bonds_NoDup : NoDup (map fst bondsOf ++ map snd bondsOf).
Proof.
  unfold bondsOf. rewrite !map_map. cbn [fst snd]. apply NoDup_app_intro.
  - apply NoDup_map_on; [apply seq_NoDup|]. intros i j Hi Hj E. apply in_seq in Hi, Hj. apply (ch_site _ _ _ _ _ _ CH i j (rt i)); try lia; [|rewrite E]; eapply ch_in_r; eauto; lia.
  - apply NoDup_map_on; [apply seq_NoDup|]. intros i j Hi Hj E. apply in_seq in Hi, Hj. assert (S i = S j); [|lia].
    apply (ch_site _ _ _ _ _ _ CH (S i) (S j) (lf (S i))); try lia; [|rewrite E]; eapply ch_in_l; eauto; lia.
  - intros l H1 H2. apply in_map_iff in H1 as (i & <- & Hi), H2 as (j & E & Hj). apply in_seq in Hi, Hj.
    pose proof (ch_r _ _ _ _ _ _ CH i ltac:(lia)) as R. pose proof (ch_l _ _ _ _ _ _ CH j ltac:(lia)) as L. rewrite E in L. rewrite L in R. discriminate.
Qed.
End Chain.

Theorem copyOfTensors_ok (h : heap) ts chi act os env lf rt : chain h ts os env lf rt -> wf_list h ts ->
  exists h' ct cp, copyOfTensors (mkMps ts chi act) h = (h', Ok (map ct ts)) /\ net_copy h h' ts ct cp /\
    (forall t s, In t ts -> entry h' (ct t) s = entry h t (fun l => s (cp l))) /\
    chain h' (map ct ts) (map cp os) [] (fun i => cp (lf i)) (fun i => cp (rt i)) /\
    forall s, netval h' (map ct ts) s = netval h ts (fun l => s (cp l)).
Proof.
  intros CH WL. assert (CP : forall t, In t ts -> copyable h t).
  { intros t Ht (D & _). destruct (ch_kind _ _ _ _ _ _ CH t Ht). congruence. }
  destruct (phase1_ok false ts h) as (h1 & cs & E1 & P1); [intros t Ht; apply (wn_wf _ _ (wl_net _ _ WL)), Ht|auto|]. cbv beta iota in E1.
  set (ct := dictF ts cs). set (cp := dictF (all_legs h ts) (all_legs h1 cs)).
  pose proof (map_ct h h1 false ts cs WL P1) as EC. fold ct in EC.
  pose proof (copy_of h h1 false ts cs WL P1) as CO. fold ct in CO.
  pose proof (legs_cp h h1 false ts cs WL P1) as LC. fold ct in LC. fold cp in LC.
  pose proof (cp_inj h h1 false ts cs WL P1) as CI. fold cp in CI.
  pose proof (cp_new h h1 false ts cs WL P1) as CN. fold cp in CN.
  pose proof (map_cp h h1 false ts cs WL P1) as MC. fold cp in MC.
  set (n := List.length ts) in *.
  set (ps := map (fun p => (cp (fst p), cp (snd p))) (bondsOf ts lf rt)).
  assert (PS : forall x y, In (x, y) ps <-> exists i, S i < n /\ x = cp (rt i) /\ y = cp (lf (S i))).
  { intros x y. unfold ps. rewrite in_map_iff. split.
    - intros ((a, b) & E & Hp). apply bondsOf_In in Hp as (i & Hi & -> & ->). injection E as <- <-. eauto.
    - intros (i & Hi & -> & ->). exists (rt i, lf (S i)). split; auto. apply bondsOf_In. eauto. }
  assert (BI : incl (map fst (bondsOf ts lf rt) ++ map snd (bondsOf ts lf rt)) (all_legs h ts)).
  { intros l Hl. apply in_app_iff in Hl as [Hl|Hl]; apply in_map_iff in Hl as ((a, b) & E & Hp); cbn [fst snd] in E; rewrite <- E;
      apply bondsOf_In in Hp as (i & Hi & -> & ->); [eapply chain_rt_in|eapply chain_lf_in]; eauto. }
  assert (EP : map fst ps ++ map snd ps = map cp (map fst (bondsOf ts lf rt) ++ map snd (bondsOf ts lf rt))).
  { unfold ps. rewrite map_app, !map_map. reflexivity. }
  assert (NP : NoDup (map fst ps ++ map snd ps)).
  { rewrite EP. apply NoDup_map_on; [eapply bonds_NoDup; eauto|]. intros x y Hx Hy. apply CI; apply BI; auto. }
  assert (DM : forall p, In p ps -> dim_of h1 (fst p) = dim_of h1 (snd p)).
  { intros (x, y) Hp. apply PS in Hp as (i & Hi & -> & ->). cbn [fst snd].
    pose proof (chain_rt_in h ts os env lf rt CH i Hi) as Hr. pose proof (chain_lf_in h ts os env lf rt CH i Hi) as Hlf.
    destruct (CN _ Hr) as (_ & _ & _ & ->), (CN _ Hlf) as (_ & _ & _ & ->).
    eapply links_dim; [apply (wl_net _ _ WL)| | |]; eauto. now apply (ch_link _ _ _ _ _ _ CH). }
  assert (LK : linkable h1 ps).
  { split; [exact NP|]. split; [|exact DM]. intros l Hl. rewrite EP in Hl. apply in_map_iff in Hl as (x & <- & Hx). apply BI in Hx. destruct (CN x Hx) as ((_ & X) & Y & _). auto. }
  assert (NC : forall i, i < n -> nth i cs 0 = ct (nth i ts 0)).
  { intros i Hi. rewrite <- EC. rewrite nth_indep with (d' := ct 0) by now rewrite map_length. apply map_nth. }
  assert (NT : forall i, i < n -> In (nth i ts 0) ts) by (intros; now apply nth_In).
  assert (FN : forall i l nm, i < n -> In l (legs_of h (nth i ts 0)) -> l_name (legs h l) = nm ->
    (forall l', In l' (legs_of h (nth i ts 0)) -> l_name (legs h l') = nm -> l' = l) -> first_named h1 (nth i cs 0) nm (cp l)).
  { intros i l nm Hi Hl E U. rewrite NC by auto. assert (Hal : forall x, In x (legs_of h (nth i ts 0)) -> In x (all_legs h ts)) by (intros x Hx; eapply ch_all; eauto).
    apply only_first.
    - apply (wt_nodup _ _ (ic_wf _ _ _ _ _ (CO _ (NT i Hi)))).
    - rewrite LC by auto. now apply in_map.
    - destruct (CN l (Hal l Hl)) as (_ & _ & -> & _). exact E.
    - intros x Hx. rewrite LC in Hx by auto. apply in_map_iff in Hx as (l' & <- & Hl'). destruct (CN l' (Hal l' Hl')) as (_ & _ & -> & _). intros E'. f_equal. auto. }
  assert (exists h', linkChain cs h1 = (h', Ok tt) /\ links_made h1 h' ps) as (h' & E2 & LM).
  { destruct (Nat.eq_dec n 0) as [Z|Z].
    - assert (LCS : List.length cs = 0) by (rewrite <- EC, map_length; exact Z). assert (LPS : ps = []) by (unfold ps, bondsOf; fold n; rewrite Z; reflexivity).
      rewrite LPS. assert (CS : cs = []) by (apply length_zero_iff_nil; exact LCS). rewrite CS. exists h1. split; [reflexivity|]. split; [apply links_added_refl|intros l []].
    - apply linkChain_ok; auto.
      + unfold ps, bondsOf. rewrite !map_length, seq_length, <- EC, map_length. fold n. lia.
      + intros i Hi. unfold ps, bondsOf in Hi |- *. rewrite !map_length, seq_length in Hi. rewrite map_map. cbn [fst snd].
        assert (nth i (map (fun x => (cp (rt x), cp (lf (S x)))) (seq 0 (List.length ts - 1))) (0, 0) = (cp (rt i), cp (lf (S i)))) as ->.
        { rewrite nth_indep with (d' := (fun x => (cp (rt x), cp (lf (S x)))) 0) by (now rewrite map_length, seq_length). rewrite (map_nth (fun x => (cp (rt x), cp (lf (S x))))). now rewrite seq_nth. }
        cbn [fst snd]. assert (Hs : S i < n) by (unfold n; lia). split; apply FN; try lia.
        * eapply ch_in_r; eauto.
        * now apply (ch_r _ _ _ _ _ _ CH).
        * intros l' Hl' E'. destruct (site_leg _ _ _ _ _ _ CH i l' ltac:(unfold n in *; lia) Hl') as [(j & _ & _ & X)|[(_ & X & _)|(_ & X)]]; auto; rewrite X in E'; discriminate.
        * eapply ch_in_l; eauto.
        * now apply (ch_l _ _ _ _ _ _ CH).
        * intros l' Hl' E'. destruct (site_leg _ _ _ _ _ _ CH (S i) l' ltac:(unfold n in *; lia) Hl') as [(j & _ & X & _)|[(_ & _ & X)|(_ & X)]]; auto; rewrite X in E'; discriminate. }
  pose proof (lm_added _ _ _ LM) as LA.
  assert (WF : forall c, In c cs -> wf_tensor h1 c /\ owned h1 c).
  { intros c Hc. rewrite <- EC in Hc. apply in_map_iff in Hc as (t & <- & Ht). split; apply (CO t Ht). }
  assert (FR : forall l, In l (all_legs h1 cs) -> l_bond (legs h1 l) = None).
  { intros l Hl. rewrite <- MC in Hl. apply in_map_iff in Hl as (x & <- & Hx). apply (CN x Hx). }
  assert (AC : forall l l', In (l, l') ps -> exists t t', In t cs /\ In t' cs /\ t <> t' /\ In l (legs_of h1 t) /\ In l' (legs_of h1 t')).
  { intros l l' Hp. apply PS in Hp as (i & Hi & -> & ->). exists (nth i cs 0), (nth (S i) cs 0). rewrite !NC by lia.
    split; [|split; [|split; [|split]]].
    - rewrite <- EC. apply in_map, NT. lia.
    - rewrite <- EC. apply in_map, NT. lia.
    - intros E. apply (map_inj_NoDup ct ts) in E; [|rewrite EC; apply P1|apply NT; lia|apply NT; lia].
      apply (proj1 (NoDup_nth ts 0) (wn_ids _ _ (wl_net _ _ WL))) in E; unfold n in *; lia.
    - rewrite LC by (apply NT; lia). apply in_map. eapply ch_in_r; eauto.
    - rewrite LC by (apply NT; lia). apply in_map. eapply ch_in_l; eauto. }
  assert (W' : wf_net h' cs) by (apply (F_wf h1 h' cs ps); auto; apply P1).
  assert (CPI : forall l, In l (all_legs h ts) -> In (cp l) (all_legs h1 cs)) by (intros l Hl; rewrite <- MC; now apply in_map).
  assert (LKD : forall l l', In l (all_legs h ts) -> In l' (all_legs h ts) -> linked h' (cp l) (cp l') <-> linked h l l').
  { intros l l' Hl Hl'. rewrite (F_linked h1 h' cs ps FR LA (cp l) (cp l') (CPI l Hl)). rewrite (chain_links _ _ _ _ _ _ CH l l' Hl Hl'). rewrite !PS. split.
    - intros [(i & Hi & E & E')|(i & Hi & E & E')];
        pose proof (chain_rt_in _ _ _ _ _ _ CH i Hi) as Hr; pose proof (chain_lf_in _ _ _ _ _ _ CH i Hi) as Hf; apply CI in E; auto; apply CI in E'; auto; exists i; auto.
    - intros (i & Hi & [(-> & ->)|(-> & ->)]); [left|right]; eauto. }
  assert (LD : forall l, In l (all_legs h ts) -> l_name (legs h' (cp l)) = l_name (legs h l) /\ dim_of h' (cp l) = dim_of h l).
  { intros l Hl. destruct (CN l Hl) as (_ & _ & E & E'). unfold dim_of in *. destruct (la_fields _ _ _ LA (cp l)) as (_ & -> & ->). auto. }
  assert (LL : forall t, In t ts -> legs_of h' (ct t) = map cp (legs_of h t)).
  { intros t Ht. unfold legs_of at 1. rewrite (la_tens _ _ _ LA). apply LC, Ht. }
  assert (NCY : net_copy h h' ts ct cp).
  { constructor; auto.
    - intros t Ht. rewrite (la_ntens _ _ _ LA). apply (CO t Ht).
    - intros l Hl. rewrite (la_nleg _ _ _ LA). apply (CN l Hl).
    - apply map_inj_NoDup. rewrite EC. apply P1.
    - intros t Ht. rewrite (la_tens _ _ _ LA). split; apply (CO t Ht).
    - intros l Hl Ho. destruct (in_dec Nat.eq_dec (cp l) (map fst ps ++ map snd ps)) as [I|I].
      + exfalso. rewrite EP in I. apply in_map_iff in I as (x & E & Hx). pose proof (BI x Hx) as Hx'. apply CI in E; auto. rewrite E in Hx. clear E Hx' x.
        apply in_app_iff in Hx as [Hx|Hx]; apply in_map_iff in Hx as ((a, b) & E & Hp); cbn [fst snd] in E; apply bondsOf_In in Hp as (i & Hi & Ea & Eb).
        * rewrite Ea in E. rewrite <- E in Ho. apply (Ho (lf (S i))); [now apply (ch_link _ _ _ _ _ _ CH)|eapply chain_lf_in; eauto].
        * rewrite Eb in E. rewrite <- E in Ho. apply (Ho (rt i)); [eapply ch_link'; eauto|eapply chain_rt_in; eauto].
      + rewrite (la_out _ _ _ LA) by exact I. apply (CN l Hl).
    - rewrite EC. exact W'.
    - intros l Hl. rewrite (la_out _ _ _ LA); [now apply P1|]. rewrite EP. intros I. apply in_map_iff in I as (x & E & Hx). destruct (CN x (BI x Hx)) as ((X & _) & _). lia.
    - intros b Hb. rewrite (la_bonds _ _ _ LA) by (rewrite (p1_nbond _ _ _ _ _ P1); exact Hb). now rewrite (p1_bonds _ _ _ _ _ P1).
    - intros t Ht. rewrite (la_tens _ _ _ LA). now apply P1. }
  assert (EN : forall t s, In t ts -> entry h' (ct t) s = entry h t (fun l => s (cp l))).
  { intros t s Ht. unfold entry at 1. rewrite (la_tens _ _ _ LA). apply (ic_entry _ _ _ _ _ (CO t Ht) eq_refl). rewrite (LC t Ht), map_map. reflexivity. }
  exists h', ct, cp. split; [|split; [exact NCY|split; [exact EN|split]]].
  - unfold copyOfTensors. cbn [m_ts]. change (mapM copy ts) with (mapM (fun t => copy t) ts). unfold bind at 1. rewrite E1. unfold bind at 1. rewrite E2. unfold ret. now rewrite EC.
  - assert (NM : forall i, i < n -> nth i (map ct ts) 0 = ct (nth i ts 0)) by (intros i Hi; rewrite EC; auto).
    assert (NO : forall i, i < n -> nth i (map cp os) 0 = cp (nth i os 0)).
    { intros i Hi. rewrite nth_indep with (d' := cp 0) by (rewrite map_length, (ch_len _ _ _ _ _ _ CH); exact Hi). apply map_nth. }
    assert (IO : forall i, i < n -> In (nth i os 0) (all_legs h ts)) by (intros i Hi; apply (ch_all _ _ i); auto; eapply ch_in_o; eauto).
    assert (AE : all_legs h' (map ct ts) = map cp (all_legs h ts)) by (apply (all_legs_map h h' ts ct cp NCY ts), incl_refl).
    constructor; rewrite ?map_length; fold n.
    + apply (ch_len _ _ _ _ _ _ CH).
    + rewrite app_nil_r. constructor.
      * apply NCY.
      * intros l b Hl Eb. rewrite AE in Hl. apply in_map_iff in Hl as (x & <- & Hx). destruct (in_dec Nat.eq_dec (cp x) (map fst ps ++ map snd ps)) as [I|I].
        -- destruct (lm_alloc _ _ _ LM _ I) as (b' & Eb' & Hb'). assert (H : b' = b) by congruence. rewrite <- H. lia.
        -- rewrite (la_out _ _ _ LA) in Eb by exact I. destruct (CN x Hx) as (_ & X & _). congruence.
      * intros l l' Hl LK'. rewrite EC in Hl. rewrite (F_all h1 h' ps LA cs) in Hl. apply (F_linked h1 h' cs ps FR LA l l' Hl) in LK'.
        assert (I : In l' (map fst ps ++ map snd ps)). { apply in_app_iff. destruct LK' as [H|H]; [right; apply (in_map snd) in H|left; apply (in_map fst) in H]; exact H. }
        rewrite (la_nleg _ _ _ LA). apply LK, I.
    + intros c Hc. apply in_map_iff in Hc as (t & <- & Ht). rewrite (la_tens _ _ _ LA). destruct (ch_kind _ _ _ _ _ _ CH t Ht) as (K1 & K2).
      rewrite (ic_diag _ _ _ _ _ (CO t Ht)), (ic_like _ _ _ _ _ (CO t Ht)). auto.
    + intros i Hi. rewrite NM, NO, LL by auto. eapply Permutation_trans; [apply Permutation_map, (ch_legs _ _ _ _ _ _ CH i Hi)|]. rewrite !map_app. fold n.
      destruct (Nat.ltb 0 i), (Nat.ltb (S i) n); apply Permutation_refl.
    + intros i Hi. rewrite NO by auto. destruct (LD _ (IO i Hi)) as (-> & _). now apply (ch_o _ _ _ _ _ _ CH).
    + intros i Hi. destruct (LD _ (chain_lf_in _ _ _ _ _ _ CH i Hi)) as (-> & _). now apply (ch_l _ _ _ _ _ _ CH).
    + intros i Hi. destruct (LD _ (chain_rt_in _ _ _ _ _ _ CH i Hi)) as (-> & _). now apply (ch_r _ _ _ _ _ _ CH).
    + intros i Hi. apply LKD; [eapply chain_rt_in; eauto|eapply chain_lf_in; eauto|]. now apply (ch_link _ _ _ _ _ _ CH).
    + intros l l' Hl Hl' LK'. rewrite AE in Hl'. apply in_map_iff in Hl as (x & <- & Hx), Hl' as (x' & <- & Hx').
      apply (ch_os _ _ _ _ _ _ CH) in Hx as Hx2. destruct Hx2 as (i & Hi & ->). apply LKD in LK'; auto. apply (ch_out _ _ _ _ _ _ CH (nth i os 0) x'); auto.
  - intros s. apply (netval_copy h h' ts ct cp (wl_net _ _ WL) NCY s EN).
Qed.

Lemma denotes_some (h : heap) t s : exists o, denotes h (Some t) (RStr s) o.
Proof.
  pose proof (getLeg_first h t (NStr s)) as G. destruct (getLeg h t (NStr s) false) as [l0|]; [exists (Some l0); now constructor|exists None; now constructor].
Qed.
Theorem copyOfTensors_unnamed (h : heap) ta tb ts chi act : (forall t, In t (ta :: tb :: ts) -> wf_tensor h t) ->
  (forall t, In t (ta :: tb :: ts) -> ~ (t_diag (tens h t) = true /\ t_like (tens h t) = false /\ legs_of h t = [])) ->
  ~ (In (NStr "r") (names_of h ta) /\ In (NStr "l") (names_of h tb)) ->
  exists h', copyOfTensors (mkMps (ta :: tb :: ts) chi act) h = (h', Err AttributeError) /\
    (forall l, l < nleg h -> legs h' l = legs h l) /\ (forall b, b < nbond h -> bonds h' b = bonds h b) /\ (forall t, t < ntens h -> tens h' t = tens h t).
Proof.
  intros W C N. destruct (phase1_ok false (ta :: tb :: ts) h W (fun _ => C)) as (h1 & cs & E1 & P1). cbv beta iota in E1.
  pose proof (p1_copies _ _ _ _ _ P1) as F. inversion F as [|? ca ? cs1 Ja F1]; subst. inversion F1 as [|? cb ? cs2 Jb F2]; subst.
  destruct (denotes_some h1 ca "r") as (x & Dx), (denotes_some h1 cb "l") as (y & Dy).
  assert (XY : match x, y with Some _, Some _ => False | _, _ => True end).
  { destruct x as [x|]; [|exact I]. destruct y as [y|]; [|exact I]. apply N. rewrite <- (ic_names _ _ _ _ _ Ja), <- (ic_names _ _ _ _ _ Jb). unfold names_of.
    inversion Dx as [|? ? ? (u & v & E & Nu & _)|]; subst. inversion Dy as [|? ? ? (u' & v' & E' & Nu' & _)|]; subst.
    split; apply in_map_iff; [exists x|exists y]; (split; [auto|]); [rewrite E|rewrite E']; apply in_app_iff; simpl; auto. }
  destruct (makeLink_fail h1 [RStr "r"] [RStr "l"] (Some ca) (Some cb) [] x y [] []) as (h' & E & LA); [repeat constructor; auto|repeat constructor; auto|reflexivity| | |].
  { split; [constructor|]. split; [intros l []|intros q []]. }
  { destruct x, y; auto. }
  exists h'. split.
  - unfold copyOfTensors. cbn [m_ts]. change (mapM copy (ta :: tb :: ts)) with (mapM (fun t => copy t) (ta :: tb :: ts)). unfold bind at 1. rewrite E1. unfold bind at 1. cbn [linkChain].
    unfold bind at 1. rewrite E. destruct x, y; auto; destruct XY.
  - split; [|split].
    + intros l Hl. rewrite (la_out _ _ _ LA) by (intros []). now apply P1.
    + intros b Hb. rewrite (la_bonds _ _ _ LA) by (rewrite (p1_nbond _ _ _ _ _ P1); exact Hb). now rewrite (p1_bonds _ _ _ _ _ P1).
    + intros t Ht. rewrite (la_tens _ _ _ LA). now apply P1.
Qed.
End Mc.
