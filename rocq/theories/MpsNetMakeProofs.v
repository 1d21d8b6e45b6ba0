(** contractWithMPS (examples/MPS.py 546-580): one MPS for every tensor. *)
From Coq Require Import List Arith Bool Lia String ZArith Permutation.
From Verif Require Import Base Sums NdModel NdProofs HeapModel FuncsModel FuncsProofs TensorModel TensorSpec TensorProofs
  ContractModel NetSpec ShareProofs LinkProofs SumpairsProofs ContractProofs NetProofs GroupSpec GroupProofs NetSameProofs
  SvdModel SvdSpec MpsModel MpsSpec MpsProofs SchmidtProofs MpsSwapProofs MpsCreateModel MpsCreateSpec MpsContractModel MpsContractSpec MpsOpenProofs MpsCommonProofs MpsContractProofs MpsDoubleSpec MpsDoubleProofs MpsBondProofs
  MpsFuseProofs MpsCreateRoomProofs MpsNetSpec MpsNetProofs MpsNetMergeProofs MpsNetMainProofs.
Import ListNotations.
Local Open Scope list_scope.
Local Open Scope nat_scope.

Section Make.
Context {A : Type} {HA : SR A}.
Add Ring MakeRing : (@SR_theory A HA).
Notation heap := (heap A).

Lemma sumpairs_r0 d : forall P s, sumpairs d P (fun _ => r0 : A) s = r0.
Proof. induction P as [|[a b] P IH]; intros s; cbn [sumpairs]; [reflexivity|]. rewrite (sumN_ext _ _ (fun _ => r0)) by (intros; apply IH). apply sumN_r0. Qed.
Lemma prod_zero (h : heap) ts t s : In t ts -> entry h t s = r0 -> prod_entries h ts s = r0.
Proof. induction ts as [|u ts IH]; intros H E; [destruct H|]. cbn [prod_entries]. destruct H as [->|H]; [rewrite E|rewrite IH by auto]; ring. Qed.
Lemma alive_nonzero (h : heap) N t : wf_net h N -> alive h N -> In t N -> ~ (forall s, in_bounds h (legs_of h t) s -> entry h t s = r0).
Proof.
  intros W (s & B & NZ) Ht Z. apply NZ. unfold netval. rewrite (sumpairs_ext_in _ _ (fun _ => r0)); [apply sumpairs_r0| |].
  - intros [a b] Hp. exact (inner_dim h N a b (wn_ids _ _ W) (wn_links _ _ W) Hp).
  - intros s' B1 B2. apply (prod_zero h N t); auto. apply Z. intros l Hl.
    assert (Hl' : In l (all_legs h N)) by (apply all_legs_In; eauto). destruct (all_free_or_inner h N l Hl') as [HF|HI]; auto.
    destruct (in_dec Nat.eq_dec l (plegs (inner h N))) as [HI|HI]; auto. rewrite B2 by auto. now apply B.
Qed.

Lemma closed_self (h : heap) N t l l' : wf_net h N -> closed h N -> In t N -> In l (legs_of h t) -> In l' (legs_of h t) -> ~ linked h l l'.
Proof.
  intros W C Ht Hl Hl' LK. destruct (closed_link h N l l' W C) as (ta & tb & Ha & Hb & NE & La & Lb & _); auto; [apply all_legs_In; eauto|].
  apply NE. transitivity t; [|symmetry]; eapply (one_owner h N); eauto; apply W.
Qed.

Variable lib : linalg A.
Hypothesis SP : svd_perfect lib.

Lemma create_any (h : heap) t env c : wf_open h (t :: env) -> closed h (t :: env) -> alive h (t :: env) -> t_like (tens h t) = false -> legs_of h t <> [] ->
  (List.length (legs_of h t) = 1 -> t_diag (tens h t) = false) -> prodn (map (dim_of h) (legs_of h t)) <= c ->
  exists h' ts act b lf rt, createMPSFromTensor lib t (Some c) h = (h', Ok (mkMps ts (Z.of_nat c) act, b)) /\ ts <> [] /\
    chain h' ts (legs_of h t) env lf rt /\ slim h' (dim_of h) (legs_of h t) rt /\ untouched h env h' /\ kept_legs h h' (legs_of h t) /\
    same_free h (t :: env) h' (ts ++ env) /\ same_value h (t :: env) h' (ts ++ env).
Proof.
  intros WO CL AL K NE D1 RM. pose proof (wo_net _ _ WO) as W. assert (IT : In t (t :: env)) by (simpl; auto).
  assert (NL : forall l l', In l (legs_of h t) -> In l' (legs_of h t) -> ~ linked h l l') by (intros l l'; now apply (closed_self h (t :: env))).
  destruct (legs_of h t) as [|l1 [|l2 ls]] eqn:EL; [now destruct NE| |].
  - destruct (create_one_exact lib h t env l1 (Some c) WO K (D1 eq_refl) EL) as (h' & E & NS & CH & SF & SV & UT & KL); [apply NL; simpl; auto|].
    exists h', [t], None, false, (fun _ => 0), (fun _ => 0). split; [exact E|]. split; [discriminate|]. split; [exact CH|]. split; [intros k Hk; cbn in Hk; lia|]. auto.
  - rewrite <- EL in *.
    assert (PD : forall l, In l (legs_of h t) -> 0 < dim_of h l).
    { intros l Hl. apply (alive_positive h (t :: env) W AL). apply all_legs_In. eauto. }
    assert (RF : room_for (Some c) (map (dim_of h) (legs_of h t))).
    { cbn. intros pre post E. rewrite E in RM. 
      assert (G : forall L, incl L (map (dim_of h) (legs_of h t)) -> 1 <= prodn L).
      { induction L as [|x L IH]; intros I; [unfold prodn; cbn; lia|]. change (1 <= x * prodn L). assert (1 <= prodn L) by (apply IH; intros z Hz; apply I; simpl; auto).
        assert (0 < x); [|nia]. assert (In x (map (dim_of h) (legs_of h t))) as Hx by (apply I; simpl; auto). apply in_map_iff in Hx. destruct Hx as (l & <- & Hl). auto. }
      assert (1 <= prodn post) by (apply G; rewrite E; intros z Hz; apply in_app_iff; auto).
      assert (EP : prodn (pre ++ post) = prodn pre * prodn post) by apply prodn_app. rewrite EP in RM. nia. }
    destruct (create_exact lib h t env (Some c) SP WO K) as (h' & [ts chi act] & lf & rt & E & EC & CH & SL & UT & KL & SF & SV); auto.
    { rewrite EL. cbn. lia. }
    { apply (alive_nonzero h (t :: env)); auto. }
    cbn [m_ts m_chi] in *. subst chi. exists h', ts, act, false, lf, rt. split; [exact E|]. split; [|auto 10].
    intros ->. pose proof (ch_len _ _ _ _ _ _ CH) as LL. rewrite EL in LL. discriminate LL.
Qed.

(** some tensors have become MPSes, the tensors [tl] not yet *)
Record making (h : heap) (ps : list part) (tl : list tid) (q : lid -> nat) : Prop := {
  mk_wf : wf_open h (tids ps ++ tl);
  mk_closed : closed h (tids ps ++ tl);
  mk_alive : alive h (tids ps ++ tl);
  mk_part : forall p, In p ps -> exists lf rt, (forall e, Permutation (tids ps ++ tl) (fst p ++ e) -> chain h (fst p) (snd p) e lf rt) /\
    (forall l, In l (snd p) -> dim_of h l <= q l) /\ slim h q (snd p) rt;
  mk_dims : forall l, In l (all_legs h tl) -> q l = dim_of h l }.
Definition usable (h : heap) (t : tid) : Prop := t_like (tens h t) = false /\ legs_of h t <> [] /\ (List.length (legs_of h t) = 1 -> t_diag (tens h t) = false).

Lemma create_all c q : forall tl (h : heap) ps, making h ps tl q -> (forall t, In t tl -> usable h t /\ prodn (map (dim_of h) (legs_of h t)) <= c) ->
  exists h' ms ps', mapM (fun t => '(m, _) <- createMPSFromTensor lib t (Some c) ;; ret (OMps m)) tl h = (h', Ok ms) /\ making h' (ps ++ ps') [] q /\
    Forall2 (obj (Z.of_nat c)) ps' ms /\ map snd ps' = map (legs_of h) tl /\ (forall p, In p ps' -> fst p <> []) /\
    same_free h (tids ps ++ tl) h' (tids (ps ++ ps')) /\ same_value h (tids ps ++ tl) h' (tids (ps ++ ps')) /\
    (forall l l', In l (outs ps ++ all_legs h tl) -> linked h' l l' <-> linked h l l').
Proof.
  induction tl as [|t tl IH]; intros h ps MK US.
  - exists h, [], []. rewrite !app_nil_r. split; [reflexivity|]. split; [exact MK|]. split; [constructor|]. split; auto. split; [intros p []|]. split; [split; auto|]. split; [intros s _; auto|]. reflexivity.
  - destruct MK as [WO CL AL PT DM]. destruct (US t) as ((K & NE & D1) & RM); [simpl; auto|].
    assert (PN : Permutation (tids ps ++ t :: tl) (t :: tids ps ++ tl)) by (symmetry; apply Permutation_middle).
    pose proof (wf_open_perm _ _ _ PN WO) as WO1. pose proof (wo_net _ _ WO) as W. pose proof (wo_net _ _ WO1) as W1.
    destruct (create_any h t (tids ps ++ tl) c WO1) as (h1 & ts & act & b & lf & rt & E1 & NT & CH & SL & UT & KL & SF & SV); auto.
    { now apply (closed_perm h (tids ps ++ t :: tl)). }
    { now apply (alive_perm h (tids ps ++ t :: tl)). }
    set (p := (ts, legs_of h t) : part). 
    assert (PN1 : Permutation (ts ++ tids ps ++ tl) (tids (ps ++ [p]) ++ tl)).
    { rewrite tids_app. cbn [tids flat_map p fst]. rewrite app_nil_r, app_assoc. apply Permutation_app_tail, Permutation_app_comm. }
    pose proof (ch_wf _ _ _ _ _ _ CH) as WO2.
    assert (UTL : forall t', In t' tl -> tens h1 t' = tens h t' /\ forall l, In l (legs_of h t') -> legs h1 l = legs h l).
    { intros t' Ht. split; [apply (ut_tens _ _ _ UT); apply in_app_iff; auto|]. intros l Hl. apply (ut_legs _ _ _ UT). apply all_legs_In. exists t'. split; auto. apply in_app_iff; auto. }
    assert (LTL : forall t', In t' tl -> legs_of h1 t' = legs_of h t') by (intros t' Ht; unfold legs_of; now rewrite (proj1 (UTL t' Ht))).
    assert (ATL : all_legs h1 tl = all_legs h tl) by (unfold all_legs; rewrite !flat_map_concat_map; f_equal; apply map_ext_in; auto).
    assert (DTL : forall t' l, In t' tl -> In l (legs_of h t') -> dim_of h1 l = dim_of h l) by (intros t' l Ht Hl; unfold dim_of; now rewrite (proj2 (UTL t' Ht) l Hl)).
    assert (KALL : forall l l', In l (all_legs h (t :: tids ps ++ tl)) -> linked h1 l l' <-> linked h l l').
    { intros l l' Hl. change (t :: tids ps ++ tl) with ([t] ++ tids ps ++ tl) in Hl. rewrite all_legs_app in Hl. apply in_app_iff in Hl. destruct Hl as [Hl|Hl].
      - apply KL. unfold all_legs in Hl. cbn [flat_map] in Hl. now rewrite app_nil_r in Hl.
      - now apply (ut_links _ _ _ UT). }
    assert (SF1 : same_free h (tids ps ++ t :: tl) h1 (tids (ps ++ [p]) ++ tl)) by (apply (same_free_perm h h1 _ _ _ _ (Permutation_sym PN) PN1); auto; apply WO2).
    assert (SV1 : same_value h (tids ps ++ t :: tl) h1 (tids (ps ++ [p]) ++ tl)) by (apply (same_value_perm h h1 _ _ _ _ (Permutation_sym PN) PN1); auto; apply WO2).
    assert (OP : forall p', In p' ps -> incl (snd p') (all_legs h (tids ps))).
    { intros p' Hp l Hl. destruct (PT p' Hp) as (lf' & rt' & C' & _). destruct (tids_split ps p' Hp) as (e & Pe & _).
      assert (Pe' : Permutation (tids ps ++ t :: tl) (fst p' ++ e ++ t :: tl)) by (rewrite Pe, app_assoc; reflexivity). specialize (C' _ Pe').
      apply (ch_os _ _ _ _ _ _ C') in Hl. destruct Hl as (i & Hi & ->). assert (Hx := ch_all _ _ i _ Hi (ch_in_o _ _ _ _ _ _ C' _ Hi)). revert Hx. apply all_incl. intros z. now apply tids_In. }
    assert (MK1 : making h1 (ps ++ [p]) tl q).
    { constructor.
      - now apply (wf_open_perm _ (ts ++ tids ps ++ tl)).
      - apply (closed_perm h1 (ts ++ tids ps ++ tl)); [apply WO2|exact PN1|]. intros l l' Hl LK. 
        assert (Hf : In l (free_legs h (t :: tids ps ++ tl))) by (eapply Permutation_in; [apply SF|exact Hl]).
        apply KALL in LK; [|apply free_In in Hf; [tauto|apply W1|apply W1]]. 
        apply (closed_perm _ _ _ W PN CL l l' Hf LK).
      - now apply (alive_same h h1 (tids ps ++ t :: tl)).
      - intros p' Hp'. apply in_app_iff in Hp'. destruct Hp' as [Hp'|[<-|[]]].
        + destruct (PT p' Hp') as (lf' & rt' & C' & D' & S'). exists lf', rt'. destruct (tids_split ps p' Hp') as (e & Pe & _).
          assert (Pe' : Permutation (tids ps ++ t :: tl) (fst p' ++ e ++ t :: tl)) by (rewrite Pe, app_assoc; reflexivity). specialize (C' _ Pe').
          assert (Up : untouched h (fst p') h1) by (apply (ut_incl h h1 (tids ps ++ tl)); auto; intros z Hz; apply in_app_iff; left; eapply tids_In; eauto).
          split; [|split].
          * intros e' Pe2. apply (chain_frame h h1 _ _ _ e' _ _ C' Up). apply (wf_open_perm h1 (tids (ps ++ [p]) ++ tl)); auto. now apply (wf_open_perm _ (ts ++ tids ps ++ tl)).
          * intros l Hl. unfold dim_of. rewrite (ut_legs _ _ _ UT); [now apply D'|]. rewrite all_legs_app. apply in_app_iff. left. now apply (OP p').
          * exact (slim_frame h h1 _ _ _ _ _ q C' Up S').
        + exists lf, rt. cbn [p fst snd]. assert (QD : forall l, In l (legs_of h t) -> q l = dim_of h l) by (intros l Hl; apply DM; apply all_legs_In; exists t; simpl; auto).
          split; [|split].
          * intros e Pe. apply (chain_env _ _ _ (tids ps ++ tl)); auto. apply (wf_open_perm h1 (tids (ps ++ [p]) ++ tl)); auto. now apply (wf_open_perm _ (ts ++ tids ps ++ tl)).
          * intros l Hl. rewrite QD by auto. destruct (KL l Hl) as (-> & _). lia.
          * intros k Hk. destruct (SL k Hk) as [S1 S2]. rewrite !(map_ext_in q (dim_of h)); [auto|..]; intros l Hl; apply QD; rewrite <- (firstn_skipn (S k) (legs_of h t)); apply in_app_iff; auto.
      - intros l Hl. rewrite ATL in Hl. rewrite DM by (change (t :: tl) with ([t] ++ tl); rewrite all_legs_app; apply in_app_iff; auto).
        apply all_legs_In in Hl. destruct Hl as (t' & Ht & Hl). symmetry. now apply (DTL t'). }
    destruct (IH h1 (ps ++ [p]) MK1) as (h' & ms & ps' & E2 & MK' & F & EM & NP & SF' & SV' & LK').
    { intros t' Ht. destruct (US t') as ((K' & NE' & D') & RM'); [simpl; auto|]. unfold usable. rewrite (LTL t' Ht). rewrite (proj1 (UTL t' Ht)). split; auto.
      rewrite (map_ext_in (dim_of h1) (dim_of h)); auto. intros l Hl. now apply (DTL t'). }
    rewrite <- app_assoc in MK', SF', SV'. cbn [app] in MK', SF', SV'.
    exists h', (OMps (mkMps ts (Z.of_nat c) act) :: ms), (p :: ps'). split.
    { cbn [mapM]. assert (E0 : ('(m, _) <- createMPSFromTensor lib t (Some c) ;; ret (OMps m)) h = (h1, Ok (OMps (mkMps ts (Z.of_nat c) act)))) by (now rewrite (bind_ok _ _ _ _ _ E1)).
      rewrite (bind_ok _ _ _ _ _ E0), (bind_ok _ _ _ _ _ E2). reflexivity. }
    split; [exact MK'|]. split; [constructor; [right; cbn; eauto|exact F]|]. split.
    { cbn [map p snd]. f_equal. rewrite EM. apply map_ext_in. auto. }
    split; [intros p' [<-|Hp]; [exact NT|auto]|]. split; [eapply same_free_trans; eauto|]. split; [eapply same_value_trans; eauto|].
    intros l l' Hl.
    assert (Hl1 : In l (outs (ps ++ [p]) ++ all_legs h1 tl)).
    { rewrite outs_app, ATL. cbn [outs flat_map p snd]. rewrite app_nil_r, <- app_assoc. exact Hl. }
    rewrite LK' by exact Hl1. apply KALL. change (t :: tids ps ++ tl) with ([t] ++ tids ps ++ tl). rewrite !all_legs_app.
    apply in_app_iff in Hl. change (t :: tl) with ([t] ++ tl) in Hl. rewrite all_legs_app in Hl. rewrite !in_app_iff in *. destruct Hl as [Hl|[Hl|Hl]]; auto.
    right. left. apply in_flat_map in Hl. destruct Hl as (p' & Hp & Hl). now apply (OP p').
Qed.
End Make.
