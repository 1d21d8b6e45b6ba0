(** contractMPS on two chains of a closed network. *)
From Coq Require Import List Arith Bool Lia String ZArith Permutation.
From Verif Require Import Base Sums NdModel NdProofs HeapModel FuncsModel FuncsProofs TensorModel TensorSpec MatrixProofs
  ContractModel NetSpec ShareProofs LinkProofs SumpairsProofs ContractProofs OuterProofs NetProofs MergeLinkProofs GroupSpec GroupProofs NetSameProofs
  SvdModel SvdSpec SchmidtProofs MpsModel MpsSpec MpsProofs MpsSwapProofs MpsMoveProofs MpsPreProofs MpsContractSpec MpsOpenProofs MpsContractModel MpsCommonProofs MpsFuseProofs.
Import ListNotations.
Local Open Scope list_scope.
Local Open Scope nat_scope.

Section Mp.
Context {A : Type} {HA : SR A}.
Notation heap := (heap A).
Variable lib : linalg A.

(** the code after the two moves *)
Definition fuseMps (a b : mps) : @M A mobj :=
  ta <- liftR (getTensor (mlen a - 1) a) ;;
  tb <- liftR (getTensor 0 b) ;;
  t <- contractTwoTensors ta tb ;;
  d <- reads (fun h => tdim h t) ;;
  if Nat.eqb d 0 then ret (OTensor t) else
  ts <- (if Z.ltb 1 (mlen a) then
           t2 <- liftR (getTensor (-2) a) ;;
           t' <- contractTwoTensors t2 t ;;
           ret (firstn (List.length (m_ts a) - 2) (m_ts a) ++ [t'] ++ skipn 1 (m_ts b))
         else
           t2 <- liftR (getTensor 1 b) ;;
           t' <- contractTwoTensors t t2 ;;
           ret (firstn (List.length (m_ts a) - 1) (m_ts a) ++ [t'] ++ skipn 2 (m_ts b))) ;;
  '(m, _) <- newMps ts (Some (Z.min (m_chi a) (m_chi b))) ;;
  ret (OMps m).
Lemma contractAt_eq i j a b : contractAt lib i j a b =
  bind (moveTensor lib (Z.of_nat i) (mlen a - 1) a) (fun a => bind (moveTensor lib (Z.of_nat j) 0 b) (fun b => fuseMps a b)).
Proof. reflexivity. Qed.

(** both chains had one site: a tensor without legs is left *)
Definition fused_scalar (h h' : heap) (N e : list tid) (o : mobj) : Prop :=
  exists t, o = OTensor t /\ legs_of h' t = [] /\ (t_diag (tens h' t) = false /\ t_like (tens h' t) = false) /\ wf_open h' (t :: e) /\
    untouched h e h' /\ kept_legs h h' (all_legs h N) /\ same_free h N h' (t :: e) /\ same_value h N h' (t :: e).
(** otherwise: a chain with the other outgoing legs *)
Definition fused_chain (h h' : heap) (N e : list tid) (os osA osB : list lid) (rtA rtB : nat -> lid) (chi : Z) (o : mobj) : Prop :=
  exists ts lf rt, o = OMps (mkMps ts chi None) /\ chain h' ts os e lf rt /\ untouched h e h' /\ kept_legs h h' (all_legs h N) /\
    same_free h N h' (ts ++ e) /\ same_value h N h' (ts ++ e) /\
    forall q, (forall l, 1 <= q l) -> slim h q osA rtA -> slim h q osB rtB ->
      exists q', (forall l, q l <= q' l) /\ (forall l, ~ In l os -> q' l = q l) /\
        prodn (map q' os) = prodn (map q osA) * prodn (map q osB) /\ slim h' q' os rt.

Lemma prodn_mono (q q' : lid -> nat) L : (forall l, q l <= q' l) -> prodn (map q L) <= prodn (map q' L).
Proof. intros H. induction L as [|l L IH]; cbn [map prodn fold_right]; [lia|]. specialize (H l). unfold prodn in *. cbn [fold_right]. nia. Qed.
Lemma prodn_ge1 (q : lid -> nat) L : (forall l, 1 <= q l) -> 1 <= prodn (map q L).
Proof. intros H. induction L as [|l L IH]; unfold prodn in *; cbn [map fold_right]; [lia|]. specialize (H l). nia. Qed.
Lemma prodn_ext (q q' : lid -> nat) L : (forall l, In l L -> q' l = q l) -> prodn (map q' L) = prodn (map q L).
Proof. intros H. f_equal. now apply map_ext_in. Qed.
Lemma prodn_map_app (q : lid -> nat) L1 L2 : prodn (map q (L1 ++ L2)) = prodn (map q L1) * prodn (map q L2).
Proof. now rewrite map_app, prodn_app. Qed.
Lemma prodn_one (q : lid -> nat) l L : prodn (map q (l :: L)) = q l * prodn (map q L). Proof. reflexivity. Qed.

Lemma le_mul3 x y z : 1 <= y -> 1 <= z -> x <= x * y * z.
Proof. intros Hy Hz. assert (x <= x * y) by nia. nia. Qed.
Lemma fused_q_left (h h' : heap) XO YO o1 xa xb rtA rtB q : NoDup ((XO ++ [o1]) ++ YO) -> (forall l, 1 <= q l) ->
  (forall k, k < List.length XO -> dim_of h' (rtA k) = dim_of h (rtA k)) -> (forall k, k < List.length YO -> dim_of h' (rtB k) = dim_of h (rtB k)) ->
  slim h q (XO ++ [o1; xa]) rtA -> slim h q (xb :: YO) rtB ->
  exists q', (forall l, q l <= q' l) /\ (forall l, ~ In l ((XO ++ [o1]) ++ YO) -> q' l = q l) /\
    prodn (map q' ((XO ++ [o1]) ++ YO)) = prodn (map q (XO ++ [o1; xa])) * prodn (map q (xb :: YO)) /\
    slim h' q' ((XO ++ [o1]) ++ YO) (fun i => if Nat.ltb i (List.length XO) then rtA i else rtB (i - List.length XO)).
Proof.
  intros ND Q1 DA DB SA SB. assert (QA := Q1 xa). assert (QB := Q1 xb). assert (QO := Q1 o1). set (q' := upd q o1 (q o1 * q xa * q xb)).
  assert (QE : q' o1 = q o1 * q xa * q xb) by apply upd_same.
  assert (QN : forall l, l <> o1 -> q' l = q l) by (intros l N; now apply upd_other).
  assert (QM : forall l, q l <= q' l) by (intros l; destruct (Nat.eq_dec l o1) as [->|N]; [rewrite QE; now apply le_mul3|rewrite QN; auto]).
  assert (NX : ~ In o1 XO /\ ~ In o1 YO).
  { rewrite <- app_assoc in ND. cbn [app] in ND. apply NoDup_remove_2 in ND. rewrite in_app_iff in ND. tauto. }
  assert (Q1' : forall l, 1 <= q' l) by (intros l; specialize (QM l); specialize (Q1 l); lia).
  clearbody q'. exists q'. split; auto. split; [|split].
  - intros l Hl. apply QN. intros ->. apply Hl. rewrite !in_app_iff. simpl; auto.
  - rewrite !prodn_map_app, !prodn_one. cbn [map]. change (prodn []) with 1. rewrite (prodn_ext q q' XO), (prodn_ext q q' YO).
    + rewrite QE. nia.
    + intros l Hl. apply QN. intros ->. tauto.
    + intros l Hl. apply QN. intros ->. tauto.
  - intros k Hk. rewrite !app_length in Hk. cbn [List.length] in Hk. destruct (Nat.ltb_spec k (List.length XO)) as [LT|GE].
    + destruct (SA k) as [S1 S2]; [rewrite app_length; cbn; lia|]. rewrite DA by auto. rewrite <- app_assoc. rewrite firstn_app, skipn_app in *.
      replace (S k - List.length XO) with 0 in * by lia. rewrite !skipn_O, !firstn_O, ?app_nil_r in *. split.
      * etransitivity; [exact S1|]. now apply prodn_mono.
      * etransitivity; [exact S2|]. rewrite !prodn_map_app, !prodn_one. cbn [map app]. change (prodn []) with 1. rewrite QE.
        pose proof (prodn_mono q q' (skipn (S k) XO) QM). pose proof (prodn_ge1 q' YO Q1'). pose proof (prodn_ge1 q (skipn (S k) XO) Q1).
        set (u := prodn (map q (skipn (S k) XO))) in *. set (u' := prodn (map q' (skipn (S k) XO))) in *. set (v := prodn (map q' YO)) in *.
        assert (u * (q o1 * q xa) <= u' * (q o1 * q xa)) by nia. assert (q o1 * q xa <= q o1 * q xa * q xb) by nia.
        assert (q o1 * q xa <= q o1 * q xa * q xb * v) by nia. assert (u' * (q o1 * q xa) <= u' * (q o1 * q xa * q xb * v)) by nia. nia.
    + assert (exists m, k = List.length XO + m) as (m & ->) by (exists (k - List.length XO); lia). replace (List.length XO + m - List.length XO) with m by lia.
      destruct (SB m) as [S1 S2]; [cbn; lia|]. rewrite DB by lia. rewrite <- app_assoc. rewrite firstn_app, skipn_app.
      replace (S (List.length XO + m) - List.length XO) with (S m) by lia. rewrite (firstn_all2 XO), (skipn_all2 XO) by lia. cbn [app].
      rewrite skipn_cons, firstn_cons in *. split.
      * etransitivity; [exact S1|]. rewrite prodn_map_app, !prodn_one, QE. pose proof (prodn_mono q q' (firstn m YO) QM). pose proof (prodn_ge1 q' XO Q1').
        set (u := prodn (map q (firstn m YO))) in *. set (u' := prodn (map q' (firstn m YO))) in *. set (v := prodn (map q' XO)) in *.
        assert (X1 : q xb <= q o1 * q xa * q xb) by (rewrite (Nat.mul_comm (q o1 * q xa)), Nat.mul_assoc; now apply le_mul3).
        pose proof (Nat.mul_le_mono _ _ _ _ X1 H) as X2. rewrite <- (Nat.mul_1_l (q xb * u)). now apply Nat.mul_le_mono.
      * etransitivity; [exact S2|]. now apply prodn_mono.
Qed.
Lemma fused_q_right (h h' : heap) YO o1 xa xb rtB q : NoDup (o1 :: YO) -> (forall l, 1 <= q l) ->
  (forall k, k < List.length YO -> dim_of h' (rtB (S k)) = dim_of h (rtB (S k))) -> slim h q (xb :: o1 :: YO) rtB ->
  exists q', (forall l, q l <= q' l) /\ (forall l, ~ In l (o1 :: YO) -> q' l = q l) /\
    prodn (map q' (o1 :: YO)) = prodn (map q [xa]) * prodn (map q (xb :: o1 :: YO)) /\ slim h' q' (o1 :: YO) (fun i => rtB (S i)).
Proof.
  intros ND Q1 DB SB. assert (QA := Q1 xa). assert (QB := Q1 xb). assert (QO := Q1 o1). set (q' := upd q o1 (q o1 * q xa * q xb)).
  assert (QE : q' o1 = q o1 * q xa * q xb) by apply upd_same.
  assert (QN : forall l, l <> o1 -> q' l = q l) by (intros l N; now apply upd_other).
  assert (QM : forall l, q l <= q' l) by (intros l; destruct (Nat.eq_dec l o1) as [->|N]; [rewrite QE; now apply le_mul3|rewrite QN; auto]).
  apply NoDup_cons_iff in ND. destruct ND as [NI _].
  clearbody q'. exists q'. split; auto. split; [|split].
  - intros l Hl. apply QN. intros ->. apply Hl. simpl; auto.
  - rewrite !prodn_one. cbn [map]. change (prodn []) with 1. rewrite (prodn_ext q q' YO); [rewrite QE; nia|]. intros l Hl. apply QN. intros ->. tauto.
  - intros k Hk. cbn [List.length] in Hk. destruct (SB (S k)) as [S1 S2]; [cbn; lia|]. rewrite DB by lia. rewrite skipn_cons in *. rewrite !firstn_cons in *. split.
    + etransitivity; [exact S1|]. rewrite !prodn_one, QE. pose proof (prodn_mono q q' (firstn k YO) QM). nia.
    + etransitivity; [exact S2|]. rewrite skipn_cons. now apply prodn_mono.
Qed.

(** the tail on chains whose last and first site are linked *)
Lemma fuse_ok (h : heap) XA ta tb YB e XO xa xb YO lfA rtA lfB rtB chia chib acta actb :
  chain h (XA ++ [ta]) (XO ++ [xa]) ((tb :: YB) ++ e) lfA rtA -> chain h (tb :: YB) (xb :: YO) ((XA ++ [ta]) ++ e) lfB rtB ->
  linked h xa xb -> (forall l l', In l (XO ++ [xa]) -> In l' (xb :: YO) -> linked h l l' -> l = xa /\ l' = xb) -> (0 <= chia)%Z -> (0 <= chib)%Z ->
  let N := (XA ++ [ta]) ++ (tb :: YB) ++ e in
  exists h' o, fuseMps (mkMps (XA ++ [ta]) chia acta) (mkMps (tb :: YB) chib actb) h = (h', Ok o) /\
    (XA = [] /\ YB = [] -> fused_scalar h h' N e o) /\
    (XA <> [] \/ YB <> [] -> fused_chain h h' N e (XO ++ YO) (XO ++ [xa]) (xb :: YO) rtA rtB (Z.min chia chib) o).
Proof.
  intros CA CB LK ONLY CHA CHB N.
  destruct (fuse_first h (XA ++ [ta]) (tb :: YB) e (XO ++ [xa]) (xb :: YO) lfA rtA lfB rtB xa xb CA CB LK XA YB ta tb XO YO eq_refl eq_refl eq_refl eq_refl)
    as (h1 & t & E1 & J1 & L1).
  pose proof (ch_len _ _ _ _ _ _ CA) as LA. rewrite !app_length in LA. cbn [List.length] in LA. pose proof (ch_len _ _ _ _ _ _ CB) as LB. cbn [List.length] in LB.
  assert (P1 : Permutation N (ta :: tb :: XA ++ YB ++ e)) by exact (fz_perm (XA ++ [ta]) (tb :: YB) e XA YB ta tb eq_refl eq_refl).
  assert (WN : wf_open h N) by apply (ch_wf _ _ _ _ _ _ CA).
  assert (W0 : wf_open h (ta :: tb :: XA ++ YB ++ e)) by (eapply wf_open_perm; [exact P1|exact WN]).
  assert (KL1 : kept_legs h h1 (all_legs h N)).
  { intros l Hl. pose proof (open_lt _ _ _ WN Hl) as HL. destruct (jn_leg _ _ _ _ _ _ J1 l HL) as (B1 & D1 & _). split; auto. split; auto. intros l'. now apply (jn_links _ _ _ _ _ _ J1). }
  set (a := mkMps (XA ++ [ta]) chia acta). set (b := mkMps (tb :: YB) chib actb).
  assert (MA : mlen a = Z.of_nat (S (List.length XA))) by (unfold mlen, a; cbn [m_ts]; rewrite app_length; cbn [List.length]; lia).
  assert (GA : getTensor (mlen a - 1) a = Ok ta).
  { unfold getTensor. rewrite MA. destruct (Z.leb_spec 0 (Z.of_nat (S (List.length XA)) - 1)); [|lia]. destruct (Z.ltb_spec (Z.of_nat (S (List.length XA)) - 1) (Z.of_nat (S (List.length XA)))); [|lia].
    cbn [andb]. unfold site, a. cbn [m_ts]. replace (Z.to_nat (Z.of_nat (S (List.length XA)) - 1)) with (List.length XA) by lia. rewrite app_nth2, Nat.sub_diag by lia. reflexivity. }
  assert (GB : getTensor 0 b = Ok tb).
  { unfold getTensor, mlen, b. cbn [m_ts List.length]. destruct (Z.ltb_spec 0 (Z.of_nat (S (List.length YB)))); [|lia]. reflexivity. }
  assert (WT : wf_tensor h1 t) by (apply (wn_wf _ _ (wo_net _ _ (jn_wf _ _ _ _ _ _ J1))); simpl; auto).
  assert (TD : tdim h1 t = List.length (opt (Nat.ltb 0 (List.length XA)) (lfA (List.length XA)) ++ opt (Nat.ltb 0 (List.length YB)) (rtB 0))).
  { unfold tdim. rewrite (wf_shape h1 t WT). unfold dims_of. rewrite map_length. now apply Permutation_length. }
  set (rest := fun t : tid => if Nat.eqb (tdim h1 t) 0 then ret (OTensor t) else
    ts <- (if Z.ltb 1 (mlen a) then t2 <- liftR (getTensor (-2) a) ;; t' <- contractTwoTensors t2 t ;; ret (firstn (List.length (m_ts a) - 2) (m_ts a) ++ [t'] ++ skipn 1 (m_ts b))
           else t2 <- liftR (getTensor 1 b) ;; t' <- contractTwoTensors t t2 ;; ret (firstn (List.length (m_ts a) - 1) (m_ts a) ++ [t'] ++ skipn 2 (m_ts b))) ;;
    '(m, _) <- newMps ts (Some (Z.min (m_chi a) (m_chi b))) ;; ret (OMps m)).
  assert (EQ : fuseMps a b h = rest t h1).
  { unfold fuseMps. rewrite GA. erewrite bind_ok by reflexivity. rewrite GB. erewrite bind_ok by reflexivity. rewrite (bind_ok _ _ _ _ _ E1). erewrite bind_ok by reflexivity. reflexivity. }
  rewrite EQ. unfold rest. clear EQ rest. rewrite TD.
  destruct (list_eq_dec Nat.eq_dec XA []) as [NA|NA].
  - subst XA. destruct XO; [|cbn in LA; lia]. cbn [app List.length Nat.ltb Nat.leb opt] in *. destruct YB as [|t1 YB].
    + (* a scalar *)
      destruct YO; [|cbn in LB; lia]. cbn [List.length Nat.ltb Nat.leb opt app Nat.eqb] in *. exists h1, (OTensor t). split; [reflexivity|]. split; [|intros [X|X]; now destruct X].
      intros _. exists t. split; auto. split; [apply Permutation_nil; now symmetry|]. split; [apply J1|]. split; [apply J1|]. split; [apply J1|]. split; [exact KL1|]. split; apply J1.
    + destruct YO as [|o1 YO]; [cbn in LB; lia|]. change (Nat.ltb 0 (List.length (t1 :: YB))) with true in *. cbn [opt List.length Nat.eqb app] in *.
      destruct (fr_second h [ta] (tb :: t1 :: YB) e [xa] (xb :: o1 :: YO) lfA rtA lfB rtB xb CA CB YB ta tb t1 YO o1 eq_refl eq_refl h1 t J1 L1) as (h2 & t2 & E2 & J2 & L2).
      assert (PC := fr_pre h [ta] (tb :: t1 :: YB) e [xa] (xb :: o1 :: YO) lfA rtA lfB rtB xb CA CB YB ta tb t1 YO o1 eq_refl eq_refl h1 t J1 h2 t2 J2 L2).
      destruct (pc_new h2 (t2 :: YB) (o1 :: YO) e _ _ PC (Some (Z.min chia chib))) as (h3 & E3 & NS & CH & NM); [discriminate|].
      destruct (Z.ltb_spec (Z.min chia chib) (-1)) as [X|_]; [lia|].
      assert (GB2 : getTensor 1 b = Ok t1).
      { unfold getTensor, mlen, b. cbn [m_ts List.length]. destruct (Z.ltb_spec 1 (Z.of_nat (S (S (List.length YB))))); [|lia]. reflexivity. }
      exists h3, (OMps (mkMps (t2 :: YB) (Z.min chia chib) None)). split.
      { rewrite MA. cbn [List.length]. change (Z.ltb 1 (Z.of_nat 1)) with false. cbv iota. rewrite GB2.
        erewrite (bind_ok _ _ _ h2 (t2 :: YB)); [rewrite (bind_ok _ _ _ _ _ E3); reflexivity|].
        erewrite bind_ok by reflexivity. rewrite (bind_ok _ _ _ _ _ E2). reflexivity. }
      split; [intros [_ X]; discriminate X|]. intros _.
      assert (U2 : untouched h e h2) by (eapply ut_trans; [eapply ut_incl; [|apply J1]|eapply ut_incl; [|apply J2]]; intros u Hu; cbn [app In]; rewrite ?in_app_iff; auto).
      assert (KL : kept_legs h h3 (all_legs h N)).
      { intros l Hl. destruct (KL1 l Hl) as (D1 & B1 & K1). assert (HL : l < nleg h1) by (rewrite (jn_nleg _ _ _ _ _ _ J1); exact (open_lt _ _ _ WN Hl)).
        destruct (jn_leg _ _ _ _ _ _ J2 l HL) as (B2 & D2 & _). rewrite (ns_dim _ _ NS), D2. split; auto. destruct (ns_leg _ _ NS l) as (_ & _ & ->). rewrite B2. split; auto.
        intros l'. rewrite (ns_linked _ _ NS). rewrite (jn_links _ _ _ _ _ _ J2) by auto. apply K1. }
      exists (t2 :: YB), (fr_lf lfB), (fr_rt rtB). split; auto. split; auto. split; [|split; [|split; [|split]]].
      * eapply ut_trans; [exact U2|]. apply (same_ut h2 h3 e (all_legs h2 (t2 :: YB)) NS NM). intros l H1 H2.
        pose proof (wn_nodup _ _ (wo_net _ _ (pc_wf _ _ _ _ _ _ PC))) as ND. unfold all_legs in ND. rewrite flat_map_app in ND. exact (NoDup_app_disj _ _ l ND H2 H1).
      * exact KL.
      * eapply same_free_trans; [exact (jn_free _ _ _ _ _ _ J1)|]. eapply same_free_trans; [exact (jn_free _ _ _ _ _ _ J2)|]. exact (same_sf h2 h3 _ NS).
      * eapply same_value_trans; [exact (jn_free _ _ _ _ _ _ J1)|exact (jn_value _ _ _ _ _ _ J1)|]. eapply same_value_trans; [exact (jn_free _ _ _ _ _ _ J2)|exact (jn_value _ _ _ _ _ _ J2)|]. exact (same_sv h2 h3 _ NS).
      * intros q Q1 _ SB. apply (fused_q_right h h3 YO o1 xa xb rtB q); auto; [apply (ch_ndo _ _ _ _ _ _ CH)|].
        intros k Hk. apply KL. unfold N. cbn [app]. apply (all_incl h (tb :: t1 :: YB)); [intros u Hu; simpl in *; rewrite in_app_iff; tauto|].
        assert (HK : S (S k) < List.length (tb :: t1 :: YB)) by (cbn in *; lia). assert (HK' : S k < List.length (tb :: t1 :: YB)) by lia.
        apply (ch_all _ _ (S k) _ HK'). now apply (ch_in_r _ _ _ _ _ _ CB).
  - destruct (exists_last NA) as (XA' & t1 & ->). rewrite !app_length in *. cbn [List.length] in *.
    assert (NXO : XO <> []) by (intros ->; cbn in LA; lia). destruct (exists_last NXO) as (XO' & o1 & ->). rewrite !app_length in *. cbn [List.length] in *.
    assert (Nat.ltb 0 (List.length XA' + 1) = true) as T by (apply Nat.ltb_lt; lia). rewrite T in *. cbn [opt] in *.
    replace (List.length XA' + 1) with (S (List.length XA')) in * by lia.
    assert (EA : (XA' ++ [t1]) ++ [ta] = XA' ++ [t1; ta]) by now rewrite <- app_assoc.
    assert (EO : (XO' ++ [o1]) ++ [xa] = XO' ++ [o1; xa]) by now rewrite <- app_assoc.
    destruct (fl_second h _ (tb :: YB) e _ (xb :: YO) lfA rtA lfB rtB xa CA CB XA' YB t1 ta tb XO' o1 EA eq_refl EO h1 t J1 L1) as (h2 & t2 & E2 & J2 & L2).
    assert (PC := fl_pre h _ (tb :: YB) e _ (xb :: YO) lfA rtA lfB rtB xa xb CA CB ONLY XA' YB t1 ta tb XO' YO o1 EA eq_refl EO eq_refl h1 t J1 L1 h2 t2 J2 L2).
    destruct (pc_new h2 (XA' ++ [t2] ++ YB) _ e _ _ PC (Some (Z.min chia chib))) as (h3 & E3 & NS & CH & NM); [rewrite !app_length; cbn; lia|].
    destruct (Z.ltb_spec (Z.min chia chib) (-1)) as [X|_]; [lia|].
    assert (GA2 : getTensor (-2) a = Ok t1).
    { unfold getTensor. rewrite MA. cbn [Z.leb andb]. change (Z.leb 0 (-2)) with false. cbn [andb]. destruct (Z.leb_spec (- Z.of_nat (S (S (List.length XA')))) (-2)); [|lia]. cbn [andb Z.ltb].
      unfold site, a. cbn [m_ts]. replace (Z.to_nat (-2 + Z.of_nat (S (S (List.length XA'))))) with (List.length XA') by lia. rewrite EA. rewrite app_nth2, Nat.sub_diag by lia. reflexivity. }
    cbn [List.length app Nat.add Nat.eqb].
    exists h3, (OMps (mkMps (XA' ++ [t2] ++ YB) (Z.min chia chib) None)). split.
    { rewrite MA. destruct (Z.ltb_spec 1 (Z.of_nat (S (S (List.length XA'))))); [|lia]. rewrite GA2.
      erewrite (bind_ok _ _ _ h2 (XA' ++ [t2] ++ YB)); [rewrite (bind_ok _ _ _ _ _ E3); reflexivity|].
      erewrite bind_ok by reflexivity. rewrite (bind_ok _ _ _ _ _ E2). unfold ret. do 2 f_equal. unfold a, b. cbn [m_ts skipn]. rewrite EA. f_equal. rewrite app_length. cbn [List.length].
      replace (List.length XA' + 2 - 2) with (List.length XA' + 0) by lia. rewrite firstn_app_2. cbn [firstn]. now rewrite app_nil_r. }
    split; [intros [X _]; now apply app_eq_nil in X|]. intros _.
    assert (PM : Permutation (t :: (XA' ++ [t1]) ++ YB ++ e) (t1 :: t :: XA' ++ YB ++ e)) by (rewrite <- app_assoc; cbn [app]; rewrite <- (Permutation_middle XA' (YB ++ e) t1); apply perm_swap).
    assert (PM2 : Permutation (t2 :: XA' ++ YB ++ e) ((XA' ++ [t2] ++ YB) ++ e)) by (rewrite <- !app_assoc; cbn [app]; apply Permutation_middle).
    assert (U2 : untouched h e h2) by (eapply ut_trans; [eapply ut_incl; [|apply J1]|eapply ut_incl; [|apply J2]]; intros u Hu; rewrite ?in_app_iff; auto).
    assert (KL : kept_legs h h3 (all_legs h N)).
    { intros l Hl. destruct (KL1 l Hl) as (D1 & B1 & K1). assert (HL : l < nleg h1) by (rewrite (jn_nleg _ _ _ _ _ _ J1); exact (open_lt _ _ _ WN Hl)).
      destruct (jn_leg _ _ _ _ _ _ J2 l HL) as (B2 & D2 & _). rewrite (ns_dim _ _ NS), D2. split; auto. destruct (ns_leg _ _ NS l) as (_ & _ & ->). rewrite B2. split; auto.
      intros l'. rewrite (ns_linked _ _ NS). rewrite (jn_links _ _ _ _ _ _ J2) by auto. apply K1. }
    assert (IA : incl ((XA' ++ [t1]) ++ [ta]) N) by (unfold N; intros u Hu; apply in_app_iff; auto).
    assert (IB : incl (tb :: YB) N) by (unfold N; intros u Hu; apply in_app_iff; right; apply in_app_iff; auto).
    assert (SF1 : same_free h N h1 (t1 :: t :: XA' ++ YB ++ e)).
    { eapply same_free_perm; [symmetry; exact P1|exact PM|apply W0|apply (jn_wf _ _ _ _ _ _ J1)|exact (jn_free _ _ _ _ _ _ J1)]. }
    assert (SV1 : same_value h N h1 (t1 :: t :: XA' ++ YB ++ e)).
    { eapply same_value_perm; [symmetry; exact P1|exact PM|apply W0|apply (jn_wf _ _ _ _ _ _ J1)|exact (jn_value _ _ _ _ _ _ J1)]. }
    assert (W1 : wf_open h1 (t1 :: t :: XA' ++ YB ++ e)) by (eapply wf_open_perm; [exact PM|apply (jn_wf _ _ _ _ _ _ J1)]).
    assert (SF2 : same_free h1 (t1 :: t :: XA' ++ YB ++ e) h2 ((XA' ++ [t2] ++ YB) ++ e)).
    { eapply same_free_perm; [reflexivity|exact PM2|apply W1|apply (jn_wf _ _ _ _ _ _ J2)|exact (jn_free _ _ _ _ _ _ J2)]. }
    assert (SV2 : same_value h1 (t1 :: t :: XA' ++ YB ++ e) h2 ((XA' ++ [t2] ++ YB) ++ e)).
    { eapply same_value_perm; [reflexivity|exact PM2|apply W1|apply (jn_wf _ _ _ _ _ _ J2)|exact (jn_value _ _ _ _ _ _ J2)]. }
    eexists (XA' ++ [t2] ++ YB), _, _. split; auto. split; [exact CH|]. split; [|split; [|split; [|split]]].
    * eapply ut_trans; [exact U2|]. apply (same_ut h2 h3 e (all_legs h2 (XA' ++ [t2] ++ YB)) NS NM). intros l H1 H2.
      pose proof (wn_nodup _ _ (wo_net _ _ (pc_wf _ _ _ _ _ _ PC))) as ND. unfold all_legs in ND. rewrite flat_map_app in ND. exact (NoDup_app_disj _ _ l ND H2 H1).
    * exact KL.
    * eapply same_free_trans; [exact SF1|]. eapply same_free_trans; [exact SF2|]. exact (same_sf h2 h3 _ NS).
    * eapply same_value_trans; [exact SF1|exact SV1|]. eapply same_value_trans; [exact SF2|exact SV2|]. exact (same_sv h2 h3 _ NS).
    * intros q Q1 SA SB. rewrite EO in SA |- *. assert (LX : List.length XO' = List.length XA') by lia.
      destruct (fused_q_left h h3 XO' YO o1 xa xb rtA rtB q) as (q' & R1 & R2 & R3 & R4); auto.
      -- apply (ch_ndo _ _ _ _ _ _ CH).
      -- intros k Hk. apply KL. apply (all_incl h _ _ IA). assert (HK : S k < List.length ((XA' ++ [t1]) ++ [ta])) by (rewrite !app_length; cbn; lia).
         assert (HK' : k < List.length ((XA' ++ [t1]) ++ [ta])) by lia. apply (ch_all _ _ k _ HK'). now apply (ch_in_r _ _ _ _ _ _ CA).
      -- intros k Hk. apply KL. apply (all_incl h _ _ IB). assert (HK : S k < List.length (tb :: YB)) by (cbn in *; lia). assert (HK' : k < List.length (tb :: YB)) by lia.
         apply (ch_all _ _ k _ HK'). now apply (ch_in_r _ _ _ _ _ _ CB).
      -- exists q'. split; auto. split; auto. split; auto. rewrite LX in R4. exact R4.
Qed.

Lemma relocate_last (l : list lid) i : i < List.length l -> relocate i (List.length l - 1) l = without i l ++ [nth i l 0].
Proof.
  intros H. unfold relocate. rewrite (skipn_nth l i 0 H). fold (@without lid i l). cbv zeta. assert (L : List.length (without i l) = List.length l - 1).
  { unfold without. rewrite app_length, firstn_length, skipn_length. lia. }
  change (firstn i l ++ skipn (S i) l) with (without i l). rewrite (firstn_all2 (without i l)), (skipn_all2 (without i l)) by lia. reflexivity.
Qed.
Lemma relocate_first (l : list lid) i : i < List.length l -> relocate i 0 l = nth i l 0 :: without i l.
Proof. intros H. unfold relocate. rewrite (skipn_nth l i 0 H). reflexivity. Qed.
Lemma without_perm (l : list lid) i : i < List.length l -> Permutation (nth i l 0 :: without i l) l.
Proof.
  intros H. unfold without. rewrite Permutation_middle. rewrite <- (skipn_nth l i 0 H). now rewrite firstn_skipn.
Qed.
Lemma without_length {X} (l : list X) i : i < List.length l -> List.length (without i l) = List.length l - 1.
Proof. intros H. unfold without. rewrite app_length, firstn_length, skipn_length. lia. Qed.
Lemma kept_trans (h h1 h2 : heap) L : kept_legs h h1 L -> kept_legs h1 h2 L -> kept_legs h h2 L.
Proof. intros K1 K2 l Hl. destruct (K1 l Hl) as (D1 & B1 & L1). destruct (K2 l Hl) as (D2 & B2 & L2). rewrite D2, B2. split; auto. split; auto. intros l'. rewrite L2. apply L1. Qed.
Lemma kept_incl (h h1 : heap) L L' : incl L' L -> kept_legs h h1 L -> kept_legs h h1 L'.
Proof. intros I K l Hl. apply K, I, Hl. Qed.
Lemma kept_app (h h1 : heap) L L' : kept_legs h h1 L -> kept_legs h h1 L' -> kept_legs h h1 (L ++ L').
Proof. intros K K' l Hl. apply in_app_iff in Hl. destruct Hl; auto. Qed.
Lemma moved_kept (h h' : heap) ts os env lf rt lo hi chi ts' os' lf' rt' : moved h ts os env lf rt lo hi chi h' ts' os' lf' rt' -> kept_legs h h' os.
Proof.
  intros MV l Hl. split; [apply (mv_dims _ _ _ _ _ _ _ _ _ _ _ _ _ _ MV l Hl)|]. split; [apply (mv_bond _ _ _ _ _ _ _ _ _ _ _ _ _ _ MV l Hl)|].
  intros l'. apply (mv_links _ _ _ _ _ _ _ _ _ _ _ _ _ _ MV). apply in_app_iff; auto.
Qed.
Lemma ut_kept (h h' : heap) env : untouched h env h' -> kept_legs h h' (all_legs h env).
Proof. intros U l Hl. unfold dim_of. rewrite (ut_legs _ _ _ U l Hl). split; auto. split; auto. intros l'. now apply (ut_links _ _ _ U). Qed.

Section Contract.
Variables (h : heap) (tsA tsB e : list tid) (osA osB : list lid) (lfA rtA lfB rtB : nat -> lid) (ia ib : nat) (chia chib : Z) (acta actb : option Z).
Hypothesis ST : svd_total lib.
Hypothesis CA : chain h tsA osA (tsB ++ e) lfA rtA.
Hypothesis CB : chain h tsB osB (tsA ++ e) lfB rtB.
Hypothesis CL : closed h (tsA ++ tsB ++ e).
Hypothesis HA0 : ia < List.length tsA.
Hypothesis HB0 : ib < List.length tsB.
Hypothesis CHA : (0 <= chia)%Z.
Hypothesis CHB : (0 <= chib)%Z.
Hypothesis ONE : pairs_between h osA osB = [(nth ia osA 0, nth ib osB 0)].
Notation a := (mkMps tsA chia acta).
Notation b := (mkMps tsB chib actb).
Notation os := (without ia osA ++ without ib osB).

Lemma contract_at : exists h' o, contractAt lib ia ib a b h = (h', Ok o) /\ contracted_to h tsA tsB e osA osB rtA rtB os (Z.min chia chib) h' o /\
  ((lossless_run lib (moves ia (List.length tsA - 1)) a h \/ (svd_perfect lib /\ roomy h tsA osA rtA ia chia)) ->
   ((forall h1 a1, moveTensor lib (Z.of_nat ia) (Z.of_nat (List.length tsA) - 1) a h = (h1, Ok a1) -> lossless_run lib (moves ib 0) b h1) \/
     (svd_perfect lib /\ roomy h tsB osB rtB ib chib)) ->
   same_value h (tsA ++ tsB ++ e) h' (sites o ++ e)).
Proof.
  pose proof (ch_len _ _ _ _ _ _ CA) as LA. pose proof (ch_len _ _ _ _ _ _ CB) as LB.
  assert (HLast : List.length tsA - 1 < List.length tsA) by lia.
  destruct (move_ok lib ST h tsA osA (tsB ++ e) lfA rtA ia (List.length tsA - 1) chia acta CA HA0 HLast CHA) as (h1 & tsA1 & lfA1 & rtA1 & E1 & MV1 & _ & V1).
  assert (CA1 := mv_chain _ _ _ _ _ _ _ _ _ _ _ _ _ _ MV1). assert (U1 := moved_ut _ _ _ _ _ _ _ _ _ _ _ _ _ _ MV1).
  assert (PM : forall (X Y Z : list tid), Permutation (X ++ Y ++ Z) (Y ++ X ++ Z)).
  { intros X Y Z. rewrite !app_assoc. apply Permutation_app_tail, Permutation_app_comm. }
  assert (CB1 : chain h1 tsB osB (tsA1 ++ e) lfB rtB).
  { apply (chain_frame h h1 tsB osB (tsA ++ e)); auto; [eapply ut_incl; [|exact U1]; intros u Hu; apply in_app_iff; auto|].
    eapply wf_open_perm; [apply PM|]. apply (ch_wf _ _ _ _ _ _ CA1). }
  assert (H0 : 0 < List.length tsB) by lia.
  destruct (move_ok lib ST h1 tsB osB (tsA1 ++ e) lfB rtB ib 0 chib actb CB1 HB0 H0 CHB) as (h2 & tsB2 & lfB2 & rtB2 & E2 & MV2 & _ & V2).
  assert (CB2 := mv_chain _ _ _ _ _ _ _ _ _ _ _ _ _ _ MV2). assert (U2 := moved_ut _ _ _ _ _ _ _ _ _ _ _ _ _ _ MV2).
  assert (CA2 : chain h2 tsA1 (relocate ia (List.length tsA - 1) osA) (tsB2 ++ e) lfA1 rtA1).
  { apply (chain_frame h1 h2 tsA1 _ (tsB ++ e)); auto; [eapply ut_incl; [|exact U2]; intros u Hu; apply in_app_iff; auto|].
    eapply wf_open_perm; [apply PM|]. apply (ch_wf _ _ _ _ _ _ CB2). }
  assert (KA1 := moved_kept _ _ _ _ _ _ _ _ _ _ _ _ _ _ MV1). assert (KB2 := moved_kept _ _ _ _ _ _ _ _ _ _ _ _ _ _ MV2).
  rewrite <- LA, (relocate_last osA ia) in CA2, CA1, MV1 by lia. rewrite (relocate_first osB ib) in CB2, MV2 by lia.
  assert (IOA : forall l, In l (without ia osA ++ [nth ia osA 0]) <-> In l osA).
  { intros l. split; intros H; (eapply Permutation_in; [|exact H]); rewrite <- Permutation_cons_append; [|symmetry]; apply without_perm; lia. }
  assert (IOB : forall l, In l (nth ib osB 0 :: without ib osB) <-> In l osB).
  { intros l. split; intros H; (eapply Permutation_in; [|exact H]); [|symmetry]; apply without_perm; lia. }
  assert (KB1 : kept_legs h h1 osB).
  { eapply kept_incl; [|apply ut_kept; exact U1]. intros l Hl. eapply all_incl; [|apply (os_all h tsB tsA e osB lfB rtB CB _ Hl)]. intros u Hu. apply in_app_iff; auto. }
  assert (KA2 : kept_legs h1 h2 osA).
  { eapply kept_incl; [|apply ut_kept; exact U2]. intros l Hl. eapply all_incl; [|apply (os_all h1 tsA1 tsB e _ lfA1 rtA1 CA1 l)]; [intros u Hu; apply in_app_iff; auto|]. now apply IOA. }
  assert (KA := kept_trans _ _ _ _ KA1 KA2). assert (KB := kept_trans _ _ _ _ KB1 KB2).
  assert (IN1 : In (nth ia osA 0, nth ib osB 0) (pairs_between h osA osB)) by (rewrite ONE; simpl; auto). apply pairs_In in IN1. destruct IN1 as (INA & INB & LK).
  (* the sites at the ends *)
  assert (LA1 : List.length tsA1 = List.length tsA) by apply (mv_len _ _ _ _ _ _ _ _ _ _ _ _ _ _ MV1).
  assert (LB2 : List.length tsB2 = List.length tsB) by apply (mv_len _ _ _ _ _ _ _ _ _ _ _ _ _ _ MV2).
  assert (NA1 : tsA1 <> []) by (intros ->; cbn in LA1; lia). destruct (exists_last NA1) as (XA & ta & EA). destruct tsB2 as [|tb YB]; [cbn in LB2; lia|]. subst tsA1.
  destruct (fuse_ok h2 XA ta tb YB e (without ia osA) (nth ia osA 0) (nth ib osB 0) (without ib osB) lfA1 rtA1 lfB2 rtB2 chia chib
     (if Nat.eqb ia (List.length tsA - 1) then acta else None) (if Nat.eqb ib 0 then actb else None)) as (h' & o & E3 & FS & FC); auto.
  { apply KA; auto. }
  { intros l l' Hl Hl' HLK. apply IOA in Hl. apply IOB in Hl'. apply KA in HLK; auto. assert (X : In (l, l') (pairs_between h osA osB)) by (apply pairs_In; auto).
    rewrite ONE in X. simpl in X. destruct X as [X|[]]. injection X; auto. }
  assert (WNN : wf_open h1 (tsB ++ (XA ++ [ta]) ++ e)) by apply (ch_wf _ _ _ _ _ _ CB1).
  assert (SF2 : same_free h1 ((XA ++ [ta]) ++ tsB ++ e) h2 ((XA ++ [ta]) ++ (tb :: YB) ++ e)).
  { eapply same_free_perm; [apply PM|apply PM|apply WNN|apply (ch_wf _ _ _ _ _ _ CB2)|]. exact (mv_free _ _ _ _ _ _ _ _ _ _ _ _ _ _ MV2). }
  assert (SF : same_free h (tsA ++ tsB ++ e) h2 ((XA ++ [ta]) ++ (tb :: YB) ++ e)) by (eapply same_free_trans; [exact (mv_free _ _ _ _ _ _ _ _ _ _ _ _ _ _ MV1)|exact SF2]).
  assert (SV : (lossless_run lib (moves ia (List.length tsA - 1)) a h \/ (svd_perfect lib /\ roomy h tsA osA rtA ia chia)) ->
   ((forall h1 a1, moveTensor lib (Z.of_nat ia) (Z.of_nat (List.length tsA) - 1) a h = (h1, Ok a1) -> lossless_run lib (moves ib 0) b h1) \/
     (svd_perfect lib /\ roomy h tsB osB rtB ib chib)) -> same_value h (tsA ++ tsB ++ e) h2 ((XA ++ [ta]) ++ (tb :: YB) ++ e)).
  { intros H1 H2. eapply same_value_trans; [exact (mv_free _ _ _ _ _ _ _ _ _ _ _ _ _ _ MV1)|exact (V1 H1)|].
    eapply same_value_perm; [apply PM|apply PM|apply WNN|apply (ch_wf _ _ _ _ _ _ CB2)|]. apply V2. destruct H2 as [H2|[P [R1 R2]]].
    - left. replace (Z.of_nat (List.length tsA - 1)) with (Z.of_nat (List.length tsA) - 1)%Z in E1 by lia. exact (H2 _ _ E1).
    - right. split; auto. assert (DB : forall l, In l (all_legs h tsB) -> dim_of h1 l = dim_of h l).
      { intros l Hl. apply (ut_kept _ _ _ U1). eapply all_incl; [|exact Hl]. intros u Hu. apply in_app_iff; auto. }
      assert (HO : dim_of h1 (nth ib osB 0) = dim_of h (nth ib osB 0)) by (apply KB1; auto). unfold roomy. rewrite HO. split; auto.
      intros k Hk. rewrite DB; auto. assert (Hk' : k < List.length tsB) by lia. apply (ch_all _ _ k _ Hk'). now apply (ch_in_r _ _ _ _ _ _ CB). }
  assert (CL1 : closed h1 (tsB ++ (XA ++ [ta]) ++ e)).
  { eapply closed_perm; [apply (ch_wf _ _ _ _ _ _ CA1)|apply PM|]. exact (moved_closed _ _ _ _ _ _ _ _ _ _ _ _ _ _ CA MV1 CL). }
  assert (CL2 : closed h2 ((XA ++ [ta]) ++ (tb :: YB) ++ e)).
  { eapply closed_perm; [apply (ch_wf _ _ _ _ _ _ CB2)|apply PM|]. exact (moved_closed _ _ _ _ _ _ _ _ _ _ _ _ _ _ CB1 MV2 CL1). }
  assert (UE : untouched h e h2).
  { eapply ut_trans; [eapply ut_incl; [|exact U1]|eapply ut_incl; [|exact U2]]; intros u Hu; apply in_app_iff; auto. }
  exists h', o. split.
  { rewrite contractAt_eq. unfold mlen at 1. cbn [m_ts]. replace (Z.of_nat (List.length tsA) - 1)%Z with (Z.of_nat (List.length tsA - 1)) by lia.
    rewrite (bind_ok _ _ _ _ _ E1). change 0%Z with (Z.of_nat 0) at 1. rewrite (bind_ok _ _ _ _ _ E2). exact E3. }
  assert (L2 : forall l, In l os -> In l (all_legs h2 ((XA ++ [ta]) ++ (tb :: YB) ++ e))).
  { intros l Hl. apply in_app_iff in Hl. destruct Hl as [Hl|Hl].
    - eapply all_incl; [|apply (os_all h2 (XA ++ [ta]) (tb :: YB) e _ lfA1 rtA1 CA2 l); apply in_app_iff; auto]. intros u Hu. apply in_app_iff; auto.
    - eapply all_incl; [|apply (os_all h2 (tb :: YB) (XA ++ [ta]) e _ lfB2 rtB2 CB2 l); simpl; auto]. intros u Hu. rewrite !in_app_iff. auto. }
  assert (KO : kept_legs h h2 os).
  { intros l Hl. apply in_app_iff in Hl. destruct Hl as [Hl|Hl]; [apply KA, IOA; apply in_app_iff; auto|apply KB, IOB; simpl; auto]. }
  assert (LOS : List.length os = List.length XA + List.length YB).
  { rewrite app_length, !without_length by lia. rewrite app_length in LA1. cbn in LA1, LB2. lia. }
  destruct os as [|o1 os'] eqn:EOS.
  - assert (XA = [] /\ YB = []) as NN by (destruct XA, YB; cbn in LOS; try lia; auto). destruct (FS NN) as (t & -> & LT & FL & WT & UT & KT & SFT & SVT). cbn [sites app].
    split; [|intros H1 H2; eapply same_value_trans; [exact SF|now apply SV|exact SVT]]. split; auto.
    + intros _. exists t. tauto.
    + intros X; now destruct X.
    + eapply ut_trans; eauto.
    + intros l [].
    + apply (closed_step h2 h' _ _ SFT); auto. intros l l' Hl. apply KT. now apply free_all.
    + eapply same_free_trans; eauto.
  - assert (XA <> [] \/ YB <> []) as NN by (destruct XA, YB; cbn in LOS; try lia; [right|left|left]; discriminate).
    destruct (FC NN) as (ts & lf & rt & -> & CH & UT & KT & SFT & SVT & SL). cbn [sites m_ts].
    split; [|intros H1 H2; eapply same_value_trans; [exact SF|now apply SV|exact SVT]]. split; auto; cbn [sites m_ts].
    + apply (ch_wf _ _ _ _ _ _ CH).
    + intros X; discriminate X.
    + intros _. exists ts, lf, rt. split; auto. split; auto. intros q Q1 QD SA SB.
      destruct (SL q Q1) as (q' & R1 & R2 & R3 & R4).
      * apply (slim_frame h1 h2 (XA ++ [ta]) _ (tsB ++ e) lfA1 rtA1 q CA1); [eapply ut_incl; [|exact U2]; intros u Hu; apply in_app_iff; auto|].
        apply (mv_slim _ _ _ _ _ _ _ _ _ _ _ _ _ _ MV1); auto. intros l Hl. apply QD, in_app_iff; auto.
      * apply (mv_slim _ _ _ _ _ _ _ _ _ _ _ _ _ _ MV2).
        -- intros l Hl. destruct (KB1 l Hl) as (-> & _). apply QD, in_app_iff; auto.
        -- apply (slim_frame h h1 tsB _ (tsA ++ e) lfB rtB q CB); auto. eapply ut_incl; [|exact U1]; intros u Hu; apply in_app_iff; auto.
      * exists q'. split; auto. split; auto. split; auto. rewrite R3. f_equal; apply prodn_perm', Permutation_map.
        -- rewrite <- Permutation_cons_append. apply without_perm. lia.
        -- apply without_perm. lia.
    + eapply ut_trans; eauto.
    + eapply kept_trans; [exact KO|]. eapply kept_incl; [|exact KT]. exact L2.
    + apply (closed_step h2 h' _ _ SFT); auto. intros l l' Hl. apply KT. now apply free_all.
    + eapply same_free_trans; eauto.
Qed.
End Contract.

Lemma contract_mps : svd_total lib -> forall (h : heap) tsA tsB e osA osB lfA rtA lfB rtB ia ib chia chib acta actb,
  chain h tsA osA (tsB ++ e) lfA rtA -> chain h tsB osB (tsA ++ e) lfB rtB -> closed h (tsA ++ tsB ++ e) -> ia < List.length tsA -> ib < List.length tsB ->
  (0 <= chia)%Z -> (0 <= chib)%Z -> pairs_between h osA osB = [(nth ia osA 0, nth ib osB 0)] ->
  exists h' o, contractMPS lib (OMps (mkMps tsA chia acta)) (OMps (mkMps tsB chib actb)) h = (h', Ok o) /\
    contracted_to h tsA tsB e osA osB rtA rtB (without ia osA ++ without ib osB) (Z.min chia chib) h' o /\
    ((lossless_run lib (moves ia (List.length tsA - 1)) (mkMps tsA chia acta) h \/ (svd_perfect lib /\ roomy h tsA osA rtA ia chia)) ->
     ((forall h1 a1, moveTensor lib (Z.of_nat ia) (Z.of_nat (List.length tsA) - 1) (mkMps tsA chia acta) h = (h1, Ok a1) -> lossless_run lib (moves ib 0) (mkMps tsB chib actb) h1) \/
       (svd_perfect lib /\ roomy h tsB osB rtB ib chib)) ->
     same_value h (tsA ++ tsB ++ e) h' (sites o ++ e)).
Proof.
  intros ST h tsA tsB e osA osB lfA rtA lfB rtB ia ib chia chib acta actb CA CB CL Ha Hb CHA CHB ONE.
  destruct (common_legs h tsA tsB e osA osB lfA rtA lfB rtB CA CB CL chia acta chib actb) as (r & E & F). rewrite ONE in F.
  inversion F as [|[i j] q r' r'' X Y EX EY]; subst. inversion Y; subst. destruct X as (X1 & X2 & X3 & X4). cbn [fst snd] in *.
  pose proof (ch_len _ _ _ _ _ _ CA) as LA. pose proof (ch_len _ _ _ _ _ _ CB) as LB.
  assert (i = ia) by (apply (proj1 (NoDup_nth osA 0) (ch_ndo _ _ _ _ _ _ CA)); auto; lia).
  assert (j = ib) by (apply (proj1 (NoDup_nth osB 0) (ch_ndo _ _ _ _ _ _ CB)); auto; lia). subst i j.
  destruct (contract_at h tsA tsB e osA osB lfA rtA lfB rtB ia ib chia chib acta actb ST CA CB CL Ha Hb CHA CHB ONE) as (h' & o & EO & CT).
  exists h', o. split; [|exact CT]. unfold contractMPS. unfold readsR at 1. unfold bind at 1. rewrite E. exact EO.
Qed.
Lemma contract_refused (h : heap) tsA tsB e osA osB lfA rtA lfB rtB chia chib acta actb :
  chain h tsA osA (tsB ++ e) lfA rtA -> chain h tsB osB (tsA ++ e) lfB rtB -> closed h (tsA ++ tsB ++ e) -> List.length (pairs_between h osA osB) <> 1 ->
  contractMPS lib (OMps (mkMps tsA chia acta)) (OMps (mkMps tsB chib actb)) h = (h, Err AssertionError).
Proof.
  intros CA CB CL N. destruct (common_legs h tsA tsB e osA osB lfA rtA lfB rtB CA CB CL chia acta chib actb) as (r & E & F). apply Forall2_length in F.
  unfold contractMPS. unfold readsR at 1. unfold bind at 1. rewrite E. destruct r as [|p [|p' r]]; [reflexivity|cbn in F; congruence|]. destruct p; reflexivity.
Qed.
Lemma contract_negative : svd_total lib -> forall (h : heap) tsA tsB e osA osB lfA rtA lfB rtB ia ib chia chib acta actb,
  chain h tsA osA (tsB ++ e) lfA rtA -> chain h tsB osB (tsA ++ e) lfB rtB -> closed h (tsA ++ tsB ++ e) -> ia < List.length tsA -> ib < List.length tsB ->
  pairs_between h osA osB = [(nth ia osA 0, nth ib osB 0)] -> (chia < 0)%Z -> S ia <> List.length tsA ->
  exists h', contractMPS lib (OMps (mkMps tsA chia acta)) (OMps (mkMps tsB chib actb)) h = (h', Err ValueError).
Proof.
  intros ST h tsA tsB e osA osB lfA rtA lfB rtB ia ib chia chib acta actb CA CB CL Ha Hb ONE CHA NL.
  destruct (common_legs h tsA tsB e osA osB lfA rtA lfB rtB CA CB CL chia acta chib actb) as (r & E & F). rewrite ONE in F.
  inversion F as [|[i j] q r' r'' X Y EX EY]; subst. inversion Y; subst. destruct X as (X1 & X2 & X3 & X4). cbn [fst snd] in *.
  pose proof (ch_len _ _ _ _ _ _ CA) as LA. pose proof (ch_len _ _ _ _ _ _ CB) as LB.
  assert (i = ia) by (apply (proj1 (NoDup_nth osA 0) (ch_ndo _ _ _ _ _ _ CA)); auto; lia). subst i.
  assert (HL : List.length tsA - 1 < List.length tsA) by lia. assert (NE : ia <> List.length tsA - 1) by lia.
  destruct (move_negative lib ST h tsA osA _ _ _ ia (List.length tsA - 1) chia acta CA Ha HL NE CHA) as (h' & E1). exists h'.
  unfold contractMPS. unfold readsR at 1. unfold bind at 1. rewrite E. rewrite contractAt_eq. unfold mlen at 1. cbn [m_ts].
  replace (Z.of_nat (List.length tsA) - 1)%Z with (Z.of_nat (List.length tsA - 1)) by lia. unfold bind at 1. rewrite E1. reflexivity.
Qed.
Lemma legs_tensor (h : heap) o : (forall m, o <> OMps m) -> forall ts os env lf rt, chain h ts os env lf rt -> forall k i, i + k = List.length ts ->
  commonLegsFrom h i (skipn i ts) o = if forallb (fun l => match partner h l with Some _ => false | None => true end) (skipn i os) then Ok [] else Err AttributeError.
Proof.
  intros NO ts os env lf rt C. pose proof (ch_len _ _ _ _ _ _ C) as LA.
  assert (WN := wo_net _ _ (ch_wf _ _ _ _ _ _ C)).
  induction k; intros i Hi.
  - rewrite !skipn_all2 by lia. reflexivity.
  - rewrite (skipn_nth ts i 0), (skipn_nth os i 0) by lia. cbn [commonLegsFrom forallb]. rewrite (out_leg h ts os env lf rt i C) by lia. cbn [rbind].
    set (l := nth i os 0). assert (Hl : In l os) by (apply nth_In; lia).
    assert (CN : chain h ts os ([] ++ env) lf rt) by exact C.
    destruct (leg_case h ts [] env os lf rt CN l Hl) as [[E1 E2]|(bd & l' & E1 & E2 & LK & E3)].
    + rewrite E1, E2. cbn [andb]. apply IHk. lia.
    + rewrite E1, E2, E3. cbn [rbind andb]. destruct o as [m|t|]; [destruct (NO m eq_refl)| |]; reflexivity.
Qed.
Lemma contract_tensor (h : heap) o chi act : (forall m, o <> OMps m) -> forall ts os env lf rt, chain h ts os env lf rt ->
  contractMPS lib (OMps (mkMps ts chi act)) o h = (h, Err (if forallb (fun l => match partner h l with Some _ => false | None => true end) os then AssertionError else AttributeError)).
Proof.
  intros NO ts os env lf rt C. unfold contractMPS. unfold readsR at 1. unfold bind at 1. unfold commonLegs. cbn [m_ts].
  pose proof (legs_tensor h o NO ts os env lf rt C (List.length ts) 0 eq_refl) as E. rewrite !skipn_O in E. rewrite E.
  destruct (forallb _ os); reflexivity.
Qed.
End Mp.
