(** doubleMerge as a whole. *)
From Coq Require Import List Arith Bool Lia String ZArith Permutation.
From Verif Require Import Base Sums NdModel NdProofs HeapModel FuncsModel FuncsProofs TensorModel TensorSpec TensorProofs MatrixProofs
  ContractModel NetSpec ShareProofs LinkProofs SumpairsProofs ContractProofs OuterProofs NetProofs MergeLinkSpec MergeLinkProofs GroupSpec GroupProofs NetSameProofs
  SvdModel SvdSpec SchmidtProofs MergeSvdProofs MpsModel MpsSpec MpsProofs MpsSwapProofs MpsMoveProofs MpsPreProofs MpsContractModel MpsContractSpec MpsOpenProofs MpsCommonProofs
  TripleSpec CanonSpec CanonRunProofs MpsFuseProofs MpsContractProofs MpsSiteProofs MpsDoubleSpec MpsDoubleProofs MpsCutProofs.
Import ListNotations.
Local Open Scope list_scope.
Local Open Scope nat_scope.

Section Dm.
Context {A : Type} {HA : SR A}.
Notation heap := (heap A).

Lemma perfect_faithful (lib : linalg A) : svd_perfect lib -> svd_faithful lib.
Proof. intros P m r c W E. destruct (P m r c W E) as [X L]. split; auto. exact (sx_eq _ _ _ _ X). Qed.
Lemma perfect_total (lib : linalg A) : svd_perfect lib -> svd_total lib.
Proof. intros P m r c W E. destruct (P m r c W E) as [X L]. apply X. Qed.

Lemma tail_share_leg (h : heap) ta tb la lb : wf_pair h ta tb -> shared h ta tb = [(la, lb)] ->
  exists h1 b, shareBonds ta tb h = (h1, Ok [b]) /\ only_bonds h h1 /\ bonds h1 b = mkBond la lb /\ l_bond (legs h la) = Some b.
Proof.
  intros WP SH. destruct (shareLegs_loop tb (tlegs h ta) h) as (h1 & bss & E & O & C & F & G).
  - apply WP.
  - intros l Hl. now apply (wp_disj h ta tb l WP).
  - intros l Hl. assert (LO : links_ok h (legs_of h ta)) by (apply (links_ok_incl h (legs_of h ta ++ legs_of h tb)); [apply incl_appl, incl_refl|apply WP]). eapply links_ok_partner; eauto.
  - change (pairs_between h (tlegs h ta) (legs_of h tb)) with (shared h ta tb) in G. rewrite SH in G.
    destruct (List.concat bss) as [|b [|? ?]] eqn:EC; try discriminate. cbn [map fst snd] in G. injection G as G.
    exists h1, b. split; [unfold shareBonds; unfold bind at 1, reads; unfold bind; rewrite E; unfold ret; now rewrite EC|]. split; auto. split; auto.
    assert (I : In b (share_list h tb (tlegs h ta))) by (rewrite <- C; simpl; auto). unfold share_list in I. apply in_flat_map in I. destruct I as (l & Hl & I).
    unfold share1 in I. destruct (partner h l) as [l'|] eqn:EP; [|destruct I]. destruct (inb l' (legs_of h tb)) eqn:EI; [|destruct I].
    destruct (l_bond (legs h l)) as [b'|] eqn:EB; [|destruct I]. destruct I as [->|[]].
    assert (IS : In (l, l') (shared h ta tb)). { apply pairs_In. split; [exact Hl|]. split; [now apply inb_true|]. now apply partner_Some. }
    rewrite SH in IS. destruct IS as [IS|[]]. injection IS as <- <-. exact EB.
Qed.

Lemma get_at (ts : list tid) chi act i : i < List.length ts -> getTensor (Z.of_nat i) (mkMps ts chi act) = Ok (nth i ts 0).
Proof.
  intros Hi. unfold getTensor. assert (Z.leb 0 (Z.of_nat i) && Z.ltb (Z.of_nat i) (mlen (mkMps ts chi act)) = true) as ->.
  { unfold mlen. cbn [m_ts]. rewrite andb_true_iff, Z.leb_le, Z.ltb_lt. lia. }
  unfold site. cbn [m_ts]. now rewrite Nat2Z.id.
Qed.
Lemma merge_at (X Y : list tid) a b t chi act (h : heap) : mergeTensor (Z.of_nat (List.length X)) t (mkMps (X ++ [a; b] ++ Y) chi act) h = (h, Ok (mkMps (X ++ [t] ++ Y) chi act)).
Proof.
  unfold mergeTensor. assert (isIndex (mkMps (X ++ [a; b] ++ Y) chi act) (Z.of_nat (List.length X)) && isIndex (mkMps (X ++ [a; b] ++ Y) chi act) (Z.of_nat (List.length X) + 1) = true) as ->.
  { unfold isIndex, mlen. cbn [m_ts]. rewrite !andb_true_iff, !Z.leb_le, !Z.ltb_lt, !app_length. cbn [List.length]. lia. }
  cbn [m_ts m_chi m_active]. rewrite Nat2Z.id. unfold bind, assert, ret. cbv iota. repeat f_equal.
  - rewrite firstn_app, Nat.sub_diag, firstn_O, app_nil_r. apply firstn_all.
  - rewrite skipn_app. rewrite skipn_all2 by lia. replace (List.length X + 2 - List.length X) with 2 by lia. reflexivity.
Qed.
Lemma lift_ok {X} (r : res X) x (h : heap) : r = Ok x -> liftR r h = (h, Ok x).
Proof. intros ->. reflexivity. Qed.
Lemma set_mid (X Y : list tid) a t : set_nth (List.length X) t (X ++ [a] ++ Y) = X ++ [t] ++ Y.
Proof. induction X as [|x X IH]; [reflexivity|]. cbn [app List.length set_nth]. f_equal. exact IH. Qed.
Lemma set_at (X Y : list tid) a t chi act (h : heap) : setTensor (Z.of_nat (List.length X)) t (mkMps (X ++ [a] ++ Y) chi act) h = (h, Ok (mkMps (X ++ [t] ++ Y) chi None)).
Proof.
  unfold setTensor. assert (isIndex (mkMps (X ++ [a] ++ Y) chi act) (Z.of_nat (List.length X)) = true) as ->.
  { unfold isIndex, mlen. cbn [m_ts]. rewrite !andb_true_iff, !Z.leb_le, !Z.ltb_lt, !app_length. cbn [List.length]. lia. }
  cbn [m_ts m_chi]. unfold bind, assert, ret. cbv iota. unfold setSite. rewrite Nat2Z.id, set_mid. reflexivity.
Qed.
Lemma split_at (ts : list tid) p : p < List.length ts -> exists X t Y, ts = X ++ [t] ++ Y /\ List.length X = p /\ nth p ts 0 = t.
Proof.
  intros Hp. exists (firstn p ts), (nth p ts 0), (skipn (S p) ts). split; [|split; auto; apply firstn_length_le; lia].
  rewrite <- (firstn_skipn p ts) at 1. f_equal. cbn [app]. now apply skipn_nth.
Qed.

Variable lib : linalg A.
Hypothesis ST : svd_total lib.

Section Main.
Variables (h : heap) (XA YA XB YB e : list tid) (a1 a2 b1 b2 : tid) (XO YO PO QO : list lid) (x1 x2 y1 y2 : lid) (lfA rtA lfB rtB : nat -> lid) (chia chib : Z) (acta actb : option Z).
Notation tsA := (XA ++ [a1; a2] ++ YA).
Notation tsB := (XB ++ [b1; b2] ++ YB).
Notation osA := (XO ++ [x1; x2] ++ YO).
Notation osB := (PO ++ [y1; y2] ++ QO).
Hypothesis CA : chain h tsA osA (tsB ++ e) lfA rtA.
Hypothesis CB : chain h tsB osB (tsA ++ e) lfB rtB.
Hypothesis CL : closed h (tsA ++ tsB ++ e).
Hypothesis LX : List.length XO = List.length XA.
Hypothesis LP : List.length PO = List.length XB.
Hypothesis LK : (linked h x1 y1 /\ linked h x2 y2) \/ (linked h x1 y2 /\ linked h x2 y1).
Hypothesis PA : bonds_positive h tsA rtA.
Hypothesis PB : bonds_positive h tsB rtB.
Hypothesis CHA : Z.le 0 chia.
Hypothesis CHB : Z.le 0 chib.
Notation p := (List.length XA).
Notation r := (List.length XB).

Lemma opt_positive (ts : list tid) X m1 m2 Y os env lf rt : chain h ts os env lf rt -> bonds_positive h ts rt -> ts = X ++ [m1; m2] ++ Y -> forall l,
  In l (opt (Nat.ltb 0 (List.length X)) (lf (List.length X)) ++ opt (Nat.ltb 0 (List.length Y)) (rt (List.length X + 1))) -> 0 < dim_of h l.
Proof.
  intros C P E l Hl. assert (LN : List.length ts = List.length X + 2 + List.length Y) by (rewrite E, !app_length; cbn [List.length]; lia). apply in_app_iff in Hl. destruct Hl as [Hl|Hl].
  - destruct (Nat.ltb_spec 0 (List.length X)) as [G|G]; [|destruct Hl]. destruct Hl as [<-|[]]. assert (exists k, List.length X = S k) as (k & EK) by (exists (List.length X - 1); lia). rewrite EK.
    assert (Hk : S k < List.length ts) by lia. rewrite (chain_dims _ _ _ _ _ _ k C Hk). now apply P.
  - destruct (Nat.ltb_spec 0 (List.length Y)) as [G|G]; [|destruct Hl]. destruct Hl as [<-|[]]. apply P. lia.
Qed.

(** the bonds around the site [p] of a canonical chain *)
Lemma around (h3 h4 : heap) X t Y Xo o Yo (ts : list tid) lf rt k env lf' rt' : chain h4 (X ++ [t] ++ Y) (Xo ++ [o] ++ Yo) env lf' rt' -> List.length Xo = List.length X ->
  List.length ts = List.length (X ++ [t] ++ Y) -> k = List.length X ->
  (forall j, S j < List.length ts -> dim_of h4 (rt' j) <= prodn (map (dim_of h3) (if Nat.ltb j k then firstn (S j) (Xo ++ [o] ++ Yo) else skipn (S j) (Xo ++ [o] ++ Yo)))) ->
  lf = lf' -> rt = rt' ->
  prodn (map (dim_of h4) (opt (Nat.ltb 0 (List.length X)) (lf (List.length X)) ++ opt (Nat.ltb 0 (List.length Y)) (rt (List.length X + 0)))) <= prodn (map (dim_of h3) Xo) * prodn (map (dim_of h3) Yo).
Proof.
  intros C LXo LN -> B -> ->. rewrite !app_length in LN. cbn [List.length] in LN. assert (LN2 : List.length (X ++ [t] ++ Y) = List.length X + 1 + List.length Y) by (rewrite !app_length; cbn [List.length]; lia).
  pose proof (ch_len _ _ _ _ _ _ C) as LO. rewrite LN2, !app_length in LO. cbn [List.length] in LO. rewrite prodn_map_app. apply Nat.mul_le_mono.
  - destruct (Nat.ltb_spec 0 (List.length X)) as [G|G].
    + cbn [opt map]. assert (exists k, List.length X = S k) as (k & EK) by (exists (List.length X - 1); lia). rewrite EK.
      assert (Hk : S k < List.length (X ++ [t] ++ Y)) by lia. unfold prodn at 1. cbn [fold_right]. rewrite Nat.mul_1_r. rewrite (chain_dims _ _ _ _ _ _ k C Hk). etransitivity; [apply B; lia|].
      destruct (Nat.ltb_spec k (List.length X)); [|lia]. rewrite <- EK, <- LXo. rewrite firstn_app, Nat.sub_diag, firstn_O, app_nil_r, firstn_all. lia.
    + assert (Xo = []) as -> by (destruct Xo; auto; cbn [List.length] in LXo; lia). reflexivity.
  - destruct (Nat.ltb_spec 0 (List.length Y)) as [G|G].
    + cbn [opt map]. unfold prodn at 1. cbn [fold_right]. rewrite Nat.mul_1_r, Nat.add_0_r. etransitivity; [apply B; lia|].
      rewrite Nat.ltb_irrefl. rewrite <- LXo. rewrite skipn_app. rewrite skipn_all2 by lia. replace (S (List.length Xo) - List.length Xo) with 1 by lia. cbn [app]. rewrite skipn_cons, skipn_O. lia.
    + assert (Yo = []) as -> by (destruct Yo; auto; cbn [List.length] in LO; lia). reflexivity.
Qed.
Lemma fits_suffice (h3 : heap) Xo o Yo chi : (forall l, In l (Xo ++ Yo) -> dim_of h3 l = dim_of h l) -> ends_fit h Xo Yo chi -> chi_suffices h3 (Xo ++ [o] ++ Yo) (List.length Xo) chi.
Proof.
  intros D F. split; intros k Hk.
  - rewrite firstn_app. replace (k - List.length Xo) with 0 by lia. rewrite firstn_O, app_nil_r. erewrite map_ext_in; [apply (F k)|]. intros l Hl. apply D, in_app_iff. left. rewrite <- (firstn_skipn k Xo). apply in_app_iff; auto.
  - rewrite skipn_app. rewrite skipn_all2 by lia. assert (exists j, k - List.length Xo = S j) as (j & ->) by (exists (k - List.length Xo - 1); lia). cbn [app]. rewrite skipn_cons.
    erewrite map_ext_in; [apply (F j)|]. intros l Hl. apply D, in_app_iff. right. rewrite <- (firstn_skipn j Yo). apply in_app_iff; auto.
Qed.

Theorem double_merge : exists h' tsA' tsB' x y bd,
  doubleMerge lib (mkMps tsA chia acta) (mkMps tsB chib actb) (Z.of_nat p) (Z.of_nat r) h = (h', Ok (mkMps tsA' chia None, mkMps tsB' chib None, bd)) /\
  doubled h tsA tsB e XO YO PO QO x1 x2 y1 y2 rtA rtB chia chib h' tsA' tsB' x y bd /\
  (svd_rank lib -> dim_of h' x <= dim_of h x1 * dim_of h x2) /\
  (svd_perfect lib -> ends_fit h XO YO chia -> ends_fit h PO QO chib ->
     (Z.le (Z.of_nat (prodn (map (dim_of h) (XO ++ YO)))) (Z.min chia chib) \/ Z.le (Z.of_nat (prodn (map (dim_of h) (PO ++ QO)))) (Z.min chia chib)) ->
     same_value h (tsA ++ tsB ++ e) h' (tsA' ++ tsB' ++ e)).
Proof.
  destruct (stage1 h XA YA XB YB e a1 a2 b1 b2 XO YO PO QO x1 x2 y1 y2 lfA rtA lfB rtB CA CB CL LX LP LK) as (h1 & h2 & h3 & ta & tb & la & lb & E1 & E2 & E3 & FL & MO).
  { intros l Hl. apply in_app_iff in Hl. destruct Hl as [Hl|Hl]; [exact (opt_positive _ _ _ _ _ _ _ _ _ CA PA eq_refl l Hl)|exact (opt_positive _ _ _ _ _ _ _ _ _ CB PB eq_refl l Hl)]. }
  destruct MO as (CA3 & CB3 & LK3 & U3 & K3 & CL3 & SF3 & SV3 & DA3 & DB3 & SL3).
  assert (HpA : p < List.length (XA ++ [ta] ++ YA)) by (rewrite !app_length; cbn [List.length]; lia).
  destruct (canonicalize_ok lib ST h3 _ _ _ _ _ p chia acta CA3 HpA CHA) as (h4 & tsA4 & lfA4 & rtA4 & E4 & M4 & B4 & _ & V4).
  assert (CA4 := mv_chain _ _ _ _ _ _ _ _ _ _ _ _ _ _ M4). assert (L4 := mv_len _ _ _ _ _ _ _ _ _ _ _ _ _ _ M4).
  assert (Hp4 : p < List.length tsA4) by lia.
  destruct (split_at tsA4 p Hp4) as (XA4 & ta4 & YA4 & EA4 & LXA4 & NA4). subst tsA4.
  assert (U4 := moved_ut _ _ _ _ _ _ _ _ _ _ _ _ _ _ M4).
  assert (CB4 : chain h4 (XB ++ [tb] ++ YB) (PO ++ [lb] ++ QO) ((XA4 ++ [ta4] ++ YA4) ++ e) (sh_l r 1 lfB) (sh_r r 1 rtB)).
  { apply (chain_frame h3 h4 _ _ ((XA ++ [ta] ++ YA) ++ e)); auto; [eapply ut_incl; [|exact U4]; sub|]. eapply wf_open_perm; [apply st_perm|exact (ch_wf _ _ _ _ _ _ CA4)]. }
  assert (HrB : r < List.length (XB ++ [tb] ++ YB)) by (rewrite !app_length; cbn [List.length]; lia).
  destruct (canonicalize_ok lib ST h4 _ _ _ _ _ r chib actb CB4 HrB CHB) as (h5 & tsB5 & lfB5 & rtB5 & E5 & M5 & B5 & _ & V5).
  assert (CB5 := mv_chain _ _ _ _ _ _ _ _ _ _ _ _ _ _ M5). assert (L5 := mv_len _ _ _ _ _ _ _ _ _ _ _ _ _ _ M5).
  assert (Hr5 : r < List.length tsB5) by lia.
  destruct (split_at tsB5 r Hr5) as (XB5 & tb5 & YB5 & EB5 & LXB5 & NB5). subst tsB5.
  assert (U5 := moved_ut _ _ _ _ _ _ _ _ _ _ _ _ _ _ M5).
  assert (UA5 : untouched h4 (XA4 ++ [ta4] ++ YA4) h5) by (eapply ut_incl; [|exact U5]; sub).
  assert (CA5 : chain h5 (XA4 ++ [ta4] ++ YA4) (XO ++ [la] ++ YO) ((XB5 ++ [tb5] ++ YB5) ++ e) lfA4 rtA4).
  { apply (chain_frame h4 h5 _ _ ((XB ++ [tb] ++ YB) ++ e)); auto. eapply wf_open_perm; [apply st_perm|exact (ch_wf _ _ _ _ _ _ CB5)]. }
  assert (CL4 : closed h4 ((XA4 ++ [ta4] ++ YA4) ++ (XB ++ [tb] ++ YB) ++ e)) by exact (moved_closed _ _ _ _ _ _ _ _ _ _ _ _ _ _ CA3 M4 CL3).
  assert (CL5 : closed h5 ((XA4 ++ [ta4] ++ YA4) ++ (XB5 ++ [tb5] ++ YB5) ++ e)).
  { eapply closed_perm; [apply (ch_wf _ _ _ _ _ _ CB5)|apply st_perm|]. refine (moved_closed _ _ _ _ _ _ _ _ _ _ _ _ _ _ CB4 M5 _). eapply closed_perm; [apply (ch_wf _ _ _ _ _ _ CA4)|apply st_perm|exact CL4]. }
  assert (KA4 := moved_kept _ _ _ _ _ _ _ _ _ _ _ _ _ _ M4). assert (KB5 := moved_kept _ _ _ _ _ _ _ _ _ _ _ _ _ _ M5).
  assert (IOA : forall l, In l (XO ++ [la] ++ YO) -> In l (all_legs h4 (XA4 ++ [ta4] ++ YA4))) by (intros l Hl; exact (os_all _ _ _ _ _ _ _ CA4 l Hl)).
  assert (IOB : forall l, In l (PO ++ [lb] ++ QO) -> In l (all_legs h3 (XB ++ [tb] ++ YB))) by (intros l Hl; exact (os_all _ _ _ _ _ _ _ CB3 l Hl)).
  assert (KA45 : kept_legs h4 h5 (XO ++ [la] ++ YO)) by (eapply kept_incl; [exact IOA|]; now apply ut_kept).
  assert (KB34 : kept_legs h3 h4 (PO ++ [lb] ++ QO)) by (eapply kept_incl; [exact IOB|]; apply ut_kept; eapply ut_incl; [|exact U4]; sub).
  assert (KA35 : kept_legs h3 h5 (XO ++ [la] ++ YO)) by (eapply kept_trans; eauto).
  assert (KB35 : kept_legs h3 h5 (PO ++ [lb] ++ QO)) by (eapply kept_trans; eauto).
  assert (INLA : In la (XO ++ [la] ++ YO)) by (rewrite !in_app_iff; simpl; auto).
  assert (LK5 : linked h5 la lb) by (apply (KA35 la INLA); exact LK3).
  assert (LXO4 : List.length XO = List.length XA4) by congruence. assert (LPO5 : List.length PO = List.length XB5) by congruence.
  assert (CHM : Z.le 0 (Z.min chia chib)) by lia.
  destruct (stage3 lib ST h5 XA4 YA4 XB5 YB5 e ta4 tb5 XO YO PO QO la lb lfA4 rtA4 lfB5 rtB5 (Z.min chia chib) CA5 CB5 CL5 LXO4 LPO5 LK5 CHM) as (h6 & u & v & x & y & E6 & CT).
  destruct CT as (SH6 & CA6 & CB6 & LK6 & U6 & K6 & CL6 & SF6 & SV6 & DX6 & DY6 & RK6 & BA6 & BB6 & SL6).
  assert (WP6 : wf_pair h6 u v).
  { apply (open_pair h6 u v ((XA4 ++ YA4) ++ (XB5 ++ YB5) ++ e)). eapply wf_open_perm; [apply st_front2|exact (ch_wf _ _ _ _ _ _ CA6)]. }
  destruct (tail_share_leg h6 u v x y WP6 SH6) as (h7 & bd & E7 & OB7 & BD7 & LB7). assert (NS7 := ns_ob _ _ OB7).
  set (tsA' := XA4 ++ [u] ++ YA4) in *. set (tsB' := XB5 ++ [v] ++ YB5) in *.
  assert (UT7 : forall env, untouched h6 env h7) by (intros env; apply (same_ut h6 h7 env [] NS7); [intros l _; now rewrite (ob_legs _ _ OB7)|intros l _ []]).
  assert (W7 : wf_open h7 (tsA' ++ tsB' ++ e)) by (eapply ns_wf_open; [exact NS7|exact (ch_wf _ _ _ _ _ _ CA6)]).
  assert (W7' : wf_open h7 (tsB' ++ tsA' ++ e)) by (eapply wf_open_perm; [apply st_perm|exact W7]).
  assert (DXY : dim_of h x1 * dim_of h x2 = dim_of h y1 * dim_of h y2).
  { assert (LKO := wn_links _ _ (wo_net _ _ (ch_wf _ _ _ _ _ _ CA))).
    assert (IXX : forall l, In l [x1; x2] -> In l (all_legs h (tsA ++ tsB ++ e))) by (intros l Hl; eapply all_incl; [|apply (os_all _ _ _ _ _ _ _ CA l)]; [sub|]; rewrite !in_app_iff; auto).
    assert (IYY : forall l, In l [y1; y2] -> In l (all_legs h (tsA ++ tsB ++ e))) by (intros l Hl; eapply all_incl; [|apply (os_all _ _ _ _ _ _ _ CB l)]; [sub|]; rewrite !in_app_iff; auto).
    assert (IX1 := IXX x1 (or_introl eq_refl)). assert (IX2 := IXX x2 (or_intror (or_introl eq_refl))). assert (IY1 := IYY y1 (or_introl eq_refl)). assert (IY2 := IYY y2 (or_intror (or_introl eq_refl))).
    destruct LK as [[K1 K2]|[K1 K2]].
    - rewrite (link_dims _ _ _ _ LKO IX1 IY1 K1), (link_dims _ _ _ _ LKO IX2 IY2 K2). reflexivity.
    - rewrite (link_dims _ _ _ _ LKO IX1 IY2 K1), (link_dims _ _ _ _ LKO IX2 IY1 K2). apply Nat.mul_comm. }
  assert (SF4 := mv_free _ _ _ _ _ _ _ _ _ _ _ _ _ _ M4).
  assert (SF5 : same_free h4 ((XA4 ++ [ta4] ++ YA4) ++ (XB ++ [tb] ++ YB) ++ e) h5 ((XA4 ++ [ta4] ++ YA4) ++ (XB5 ++ [tb5] ++ YB5) ++ e)).
  { eapply same_free_perm; [apply st_perm|apply st_perm|apply (ch_wf _ _ _ _ _ _ CB4)|apply (ch_wf _ _ _ _ _ _ CB5)|exact (mv_free _ _ _ _ _ _ _ _ _ _ _ _ _ _ M5)]. }
  assert (SF7 := same_sf _ _ (tsA' ++ tsB' ++ e) NS7).
  exists h7, tsA', tsB', x, y, bd. split; [|split; [|split]].
  - assert (N1 : nth p tsA 0 = a1) by exact (c_site XA (a2 :: YA) a1 0). assert (N2 : nth (S p) tsA 0 = a2) by (rewrite app_nth2 by lia; replace (S p - p) with 1 by lia; reflexivity).
    assert (N3 : nth r tsB 0 = b1) by exact (c_site XB (b2 :: YB) b1 0). assert (N4 : nth (S r) tsB 0 = b2) by (rewrite app_nth2 by lia; replace (S r - r) with 1 by lia; reflexivity).
    assert (LA : S p < List.length tsA) by (rewrite !app_length; cbn [List.length]; lia). assert (LB : S r < List.length tsB) by (rewrite !app_length; cbn [List.length]; lia).
    assert (G1 := get_at tsA chia acta p ltac:(lia)). assert (G2 := get_at tsA chia acta (S p) ltac:(lia)). assert (G3 := get_at tsB chib actb r ltac:(lia)). assert (G4 := get_at tsB chib actb (S r) ltac:(lia)).
    rewrite N1 in G1. rewrite N2 in G2. rewrite N3 in G3. rewrite N4 in G4.
    assert (EM : merge lib ta tb None (Some (NStr "o")) h2 = (h3, Ok (ta, tb))) by (rewrite (merge_untruncated lib h2 ta tb _ FL), E3; reflexivity).
    assert (G5 := get_at (XA4 ++ [ta4] ++ YA4) chia (Some (Z.of_nat p)) p Hp4). rewrite NA4 in G5.
    assert (G6 := get_at (XB5 ++ [tb5] ++ YB5) chib (Some (Z.of_nat r)) r Hr5). rewrite NB5 in G6.
    assert (S1 := set_at XA4 YA4 ta4 u chia (Some (Z.of_nat p)) h6). rewrite LXA4 in S1. assert (S2 := set_at XB5 YB5 tb5 v chib (Some (Z.of_nat r)) h6). rewrite LXB5 in S2.
    unfold doubleMerge. replace (Z.of_nat p + 1)%Z with (Z.of_nat (S p)) by lia. replace (Z.of_nat r + 1)%Z with (Z.of_nat (S r)) by lia.
    rewrite (bind_ok _ _ _ _ _ (lift_ok _ _ h G1)). rewrite (bind_ok _ _ _ _ _ (lift_ok _ _ h G2)). rewrite (bind_ok _ _ _ _ _ E1).
    rewrite (bind_ok _ _ _ _ _ (lift_ok _ _ h1 G3)). rewrite (bind_ok _ _ _ _ _ (lift_ok _ _ h1 G4)). rewrite (bind_ok _ _ _ _ _ E2).
    rewrite (bind_ok _ _ _ _ _ EM). cbv beta iota. rewrite (bind_ok _ _ _ _ _ (merge_at XA YA a1 a2 ta chia acta h3)). rewrite (bind_ok _ _ _ _ _ (merge_at XB YB b1 b2 tb chib actb h3)).
    rewrite (bind_ok _ _ _ _ _ E4). rewrite (bind_ok _ _ _ _ _ E5). rewrite (bind_ok _ _ _ _ _ (lift_ok _ _ h5 G5)). rewrite (bind_ok _ _ _ _ _ (lift_ok _ _ h5 G6)). cbn [m_chi].
    rewrite (bind_ok _ _ _ _ _ E6). cbv beta iota. rewrite (bind_ok _ _ _ _ _ S1). rewrite (bind_ok _ _ _ _ _ S2). rewrite (bind_ok _ _ _ _ _ E7). reflexivity.
  - constructor.
    + exists (sh_l (List.length XA4) 0 lfA4), (sh_r (List.length XA4) 0 rtA4), (sh_l (List.length XB5) 0 lfB5), (sh_r (List.length XB5) 0 rtB5).
      assert (LA6 : List.length tsA' = List.length (XA ++ [ta] ++ YA)) by (unfold tsA'; rewrite <- L4, !app_length; reflexivity).
      assert (LB6 : List.length tsB' = List.length (XB ++ [tb] ++ YB)) by (unfold tsB'; rewrite <- L5, !app_length; reflexivity).
      split; [apply (chain_frame h6 h7 _ _ (tsB' ++ e)); auto|]. split; [apply (chain_frame h6 h7 _ _ (tsA' ++ e)); auto|].
      assert (LA7 : List.length tsA' = List.length (XA4 ++ [ta4] ++ YA4)) by (unfold tsA'; rewrite !app_length; reflexivity).
      assert (LB7' : List.length tsB' = List.length (XB5 ++ [tb5] ++ YB5)) by (unfold tsB'; rewrite !app_length; reflexivity).
      split; [|split].
      * intros i Hi. rewrite (ns_dim _ _ NS7). rewrite LA7 in Hi. rewrite (BA6 i Hi). assert (Hi' : i < List.length (XA4 ++ [ta4] ++ YA4)) by lia.
        assert (IR : In (rtA4 i) (all_legs h4 (XA4 ++ [ta4] ++ YA4))) by (apply (ch_all _ _ _ _ Hi'), (ch_in_r _ _ _ _ _ _ CA4 _ Hi)).
        unfold dim_of. rewrite (ut_legs _ _ _ UA5 _ IR). apply (mv_chi _ _ _ _ _ _ _ _ _ _ _ _ _ _ M4); lia.
      * intros i Hi. rewrite (ns_dim _ _ NS7). rewrite LB7' in Hi. rewrite (BB6 i Hi). apply (mv_chi _ _ _ _ _ _ _ _ _ _ _ _ _ _ M5); lia.
      * intros q q' D Q QX QY.
        set (q3 := fun l => if Nat.eqb l la then q x1 * q x2 else if Nat.eqb l lb then q y1 * q y2 else q l).
        assert (NAB : la <> lb).
        { intros EQ. apply (two_disj h3 _ _ _ _ _ _ CA3 la); [exact (os_all _ _ _ _ _ _ _ CA3 la INLA)|]. rewrite EQ. apply IOB. rewrite !in_app_iff. simpl. auto. }
        assert (NOA := ch_ndo _ _ _ _ _ _ CA3). assert (NOB := ch_ndo _ _ _ _ _ _ CB3).
        assert (Q3a : q3 la = q x1 * q x2) by (unfold q3; now rewrite Nat.eqb_refl).
        assert (Q3b : q3 lb = q y1 * q y2) by (unfold q3; rewrite Nat.eqb_refl; destruct (Nat.eqb_spec lb la); congruence).
        assert (OTH : forall l, In l ((XO ++ YO) ++ (PO ++ QO)) -> l <> la /\ l <> lb).
        { assert (GEN : forall (X Y : list lid) o, NoDup (X ++ [o] ++ Y) -> ~ In o (X ++ Y)) by (intros X Y o ND; cbn [app] in ND; now apply NoDup_remove_2 in ND).
          assert (SA : forall l, In l (XO ++ YO) -> In l (XO ++ [la] ++ YO)) by (intros l; rewrite !in_app_iff; tauto). assert (SB : forall l, In l (PO ++ QO) -> In l (PO ++ [lb] ++ QO)) by (intros l; rewrite !in_app_iff; tauto).
          assert (INLB : In lb (PO ++ [lb] ++ QO)) by (rewrite !in_app_iff; simpl; auto).
          assert (DJ : forall l, In l (XO ++ [la] ++ YO) -> In l (PO ++ [lb] ++ QO) -> False).
          { intros l H1 H2. apply (two_disj h3 _ _ _ _ _ _ CA3 l); [exact (os_all _ _ _ _ _ _ _ CA3 l H1)|now apply IOB]. }
          intros l Hl. apply in_app_iff in Hl. destruct Hl as [Hl|Hl]; split; intros ->.
          - exact (GEN _ _ _ NOA Hl). - exact (DJ lb (SA _ Hl) INLB). - exact (DJ la INLA (SB _ Hl)). - exact (GEN _ _ _ NOB Hl). }
        assert (Q3o : forall l, In l ((XO ++ YO) ++ (PO ++ QO)) -> q3 l = q l).
        { intros l Hl. destruct (OTH l Hl). unfold q3. destruct (Nat.eqb_spec l la); [contradiction|]. destruct (Nat.eqb_spec l lb); [contradiction|]. auto. }
        destruct (SL3 q q3) as [SA3 SB3]; [intros l Hl; rewrite Q3o; auto|lia|lia|].
        destruct (SL6 q3 q') as [SA6 SB6]; [intros l Hl; rewrite Q3o; auto|lia|lia|].
        assert (DLA : dim_of h3 la <= q3 la).
        { rewrite DA3, Q3a. apply Nat.mul_le_mono; apply D; rewrite !in_app_iff; simpl; auto 10. }
        assert (DLB : dim_of h3 lb <= q3 lb).
        { rewrite DB3, DA3, Q3b, DXY. apply Nat.mul_le_mono; apply D; rewrite !in_app_iff; simpl; auto 10. }
        assert (DA : forall l, In l (XO ++ [la] ++ YO) -> dim_of h3 l <= q3 l).
        { intros l Hl. rewrite !in_app_iff in Hl. cbn [In] in Hl. destruct (Nat.eq_dec l la) as [->|NE]; auto. assert (IO : In l ((XO ++ YO) ++ (PO ++ QO))) by (rewrite !in_app_iff; destruct Hl as [Hl|[[Hl|[]]|Hl]]; [auto|congruence|auto]).
          rewrite (Q3o l IO). destruct (K3 l IO) as (-> & _). apply D. rewrite !in_app_iff; destruct Hl as [Hl|[[Hl|[]]|Hl]]; [auto|congruence|auto]. }
        assert (DB : forall l, In l (PO ++ [lb] ++ QO) -> dim_of h3 l <= q3 l).
        { intros l Hl. rewrite !in_app_iff in Hl. cbn [In] in Hl. destruct (Nat.eq_dec l lb) as [->|NE]; auto. assert (IO : In l ((XO ++ YO) ++ (PO ++ QO))) by (rewrite !in_app_iff; destruct Hl as [Hl|[[Hl|[]]|Hl]]; [auto|congruence|auto]).
          rewrite (Q3o l IO). destruct (K3 l IO) as (-> & _). apply D. rewrite !in_app_iff; destruct Hl as [Hl|[[Hl|[]]|Hl]]; [auto|congruence|auto]. }
        split; intros S0.
        -- apply (slim_frame h6 h7 tsA' _ (tsB' ++ e) (sh_l (List.length XA4) 0 lfA4)); auto. apply SA6. apply (slim_frame h4 h5 (XA4 ++ [ta4] ++ YA4) _ _ lfA4 _ _ CA4 UA5).
           apply (mv_slim _ _ _ _ _ _ _ _ _ _ _ _ _ _ M4); auto.
        -- apply (slim_frame h6 h7 tsB' _ (tsA' ++ e) (sh_l (List.length XB5) 0 lfB5)); auto. apply SB6. apply (mv_slim _ _ _ _ _ _ _ _ _ _ _ _ _ _ M5).
           ++ intros l Hl. destruct (KB34 l Hl) as (-> & _). auto.
           ++ apply (slim_frame h3 h4 (XB ++ [tb] ++ YB) _ _ (sh_l r 1 lfB) _ _ CB3); auto. eapply ut_incl; [|exact U4]; sub.
    + apply (ns_linked _ _ NS7). exact LK6.
    + split; auto. now rewrite (ob_legs _ _ OB7).
    + rewrite !(ns_dim _ _ NS7). auto.
    + eapply ut_trans; [exact U3|]. eapply ut_trans; [eapply ut_incl; [|exact U4]; sub|]. eapply ut_trans; [eapply ut_incl; [|exact U5]; sub|]. eapply ut_trans; [exact U6|apply UT7].
    + eapply kept_trans; [exact K3|]. eapply kept_trans; [apply kept_app; [eapply kept_incl; [|exact KA35]; sub|eapply kept_incl; [|exact KB35]; sub]|]. eapply kept_trans; [exact K6|].
      intros l _. rewrite (ns_dim _ _ NS7), (ob_legs _ _ OB7). split; auto. split; auto. intros l'. apply (ns_linked _ _ NS7).
    + apply (same_closed _ _ _ NS7). exact CL6.
    + eapply same_free_trans; [exact SF3|]. eapply same_free_trans; [exact SF4|]. eapply same_free_trans; [exact SF5|]. eapply same_free_trans; [exact SF6|exact SF7].
  - intros RK. rewrite (ns_dim _ _ NS7). rewrite <- DA3. destruct (KA35 la INLA) as (<- & _). auto.
  - intros PF FA FB ROOM.
    assert (DA35 : forall l, In l (XO ++ YO) -> dim_of h3 l = dim_of h l) by (intros l Hl; apply K3, in_app_iff; auto).
    assert (DB34 : forall l, In l (PO ++ QO) -> dim_of h4 l = dim_of h l).
    { intros l Hl. destruct (KB34 l) as (-> & _); [rewrite !in_app_iff in *; tauto|]. apply K3, in_app_iff; auto. }
    assert (V3 : same_value h3 ((XA ++ [ta] ++ YA) ++ (XB ++ [tb] ++ YB) ++ e) h4 ((XA4 ++ [ta4] ++ YA4) ++ (XB ++ [tb] ++ YB) ++ e)).
    { apply V4. right. split; [now apply perfect_faithful|]. rewrite <- LX. now apply fits_suffice. }
    assert (V4' : same_value h4 ((XA4 ++ [ta4] ++ YA4) ++ (XB ++ [tb] ++ YB) ++ e) h5 ((XA4 ++ [ta4] ++ YA4) ++ (XB5 ++ [tb5] ++ YB5) ++ e)).
    { eapply same_value_perm; [apply st_perm|apply st_perm|apply (ch_wf _ _ _ _ _ _ CB4)|apply (ch_wf _ _ _ _ _ _ CB5)|]. apply V5. right. split; [now apply perfect_faithful|]. rewrite <- LP. now apply fits_suffice. }
    assert (V6 : same_value h5 ((XA4 ++ [ta4] ++ YA4) ++ (XB5 ++ [tb5] ++ YB5) ++ e) h6 (tsA' ++ tsB' ++ e)).
    { apply (SV6 PF). destruct ROOM as [R|R]; [left|right]; rewrite prodn_map_app in R; (eapply Z.le_trans; [|exact R]); apply inj_le.
      - assert (A4 : prodn (map (dim_of h4) (opt (Nat.ltb 0 (List.length XA4)) (lfA4 (List.length XA4)) ++ opt (Nat.ltb 0 (List.length YA4)) (rtA4 (List.length XA4 + 0)))) <= prodn (map (dim_of h3) XO) * prodn (map (dim_of h3) YO)).
        { apply (around h3 h4 XA4 ta4 YA4 XO la YO (XA ++ [ta] ++ YA) lfA4 rtA4 p _ lfA4 rtA4 CA4); auto. }
        etransitivity; [apply Nat.eq_le_incl, (f_equal prodn), map_ext_in|etransitivity; [exact A4|]].
        + intros l Hl. unfold dim_of. rewrite (ut_legs _ _ _ UA5); auto. assert (LNA4 : List.length (XA4 ++ [ta4] ++ YA4) = List.length XA4 + 1 + List.length YA4) by (rewrite !app_length; cbn [List.length]; lia).
          apply in_app_iff in Hl. destruct Hl as [Hl|Hl].
          * destruct (Nat.ltb_spec 0 (List.length XA4)) as [G|G]; [|destruct Hl]. destruct Hl as [<-|[]]. assert (exists k, List.length XA4 = S k) as (k & EK) by (exists (List.length XA4 - 1); lia). rewrite EK.
            assert (G1 : S k < List.length (XA4 ++ [ta4] ++ YA4)) by lia. apply (ch_all _ _ _ _ G1), (ch_in_l _ _ _ _ _ _ CA4 _ G1).
          * destruct (Nat.ltb_spec 0 (List.length YA4)) as [G|G]; [|destruct Hl]. destruct Hl as [<-|[]].
            assert (G1 : S (List.length XA4 + 0) < List.length (XA4 ++ [ta4] ++ YA4)) by lia. assert (G2 : List.length XA4 + 0 < List.length (XA4 ++ [ta4] ++ YA4)) by lia. apply (ch_all _ _ _ _ G2), (ch_in_r _ _ _ _ _ _ CA4 _ G1).
        + apply Nat.eq_le_incl. f_equal; f_equal; apply map_ext_in; intros l Hl; apply DA35, in_app_iff; auto.
      - assert (A5 : prodn (map (dim_of h5) (opt (Nat.ltb 0 (List.length XB5)) (lfB5 (List.length XB5)) ++ opt (Nat.ltb 0 (List.length YB5)) (rtB5 (List.length XB5 + 0)))) <= prodn (map (dim_of h4) PO) * prodn (map (dim_of h4) QO)).
        { apply (around h4 h5 XB5 tb5 YB5 PO lb QO (XB ++ [tb] ++ YB) lfB5 rtB5 r _ lfB5 rtB5 CB5); auto. }
        etransitivity; [exact A5|]. apply Nat.eq_le_incl. f_equal; f_equal; apply map_ext_in; intros l Hl; apply DB34, in_app_iff; auto. }
    eapply same_value_trans; [exact SF3|exact SV3|]. eapply same_value_trans; [exact SF4|exact V3|]. eapply same_value_trans; [exact SF5|exact V4'|]. eapply same_value_trans; [exact SF6|exact V6|]. now apply same_sv.
Qed.
End Main.
End Dm.
