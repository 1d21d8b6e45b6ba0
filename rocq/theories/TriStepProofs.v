(** Proofs about one step on the triangular pattern. *)
From Coq Require Import List Arith Bool String Lia Permutation.
From Verif Require Import Base Sums NdModel NdProofs HeapModel FuncsModel TensorModel TensorSpec TensorProofs MatrixProofs CtorProofs CopyProofs ContractModel SvdModel SvdSpec SvdProofs
  SearchSpec NetSpec FtnModel FtnNetSpec FtnProofs FtnFrameProofs NamedSpec NetsSpec NamedProofs NetsModel NetsProofs NamedMatProofs TorusSpec TorusProofs TrgModel TrgSpec TrgProofs
  TriTrgModel TriTrgSpec UnlinkProofs TriPairProofs.
Import ListNotations.
Local Open Scope nat_scope.
Local Open Scope string_scope.
Local Open Scope list_scope.

Section St.
Context {A B : Type} {HA : SR A}.
Notation heap := (heap A).
Notation world := (world A).
Notation tri := (tri A).
Variable num : numerics A B.

Lemma shape_named (h : heap) t m : dense_legs h t m -> NoDup (map fst m) -> shapeOfLabels h t (map NStr (map fst m)) = Ok (map snd m).
Proof.
  intros ((WF & NL & ND) & HL) NDm. destruct (has_legs_order _ _ _ HL) as (m' & P & En & Ed).
  assert (Es : shape h t = map snd m') by (rewrite <- Ed; now apply wf_shape).
  assert (El : labels h t = map NStr (map fst m')) by (rewrite map_map; exact En).
  assert (NDm' : NoDup (map fst m')) by (eapply Permutation_NoDup; [symmetry; apply Permutation_map; exact P|exact NDm]).
  assert (F : forall n d, In (n, d) m' -> exists i, indexOfLabel h t (NStr n) false = Some i /\ nth_error (shape h t) i = Some d).
  { intros n d Hn. unfold indexOfLabel. rewrite El, Es. clear -Hn NDm'. induction m' as [|p m' IH]; [destruct Hn|]. cbn [map] in *. inversion NDm' as [|? ? N1 N2]; subst. cbn [index_of].
    destruct Hn as [->|Hn].
    - cbn [fst snd]. destruct (dec (NStr n) (NStr n)); [|congruence]. exists 0. auto.
    - destruct (dec (NStr n) (NStr (fst p))) as [E|NE]; [injection E as ->; exfalso; apply N1; now apply (in_map fst) in Hn|].
      destruct (IH N2 Hn) as (i & E1 & E2). exists (S i). rewrite E1. auto. }
  assert (F' : forall n d, In (n, d) m -> exists i, indexOfLabel h t (NStr n) false = Some i /\ nth_error (shape h t) i = Some d) by (intros n d Hn; apply F; eapply Permutation_in; [symmetry; exact P|exact Hn]).
  clear -F' NDm. unfold shapeOfLabels. assert (G : forall seen, (forall n, In n (map fst m) -> ~ In (NStr n) seen) -> shapeOfLabelsAux h t seen (map NStr (map fst m)) = Ok (map snd m)); [|apply G; auto].
  induction m as [|(n, d) m IH]; intros seen HS; [reflexivity|]. cbn [map fst snd shapeOfLabelsAux]. inversion NDm as [|? ? N1 N2]; subst.
  rewrite (proj2 (FuncsProofs.inb_false (NStr n) seen)) by (apply HS; simpl; auto). destruct (F' n d) as (i & -> & ->); [simpl; auto|].
  rewrite IH; auto; [intros; apply F'; simpl; auto|]. intros n' Hn' [E|HI']; [injection E as ->; contradiction|]. apply (HS n'); simpl; auto.
Qed.

Lemma third_ok (h h' : heap) t D (m u3 : arr A) k : np_reshape m [D; D; k] = Ok u3 -> makeTriangleTensor u3 ["2"; "3"; "1"] h = (h', Ok t) -> wfa m -> ashape m = [D * D; k] ->
  new_tensor h h' t None /\ dense_legs h' t [("1", k); ("2", D); ("3", D)] /\
  forall x y o, x < D -> y < D -> o < k -> at_ h' t [("1", o); ("2", x); ("3", y)] = aget m [x * D + y; o].
Proof.
  intros RS R W S. unfold np_reshape in RS. destruct (Nat.eqb (prodn [D; D; k]) (List.length (adata m))) eqn:E; [|discriminate]. injection RS as <-. apply Nat.eqb_eq in E.
  unfold makeTriangleTensor in R. cbn [ashape List.length Nat.eqb] in R. unfold assert, bind at 1, ret in R.
  destruct (new_data h ["2"; "3"; "1"] (mkArr [D; D; k] (adata m)) h' t) as (NT & DL & G); [symmetry; exact E|exact R|now apply nodupb_ok|]. cbn [ashape combine] in DL, G.
  split; auto. split.
  - eapply legs_perm; [|exact DL]. etransitivity; [|apply perm_swap]. apply perm_skip. apply perm_swap.
  - intros x y o Hx Hy Ho. rewrite (at_same _ _ _ _ [("2", x); ("3", y); ("1", o)] (proj2 DL)) by (intros n Hn; enum_in Hn ltac:(vm_compute; reflexivity)).
    specialize (G [x; y; o]). cbn [combine] in G. rewrite G by (constructor; [exact Hx|constructor; [exact Hy|constructor; [exact Ho|constructor]]]).
    unfold aget. rewrite S. cbn [ashape adata]. f_equal. cbn [ravel prodn fold_right]. lia.
Qed.
Lemma reshape_ok (m : arr A) D k : wfa m -> ashape m = [D * D; k] -> exists u3, np_reshape m [D; D; k] = Ok u3.
Proof. intros W S. unfold np_reshape. rewrite W, S. cbn [prodn fold_right]. rewrite (proj2 (Nat.eqb_eq _ _)) by lia. eauto. Qed.

(** what is not touched when [a] and [b] may change *)
Record frame2 (h h' : heap) (a b : tid) : Prop := {
  fr_tens : forall t, t < ntens h -> t <> a -> t <> b -> tens h' t = tens h t;
  fr_legs : forall l, l < nleg h -> ~ In l (legs_of h a) -> ~ In l (legs_of h b) -> legs h' l = legs h l;
  fr_ntens : ntens h <= ntens h'; fr_nleg : nleg h <= nleg h' }.
Lemma frame_grown (h h' h'' : heap) a b : frame2 h h' a b -> grown h' h'' -> frame2 h h'' a b.
Proof. intros [p q r s] [p' q' r' s']. split; try lia; intros; rewrite ?p', ?q' by lia; auto. Qed.
Lemma dense_kept (h h' : heap) t m : dense_legs h t m -> tens h' t = tens h t -> (forall l, In l (legs_of h t) -> legs h' l = legs h l) -> ntens h <= ntens h' -> nleg h <= nleg h' ->
  dense_legs h' t m /\ forall q, at_ h' t q = at_ h t q.
Proof.
  intros ((W & N1 & N2) & HL) Et El Lt Ln. assert (EL : legs_of h' t = legs_of h t) by (unfold legs_of; now rewrite Et). split; [split; [split; [|rewrite Et; auto]|]|].
  - apply (NetProofs.wf_same h h'); auto; [intros l Hl; unfold dim_of; now rewrite El].
  - unfold has_legs in *. assert (E : combine (names_of h' t) (dims_of h' t) = combine (names_of h t) (dims_of h t)) by (unfold names_of, dims_of, dim_of; rewrite EL; f_equal; apply map_ext_in; intros l Hl; now rewrite El). rewrite E. exact HL.
  - intros q. unfold at_, at_names, entry. rewrite Et. apply TensorProofs.entry_of_ext. intros l Hl. now rewrite El.
Qed.
Lemma frame_kept (h h' : heap) (g g' : tri) : frame2 h h' (p_a g) (p_b g) -> ntens h <= p_a g' -> ntens h <= p_b g' ->
  (forall l, In l (legs_of h' (p_a g')) -> nleg h <= l) -> (forall l, In l (legs_of h' (p_b g')) -> nleg h <= l) -> tri_kept h h' g g'.
Proof.
  intros [f1 f2 f3 f4] Na Nb La Lb t m D (Ta & Aa) (Tb & Ab). pose proof (wt_id _ _ (proj1 (proj1 D))) as Ti. pose proof (wt_alloc _ _ (proj1 (proj1 D))) as Al.
  assert (Et : tens h' t = tens h t) by auto. assert (EL : legs_of h' t = legs_of h t) by (unfold legs_of; now rewrite Et).
  destruct (dense_kept h h' t m D Et) as (D' & E'); auto. split; auto. split; auto. split; (split; [lia|]); intros l Hl Hl'; rewrite EL in Hl; specialize (Al l Hl); [specialize (La l Hl')|specialize (Lb l Hl')]; lia.
Qed.
Lemma new_legs (h h' : heap) t : new_tensor h h' t None -> forall l, In l (legs_of h' t) -> nleg h <= l.
Proof. intros NT l Hl. destruct (nt_legs _ _ _ _ NT) as (_ & X & _). rewrite X in Hl. apply in_seq in Hl. lia. Qed.

Lemma divide_legs (h h' : heap) t r : divideByNorm num t h = (h', r) -> forall u, legs_of h' u = legs_of h u.
Proof.
  unfold divideByNorm. unfold bind at 1, reads at 1. unfold bind at 1, assert. destruct (negb (t_like (tens h t))); unfold ret at 1, raise at 1; [|intros E; injection E as <- _; auto].
  destruct (t_arr (tens h t)) as [a|]; [|intros E u; cbv in E; congruence]. unfold bind, setArr, modify, ret. intros E u. injection E as <- _. unfold legs_of. cbn.
  unfold upd. destruct (Nat.eqb_spec u t) as [->|]; reflexivity.
Qed.

Lemma appendTri_ok (w w' : world) (g g' : tri) D : appendTri num g w = (w', Ok g') -> triangle (w_heap w) (p_a g) D -> triangle (w_heap w) (p_b g) D ->
  bondless (w_heap w) (p_a g) -> bondless (w_heap w) (p_b g) -> apart (w_heap w) (p_a g) (p_b g) ->
  exists na nb ca cb, g' = mkTri (p_a g) (p_b g) (p_dofA g) (p_dofB g) (p_chi g) (p_net g) (p_aNorms g ++ [na]) (p_bNorms g ++ [nb]) (p_errors g)
      (p_aArchive g ++ [(ca, p_dofA g)]) (p_bArchive g ++ [(cb, p_dofB g)]) /\
    w_names w' = w_names w /\ w_nnames w' = w_nnames w /\ w_ftn w' = w_ftn w /\ w_nftn w' = w_nftn w /\
    (triangle (w_heap w') (p_a g) D /\ triangle (w_heap w') (p_b g) D /\ bondless (w_heap w') (p_a g) /\ bondless (w_heap w') (p_b g) /\ apart (w_heap w') (p_a g) (p_b g)) /\
    normalized num (w_heap w') (p_a g) na /\ normalized num (w_heap w') (p_b g) nb /\ tri_copy (w_heap w') g' (p_a g) ca D /\ tri_copy (w_heap w') g' (p_b g) cb D /\
    (forall h0 x y, frame2 h0 (w_heap w) x y -> ntens h0 <= p_a g -> ntens h0 <= p_b g -> frame2 h0 (w_heap w') x y) /\ (forall l, l < nleg (w_heap w) -> legs (w_heap w') l = legs (w_heap w) l) /\
    legs_of (w_heap w') (p_a g) = legs_of (w_heap w) (p_a g) /\ legs_of (w_heap w') (p_b g) = legs_of (w_heap w) (p_b g) /\
    forall i j k, i < D -> j < D -> k < D -> entry3 (w_heap w') (p_a g) i j k = nu_div num (entry3 (w_heap w) (p_a g) i j k) na /\
      entry3 (w_heap w') (p_b g) i j k = nu_div num (entry3 (w_heap w) (p_b g) i j k) nb.
Proof.
  intros R Ta Tb Ua Ub (Nab & AP). unfold appendTri, normalizeTri in R. apply wbind_inv in R. destruct R as (w1 & g1 & R1 & R).
  apply wbind_inv in R1. destruct R1 as (w2 & na & R2 & R1). apply lift_inv in R2. destruct R2 as (h2 & R2 & ->).
  apply wbind_inv in R1. destruct R1 as (w3 & nb & R3 & R1). apply lift_inv in R3. destruct R3 as (h3 & R3 & ->). cbn [with_heap w_heap] in R3. injection R1 as <- <-. cbn [p_a p_b p_dofA p_dofB p_chi p_net p_aNorms p_bNorms p_errors p_aArchive p_bArchive] in R.
  apply wbind_inv in R. destruct R as (w4 & ca & R4 & R). apply lift_inv in R4. destruct R4 as (h4 & R4 & ->).
  apply wbind_inv in R. destruct R as (w5 & cb & R5 & R). apply lift_inv in R5. destruct R5 as (h5 & R5 & ->). injection R as <- <-. cbn [with_heap w_heap] in R4, R5. set (h := w_heap w) in *. set (a := p_a g) in *. set (b := p_b g) in *.
  assert (NDm : NoDup (map fst [("1", D); ("2", D); ("3", D)])) by now apply nodupb_ok.
  destruct (divide_ok num h a _ Ta NDm) as (h' & n' & E & NZa & Ta2 & KT2 & KL2 & KN2 & KM2 & EV2). rewrite R2 in E. injection E as <- <-. pose proof (divide_legs _ _ _ _ R2) as LL2.
  destruct (dense_kept h h2 b _ Tb) as (Tb2 & Eb2); [apply KT2; auto|now rewrite KL2|lia|lia|].
  destruct (divide_ok num h2 b _ Tb2 NDm) as (h' & n' & E & NZb & Tb3 & KT3 & KL3 & KN3 & KM3 & EV3). rewrite R3 in E. injection E as <- <-. pose proof (divide_legs _ _ _ _ R3) as LL3.
  destruct (dense_kept h2 h3 a _ Ta2) as (Ta3 & Ea3); [apply KT3; auto|now rewrite KL3|lia|lia|].
  destruct (copy_named h3 a _ Ta3) as (h' & c' & E & NT4 & Tc & Ec). rewrite R4 in E. injection E as <- <-. pose proof (new_grown _ _ _ NT4) as G4.
  destruct (grown_dense _ _ _ _ G4 Ta3) as (Ta4 & Ea4 & Xa4). destruct (grown_dense _ _ _ _ G4 Tb3) as (Tb4 & Eb4 & Xb4).
  destruct (copy_named h4 b _ Tb4) as (h' & c' & E & NT5 & Td & Ed). rewrite R5 in E. injection E as <- <-. pose proof (new_grown _ _ _ NT5) as G5.
  destruct (grown_dense _ _ _ _ G5 Ta4) as (Ta5 & Ea5 & Xa5). destruct (grown_dense _ _ _ _ G5 Tb4) as (Tb5 & Eb5 & Xb5). destruct (grown_dense _ _ _ _ G5 Tc) as (Tc5 & Ec5 & Xc5).
  assert (La : legs_of h5 a = legs_of h a) by (transitivity (legs_of h3 a); [unfold legs_of; now rewrite Xa5, Xa4|rewrite LL3; apply LL2]).
  assert (Lb : legs_of h5 b = legs_of h b) by (transitivity (legs_of h3 b); [unfold legs_of; now rewrite Xb5, Xb4|rewrite LL3; apply LL2]).
  pose proof (wt_alloc _ _ (proj1 (proj1 Ta))) as Al. pose proof (wt_alloc _ _ (proj1 (proj1 Tb))) as Bl. pose proof (wt_id _ _ (proj1 (proj1 Ta))) as Ai. pose proof (wt_id _ _ (proj1 (proj1 Tb))) as Bi.
  assert (LG : forall l, l < nleg h -> legs h5 l = legs h l).
  { intros l Hl. rewrite (gr_legs _ _ G5) by (pose proof (gr_nleg _ _ G4); lia). rewrite (gr_legs _ _ G4) by lia. now rewrite KL3, KL2. }
  assert (Lc : forall l, In l (legs_of h5 ca) -> nleg h <= l).
  { intros l Hl. assert (In l (legs_of h4 ca)) as Hl' by (unfold legs_of in *; now rewrite <- Xc5). apply (new_legs _ _ _ NT4) in Hl'. lia. }
  assert (Ld : forall l, In l (legs_of h5 cb) -> nleg h <= l) by (intros l Hl; apply (new_legs _ _ _ NT5) in Hl; pose proof (gr_nleg _ _ G4); lia).
  pose proof (nt_id _ _ _ _ NT4) as Ica. pose proof (nt_id _ _ _ _ NT5) as Icb. pose proof (nt_ntens _ _ _ _ NT4) as Mca.
  exists na, nb, ca, cb. split; [reflexivity|]. cbn [with_heap w_names w_nnames w_ftn w_nftn w_heap]. repeat (split; [reflexivity|]).
  split; [split; [exact Ta5|split; [exact Tb5|split; [|split]]]|split; [|split; [|split; [|split; [|split; [|split; [exact LG|split; [exact La|split; [exact Lb|]]]]]]]]].
  - intros l Hl. rewrite La in Hl. rewrite LG by auto. now apply Ua.
  - intros l Hl. rewrite Lb in Hl. rewrite LG by auto. now apply Ub.
  - split; auto. rewrite La, Lb. exact AP.
  - destruct NZa as (sh & d & En & Ex). exists sh, d. rewrite Xa5, Xa4, (KT3 a) by auto. auto.
  - destruct NZb as (sh & d & En & Ex). exists sh, d. rewrite Xb5, Xb4. auto.
  - split; [exact Tc5|]. cbn [p_a p_b]. fold a. fold b. split; [|split].
    + split; [lia|]. intros l Hl Hl'. rewrite La in Hl'. apply Lc in Hl. apply Al in Hl'. lia.
    + split; [lia|]. intros l Hl Hl'. rewrite Lb in Hl'. apply Lc in Hl. apply Bl in Hl'. lia.
    + intros i j k. unfold entry3. now rewrite Ec5, Ea5, Ec, Ea4.
  - split; [exact Td|]. cbn [p_a p_b]. fold a. fold b. split; [|split].
    + split; [lia|]. intros l Hl Hl'. rewrite La in Hl'. apply Ld in Hl. apply Al in Hl'. lia.
    + split; [lia|]. intros l Hl Hl'. rewrite Lb in Hl'. apply Ld in Hl. apply Bl in Hl'. lia.
    + intros i j k. unfold entry3. now rewrite Ed, Eb5.
  - intros h0 x y F HaL HbL. apply (frame_grown h0 h3); [|eapply grown_trans; [exact G4|exact G5]]. destruct F as [f1 f2 f3 f4]. split; [| |lia|lia].
    + intros t Ht Hx Hy. rewrite KT3, KT2 by lia. auto.
    + intros l Hl Hx Hy. rewrite KL3, KL2. auto.
  - intros i j k Hi Hj Hk. unfold entry3. rewrite Ea5, Ea4, Ea3, Eb5, Eb4. assert (I : inrange [D; D; D] [i; j; k]) by (repeat (constructor; [assumption|]); constructor).
    split; [exact (EV2 [i; j; k] I)|]. etransitivity; [exact (EV3 [i; j; k] I)|]. cbn [combine map fst]. now rewrite Eb2.
Qed.

Variable symdiff : list nat -> list nat -> list nat.
Hypothesis Hsd : symdiff_ok symdiff.
Variable fuel : nat.

Lemma iterateTri_ok (w w' : world) (g g' : tri) D : iterateTri symdiff fuel num g w = (w', Ok g') -> tri_state w g D ->
  svd_shape (nu_lib num) (tri_mat (w_heap w) g D) (D * D) (D * D) ->
  let k := Nat.min (p_chi g) (D * D) in let m := tri_mat (w_heap w) g D in
  exists a b f na nb ca cb, g' = mkTri a b (3 * p_dofA g) (3 * p_dofA g) (p_chi g) (Some f) (p_aNorms g ++ [na]) (p_bNorms g ++ [nb])
      (p_errors g ++ [cut_error num m (D * D) (p_chi g) 2]) (p_aArchive g ++ [(ca, 3 * p_dofA g)]) (p_bArchive g ++ [(cb, 3 * p_dofA g)]) /\
    tri_state w' g' k /\ normalized num (w_heap w') a na /\ normalized num (w_heap w') b nb /\ tri_copy (w_heap w') g' a ca k /\ tri_copy (w_heap w') g' b cb k /\
    tri_kept (w_heap w) (w_heap w') g g' /\
    forall i1 i2 i3, i1 < k -> i2 < k -> i3 < k ->
      entry3 (w_heap w') a i1 i2 i3 = nu_div num (around D (half_u num m) i1 i2 i3) na /\ entry3 (w_heap w') b i1 i2 i3 = nu_div num (around D (half_v num m) i1 i2 i3) nb.
Proof.
  intros R [NR Ta Tb Ua Ub AP] SS k m. unfold iterateTri in R. apply wbind_inv in R. destruct R as (w1 & f & Rf & R).
  assert (N1 : is_net w1 f triangle_net /\ w_heap w1 = w_heap w).
  { unfold tri_net in NR. destruct (p_net g) as [f0|].
    - injection Rf as <- <-. auto.
    - destruct (triangle_made w) as (w2 & E & MN). rewrite E in Rf. injection Rf as -> <-. split; [apply MN|]. exact (ma_heap _ _ _ _ _ _ _ MN). }
  destruct N1 as (IN1 & EH1). clear Rf.
  destruct (joinPair_ok (w_heap w) (p_a g) (p_b g) D Ta Tb Ua Ub AP) as (hP & i & RP & Ii & KM & KN & KT & KL & DI & VI). unfold joinPair in RP.
  apply wbind_inv in R. destruct R as (w2 & [] & R1 & R). apply lift_inv in R1. destruct R1 as (h2 & R1 & ->). rewrite EH1 in R1. unfold bind at 1 in RP. rewrite R1 in RP. clear R1.
  apply wbind_inv in R. destruct R as (w2 & [] & R1 & R). apply lift_inv in R1. destruct R1 as (h3 & R1 & ->). cbn [with_heap w_heap] in R1. unfold bind at 1 in RP. rewrite R1 in RP. clear R1.
  apply wbind_inv in R. destruct R as (w2 & la & R1 & R). apply lift_inv in R1. destruct R1 as (h4 & R1 & ->). cbn [with_heap w_heap] in R1. unfold bind at 1 in RP. rewrite R1 in RP. clear R1.
  apply wbind_inv in R. destruct R as (w2 & lb & R1 & R). apply lift_inv in R1. destruct R1 as (h5 & R1 & ->). cbn [with_heap w_heap] in R1. unfold bind at 1 in RP. rewrite R1 in RP. clear R1.
  apply wbind_inv in R. destruct R as (w2 & lk & R1 & R). apply lift_inv in R1. destruct R1 as (h6 & R1 & ->). cbn [with_heap w_heap] in R1. unfold bind at 1 in RP. rewrite R1 in RP. clear R1.
  apply wbind_inv in R. destruct R as (w2 & i' & R1 & R). apply lift_inv in R1. destruct R1 as (h7 & R1 & ->). cbn [with_heap w_heap] in R1. rewrite R1 in RP. injection RP as -> ->. clear R1. cbn [with_heap w_heap w_names w_nnames w_ftn w_nftn] in R.
  assert (ND4 : NoDup (map fst [("a-2", D); ("b-2", D); ("a-3", D); ("b-3", D)])) by now apply nodupb_ok.
  apply wbind_inv in R. destruct R as (w2 & dims & R1 & R). apply lift_inv in R1. destruct R1 as (h8 & R1 & ->). cbn [with_heap w_heap] in R1. unfold readsR in R1. pose proof (shape_named hP i _ DI ND4) as SN. cbn [map fst snd] in SN. rewrite SN in R1. injection R1 as <- <-. cbn [nth] in R.
  apply wbind_inv in R. destruct R as (w2 & iM & R1 & R). apply lift_inv in R1. destruct R1 as (h8 & R1 & ->). cbn [with_heap w_heap] in R1. unfold readsR in R1.
  assert (TM : toMatrix hP i (Some [RStr "a-2"; RStr "b-2"]) (Some [RStr "a-3"; RStr "b-3"]) = Ok m).
  { destruct (toMatrix_named hP i [("a-2", D); ("b-2", D)] [("a-3", D); ("b-3", D)] DI ND4 ltac:(discriminate) ltac:(discriminate)) as (m0 & E & W & S & G). cbn [map fst snd] in E. rewrite E. f_equal.
    cbn [map snd prodn fold_right] in S, G. rewrite Nat.mul_1_r in S.
    apply (mat4_unique m0 D D (fun p q r s => sumN D (fun z => rmul (entry3 (w_heap w) (p_a g) z p r) (entry3 (w_heap w) (p_b g) z q s)))); auto. intros x y z u Hx Hy Hz Hu.
    specialize (G [x; y] [z; u]). cbn [ravel prodn fold_right] in G. rewrite !Nat.mul_1_r, !Nat.add_0_r in G.
    rewrite G by (constructor; [assumption|constructor; [assumption|constructor]]). cbn [map fst combine app]. rewrite <- VI by auto. reflexivity. }
  rewrite TM in R1. injection R1 as <- <-.
  destruct (svd_spec num m _ _ (p_chi g) 2 SS eq_refl) as (u & v & ES & Wu & Su & Wv & Sv & Gu & Gv). rewrite !Nat.min_id in *. fold k in Su, Sv, Gu, Gv. clearbody m.
  apply wbind_inv in R. destruct R as (w2 & pa & R1 & R). apply liftR_inv in R1. destruct R1 as (-> & R1). rewrite ES in R1. injection R1 as <-. rewrite Su, Sv in R. cbn [nth] in R.
  apply wbind_inv in R. destruct R as (w2 & u3 & R1 & R). apply liftR_inv in R1. destruct R1 as (-> & Ru3).
  apply wbind_inv in R. destruct R as (w2 & v3 & R1 & R). apply liftR_inv in R1. destruct R1 as (-> & Rv3).
  apply wbind_inv in R. destruct R as (w2 & uT & R1 & R). apply lift_inv in R1. destruct R1 as (h1 & R1 & ->). cbn [with_heap w_heap w_names w_nnames w_ftn w_nftn] in R1, R.
  apply wbind_inv in R. destruct R as (w2 & vT & R2 & R). apply lift_inv in R2. destruct R2 as (h2' & R2 & ->). cbn [with_heap w_heap w_names w_nnames w_ftn w_nftn] in R2, R.
  destruct (third_ok _ _ _ _ _ _ _ Ru3 R1 Wu Su) as (NT1 & D1 & G1). destruct (third_ok _ _ _ _ _ _ _ Rv3 R2 Wv Sv) as (NT2 & D2 & G2).
  pose proof (new_grown _ _ _ NT1) as W1. pose proof (new_grown _ _ _ NT2) as W2. destruct (grown_dense _ _ _ _ W2 D1) as (D1' & E1' & _).
  apply wbind_inv in R. destruct R as (w5 & a & R5 & R). match type of R5 with contract _ _ _ _ _ ?w = _ => set (w4 := w) in * end.
  assert (IN4 : is_net w4 f triangle_net) by (apply (is_net_heap A w1 f triangle_net h2'); auto).
  destruct (triangle_value symdiff Hsd fuel w4 f w5 a uT uT uT D D D k k k R5 IN4 D1' D1' D1') as (T5 & IN5 & V5).
  pose proof (contract_grown _ _ _ _ _ _ _ _ R5) as G5. pose proof (contract_frame _ _ _ _ _ _ _ _ R5) as (_ & _ & _ & (Ha & La)). unfold w4 in G5, Ha, La. cbn [with_heap w_heap] in G5, Ha, La.
  apply wbind_inv in R. destruct R as (w6 & b & R6 & R).
  destruct (grown_dense _ _ _ _ G5 D2) as (D2' & E2' & _).
  destruct (triangle_value symdiff Hsd fuel w5 f w6 b vT vT vT D D D k k k R6 IN5 D2' D2' D2') as (T6 & IN6 & V6).
  pose proof (contract_grown _ _ _ _ _ _ _ _ R6) as G6. pose proof (contract_frame _ _ _ _ _ _ _ _ R6) as (_ & _ & _ & (Hb & Lb)).
  destruct (grown_dense _ _ _ _ G6 T5) as (Ta6 & Ea6 & Xa6).
  assert (PK : plinks_ok (n_links triangle_net)) by (apply plinks_okb_ok; reflexivity).
  assert (UA : bondless (w_heap w5) a).
  { intros l Hl. apply (contract_unlinked symdiff Hsd fuel w4 f _ true w5 a _ _ _ R5 IN4); auto; [|now apply nodupb_ok|apply T5].
    cbn [makeTriangleTensorDict]. intros p [<-|[<-|[<-|[]]]]; cbn [snd]; exact (proj1 D1'). }
  assert (UB : bondless (w_heap w6) b).
  { intros l Hl. apply (contract_unlinked symdiff Hsd fuel w5 f _ true w6 b _ _ _ R6 IN5); auto; [|now apply nodupb_ok|apply T6].
    cbn [makeTriangleTensorDict]. intros p [<-|[<-|[<-|[]]]]; cbn [snd]; exact (proj1 D2'). }
  assert (La6 : legs_of (w_heap w6) a = legs_of (w_heap w5) a) by (unfold legs_of; now rewrite Xa6).
  pose proof (wt_alloc _ _ (proj1 (proj1 T5))) as AlA.
  assert (UA6 : bondless (w_heap w6) a) by (intros l Hl; rewrite La6 in Hl; rewrite (gr_legs _ _ G6) by auto; now apply UA).
  assert (AB : apart (w_heap w6) a b) by (split; [lia|]; intros l Hl Hl'; rewrite La6 in Hl; apply AlA in Hl; apply Lb in Hl'; lia).
  apply (appendTri_ok _ _ _ _ k) in R; auto. cbn [p_a p_b p_dofA p_dofB p_chi p_net p_aNorms p_bNorms p_errors p_aArchive p_bArchive] in R.
  destruct R as (na & nb & ca & cb & EG & K1 & K2 & K3 & K4 & (TA & TB & BA & BB & AP') & NZa & NZb & CA & CB & FR & LG & LLa & LLb & VV).
  pose proof (gr_ntens _ _ W1). pose proof (gr_ntens _ _ W2). pose proof (gr_nleg _ _ W1). pose proof (gr_nleg _ _ W2). pose proof (gr_ntens _ _ G5). pose proof (gr_nleg _ _ G5).
  exists a, b, f, na, nb, ca, cb. split; [rewrite EG; now rewrite (Nat.mul_comm 3)|].
  assert (GA : p_a g' = a /\ p_b g' = b /\ p_net g' = Some f) by (rewrite EG; auto). destruct GA as (GA & GB & GN).
  split; [|split; [exact NZa|split; [exact NZb|split; [exact CA|split; [exact CB|split]]]]].
  - constructor; rewrite ?GA, ?GB; auto. unfold tri_net. rewrite GN. eapply is_net_same; [exact IN6|now rewrite K3|intros; now rewrite K1|rewrite K4; apply IN6].
  - apply frame_kept; rewrite ?GA, ?GB; [|lia|lia| |].
    + apply FR; [|lia|lia]. eapply frame_grown; [|eapply grown_trans; [exact W1|eapply grown_trans; [exact W2|eapply grown_trans; [exact G5|exact G6]]]]. split; auto; lia.
    + intros l Hl. rewrite LLa, La6 in Hl. apply La in Hl. lia.
    + intros l Hl. rewrite LLb in Hl. apply Lb in Hl. lia.
  - intros i1 i2 i3 Q1 Q2 Q3. destruct (VV i1 i2 i3 Q1 Q2 Q3) as (VA & VB). split.
    + rewrite VA. f_equal. unfold entry3. rewrite Ea6, V5 by auto. unfold around. apply sumN_ext. intros x Hx. apply sumN_ext. intros y Hy. apply sumN_ext. intros z Hz. unfold w4. cbn [with_heap w_heap]. rewrite !E1', !G1 by auto.
      rewrite !Gu by (auto; nia). reflexivity.
    + rewrite VB. f_equal. unfold entry3. rewrite V6 by auto. unfold around. apply sumN_ext. intros x Hx. apply sumN_ext. intros y Hy. apply sumN_ext. intros z Hz. rewrite !E2', !G2 by auto.
      rewrite !Gv by (auto; nia). reflexivity.
Qed.

(** the constructor *)
Lemma newTri_ok (w w' : world) alpha chi g : newTri num alpha chi w = (w', Ok g) ->
  exists a b na nb ca cb, g = mkTri a b 1 1 chi None [na] [nb] [] [(ca, 1)] [(cb, 1)] /\ tri_state w' g 2 /\ normalized num (w_heap w') a na /\ normalized num (w_heap w') b nb /\
    tri_copy (w_heap w') g a ca 2 /\ tri_copy (w_heap w') g b cb 2 /\ preserved (w_heap w) (w_heap w') /\
    forall i j k, i < 2 -> j < 2 -> k < 2 -> entry3 (w_heap w') a i j k = nu_div num (hard alpha i j k) na /\ entry3 (w_heap w') b i j k = nu_div num (hard alpha i j k) nb.
Proof.
  unfold newTri. intros R. apply wbind_inv in R. destruct R as (w1 & a & R1 & R). apply lift_inv in R1. destruct R1 as (h1 & R1 & ->).
  apply wbind_inv in R. destruct R as (w2 & b & R2 & R). apply lift_inv in R2. destruct R2 as (h2 & R2 & ->). cbn [with_heap w_heap w_names w_nnames w_ftn w_nftn] in R2, R.
  assert (Wd : wfa (triData alpha)) by reflexivity. assert (ND3 : NoDup ["1"; "2"; "3"]) by now apply nodupb_ok.
  unfold makeTriangleTensor in R1, R2. cbn [triData ashape List.length Nat.eqb] in R1, R2. unfold assert, bind at 1, ret in R1. unfold assert, bind at 1, ret in R2.
  destruct (new_data _ ["1"; "2"; "3"] (triData alpha) _ _ Wd R1 ND3) as (NT1 & DA & GA). destruct (new_data _ ["1"; "2"; "3"] (triData alpha) _ _ Wd R2 ND3) as (NT2 & DB & GB).
  pose proof (new_grown _ _ _ NT1) as W1. pose proof (new_grown _ _ _ NT2) as W2. destruct (grown_dense _ _ _ _ W2 DA) as (DA2 & EA2 & XA2). cbn [triData ashape combine] in DA, DB, DA2, GA, GB.
  pose proof (nt_id _ _ _ _ NT1) as I1. pose proof (nt_id _ _ _ _ NT2) as I2. pose proof (nt_ntens _ _ _ _ NT1) as M1. pose proof (wt_alloc _ _ (proj1 (proj1 DA))) as AlA.
  assert (LA : legs_of h2 a = legs_of h1 a) by (unfold legs_of; now rewrite XA2).
  destruct (nt_legs _ _ _ _ NT1) as (_ & _ & BL1). destruct (nt_legs _ _ _ _ NT2) as (_ & _ & BL2).
  apply (appendTri_ok _ _ _ _ 2) in R; cbn [p_a p_b with_heap w_heap]; auto.
  - cbn [p_a p_b p_dofA p_dofB p_chi p_net p_aNorms p_bNorms p_errors p_aArchive p_bArchive with_heap w_heap app] in R.
    destruct R as (na & nb & ca & cb & EG & K1 & K2 & K3 & K4 & (TA & TB & BA & BB & AP') & NZa & NZb & CA & CB & FR & LG & LLa & LLb & VV).
    exists a, b, na, nb, ca, cb. split; [exact EG|]. split; [rewrite EG; constructor; auto; exact I|]. split; [exact NZa|]. split; [exact NZb|]. split; [exact CA|]. split; [exact CB|]. split.
    + intros t m D. assert (F : frame2 (w_heap w) (w_heap w') a b).
      { apply FR; [|lia|lia]. apply (frame_grown _ (w_heap w)); [split; auto|]. eapply grown_trans; [exact W1|exact W2]. }
      pose proof (wt_id _ _ (proj1 (proj1 D))) as Ti. pose proof (wt_alloc _ _ (proj1 (proj1 D))) as Al. destruct F as [f1 f2 f3 f4]. apply (dense_kept (w_heap w)); auto; [apply f1; auto; lia|].
      intros l Hl. specialize (Al l Hl). pose proof (gr_nleg _ _ W1). pose proof (gr_nleg _ _ W2). rewrite LG by lia. rewrite (gr_legs _ _ W2) by lia. now apply (gr_legs _ _ W1).
    + intros i j k Hi Hj Hk. destruct (VV i j k Hi Hj Hk) as (VA & VB). assert (IR : inrange [2; 2; 2] [i; j; k]) by (repeat (constructor; [assumption|]); constructor).
      assert (EH : hard alpha i j k = aget (triData alpha) [i; j; k]) by (destruct i as [|[|]], j as [|[|]], k as [|[|]]; try lia; reflexivity).
      rewrite VA, VB, EH. unfold entry3. rewrite EA2. split; f_equal; [exact (GA [i; j; k] IR)|exact (GB [i; j; k] IR)].
  - intros l Hl. rewrite LA in Hl. rewrite (gr_legs _ _ W2) by auto. now apply BL1.
  - split; [lia|]. intros l Hl Hl'. rewrite LA in Hl. apply AlA in Hl. apply (new_legs _ _ _ NT2) in Hl'. lia.
Qed.
End St.
