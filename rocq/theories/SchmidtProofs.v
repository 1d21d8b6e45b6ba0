(** Correctness of SchimdtDecomposition with separated square roots (examples/Schimdt.py 12-135). *)
From Coq Require Import List Arith Bool Lia String Ascii ZArith Permutation.
From Verif Require Import Base Sums NdModel NdProofs HeapModel FuncsModel FuncsSpec FuncsProofs TensorModel TensorSpec TensorProofs LabelProofs MatrixProofs
  ContractModel NetSpec FtnNetSpec ShareProofs LinkProofs SumpairsProofs ContractProofs OuterProofs NetProofs MergeLinkSpec GroupSpec GroupProofs
  SplitProofs PairProofs NetSameProofs SvdModel SvdSpec SvdProofs MergeSvdProofs SchmidtSpec TagProofs.
Import ListNotations.
Local Open Scope list_scope.
Local Open Scope nat_scope.

Section Sm.
Context {A : Type} {HA : SR A}.
Notation heap := (heap A).
Variable lib : linalg A.

Definition schTail (ta tb : tid) (chi : Z) (sbDim : nat) (nameA nameB : pname) (la : bool) : @M A (tid * option tid * tid) :=
    tot <- contractTwoTensors ta tb ;;
    legA <- readsR (fun h => legsWith h "a-" (tlegs h tot)) ;;
    legB <- readsR (fun h => legsWith h "b-" (tlegs h tot)) ;;
    labA <- reads (fun h => map (legname h) legA) ;;
    labB <- reads (fun h => map (legname h) legB) ;;
    shA <- reads (fun h => map (legdim h) legA) ;;
    shB <- reads (fun h => map (legdim h) legB) ;;
    '(k, mu, ms, mv) <-
      (if la then k <- liftR (likeDim chi [prodn shA; prodn shB; sbDim]) ;; ret (k, None, None, None)
       else
         mat <- readsR (fun h => toMatrix h tot (Some (map labelRef labA)) (Some (map labelRef labB))) ;;
         let '(mu, ms, mv) := np_svd lib mat in
         k <- liftR (denseDim chi [prodn shA; prodn shB; nonZeroElementN lib ms]) ;;
         ret (k, Some (firstCols mu k), Some (firstEntries ms k), Some (firstRows mv k))) ;;
      uS <- liftR (match mu, ms with
                   | Some u, Some s => letr r := rightDiagonalProduct u (np_sqrts lib s) in Ok (Some r)
                   | _, _ => Ok None end) ;;
      vS <- liftR (match mv, ms with
                   | Some v, Some s => letr r := leftDiagonalProduct v (np_sqrts lib s) in Ok (Some r)
                   | _, _ => Ok None end) ;;
      uOut <- newLeg None k nameA ;;
      vOut <- newLeg None k nameB ;;
      u <- mkDense (Some (shA ++ [k])) None uS None (Some (legA ++ [uOut])) la ;;
      v <- mkDense (Some (k :: shB)) None vS None (Some (vOut :: legB)) la ;;
      iterM (dropTag "a-") legA ;;;
      iterM (dropTag "b-") legB ;;;
      makeLink [RLeg uOut] [RLeg vOut] None None ;;;
      ret (u, None, v).

Lemma free_single (h : heap) t : free_legs h [t] = legs_of h t.
Proof. unfold free_legs, all_legs. cbn [inner flat_map]. rewrite app_nil_r. cbn. unfold pairs_between. 
  assert (flat_map (fun l => match partner h l with Some l' => if inb l' [] then [(l, l')] else [] | None => [] end) (legs_of h t) = []) as ->.
  { induction (legs_of h t) as [|l L IH]; auto. cbn [flat_map]. rewrite IH. destruct (partner h l); reflexivity. }
  cbn. unfold others. induction (legs_of h t) as [|l L IH]; auto. cbn [filter]. now rewrite IH.
Qed.
Lemma netval_single (h : heap) t s : netval h [t] s = entry h t s.
Proof. unfold netval. cbn [inner]. unfold all_legs. cbn [flat_map]. unfold pairs_between. 
  assert (flat_map (fun l => match partner h l with Some l' => if inb l' [] then [(l, l')] else [] | None => [] end) (legs_of h t) = []) as ->.
  { induction (legs_of h t) as [|l L IH]; auto. cbn [flat_map]. rewrite IH. destruct (partner h l); reflexivity. }
  cbn. now rewrite rmul_comm, rmul_1_l.
Qed.

Section Core.
Variables (h : heap) (ta tb : tid) (g : lid -> bool) (n : lid -> string).
Hypothesis WP : wf_pair h ta tb.
Let L := restA h ta tb ++ restB h ta tb.
Let La := filter (fun l => Bool.eqb (g l) true) L.
Let Lb := filter (fun l => Bool.eqb (g l) false) L.
Hypothesis HN : forall l, In l L -> l_name (legs h l) = NStr (letter (g l) ++ n l).
Hypothesis HI : forall l l', In l L -> In l' L -> g l = g l' -> n l = n l' -> l = l'.
Hypothesis NA : La <> [].
Hypothesis NB : Lb <> [].

Lemma core_perm : Permutation (La ++ Lb) L.
Proof.
  unfold La, Lb. generalize L as M0. induction M0 as [|l M IH]; auto. cbn [filter]. destruct (g l); cbn [Bool.eqb].
  - cbn [app]. now apply perm_skip.
  - eapply perm_trans; [apply Permutation_sym, Permutation_middle|]. now apply perm_skip.
Qed.
Lemma core_nodup : NoDup L. Proof. apply (rest_alloc h ta tb WP). Qed.
Lemma core_A l : In l La <-> In l L /\ g l = true.
Proof. unfold La. rewrite filter_In. destruct (g l); simpl; intuition. Qed.
Lemma core_B l : In l Lb <-> In l L /\ g l = false.
Proof. unfold Lb. rewrite filter_In. destruct (g l); simpl; intuition. Qed.

(** the two new tensors, seen from the tensor [tot] they split *)
Definition core_res (h' : heap) (k : nat) (na nb : pname) (like : bool) : Prop :=
  exists h6, contracted h h6 ta tb (ntens h) L /\ 
    pair_made h6 h' La Lb k na nb (fun l => NStr (n l)) /\
    t_diag (tens h' (S (ntens h))) = false /\ t_like (tens h' (S (ntens h))) = like /\
    t_diag (tens h' (S (S (ntens h)))) = false /\ t_like (tens h' (S (S (ntens h)))) = like /\
    (like = false -> forall s, in_bounds h L s -> entry h6 (ntens h) s = einsum h ta tb s).

Lemma core_refs (h6 : heap) t M : legs_of h6 t = L -> (forall l, In l L -> l_name (legs h6 l) = l_name (legs h l)) ->
  incl M L -> M <> [] -> refs_are h6 t (map labelRef (map (legname h6) M)) M.
Proof.
  intros EL EN IM NE. split; [destruct M; [congruence|discriminate]|]. right. exists (map (fun l => letter (g l) ++ n l)%string M). split.
  - rewrite !map_map. apply map_ext_in. intros l Hl. unfold legname. rewrite EN by auto. rewrite HN by auto. reflexivity.
  - clear NE. induction M as [|l M IH]; constructor.
    + rewrite <- HN by (apply IM; simpl; auto). rewrite <- EN by (apply IM; simpl; auto). apply first_named_inj.
      * rewrite EL. apply core_nodup.
      * rewrite EL. apply IM. simpl; auto.
      * rewrite EL. intros l' Hl' E. assert (In l L) as HL by (apply IM; simpl; auto). rewrite !EN, !HN in E by auto. injection E as E.
        apply HI; auto; destruct (g l'), (g l); cbn in E; injection E; auto; discriminate.
    + apply IH. intros x Hx. apply IM. simpl; auto.
Qed.

Lemma core_dense : t_like (tens h ta) = false -> t_like (tens h tb) = false -> t_diag (tens h ta) = false -> t_diag (tens h tb) = false ->
  exists m, matrix_of h (einsum h ta tb) La Lb m /\
  forall chi d na nb, let r := prodn (map (dim_of h) La) in let c := prodn (map (dim_of h) Lb) in
    let k := kept lib m r c chi in svd_shape lib m r c -> 
    ((k < 0)%Z -> exists h1, schTail ta tb chi d na nb false h = (h1, Err ValueError)) /\
    ((0 <= k)%Z -> exists h', schTail ta tb chi d na nb false h = (h', Ok (S (ntens h), None, S (S (ntens h)))) /\ core_res h' (Z.to_nat k) na nb false /\
      (svd_exact lib m r c -> lossless lib m (Z.to_nat k) -> 
       forall s, in_bounds h (La ++ Lb) s -> 
        sumN (Z.to_nat k) (fun i => rmul (entry h' (S (ntens h)) (upd (upd s (nleg h) i) (S (nleg h)) i)) 
                                         (entry h' (S (S (ntens h))) (upd (upd s (nleg h) i) (S (nleg h)) i))) = einsum h ta tb s)).
Proof.
  intros KA KB DA DB. destruct (contract_dense h ta tb WP KA KB DA DB) as (h6 & tot & EC & CT & D6 & K6 & V6). fold L in CT, V6.
  assert (N6 : forall l, In l L -> l_name (legs h6 l) = l_name (legs h l)) by (intros l Hl; now rewrite (ct_in _ _ _ _ _ _ CT l Hl)).
  assert (DM : forall M, incl M L -> map (dim_of h6) M = map (dim_of h) M).
  { intros M HM. apply map_ext_in. intros l Hl. unfold dim_of. now rewrite (ct_in _ _ _ _ _ _ CT l (HM l Hl)). }
  assert (IA : incl La L) by (intros l Hl; now apply core_A in Hl).
  assert (IB : incl Lb L) by (intros l Hl; now apply core_B in Hl).
  assert (EL : legs_of h6 tot = L) by apply CT.
  assert (E1 : legsWith h6 "a-" (tlegs h6 tot) = Ok La).
  { change (tlegs h6 tot) with (legs_of h6 tot). rewrite EL. apply (legsWith_ok h6 true g n). intros l Hl. rewrite N6; auto. }
  assert (E2 : legsWith h6 "b-" (tlegs h6 tot) = Ok Lb).
  { change (tlegs h6 tot) with (legs_of h6 tot). rewrite EL. apply (legsWith_ok h6 false g n). intros l Hl. rewrite N6; auto. }
  assert (SP : split_of h6 tot (Some (map labelRef (map (legname h6) La))) (Some (map labelRef (map (legname h6) Lb))) La Lb).
  { constructor; try (apply core_refs; auto). rewrite EL. apply core_perm. }
  destruct (toMatrix_split _ _ _ _ _ _ (ct_wf _ _ _ _ _ _ CT) K6 SP) as (m & EM & WM & SM & GM).
  rewrite !DM in SM, GM by auto. rewrite EL in GM.
  assert (BI : forall s, in_bounds h L s -> in_bounds h6 L s).
  { intros s Hs l Hl. unfold dim_of. rewrite (ct_in _ _ _ _ _ _ CT l Hl). now apply Hs. }
  assert (MOE : forall s, in_bounds h (La ++ Lb) s -> aget m [ravel (map (dim_of h) La) (map s La); ravel (map (dim_of h) Lb) (map s Lb)] = einsum h ta tb s).
  { intros s Hs. assert (in_bounds h L s) as Hs'.
    { intros l Hl. apply Hs. eapply Permutation_in; [apply Permutation_sym, core_perm|auto]. }
    rewrite GM by auto. auto. }
  exists m. split; [constructor; auto|].
  intros chi d na nb r c k SS.
  assert (EK : minDim chi [r; c; nonZeroElementN lib (svd_s lib m)] = k).
  { rewrite minDim3. unfold k, kept, above, nonZeroElementN. lia. }
  assert (PRE : schTail ta tb chi d na nb false h =
     ('(k, mu, ms, mv) <- (k <- liftR (denseDim chi [r; c; nonZeroElementN lib (svd_s lib m)]) ;;
         ret (k, Some (firstCols (svd_u lib m) k), Some (firstEntries (svd_s lib m) k), Some (firstRows (svd_v lib m) k))) ;;
      uS <- liftR (match mu, ms with
                   | Some u, Some s => letr r := rightDiagonalProduct u (np_sqrts lib s) in Ok (Some r)
                   | _, _ => Ok None end) ;;
      vS <- liftR (match mv, ms with
                   | Some v, Some s => letr r := leftDiagonalProduct v (np_sqrts lib s) in Ok (Some r)
                   | _, _ => Ok None end) ;;
      uOut <- newLeg None k na ;;
      vOut <- newLeg None k nb ;;
      u <- mkDense (Some (map (dim_of h) La ++ [k])) None uS None (Some (La ++ [uOut])) false ;;
      v <- mkDense (Some (k :: map (dim_of h) Lb)) None vS None (Some (vOut :: Lb)) false ;;
      iterM (dropTag "a-") La ;;;
      iterM (dropTag "b-") Lb ;;;
      makeLink [RLeg uOut] [RLeg vOut] None None ;;;
      ret (u, None, v)) h6).
  { unfold schTail. unfold bind at 1. rewrite EC. unfold bind at 1, readsR at 1. rewrite E1. unfold bind at 1, readsR at 1. rewrite E2.
    unfold bind at 1, reads at 1. unfold bind at 1, reads at 1. unfold bind at 1, reads at 1. unfold bind at 1, reads at 1.
    change (map (legdim h6)) with (map (dim_of h6)). rewrite !DM by auto.
    unfold bind at 1. unfold bind at 1, readsR at 1. rewrite EM. rewrite svd_split. reflexivity. }
  rewrite PRE. clear PRE. unfold denseDim. rewrite EK. split.
  { intros Kn. destruct (Z.ltb_spec k 0); [|lia]. unfold bind at 1. unfold bind at 1, liftR at 1. eauto. }
  intros Kp. destruct (Z.ltb_spec k 0); [lia|]. unfold bind at 1. unfold bind at 1, liftR at 1. cbv beta iota. unfold ret at 1. cbv beta iota.
  set (k0 := Z.to_nat k). assert (K0 : k0 <= Nat.min r c) by (unfold k0, k, kept; lia).
  destruct (uS_spec lib m r c k0 SS K0) as (uS & EU & WU & SU & GU). destruct (vS_spec lib m r c k0 SS K0) as (vS & EV & WV & SV & GV).
  rewrite EU, EV. unfold bind at 1, liftR at 1. cbn [rbind]. unfold bind at 1, liftR at 1. rewrite newLegs.
  pose proof (rest_alloc h ta tb WP) as [RN RL]. fold L in RN, RL.
  assert (PN : NoDup (La ++ Lb)) by (eapply Permutation_NoDup; [apply Permutation_sym, core_perm|exact RN]).
  assert (PL : forall l, In l (La ++ Lb) -> l < nleg h) by (intros l Hl; apply RL; eapply Permutation_in; [apply core_perm|auto]).
  assert (NL6 : nleg h6 = nleg h) by apply CT. assert (NT6 : ntens h6 = S (ntens h)) by apply CT.
  destruct (dense_pair h6 La Lb k0 na nb uS vS (Some (map (dim_of h) La ++ [k0])) (Some (k0 :: map (dim_of h) Lb))) as (h2 & h3 & EE2 & EE3 & TM & F1 & F2 & F3 & F4 & V1 & V2); auto.
  { now rewrite NL6. }
  { rewrite DM by auto. exact SU. }
  { rewrite DM by auto. exact SV. }
  { now rewrite DM. }
  { now rewrite DM. }
  unfold bind at 1. rewrite EE2. unfold bind at 1. rewrite EE3.
  assert (NDA : NoDup La) by (apply (NoDup_app_l _ _ PN)). assert (NDB : NoDup Lb) by (apply (NoDup_app_r _ _ PN)).
  destruct (dropTags_ok h3 true n La NDA) as (h4 & E4 & O4).
  { intros l Hl. rewrite (tm_A _ _ _ _ _ _ _ TM l Hl). cbn [l_name]. apply core_A in Hl. rewrite N6, HN by tauto. destruct Hl as [_ ->]. reflexivity. }
  destruct (dropTags_ok h4 false n Lb NDB) as (h5 & E5 & O5).
  { intros l Hl. rewrite (on_out _ _ _ _ O4).
    - rewrite (tm_B _ _ _ _ _ _ _ TM l Hl). cbn [l_name]. apply core_B in Hl. rewrite N6, HN by tauto. destruct Hl as [_ ->]. reflexivity.
    - intros Hl'. apply (NoDup_app_disj _ _ l PN); auto. }
  cbn [letter] in E4, E5. unfold bind at 1. rewrite E4. unfold bind at 1. rewrite E5.
  assert (O45 : only_names h3 h5 (La ++ Lb) (fun l => NStr (n l))).
  { eapply only_names_ext; [exact (only_names_trans _ _ _ _ _ _ _ O4 O5)|tauto|]. intros l Hl. cbv beta. now destruct (inb l Lb). }
  destruct (link_made h6 h3 h5 La Lb k0 na nb (fun l => NStr (n l))) as (E7 & PM & T7); auto.
  { now rewrite NL6. }
  unfold bind at 1. rewrite E7. set (h7 := linked_heap h5 (nleg h6) (S (nleg h6))) in *. rewrite NT6 in *.
  exists h7. split; [reflexivity|]. split.
  - rewrite <- T7 in F1, F2, F3, F4. exists h6. pose proof (ct_id _ _ _ _ _ _ CT) as EI. rewrite EI in CT, V6.
    repeat (split; [assumption|]). intros _ s Hs. now apply V6.
  - intros SX LS s B.
    rewrite <- (MOE s B).
    rewrite <- (truncated lib m r c k0); auto.
    2:{ apply ravel_lt, inrange_map. intros l Hl. apply B. apply in_app_iff; auto. }
    2:{ apply ravel_lt, inrange_map. intros l Hl. apply B. apply in_app_iff; auto. }
    apply sumN_ext. intros i Hi. set (s' := upd (upd s (nleg h) i) (S (nleg h)) i).
    assert (SX' : s' (nleg h) = i) by (unfold s'; rewrite upd_other by lia; apply upd_same).
    assert (SY' : s' (S (nleg h)) = i) by (unfold s'; apply upd_same).
    assert (SO : forall l, In l (La ++ Lb) -> s' l = s l).
    { intros l Hl. apply PL in Hl. unfold s'. rewrite !upd_other by lia. reflexivity. }
    assert (MA : map s' La = map s La) by (apply map_ext_in; intros; apply SO, in_app_iff; auto).
    assert (MB : map s' Lb = map s Lb) by (apply map_ext_in; intros; apply SO, in_app_iff; auto).
    assert (B1 : in_bounds h6 La s').
    { intros l Hl. unfold dim_of. rewrite (ct_in _ _ _ _ _ _ CT l) by auto. rewrite SO by (apply in_app_iff; auto). apply B, in_app_iff; auto. }
    assert (B2 : in_bounds h6 Lb s').
    { intros l Hl. unfold dim_of. rewrite (ct_in _ _ _ _ _ _ CT l) by auto. rewrite SO by (apply in_app_iff; auto). apply B, in_app_iff; auto. }
    rewrite NL6, ?NT6 in V1, V2.
    specialize (V1 s'). specialize (V2 s'). rewrite SX' in V1. rewrite SY' in V2. specialize (V1 Hi B1). specialize (V2 Hi B2).
    rewrite !DM, ?MA, ?MB in V1, V2 by auto.
    assert (entry h7 (S (ntens h)) s' = entry h3 (S (ntens h)) s') as -> by (unfold entry; now rewrite T7).
    assert (entry h7 (S (S (ntens h))) s' = entry h3 (S (S (ntens h))) s') as -> by (unfold entry; now rewrite T7).
    rewrite V1, V2. rewrite GU, GV; auto.
    + rewrite MA, MB. reflexivity.
    + apply ravel_lt, inrange_map. intros l Hl. rewrite SO by (apply in_app_iff; auto). apply B. apply in_app_iff; auto.
    + apply ravel_lt, inrange_map. intros l Hl. rewrite SO by (apply in_app_iff; auto). apply B. apply in_app_iff; auto.
Qed.
End Core.

(** ** from the tagged pair to the result *)
Section Assemble.
Variables (h0 h h' : heap) (ta tb : tid) (rest : list tid) (g : lid -> bool) (n : lid -> string) (k : nat) (na nb : pname) (like : bool).
Hypothesis WO0 : wf_open h0 (ta :: tb :: rest).
Hypothesis NS : net_same h0 h.
Hypothesis RLG : forall l, In l (all_legs h0 rest) -> legs h l = legs h0 l.
Let L := restA h ta tb ++ restB h ta tb.
Let La := filter (fun l => Bool.eqb (g l) true) L.
Let Lb := filter (fun l => Bool.eqb (g l) false) L.
Hypothesis NM : forall l, In l L -> l_name (legs h0 l) = NStr (n l).
Hypothesis NL : forall l l', In l L -> In l' L -> ~ linked h l l'.
Hypothesis CR : core_res h ta tb g n h' k na nb like.

Lemma assemble : split_pair h0 h' ta tb rest La Lb (S (ntens h0)) (S (S (ntens h0))) k na nb like /\
  (like = false -> (forall s, in_bounds h0 (La ++ Lb) s -> 
        sumN k (fun i => rmul (entry h' (S (ntens h0)) (upd (upd s (nleg h0) i) (S (nleg h0)) i)) 
                              (entry h' (S (S (ntens h0))) (upd (upd s (nleg h0) i) (S (nleg h0)) i))) = einsum h0 ta tb s) ->
   forall s, in_bounds h0 (free_legs h0 (ta :: tb :: rest)) s -> 
     netval h' (S (ntens h0) :: S (S (ntens h0)) :: rest) s = netval h0 (ta :: tb :: rest) s).
Proof.
  destruct CR as (h6 & CT & PM & F1 & F2 & F3 & F4 & V6). fold L La Lb in CT, PM.
  pose proof (ns_wf_open _ _ NS _ WO0) as WO. pose proof (open_pair _ _ _ _ WO) as WP.
  pose proof (step_wf h h6 ta tb (ntens h) L rest (wo_net _ _ WO) CT (Permutation_refl _)) as W6.
  pose proof (step_free h h6 ta tb (ntens h) L rest (wo_net _ _ WO) CT (Permutation_refl _)) as FR6.
  pose proof (step_incl h h6 ta tb (ntens h) L rest (wo_net _ _ WO) CT (Permutation_refl _)) as SI.
  pose proof (net_alloc h ta tb rest (wo_net _ _ WO)) as NAL.
  pose proof (step_leg h h6 ta tb (ntens h) L CT) as SL.
  pose proof (step_linked h h6 ta tb (ntens h) L CT) as SLK.
  assert (WO6 : wf_open h6 ([ntens h] ++ rest)).
  { constructor; auto.
    - intros l b Hl E. rewrite (ct_nbond _ _ _ _ _ _ CT). apply SI in Hl. destruct (SL l (NAL l Hl)) as (EB & _). rewrite EB in E.
      now apply (wo_bonds _ _ WO l).
    - intros l l' Hl Lk. rewrite (ct_nleg _ _ _ _ _ _ CT). apply SI in Hl. apply SLK in Lk; [|auto]. now apply (wo_alloc _ _ WO l). }
  pose proof (core_perm h ta tb g) as CP. fold L La Lb in CP.
  assert (EL : legs_of h6 (ntens h) = L) by apply CT.
  assert (HP : Permutation (La ++ Lb) (free_legs h6 [ntens h])) by now rewrite free_single, EL.
  assert (LALL : forall l, In l L -> In l (all_legs h (ta :: tb :: rest))).
  { intros l Hl. unfold all_legs. cbn [flat_map]. rewrite !in_app_iff. unfold L, restA, restB in Hl. rewrite in_app_iff, !others_In in Hl. tauto. }
  assert (NL6 : forall l l', In l La -> In l' Lb -> ~ linked h6 l l' /\ ~ linked h6 l' l).
  { intros l l' H1 H2. unfold La, Lb in H1, H2. apply filter_In in H1. apply filter_In in H2.
    rewrite !SLK by (apply NAL, LALL; tauto). split; apply NL; tauto. }
  pose proof (pm_replaced _ _ _ _ _ _ _ _ _ _ PM WO6 HP NL6) as RP.
  pose proof (rp_wf _ _ _ _ _ WO6 RP) as WF. pose proof (rp_free _ _ _ _ _ WO6 RP) as FR.
  pose proof (rp_value _ _ _ _ _ WO6 RP) as RV.
  pose proof (pm_shared _ _ _ _ _ _ _ _ _ _ PM WO6 HP NL6) as PS.
  pose proof (pm_value _ _ _ _ _ _ _ _ _ _ PM WO6 HP NL6) as PV.
  pose proof (pm_x _ _ _ _ _ _ _ _ PM) as PX. pose proof (pm_y _ _ _ _ _ _ _ _ PM) as PY.
  pose proof (pm_u _ _ _ _ _ _ _ _ PM) as PU. pose proof (pm_v _ _ _ _ _ _ _ _ PM) as PV'.
  assert (NT : ntens h6 = S (ntens h0)) by (rewrite (ct_ntens _ _ _ _ _ _ CT); f_equal; apply NS).
  assert (NG : nleg h6 = nleg h0) by (rewrite (ct_nleg _ _ _ _ _ _ CT); apply NS).
  assert (NT5 : ntens h = ntens h0) by apply NS.
  assert (NG5 : nleg h = nleg h0) by apply NS.
  cbn [app] in *. rewrite NT, NG in *.
  assert (RT : forall t, In t rest -> t < ntens h /\ t <> ta /\ t <> tb).
  { intros t Ht. split; [apply (wt_id h), (wn_wf _ _ (wo_net _ _ WO)); simpl; auto|].
    pose proof (wn_ids _ _ (wo_net _ _ WO)) as NI. inversion NI as [|? ? N1 N2]; subst. inversion N2 as [|? ? N3 N4]; subst.
    split; intros ->; simpl in *; tauto. }
  split.
  - constructor.
    + exists (nleg h0), (S (nleg h0)). split; [exact PS|]. unfold dim_of. rewrite PX, PY, PU, PV'. cbn. auto 10.
    + split; [|split; [|lia]]; intros Hi; apply (wn_wf _ _ (wo_net _ _ WO)) in Hi; apply wt_id in Hi; lia.
    + rewrite NT5 in *. auto.
    + intros l Hl. assert (In l L) as HL by (eapply Permutation_in; [exact CP|exact Hl]).
      pose proof (ct_in _ _ _ _ _ _ CT l HL) as C6. destruct (ns_leg _ _ NS l) as (_ & ED & EB).
      rewrite in_app_iff in Hl. unfold dim_of.
      assert (E' : l_dim (legs h' l) = l_dim (legs h6 l) /\ l_name (legs h' l) = NStr (n l) /\ l_bond (legs h' l) = l_bond (legs h6 l)).
      { destruct Hl as [Hl|Hl]; [rewrite (pm_A _ _ _ _ _ _ _ _ PM l Hl)|rewrite (pm_B _ _ _ _ _ _ _ _ PM l Hl)]; cbn; auto. }
      destruct E' as (-> & -> & ->). rewrite C6. cbn. rewrite ED, EB, NM by auto. auto.
    + intros t Ht. destruct (RT t Ht) as (T1 & T2 & T3). rewrite (pm_tens _ _ _ _ _ _ _ _ PM) by (rewrite NT; lia).
      rewrite (ct_tens _ _ _ _ _ _ CT) by auto. now rewrite (ns_tens _ _ NS).
    + intros l Hl. assert (l < nleg h0) as Hlt by now apply (rest_lt h0 ta tb rest).
      assert (~ In l L) as NI.
      { intros Hi. apply (rest_apart h0 ta tb rest l); auto. unfold L in Hi. rewrite (ns_restA _ _ NS), (ns_restB _ _ NS) in Hi.
        unfold restA, restB in Hi. rewrite in_app_iff, !others_In in Hi. apply in_app_iff. tauto. }
      rewrite (pm_o _ _ _ _ _ _ _ _ PM).
      * rewrite (ct_out _ _ _ _ _ _ CT) by (auto; lia). auto.
      * rewrite NG. auto.
      * intros Hi. apply NI. eapply Permutation_in; [exact CP|exact Hi].
    + intros l l' Hl. rewrite app_assoc, in_app_iff in Hl.
      assert (HA' : In l (all_legs h (ta :: tb :: rest)) /\ In l (free_legs h6 [ntens h] ++ all_legs h6 rest)).
      { destruct Hl as [Hl|Hl].
        - split; [apply LALL; eapply Permutation_in; [exact CP|exact Hl]|]. apply in_app_iff. left. eapply Permutation_in; [exact HP|exact Hl].
        - unfold all_legs in Hl. apply in_flat_map in Hl. destruct Hl as (t & Ht & Hl). destruct (RT t Ht) as (T1 & T2 & T3).
          split; [unfold all_legs; apply in_flat_map; exists t; split; [simpl; auto|now rewrite (ns_legs_of _ _ NS)]|].
          apply in_app_iff. right. unfold all_legs. apply in_flat_map. exists t. split; auto. unfold legs_of.
          rewrite (ct_tens _ _ _ _ _ _ CT) by auto. change (In l (legs_of h t)). now rewrite (ns_legs_of _ _ NS). }
      destruct HA' as [H1 H2]. rewrite (rp_linked h6 h' [ntens h] _ rest WO6 RP) by auto. rewrite SLK by auto. apply (ns_linked _ _ NS).
    + exact WF.
    + rewrite FR, FR6, (ns_free _ _ NS). reflexivity.
  - intros KL HV s Hs. rewrite RV.
    + rewrite <- (ns_netval _ _ NS). apply (step_value h h6 ta tb (ntens h) L rest (wo_net _ _ WO) CT (Permutation_refl _)); auto.
      rewrite (ns_free _ _ NS). now apply (ns_inb _ _ NS).
    + intros s' Hs'. rewrite PV, netval_single. rewrite free_single, EL in Hs'.
      assert (B5 : in_bounds h L s').
      { intros l Hl. specialize (Hs' l Hl). unfold dim_of in *. now rewrite (ct_in _ _ _ _ _ _ CT l Hl) in Hs'. }
      rewrite V6 by auto. rewrite (ns_einsum _ _ NS). apply HV. intros l Hl. rewrite <- (ns_dim _ _ NS). apply B5.
      eapply Permutation_in; [exact CP|exact Hl].
    + intros l Hl. assert (In l (free_legs h0 (ta :: tb :: rest))) as Hf by (rewrite <- (ns_free _ _ NS); eapply Permutation_in; [exact FR6|exact Hl]).
      assert (l < nleg h) as Hlt by (rewrite NG5; apply (free_alloc h0 _ l WO0 Hf)). destruct (SL l Hlt) as (_ & -> & _). rewrite (ns_dim _ _ NS). now apply Hs.
Qed.
End Assemble.

(** ** the names before the contraction *)
Definition base (h : heap) (l : lid) : string := match l_name (legs h l) with NStr s => s | _ => EmptyString end.
Lemma called_base (h : heap) sw l s : l_name (legs h l) = NStr s -> called h sw l = existsb (String.eqb (base h l)) sw.
Proof. intros E. unfold called, base. now rewrite E. Qed.

Lemma nodup_map_inj {X Y} (f : X -> Y) L x y : NoDup (map f L) -> In x L -> In y L -> f x = f y -> x = y.
Proof.
  induction L as [|z L IH]; intros ND Hx Hy E; [destruct Hx|]. simpl in ND. inversion ND as [|? ? N1 N2]; subst.
  destruct Hx as [->|Hx], Hy as [->|Hy]; auto.
  - exfalso. apply N1. rewrite E. now apply in_map.
  - exfalso. apply N1. rewrite <- E. now apply in_map.
Qed.

Lemma tagging (h : heap) ta tb swA swB : wf_pair h ta tb ->
  (forall l, In l (legs_of h ta ++ legs_of h tb) -> exists s, l_name (legs h l) = NStr s /\ after_dash s = None) ->
  NoDup (map (fun l => l_name (legs h l)) (legs_of h ta)) -> NoDup (map (fun l => l_name (legs h l)) (legs_of h tb)) ->
  exists h5, (forall X (F : @M A X),
     (addTensorTag ta "a" ;;; addTensorTag tb "b" ;;;
      iterM (fun s => renameLabel ta (NStr ("a-" ++ s)) (NStr ("b-" ++ s))) swA ;;;
      iterM (fun s => renameLabel tb (NStr ("b-" ++ s)) (NStr ("a-" ++ s))) swB ;;; F) h = F h5) /\
    net_same h h5 /\
    (forall l, In l (legs_of h ta) -> l_name (legs h5 l) = NStr (letter (negb (called h swA l)) ++ base h l)) /\
    (forall l, In l (legs_of h tb) -> l_name (legs h5 l) = NStr (letter (called h swB l) ++ base h l)) /\
    (forall l, ~ In l (legs_of h ta ++ legs_of h tb) -> legs h5 l = legs h l).
Proof.
  intros WP PL NA NB.
  assert (NDA : NoDup (legs_of h ta)) by apply WP. assert (NDB : NoDup (legs_of h tb)) by apply WP.
  assert (PA : forall l, In l (legs_of h ta) -> l_name (legs h l) = NStr (base h l) /\ findDash (base h l) = None).
  { intros l Hl. destruct (PL l) as (s & E & D); [apply in_app_iff; auto|]. unfold base. rewrite E. split; auto. now apply dash_none. }
  assert (PB : forall l, In l (legs_of h tb) -> l_name (legs h l) = NStr (base h l) /\ findDash (base h l) = None).
  { intros l Hl. destruct (PL l) as (s & E & D); [apply in_app_iff; auto|]. unfold base. rewrite E. split; auto. now apply dash_none. }
  assert (DJ : forall l, In l (legs_of h ta) -> ~ In l (legs_of h tb)) by (intros l; apply (wp_disj h ta tb l WP)).
  destruct (addTensorTag_ok h ta "a" NDA) as (h2 & E2 & O2).
  { intros l Hl. exists (base h l). now apply PA. }
  assert (L2 : forall t, legs_of h2 t = legs_of h t) by (intros; eapply only_names_legs; eauto).
  destruct (addTensorTag_ok h2 tb "b") as (h3 & E3 & O3).
  { now rewrite L2. }
  { rewrite L2. intros l Hl. rewrite (on_out _ _ _ _ O2) by (intros H; apply (DJ l); auto). exists (base h l). now apply PB. }
  assert (L3 : forall t, legs_of h3 t = legs_of h t) by (intros; rewrite <- L2; eapply only_names_legs; eauto). rewrite L2 in O3.
  assert (N3A : forall l, In l (legs_of h ta) -> l_name (legs h3 l) = NStr ("a-" ++ base h l)).
  { intros l Hl. rewrite (on_out _ _ _ _ O3) by (apply DJ; auto). rewrite (on_in _ _ _ _ O2) by auto. cbn. destruct (PA l Hl) as [-> _]. reflexivity. }
  assert (N3B : forall l, In l (legs_of h tb) -> l_name (legs h3 l) = NStr ("b-" ++ base h l)).
  { intros l Hl. rewrite (on_in _ _ _ _ O3) by auto. cbn [l_name]. rewrite (on_out _ _ _ _ O2) by (intros H; apply (DJ l); auto). destruct (PB l Hl) as [-> _]. reflexivity. }
  assert (IA : forall l l', In l (legs_of h ta) -> In l' (legs_of h ta) -> base h l = base h l' -> l = l').
  { intros l l' H1 H2 E. apply (nodup_map_inj _ _ _ _ NA); auto. destruct (PA l H1) as [-> _], (PA l' H2) as [-> _]. congruence. }
  assert (IB : forall l l', In l (legs_of h tb) -> In l' (legs_of h tb) -> base h l = base h l' -> l = l').
  { intros l l' H1 H2 E. apply (nodup_map_inj _ _ _ _ NB); auto. destruct (PB l H1) as [-> _], (PB l' H2) as [-> _]. congruence. }
  destruct (@swap_names A "a-" "b-" (base h)) with (t := ta) (sw := swA) (h := h3) (d := fun _ : lid => false) as (h4 & E4 & O4).
  { intros s s' E. now injection E. } { intros s s' E. discriminate E. } { now rewrite L3. } { now rewrite L3. } { now rewrite L3. }
  assert (L4 : forall t, legs_of h4 t = legs_of h t) by (intros; rewrite <- L3; eapply only_names_legs; eauto). rewrite L3 in O4.
  destruct (@swap_names A "b-" "a-" (base h)) with (t := tb) (sw := swB) (h := h4) (d := fun _ : lid => false) as (h5 & E5 & O5).
  { intros s s' E. now injection E. } { intros s s' E. discriminate E. } { now rewrite L4. }
  { rewrite L4. intros l Hl. rewrite (on_out _ _ _ _ O4) by (intros H; apply (DJ l); auto). auto. } { now rewrite L4. }
  rewrite L4 in O5. cbn [orb] in O4, O5.
  exists h5. split; [|split; [|split; [|split]]].
  - intros X F. unfold bind at 1. rewrite E2. unfold bind at 1. rewrite E3. unfold bind at 1. rewrite E4. unfold bind at 1. rewrite E5. reflexivity.
  - eapply ns_trans; [exact (ns_names _ _ _ _ O2)|]. eapply ns_trans; [exact (ns_names _ _ _ _ O3)|].
    eapply ns_trans; [exact (ns_names _ _ _ _ O4)|]. exact (ns_names _ _ _ _ O5).
  - intros l Hl. rewrite (on_out _ _ _ _ O5) by (apply DJ; auto). rewrite (on_in _ _ _ _ O4) by auto. cbn [l_name].
    rewrite (called_base h swA l (base h l)) by now apply PA. now destruct (existsb (String.eqb (base h l)) swA).
  - intros l Hl. rewrite (on_in _ _ _ _ O5) by auto. cbn [l_name].
    rewrite (called_base h swB l (base h l)) by now apply PB. now destruct (existsb (String.eqb (base h l)) swB).
  - intros l Hl. rewrite in_app_iff in Hl. rewrite (on_out _ _ _ _ O5) by tauto. rewrite (on_out _ _ _ _ O4) by tauto.
    rewrite (on_out _ _ _ _ O3) by tauto. now rewrite (on_out _ _ _ _ O2) by tauto.
Qed.

Lemma bind_ok {X Y} (x : @M A X) (f : X -> @M A Y) h h' a : x h = (h', Ok a) -> bind x f h = f a h'.
Proof. intros E. unfold bind. now rewrite E. Qed.

Lemma schimdt_prefix (h h1 h5 : heap) ta tb b bs la lb lk swA swB chi :
  shareBonds ta tb h = (h1, Ok (b :: bs)) -> sideLeg h1 b ta = Ok la -> sideLeg h1 b tb = Ok lb ->
  t_like (tens h1 ta) = lk -> t_like (tens h1 tb) = lk -> List.length swA = List.length swB ->
  labelsInTensor h1 ta swA = true -> labelsInTensor h1 tb swB = true ->
  (forall X (F : @M A X),
     (addTensorTag ta "a" ;;; addTensorTag tb "b" ;;;
      iterM (fun s => renameLabel ta (NStr ("a-" ++ s)) (NStr ("b-" ++ s))) swA ;;;
      iterM (fun s => renameLabel tb (NStr ("b-" ++ s)) (NStr ("a-" ++ s))) swB ;;; F) h1 = F h5) ->
  schimdt lib ta tb chi true swA swB h =
  schTail ta tb chi (prodn (map (fun b => legdim h1 (b0 (bonds h1 b))) (b :: bs))) (l_name (legs h1 la)) (l_name (legs h1 lb)) lk h5.
Proof.
  intros ES S1 S2 KA KB LN OKA OKB EF.
  unfold schimdt. rewrite (bind_ok _ _ _ _ _ ES). cbv beta iota.
  erewrite bind_ok by reflexivity. erewrite bind_ok by reflexivity.
  rewrite KA, KB. erewrite bind_ok by (rewrite eqb_reflx; reflexivity). erewrite bind_ok by reflexivity.
  erewrite bind_ok by (unfold readsR; rewrite S1; reflexivity). erewrite bind_ok by (unfold readsR; rewrite S2; reflexivity).
  erewrite bind_ok by reflexivity. erewrite bind_ok by reflexivity.
  erewrite bind_ok by (rewrite LN, Nat.eqb_refl; reflexivity). erewrite bind_ok by reflexivity.
  erewrite bind_ok by (rewrite OKA; reflexivity). erewrite bind_ok by reflexivity. erewrite bind_ok by (rewrite OKB; reflexivity).
  rewrite EF. unfold schTail. reflexivity.
Qed.

(** ** SchimdtDecomposition *)
Theorem schimdt_dense (h : heap) ta tb rest la lb P swA swB : wf_open h (ta :: tb :: rest) ->
  t_like (tens h ta) = false -> t_like (tens h tb) = false -> t_diag (tens h ta) = false -> t_diag (tens h tb) = false ->
  shared h ta tb = (la, lb) :: P -> separable h ta tb swA swB ->
  let La := sideA h ta tb swA swB in let Lb := sideB h ta tb swA swB in
  exists m, matrix_of h (einsum h ta tb) La Lb m /\
  forall chi, let r := prodn (map (dim_of h) La) in let c := prodn (map (dim_of h) Lb) in
    let k := kept lib m r c chi in svd_shape lib m r c ->
    ((chi < 0)%Z -> exists h', schimdt lib ta tb chi true swA swB h = (h', Err ValueError)) /\
    ((0 <= chi)%Z -> (0 <= k <= chi)%Z /\
     exists h' u v, schimdt lib ta tb chi true swA swB h = (h', Ok (u, None, v)) /\
      split_pair h h' ta tb rest La Lb u v (Z.to_nat k) (l_name (legs h la)) (l_name (legs h lb)) false /\
      (svd_exact lib m r c -> lossless lib m (Z.to_nat k) ->
       forall s, in_bounds h (free_legs h (ta :: tb :: rest)) s -> netval h' (u :: v :: rest) s = netval h (ta :: tb :: rest) s)).
Proof.
  intros WO KA KB DA DB SH SB La Lb. pose proof (open_pair _ _ _ _ WO) as WP.
  destruct (shareBonds_pair h ta tb WP) as (h1 & bs & ES & OB & B0 & B1 & EN).
  pose proof (ns_ob _ _ OB) as NS1. pose proof (ns_wf_pair _ _ NS1 _ _ WP) as WP1.
  rewrite SH in B0, B1, EN. destruct bs as [|b bs]; [discriminate|]. cbn [map fst snd] in B0, B1. injection B0 as B0 _. injection B1 as B1 _.
  assert (IN : In (la, lb) (shared h ta tb)) by (rewrite SH; simpl; auto). unfold shared in IN. apply pairs_In in IN. destruct IN as (IA & IB & _).
  assert (SD : sideLeg h1 b ta = Ok la /\ sideLeg h1 b tb = Ok lb).
  { unfold sideLeg, tlegs. rewrite B0, B1, (ob_tens _ _ OB).
    change (t_legs (tens h ta)) with (legs_of h ta). change (t_legs (tens h tb)) with (legs_of h tb).
    assert (inb la (legs_of h ta) = true) as -> by now apply inb_true.
    assert (inb la (legs_of h tb) = false) as -> by (apply inb_false; now apply (wp_disj h ta tb la WP)).
    assert (inb lb (legs_of h tb) = true) as -> by now apply inb_true. auto. }
  destruct SD as [S1 S2].
  assert (OKA : labelsInTensor h1 ta swA = true).
  { unfold labelsInTensor. apply forallb_forall. intros s Hs. apply inb_spec. destruct (sb_inA _ _ _ _ _ SB s Hs) as (l & Hl & E).
    unfold labels. apply in_map_iff. exists l. unfold legname, tlegs. rewrite (ob_legs _ _ OB), (ob_tens _ _ OB). auto. }
  assert (OKB : labelsInTensor h1 tb swB = true).
  { unfold labelsInTensor. apply forallb_forall. intros s Hs. apply inb_spec. destruct (sb_inB _ _ _ _ _ SB s Hs) as (l & Hl & E).
    unfold labels. apply in_map_iff. exists l. unfold legname, tlegs. rewrite (ob_legs _ _ OB), (ob_tens _ _ OB). auto. }
  assert (BE : forall l, base h1 l = base h l) by (intros; unfold base; now rewrite (ob_legs _ _ OB)).
  assert (CE : forall sw l, called h1 sw l = called h sw l) by (intros; unfold called; now rewrite (ob_legs _ _ OB)).
  destruct (tagging h1 ta tb swA swB WP1) as (h5 & EF & NS5 & TA & TB & TO).
  { rewrite !(ns_legs_of _ _ NS1), (ob_legs _ _ OB). apply SB. }
  { rewrite !(ns_legs_of _ _ NS1), (ob_legs _ _ OB). apply SB. }
  { rewrite !(ns_legs_of _ _ NS1), (ob_legs _ _ OB). apply SB. }
  rewrite (ns_legs_of _ _ NS1 ta) in TA, TO. rewrite (ns_legs_of _ _ NS1 tb) in TB, TO.
  set (d := prodn (map (fun b => legdim h1 (b0 (bonds h1 b))) (b :: bs))).
  assert (PRE : forall chi, schimdt lib ta tb chi true swA swB h = schTail ta tb chi d (l_name (legs h la)) (l_name (legs h lb)) false h5).
  { intros chi. rewrite (schimdt_prefix h h1 h5 ta tb b bs la lb false swA swB chi ES S1 S2); auto.
    - rewrite (ob_legs _ _ OB). reflexivity.
    - now rewrite (ob_tens _ _ OB).
    - now rewrite (ob_tens _ _ OB).
    - apply SB. }
  clearbody d.
  pose proof (ns_trans _ _ _ NS1 NS5) as NS. 
  set (g := fun l => if inb l (legs_of h ta) then negb (called h swA l) else called h swB l).
  assert (GA : forall l, In l (restA h ta tb) -> In l (legs_of h ta) /\ g l = negb (called h swA l)).
  { intros l Hl. unfold restA in Hl. apply others_In in Hl. destruct Hl as [Hl _]. split; auto. unfold g. now rewrite (proj2 (inb_true l _) Hl). }
  assert (GB : forall l, In l (restB h ta tb) -> In l (legs_of h tb) /\ g l = called h swB l).
  { intros l Hl. unfold restB in Hl. apply others_In in Hl. destruct Hl as [Hl _]. split; auto. unfold g.
    assert (inb l (legs_of h ta) = false) as ->; auto. apply inb_false. intros H. now apply (wp_disj h ta tb l WP) in H. }
  assert (FA : filter (fun l => Bool.eqb (g l) true) (restA h5 ta tb ++ restB h5 ta tb) = La).
  { rewrite (ns_restA _ _ NS), (ns_restB _ _ NS), filter_app. unfold La, sideA. f_equal; apply filter_ext_in; intros l Hl.
    - destruct (GA l Hl) as [_ ->]. now destruct (called h swA l).
    - destruct (GB l Hl) as [_ ->]. now destruct (called h swB l). }
  assert (FB : filter (fun l => Bool.eqb (g l) false) (restA h5 ta tb ++ restB h5 ta tb) = Lb).
  { rewrite (ns_restA _ _ NS), (ns_restB _ _ NS), filter_app. unfold Lb, sideB. f_equal; apply filter_ext_in; intros l Hl.
    - destruct (GA l Hl) as [_ ->]. now destruct (called h swA l).
    - destruct (GB l Hl) as [_ ->]. now destruct (called h swB l). }
  assert (NMS : forall l, In l (restA h ta tb ++ restB h ta tb) -> l_name (legs h l) = NStr (base h l)).
  { intros l Hl. assert (In l (legs_of h ta ++ legs_of h tb)) as H.
    { rewrite in_app_iff in *. destruct Hl as [Hl|Hl]; [apply GA in Hl|apply GB in Hl]; tauto. }
    destruct (sb_plain _ _ _ _ _ SB l H) as (s & E & _). unfold base. now rewrite E. }
  assert (LS : forall l, In l (restA h ta tb ++ restB h ta tb) -> In l La /\ g l = true \/ In l Lb /\ g l = false).
  { intros l Hl. rewrite <- FA, <- FB, !filter_In, (ns_restA _ _ NS), (ns_restB _ _ NS). destruct (g l); simpl; auto. }
  assert (HN : forall l, In l (restA h5 ta tb ++ restB h5 ta tb) -> l_name (legs h5 l) = NStr (letter (g l) ++ base h l)).
  { rewrite (ns_restA _ _ NS), (ns_restB _ _ NS). intros l Hl. apply in_app_iff in Hl. destruct Hl as [Hl|Hl].
    - destruct (GA l Hl) as [H ->]. rewrite TA, CE, BE by auto. reflexivity.
    - destruct (GB l Hl) as [H ->]. rewrite TB, CE, BE by auto. reflexivity. }
  assert (HI : forall l l', In l (restA h5 ta tb ++ restB h5 ta tb) -> In l' (restA h5 ta tb ++ restB h5 ta tb) -> g l = g l' -> base h l = base h l' -> l = l').
  { rewrite (ns_restA _ _ NS), (ns_restB _ _ NS). intros l l' H1 H2 EG EB. assert (l_name (legs h l) = l_name (legs h l')) as EN' by (rewrite !NMS by auto; congruence).
    destruct (LS l H1) as [[I1 G1]|[I1 G1]], (LS l' H2) as [[I2 G2]|[I2 G2]]; try congruence.
    - apply (nodup_map_inj _ La _ _ (proj1 (sb_sideA _ _ _ _ _ SB))); auto.
    - apply (nodup_map_inj _ Lb _ _ (proj1 (sb_sideB _ _ _ _ _ SB))); auto. }
  assert (TF : forall t, t_like (tens h5 t) = t_like (tens h t) /\ t_diag (tens h5 t) = t_diag (tens h t)) by (intros; rewrite (ns_tens _ _ NS); auto).
  destruct (core_dense h5 ta tb g (base h) (ns_wf_pair _ _ NS _ _ WP)) as (m & MO & CD); auto.
  { rewrite FA. apply SB. } { rewrite FB. apply SB. }
  { destruct (TF ta). congruence. } { destruct (TF tb). congruence. } { destruct (TF ta). congruence. } { destruct (TF tb). congruence. }
  rewrite FA, FB in MO, CD. rewrite !(ns_dims _ _ NS) in CD.
  exists m. split.
  { destruct MO as [M1 M2 M3]. rewrite !(ns_dims _ _ NS) in *. constructor; auto. intros s Hs. rewrite M3 by now apply (ns_inb _ _ NS). apply (ns_einsum _ _ NS). }
  intros chi r c k SS. destruct (CD chi d (l_name (legs h la)) (l_name (legs h lb)) SS) as [C1 C2]. fold r c k in C1, C2. rewrite PRE. split.
  - intros Hc. apply C1. unfold k, kept. lia.
  - intros Hc. assert (K : (0 <= k <= chi)%Z) by (unfold k, kept; lia). split; auto.
    destruct C2 as (h' & ET & CR & VAL); [lia|].
    destruct (assemble h h5 h' ta tb rest g (base h) (Z.to_nat k) (l_name (legs h la)) (l_name (legs h lb)) false WO NS) as [SP VL]; auto.
    + intros l Hl. rewrite TO; [now rewrite (ob_legs _ _ OB)|]. intros Hi. exact (rest_apart h ta tb rest l WO Hi Hl).
    + rewrite (ns_restA _ _ NS), (ns_restB _ _ NS). auto.
    + rewrite (ns_restA _ _ NS), (ns_restB _ _ NS). intros l l' H1 H2. rewrite (ns_linked _ _ NS). now apply (sb_apart _ _ _ _ _ SB).
    + rewrite FA, FB in SP, VL. assert (NT5 : ntens h5 = ntens h) by apply NS. assert (NG5 : nleg h5 = nleg h) by apply NS. rewrite NT5 in *. rewrite NG5 in VAL.
      exists h', (S (ntens h)), (S (S (ntens h))). split; auto. split; auto.
      intros SX LSS s Hs. apply VL; auto. intros s' Hs'. rewrite VAL; auto; [apply (ns_einsum _ _ NS)|now apply (ns_inb _ _ NS)].
Qed.

Lemma label_gone (h : heap) t sw s : In s sw -> (forall l, In l (legs_of h t) -> l_name (legs h l) <> NStr s) -> labelsInTensor h t sw = false.
Proof.
  intros Hs N. destruct (labelsInTensor h t sw) eqn:E; auto. exfalso. unfold labelsInTensor in E. rewrite forallb_forall in E.
  specialize (E s Hs). apply inb_spec in E. unfold labels in E. apply in_map_iff in E. destruct E as (l & E & Hl). exact (N l Hl E).
Qed.

Theorem schimdt_rejected (h : heap) ta tb chi root swA swB : wf_pair h ta tb ->
  shared h ta tb = [] \/ t_like (tens h ta) <> t_like (tens h tb) \/ List.length swA <> List.length swB \/
  (exists s, In s swA /\ forall l, In l (legs_of h ta) -> l_name (legs h l) <> NStr s) \/
  (exists s, In s swB /\ forall l, In l (legs_of h tb) -> l_name (legs h l) <> NStr s) ->
  exists h', schimdt lib ta tb chi root swA swB h = (h', Err AssertionError) /\ only_bonds h h'.
Proof.
  intros WP BAD. destruct (shareBonds_pair h ta tb WP) as (h1 & bs & ES & OB & B0 & B1 & EN). exists h1. split; auto.
  unfold schimdt. rewrite (bind_ok _ _ _ _ _ ES). cbv beta iota.
  destruct bs as [|b bs]; [reflexivity|]. destruct (shared h ta tb) as [|[la lb] P] eqn:SH; [discriminate|].
  destruct BAD as [BAD|BAD]; [discriminate|].
  cbn [map fst snd] in B0, B1. injection B0 as B0 _. injection B1 as B1 _.
  assert (IN : In (la, lb) (shared h ta tb)) by (rewrite SH; simpl; auto). unfold shared in IN. apply pairs_In in IN. destruct IN as (IA & IB & _).
  assert (SD : sideLeg h1 b ta = Ok la /\ sideLeg h1 b tb = Ok lb).
  { unfold sideLeg, tlegs. rewrite B0, B1, (ob_tens _ _ OB).
    change (t_legs (tens h ta)) with (legs_of h ta). change (t_legs (tens h tb)) with (legs_of h tb).
    assert (inb la (legs_of h ta) = true) as -> by now apply inb_true.
    assert (inb la (legs_of h tb) = false) as -> by (apply inb_false; now apply (wp_disj h ta tb la WP)).
    assert (inb lb (legs_of h tb) = true) as -> by now apply inb_true. auto. }
  destruct SD as [S1 S2].
  erewrite bind_ok by reflexivity. erewrite bind_ok by reflexivity. rewrite (ob_tens _ _ OB).
  destruct (Bool.eqb (t_like (tens h ta)) (t_like (tens h tb))) eqn:EQ; [|reflexivity]. apply eqb_prop in EQ.
  destruct BAD as [BAD|BAD]; [congruence|].
  erewrite bind_ok by reflexivity. erewrite bind_ok by reflexivity.
  erewrite bind_ok by (unfold readsR; rewrite S1; reflexivity). erewrite bind_ok by (unfold readsR; rewrite S2; reflexivity).
  erewrite bind_ok by reflexivity. erewrite bind_ok by reflexivity.
  destruct (Nat.eqb (List.length swA) (List.length swB)) eqn:LQ; [|reflexivity]. apply Nat.eqb_eq in LQ.
  destruct BAD as [BAD|BAD]; [congruence|].
  assert (LA : forall t, labelsInTensor h1 t = labelsInTensor h t).
  { intros t. unfold labelsInTensor, labels, legname, tlegs. now rewrite (ob_legs _ _ OB), (ob_tens _ _ OB). }
  erewrite bind_ok by reflexivity. erewrite bind_ok by reflexivity. rewrite !LA.
  destruct BAD as [(s & Hs & N)|(s & Hs & N)].
  - now rewrite (label_gone h ta swA s Hs N).
  - destruct (labelsInTensor h ta swA); [|reflexivity]. erewrite bind_ok by reflexivity. erewrite bind_ok by reflexivity.
    rewrite LA. now rewrite (label_gone h tb swB s Hs N).
Qed.
End Sm.
