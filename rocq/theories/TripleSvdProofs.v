(** Correctness of SchimdtDecomposition without separated square roots (examples/Schimdt.py 12-166): three tensors u, s, v. *)
From Coq Require Import List Arith Bool Lia String Ascii ZArith Permutation.
From Verif Require Import Base Sums NdModel NdProofs HeapModel FuncsModel FuncsSpec FuncsProofs TensorModel TensorSpec TensorProofs LabelProofs MatrixProofs
  ContractModel NetSpec FtnNetSpec ShareProofs LinkProofs SumpairsProofs ContractProofs DiagContractProofs OuterProofs NetProofs MergeLinkSpec GroupSpec GroupProofs
  GroupMadeProofs SplitProofs PairProofs TripleProofs NetSameProofs SvdModel SvdSpec TripleSpec SvdProofs MergeSvdProofs SchmidtSpec TagProofs SchmidtProofs.
Import ListNotations.
Local Open Scope list_scope.
Local Open Scope nat_scope.

Section Sm.
Context {A : Type} {HA : SR A}.
Notation heap := (heap A).
Variable lib : linalg A.

Definition schTail3 (ta tb : tid) (chi : Z) (sbDim : nat) (nameA nameB : pname) (la : bool) : @M A (tid * option tid * tid) :=
    tot <- contractTwoTensors ta tb ;;
    legA <- readsR (fun h => legsWith h "a-" (tlegs h tot)) ;;
    legB <- readsR (fun h => legsWith h "b-" (tlegs h tot)) ;;
    labA <- reads (fun h => map (legname h) legA) ;;
    labB <- reads (fun h => map (legname h) legB) ;;
    shA <- reads (fun h => map (legdim h) legA) ;;
    shB <- reads (fun h => map (legdim h) legB) ;;
    '(k, mu, ms, mv) <-
      (if la then k <- liftR (likeDim chi [prodn shA; prodn shB; sbDim]) ;; ret (k, None, None, None)
       else
         mat <- readsR (fun h => toMatrix h tot (Some (map labelRef labA)) (Some (map labelRef labB))) ;;
         let '(mu, ms, mv) := np_svd lib mat in
         k <- liftR (denseDim chi [prodn shA; prodn shB; nonZeroElementN lib ms]) ;;
         ret (k, Some (firstCols mu k), Some (firstEntries ms k), Some (firstRows mv k))) ;;
      uOut <- newLeg None k nameA ;;
      uIn <- newLeg None k nameB ;;
      vIn <- newLeg None k nameA ;;
      vOut <- newLeg None k nameB ;;
      u <- mkDense (Some (shA ++ [k])) None mu None (Some (legA ++ [uOut])) la ;;
      s <- mkDiag (Some (DList [k; k])) None ms None (Some [uIn; vIn]) la ;;
      v <- mkDense (Some (k :: shB)) None mv None (Some (vOut :: legB)) la ;;
      iterM (dropTag "a-") legA ;;;
      iterM (dropTag "b-") legB ;;;
      makeLink [RLeg uOut] [RLeg uIn] None None ;;;
      makeLink [RLeg vOut] [RLeg vIn] None None ;;;
      ret (u, Some s, v).

Lemma schimdt_prefix3 (h h1 h5 : heap) ta tb b bs la lb lk swA swB chi :
  shareBonds ta tb h = (h1, Ok (b :: bs)) -> sideLeg h1 b ta = Ok la -> sideLeg h1 b tb = Ok lb ->
  t_like (tens h1 ta) = lk -> t_like (tens h1 tb) = lk -> List.length swA = List.length swB ->
  labelsInTensor h1 ta swA = true -> labelsInTensor h1 tb swB = true ->
  (forall X (F : @M A X),
     (addTensorTag ta "a" ;;; addTensorTag tb "b" ;;;
      iterM (fun s => renameLabel ta (NStr ("a-" ++ s)) (NStr ("b-" ++ s))) swA ;;;
      iterM (fun s => renameLabel tb (NStr ("b-" ++ s)) (NStr ("a-" ++ s))) swB ;;; F) h1 = F h5) ->
  schimdt lib ta tb chi false swA swB h =
  schTail3 ta tb chi (prodn (map (fun b => legdim h1 (b0 (bonds h1 b))) (b :: bs))) (l_name (legs h1 la)) (l_name (legs h1 lb)) lk h5.
Proof.
  intros ES S1 S2 KA KB LN OKA OKB EF.
  unfold schimdt. rewrite (bind_ok _ _ _ _ _ ES). cbv beta iota.
  erewrite bind_ok by reflexivity. erewrite bind_ok by reflexivity.
  rewrite KA, KB. erewrite bind_ok by (rewrite eqb_reflx; reflexivity). erewrite bind_ok by reflexivity.
  erewrite bind_ok by (unfold readsR; rewrite S1; reflexivity). erewrite bind_ok by (unfold readsR; rewrite S2; reflexivity).
  erewrite bind_ok by reflexivity. erewrite bind_ok by reflexivity.
  erewrite bind_ok by (rewrite LN, Nat.eqb_refl; reflexivity). erewrite bind_ok by reflexivity.
  erewrite bind_ok by (rewrite OKA; reflexivity). erewrite bind_ok by reflexivity. erewrite bind_ok by (rewrite OKB; reflexivity).
  rewrite EF. unfold schTail3. reflexivity.
Qed.

(** the three constructor calls *)
Lemma dense_triple (h : heap) La Lb k na nb uS sS vS : NoDup (La ++ Lb) -> (forall l, In l (La ++ Lb) -> l < nleg h) ->
  wfa uS -> ashape uS = [prodn (map (dim_of h) La); k] -> wfa sS -> ashape sS = [k] -> wfa vS -> ashape vS = [k; prodn (map (dim_of h) Lb)] ->
  let u := ntens h in let s := S u in let v := S s in let x0 := nleg h in let x1 := S x0 in let x2 := S x1 in let x3 := S x2 in
  exists h2 h3 h4, mkDense (Some (map (dim_of h) La ++ [k])) None (Some uS) None (Some (La ++ [x0])) false (four_legs h k na nb) = (h2, Ok u) /\
    mkDiag (Some (DList [k; k])) None (Some sS) None (Some [x1; x2]) false h2 = (h3, Ok s) /\
    mkDense (Some (k :: map (dim_of h) Lb)) None (Some vS) None (Some (x3 :: Lb)) false h3 = (h4, Ok v) /\
    new_tensor (four_legs h k na nb) h2 u (Some (La ++ [x0])) /\ new_tensor h2 h3 s (Some [x1; x2]) /\ new_tensor h3 h4 v (Some (x3 :: Lb)) /\
    legs_of h2 u = La ++ [x0] /\ legs_of h3 s = [x1; x2] /\ legs_of h4 v = x3 :: Lb /\
    wf_tensor h2 u /\ wf_tensor h3 s /\ wf_tensor h4 v /\
    (t_diag (tens h4 u) = false /\ t_diag (tens h4 s) = true /\ t_diag (tens h4 v) = false) /\
    (t_like (tens h4 u) = false /\ t_like (tens h4 s) = false /\ t_like (tens h4 v) = false) /\
    (forall a, a x0 < k -> in_bounds h La a -> entry h4 u a = aget uS [ravel (map (dim_of h) La) (map a La); a x0]) /\
    t_arr (tens h4 s) = Some sS /\
    (forall a, a x3 < k -> in_bounds h Lb a -> entry h4 v a = aget vS [a x3; ravel (map (dim_of h) Lb) (map a Lb)]).
Proof.
  intros ND AL WU SU WS SS WV SV u s v x0 x1 x2 x3. set (h1 := four_legs h k na nb).
  assert (BL : forall l, In l Lb -> l < nleg h) by (intros; apply AL, in_app_iff; auto).
  assert (AL' : forall l, In l La -> l < nleg h) by (intros; apply AL, in_app_iff; auto).
  assert (N1 : nleg h1 = S x3) by reflexivity. assert (M1 : ntens h1 = u) by reflexivity.
  assert (DX : dim_of h1 x0 = k /\ dim_of h1 x1 = k /\ dim_of h1 x2 = k /\ dim_of h1 x3 = k).
  { unfold dim_of, h1, x3, x2, x1, x0. now rewrite four_x0, four_x1, four_x2, four_x3. }
  destruct DX as (D0 & D1 & D2 & D3).
  assert (DU : map (dim_of h1) (La ++ [x0]) = map (dim_of h) La ++ [k]).
  { rewrite map_app. cbn [map]. rewrite D0. f_equal. apply map_ext_in. intros l Hl. unfold dim_of, h1. now rewrite four_old by auto. }
  destruct (mkDense_legs h1 (La ++ [x0]) uS None (Some (map (dim_of h) La ++ [k]))) as (h2 & u' & E2 & T2 & W2 & O2 & L2 & F2 & K2 & _ & V2); auto.
  { apply NoDup_app_intro; [apply (NoDup_app_l _ _ ND)|repeat constructor; auto|]. intros z Hz [<-|[]]. apply AL' in Hz. unfold x0 in Hz. lia. }
  { intros l Hl. rewrite N1. apply in_app_iff in Hl. destruct Hl as [Hl|[<-|[]]]; [apply AL' in Hl|]; unfold x3, x2, x1, x0; lia. }
  { rewrite DU, SU, prodn_app. reflexivity. }
  assert (EU : u' = u) by apply (nt_id _ _ _ _ T2). subst u'.
  assert (NI : forall l, nleg h < l -> ~ In l (La ++ [x0])).
  { intros l Hl H. apply in_app_iff in H. destruct H as [H|[<-|[]]]; [apply AL' in H|]; unfold x0 in *; lia. }
  destruct (nt_legs _ _ _ _ T2) as (I2 & Q2).
  assert (DS : map (dim_of h2) [x1; x2] = [k; k]).
  { cbn [map]. unfold dim_of. rewrite !Q2 by (apply NI; unfold x2, x1, x0; lia). unfold dim_of in D1, D2. now rewrite D1, D2. }
  assert (NL2 : nleg h2 = S x3) by (rewrite (nt_nleg _ _ _ _ T2), N1; lia).
  destruct (mkDiag_legs h2 [x1; x2] sS None k) as (h3 & s' & E3 & T3 & W3 & O3 & L3 & F3 & K3 & _ & V3); auto.
  { repeat constructor; simpl; unfold x2; lia. }
  { intros l [<-|[<-|[]]]; rewrite NL2; unfold x3, x2; lia. }
  { discriminate. }
  { injection DS as E1' E2'. intros l [<-|[<-|[]]]; auto. }
  rewrite DS in E3.
  assert (ES : s' = s) by (rewrite (nt_id _ _ _ _ T3), (nt_ntens _ _ _ _ T2), M1; reflexivity). subst s'.
  destruct (nt_legs _ _ _ _ T3) as (I3 & Q3).
  assert (NJ : forall l, l < nleg h \/ l = x3 -> ~ In l [x1; x2]) by (intros l Hl [<-|[<-|[]]]; unfold x3, x2, x1, x0 in *; lia).
  assert (DV : map (dim_of h3) (x3 :: Lb) = k :: map (dim_of h) Lb).
  { cbn [map]. f_equal.
    - unfold dim_of. rewrite Q3 by (apply NJ; auto). rewrite Q2 by (apply NI; unfold x3, x2, x1, x0; lia). exact D3.
    - apply map_ext_in. intros l Hl. unfold dim_of. rewrite Q3 by (apply NJ; auto). rewrite Q2.
      + unfold h1. now rewrite four_old by auto.
      + rewrite in_app_iff. intros [H|[E|[]]]; [apply (NoDup_app_disj _ _ l ND); auto|apply BL in Hl; unfold x0 in E; lia]. }
  destruct (mkDense_legs h3 (x3 :: Lb) vS None (Some (k :: map (dim_of h) Lb))) as (h4 & v' & E4 & T4 & W4 & O4 & L4 & F4 & K4 & _ & V4); auto.
  { constructor; [|apply (NoDup_app_r _ _ ND)]. intros H. apply BL in H. unfold x3, x2, x1, x0 in H. lia. }
  { intros l Hl. rewrite (nt_nleg _ _ _ _ T3), NL2. destruct Hl as [<-|Hl]; [|apply BL in Hl]; unfold x3, x2, x1, x0; lia. }
  { rewrite DV, SV. simpl. lia. }
  assert (EV : v' = v) by (rewrite (nt_id _ _ _ _ T4), (nt_ntens _ _ _ _ T3), (nt_ntens _ _ _ _ T2), M1; reflexivity). subst v'.
  assert (NT3 : ntens h3 = v) by (rewrite (nt_ntens _ _ _ _ T3), (nt_ntens _ _ _ _ T2), M1; reflexivity).
  assert (NT2 : ntens h2 = s) by (rewrite (nt_ntens _ _ _ _ T2), M1; reflexivity).
  assert (TU : tens h4 u = tens h2 u).
  { rewrite (nt_tens _ _ _ _ T4) by (rewrite NT3; unfold v, s; lia). apply (nt_tens _ _ _ _ T3). rewrite NT2. unfold s; lia. }
  assert (TS : tens h4 s = tens h3 s) by (apply (nt_tens _ _ _ _ T4); rewrite NT3; unfold v; lia).
  exists h2, h3, h4. rewrite TU, TS. repeat (split; [assumption|]). split; [auto|]. split; [auto|]. split; [|split].
  - intros a Ha B. unfold entry at 1. rewrite TU. change (entry_of (tens h2 u) a) with (entry h2 u a). rewrite V2, DU.
    unfold aget. rewrite SU. f_equal. rewrite map_app, ravel_app by now rewrite !map_length. cbn [map ravel prodn fold_right]. lia.
  - exact V3.
  - intros a Ha B. rewrite V4, DV. unfold aget. rewrite SV. f_equal. cbn [map ravel prodn fold_right]. lia.
Qed.

(** ** the three tensors from the tagged pair *)
Section Core.
Variables (h : heap) (ta tb : tid) (g : lid -> bool) (n : lid -> string).
Hypothesis WP : wf_pair h ta tb.
Let L := restA h ta tb ++ restB h ta tb.
Let La := filter (fun l => Bool.eqb (g l) true) L.
Let Lb := filter (fun l => Bool.eqb (g l) false) L.
Hypothesis HN : forall l, In l L -> l_name (legs h l) = NStr (letter (g l) ++ n l).
Hypothesis HI : forall l l', In l L -> In l' L -> g l = g l' -> n l = n l' -> l = l'.
Hypothesis NA : La <> [].
Hypothesis NB : Lb <> [].

Definition core_res3 (h' : heap) (k : nat) (na nb : pname) (u s v : tid) (x0 x1 x2 x3 : lid) : Prop :=
  exists h6, contracted h h6 ta tb (ntens h) L /\
    triple_made h6 h' La Lb k na nb (fun l => NStr (n l)) u s v x0 x1 x2 x3 /\
    (t_diag (tens h' u) = false /\ t_diag (tens h' s) = true /\ t_diag (tens h' v) = false) /\
    (t_like (tens h' u) = false /\ t_like (tens h' s) = false /\ t_like (tens h' v) = false) /\
    (forall a, in_bounds h L a -> entry h6 (ntens h) a = einsum h ta tb a).

Lemma core_dense3 : t_like (tens h ta) = false -> t_like (tens h tb) = false -> t_diag (tens h ta) = false -> t_diag (tens h tb) = false ->
  exists m, matrix_of h (einsum h ta tb) La Lb m /\
  forall chi d na nb, let r := prodn (map (dim_of h) La) in let c := prodn (map (dim_of h) Lb) in
    let k := kept lib m r c chi in svd_shape lib m r c -> 
    ((k < 0)%Z -> exists h1, schTail3 ta tb chi d na nb false h = (h1, Err ValueError)) /\
    ((0 <= k)%Z -> let u := S (ntens h) in let s := S u in let v := S s in let x0 := nleg h in let x1 := S x0 in let x2 := S x1 in let x3 := S x2 in
      exists h', schTail3 ta tb chi d na nb false h = (h', Ok (u, Some s, v)) /\ core_res3 h' (Z.to_nat k) na nb u s v x0 x1 x2 x3 /\
      svd_entries lib m h h' La Lb u s v x0 x1 x2 x3 (Z.to_nat k)).
Proof.
  intros KA KB DA DB. destruct (contract_dense h ta tb WP KA KB DA DB) as (h6 & tot & EC & CT & D6 & K6 & V6). fold L in CT, V6.
  assert (N6 : forall l, In l L -> l_name (legs h6 l) = l_name (legs h l)) by (intros l Hl; now rewrite (ct_in _ _ _ _ _ _ CT l Hl)).
  assert (DM : forall M, incl M L -> map (dim_of h6) M = map (dim_of h) M).
  { intros M HM. apply map_ext_in. intros l Hl. unfold dim_of. now rewrite (ct_in _ _ _ _ _ _ CT l (HM l Hl)). }
  assert (IA : incl La L) by (intros l Hl; now apply core_A in Hl).
  assert (IB : incl Lb L) by (intros l Hl; now apply core_B in Hl).
  assert (EL : legs_of h6 tot = L) by apply CT.
  assert (E1 : legsWith h6 "a-" (tlegs h6 tot) = Ok La).
  { change (tlegs h6 tot) with (legs_of h6 tot). rewrite EL. apply (legsWith_ok h6 true g n). intros l Hl. rewrite N6; auto. }
  assert (E2 : legsWith h6 "b-" (tlegs h6 tot) = Ok Lb).
  { change (tlegs h6 tot) with (legs_of h6 tot). rewrite EL. apply (legsWith_ok h6 false g n). intros l Hl. rewrite N6; auto. }
  pose proof (core_perm h ta tb g) as CP. fold L La Lb in CP.
  assert (SP : split_of h6 tot (Some (map labelRef (map (legname h6) La))) (Some (map labelRef (map (legname h6) Lb))) La Lb).
  { constructor; try (apply (core_refs h ta tb g n WP HN HI); auto). rewrite EL. exact CP. }
  destruct (toMatrix_split _ _ _ _ _ _ (ct_wf _ _ _ _ _ _ CT) K6 SP) as (m & EM & WM & SM & GM).
  rewrite !DM in SM, GM by auto. rewrite EL in GM.
  assert (BI : forall s, in_bounds h L s -> in_bounds h6 L s).
  { intros s Hs l Hl. unfold dim_of. rewrite (ct_in _ _ _ _ _ _ CT l Hl). now apply Hs. }
  assert (MOE : forall s, in_bounds h (La ++ Lb) s -> aget m [ravel (map (dim_of h) La) (map s La); ravel (map (dim_of h) Lb) (map s Lb)] = einsum h ta tb s).
  { intros s Hs. assert (in_bounds h L s) as Hs'.
    { intros l Hl. apply Hs. eapply Permutation_in; [apply Permutation_sym, CP|auto]. }
    rewrite GM by auto. auto. }
  exists m. split; [constructor; auto|].
  intros chi d na nb r c k SS.
  assert (EK : minDim chi [r; c; nonZeroElementN lib (svd_s lib m)] = k).
  { rewrite minDim3. unfold k, kept, above, nonZeroElementN. lia. }
  set (F := fun (q : nat * option (arr A) * option (arr A) * option (arr A)) => let '(k, mu, ms, mv) := q in
      uOut <- newLeg None k na ;;
      uIn <- newLeg None k nb ;;
      vIn <- newLeg None k na ;;
      vOut <- newLeg None k nb ;;
      u <- mkDense (Some (map (dim_of h) La ++ [k])) None mu None (Some (La ++ [uOut])) false ;;
      s <- mkDiag (Some (DList [k; k])) None ms None (Some [uIn; vIn]) false ;;
      v <- mkDense (Some (k :: map (dim_of h) Lb)) None mv None (Some (vOut :: Lb)) false ;;
      iterM (dropTag "a-") La ;;;
      iterM (dropTag "b-") Lb ;;;
      makeLink [RLeg uOut] [RLeg uIn] None None ;;;
      makeLink [RLeg vOut] [RLeg vIn] None None ;;;
      ret (u, Some s, v) : @M A (tid * option tid * tid)).
  assert (PRE : schTail3 ta tb chi d na nb false h =
     bind (k <- liftR (denseDim chi [r; c; nonZeroElementN lib (svd_s lib m)]) ;;
         ret (k, Some (firstCols (svd_u lib m) k), Some (firstEntries (svd_s lib m) k), Some (firstRows (svd_v lib m) k))) F h6).
  { unfold schTail3. rewrite (bind_ok _ _ _ _ _ EC). erewrite bind_ok by (unfold readsR; rewrite E1; reflexivity).
    erewrite bind_ok by (unfold readsR; rewrite E2; reflexivity).
    erewrite bind_ok by reflexivity. erewrite bind_ok by reflexivity. erewrite bind_ok by reflexivity. erewrite bind_ok by reflexivity.
    change (map (legdim h6)) with (map (dim_of h6)). rewrite !DM by auto.
    unfold bind at 1. unfold bind at 1, readsR at 1. rewrite EM. rewrite svd_split. reflexivity. }
  unfold denseDim in PRE. rewrite EK in PRE. split.
  { intros Kn. rewrite PRE. destruct (Z.ltb_spec k 0); [|lia]. unfold bind at 1. unfold bind at 1, liftR at 1. eauto. }
  intros Kp u s v x0 x1 x2 x3. rewrite PRE. clear PRE. destruct (Z.ltb_spec k 0); [lia|].
  set (k0 := Z.to_nat k). assert (K0 : k0 <= Nat.min r c) by (unfold k0, k, kept; lia).
  erewrite bind_ok by reflexivity. unfold F. clear F.
  assert (NL6 : nleg h6 = x0) by apply CT. assert (NT6 : ntens h6 = u) by apply CT.
  pose proof (rest_alloc h ta tb WP) as [RN RL]. fold L in RN, RL.
  assert (PN : NoDup (La ++ Lb)) by (eapply Permutation_NoDup; [apply Permutation_sym, CP|exact RN]).
  assert (PL : forall l, In l (La ++ Lb) -> l < x0) by (intros l Hl; apply RL; eapply Permutation_in; [apply CP|auto]).
  destruct (firstCols_spec lib m r c k0 SS K0) as (WU & SU & GU). destruct (firstRows_spec lib m r c k0 SS K0) as (WV & SV & GV).
  destruct (firstEntries_spec lib m r c k0 SS K0) as (WS & SS' & GS).
  destruct (dense_triple h6 La Lb k0 na nb (firstCols (svd_u lib m) k0) (firstEntries (svd_s lib m) k0) (firstRows (svd_v lib m) k0))
    as (h2 & h3 & h4 & C2 & C3 & C4 & T2 & T3 & T4 & L2 & L3 & L4 & W2 & W3 & W4 & FD & FK & VU & VS & VV); auto.
  { now rewrite NL6. } { rewrite DM by auto. exact SU. } { rewrite DM by auto. exact SV. }
  rewrite NL6, NT6 in *. fold s v x1 x2 x3 in C2, C3, C4, T2, T3, T4, L2, L3, L4, W2, W3, W4, FD, FK, VU, VS, VV.
  rewrite !DM in C2, C4, VU, VV by auto.
  assert (NDA : NoDup La) by (apply (NoDup_app_l _ _ PN)). assert (NDB : NoDup Lb) by (apply (NoDup_app_r _ _ PN)).
  assert (ET : u = ntens h6 /\ s = S u /\ v = S s) by auto.
  assert (EX : x0 = nleg h6 /\ x1 = S x0 /\ x2 = S x1 /\ x3 = S x2) by auto.
  assert (PL6 : forall l, In l (La ++ Lb) -> l < nleg h6) by now rewrite NL6.
  pose proof (bd_A h6 h2 h3 h4 La Lb k0 na nb u s v x0 x1 x2 x3 ET EX PN PL6 T2 T3 T4) as BA.
  pose proof (bd_B h6 h2 h3 h4 La Lb k0 na nb u s v x0 x1 x2 x3 ET EX PN PL6 T2 T3 T4) as BB.
  destruct (dropTags_ok h4 true n La NDA) as (h5 & E4 & O4).
  { intros l Hl. rewrite BA by auto. cbn [l_name]. apply core_A in Hl. rewrite N6, HN by tauto. destruct Hl as [_ ->]. reflexivity. }
  destruct (dropTags_ok h5 false n Lb NDB) as (h7 & E5 & O5).
  { intros l Hl. rewrite (on_out _ _ _ _ O4).
    - rewrite BB by auto. cbn [l_name]. apply core_B in Hl. rewrite N6, HN by tauto. destruct Hl as [_ ->]. reflexivity.
    - intros Hl'. apply (NoDup_app_disj _ _ l PN); auto. }
  cbn [letter] in E4, E5.
  assert (O45 : only_names h4 h7 (La ++ Lb) (fun l => NStr (n l))).
  { eapply only_names_ext; [exact (only_names_trans _ _ _ _ _ _ _ O4 O5)|tauto|]. intros l Hl. cbv beta. now destruct (inb l Lb). }
  destruct (bd_made h6 h2 h3 h4 h7 La Lb k0 na nb (fun l => NStr (n l)) u s v x0 x1 x2 x3 ET EX PN PL6 T2 T3 T4 L2 L3 L4 W2 W3 W4 O45) as (TR & T8).
  set (h8 := linked_heap (linked_heap h7 x0 x1) x3 x2) in *.
  exists h8. split; [|split].
  - rewrite newLegs4. rewrite NL6. fold x1 x2 x3. rewrite (bind_ok _ _ _ _ _ C2). rewrite (bind_ok _ _ _ _ _ C3). rewrite (bind_ok _ _ _ _ _ C4).
    rewrite (bind_ok _ _ _ _ _ E4), (bind_ok _ _ _ _ _ E5).
    rewrite (bd_links h6 h2 h3 h4 h7 La Lb k0 na nb (fun l => NStr (n l)) u s v x0 x1 x2 x3 ET EX PL6 T2 T3 T4 O45). reflexivity.
  - exists h6. pose proof (ct_id _ _ _ _ _ _ CT) as EI. rewrite EI in CT, V6. rewrite T8.
    split; [exact CT|]. split; [exact TR|]. split; [exact FD|]. split; [exact FK|]. intros a Ha. now apply V6.
  - assert (LB1 : forall a, in_bounds h La a -> in_bounds h6 La a).
    { intros a Ha l Hl. unfold dim_of. rewrite (ct_in _ _ _ _ _ _ CT l) by auto. now apply Ha. }
    assert (LB2 : forall a, in_bounds h Lb a -> in_bounds h6 Lb a).
    { intros a Ha l Hl. unfold dim_of. rewrite (ct_in _ _ _ _ _ _ CT l) by auto. now apply Ha. }
    constructor.
    + intros a Ha Hk. unfold entry. rewrite T8. change (entry_of (tens h4 u) a) with (entry h4 u a). rewrite VU by auto. rewrite GU; auto.
      apply ravel_lt, inrange_map. auto.
    + intros a H1 H2. assert (LS8 : legs_of h8 s = [x1; x2]) by (apply (tr_s _ _ _ _ _ _ _ _ _ _ _ _ _ _ _ TR)).
      rewrite (entry_diag h8 s (firstEntries (svd_s lib m) k0) x1).
      * rewrite LS8. cbn [map all_eqb forallb andb]. rewrite andb_true_r. destruct (Nat.eqb (a x1) (a x2)); auto.
      * rewrite T8. apply FD.
      * rewrite T8. exact VS.
      * rewrite LS8. simpl; auto.
    + intros a Ha Hk. unfold entry. rewrite T8. change (entry_of (tens h4 v) a) with (entry h4 v a). rewrite VV by auto. rewrite GV; auto.
      apply ravel_lt, inrange_map. auto.
Qed.
End Core.

Lemma cut3 m r c k i j : svd_shape lib m r c -> svd_reproduces lib m r c -> k <= Nat.min r c -> lossless lib m k -> i < r -> j < c ->
  sumN k (fun x => rmul (aget (svd_u lib m) [i; x]) (rmul (aget (svd_s lib m) [x]) (aget (svd_v lib m) [x; j]))) = aget m [i; j].
Proof.
  intros SS SE K LS Hi Hj. rewrite (SE i j Hi Hj). symmetry. apply sumN_cut; auto. intros x Hx.
  destruct (ss_s _ _ _ _ SS) as [W E]. rewrite (aget1 (svd_s lib m) (Nat.min r c)) by auto. rewrite LS.
  - rewrite rmul_0_l, (rmul_comm _ r0), rmul_0_l. reflexivity.
  - lia.
  - unfold wfa in W. rewrite W, E. simpl. lia.
Qed.

(** ** from the tagged pair to the result *)
Section Assemble.
Variables (h0 h h' : heap) (ta tb : tid) (rest : list tid) (g : lid -> bool) (n : lid -> string) (k : nat) (na nb : pname)
  (u s v : tid) (x0 x1 x2 x3 : lid) (m : arr A).
Hypothesis WO0 : wf_open h0 (ta :: tb :: rest).
Hypothesis NS : net_same h0 h.
Hypothesis RLG : forall l, In l (all_legs h0 rest) -> legs h l = legs h0 l.
Let L := restA h ta tb ++ restB h ta tb.
Let La := filter (fun l => Bool.eqb (g l) true) L.
Let Lb := filter (fun l => Bool.eqb (g l) false) L.
Hypothesis NM : forall l, In l L -> l_name (legs h0 l) = NStr (n l).
Hypothesis NL : forall l l', In l L -> In l' L -> ~ linked h l l'.
Hypothesis CR : core_res3 h ta tb g n h' k na nb u s v x0 x1 x2 x3.

Lemma assemble3 : split_triple h0 h' ta tb rest La Lb u s v x0 x1 x2 x3 k na nb /\
  (svd_entries lib m h0 h' La Lb u s v x0 x1 x2 x3 k ->
   (forall a, in_bounds h0 (La ++ Lb) a ->
     sumN k (fun x => rmul (aget (svd_u lib m) [ravel (map (dim_of h0) La) (map a La); x])
        (rmul (aget (svd_s lib m) [x]) (aget (svd_v lib m) [x; ravel (map (dim_of h0) Lb) (map a Lb)]))) = einsum h0 ta tb a) ->
   forall a, in_bounds h0 (free_legs h0 (ta :: tb :: rest)) a -> netval h' (u :: s :: v :: rest) a = netval h0 (ta :: tb :: rest) a).
Proof.
  destruct CR as (h6 & CT & TR & FD & FK & V6). fold L La Lb in CT, TR.
  pose proof (ns_wf_open _ _ NS _ WO0) as WO. pose proof (open_pair _ _ _ _ WO) as WP.
  pose proof (step_wf h h6 ta tb (ntens h) L rest (wo_net _ _ WO) CT (Permutation_refl _)) as W6.
  pose proof (step_free h h6 ta tb (ntens h) L rest (wo_net _ _ WO) CT (Permutation_refl _)) as FR6.
  pose proof (step_incl h h6 ta tb (ntens h) L rest (wo_net _ _ WO) CT (Permutation_refl _)) as SI.
  pose proof (net_alloc h ta tb rest (wo_net _ _ WO)) as NAL.
  pose proof (step_leg h h6 ta tb (ntens h) L CT) as SL.
  pose proof (step_linked h h6 ta tb (ntens h) L CT) as SLK.
  assert (WO6 : wf_open h6 ([ntens h] ++ rest)).
  { constructor; auto.
    - intros l b Hl E. rewrite (ct_nbond _ _ _ _ _ _ CT). apply SI in Hl. destruct (SL l (NAL l Hl)) as (EB & _). rewrite EB in E.
      now apply (wo_bonds _ _ WO l).
    - intros l l' Hl Lk. rewrite (ct_nleg _ _ _ _ _ _ CT). apply SI in Hl. apply SLK in Lk; [|auto]. now apply (wo_alloc _ _ WO l). }
  pose proof (core_perm h ta tb g) as CP. fold L La Lb in CP.
  assert (EL : legs_of h6 (ntens h) = L) by apply CT.
  assert (HP : Permutation (La ++ Lb) (free_legs h6 [ntens h])) by now rewrite free_single, EL.
  assert (LALL : forall l, In l L -> In l (all_legs h (ta :: tb :: rest))).
  { intros l Hl. unfold all_legs. cbn [flat_map]. rewrite !in_app_iff. unfold L, restA, restB in Hl. rewrite in_app_iff, !others_In in Hl. tauto. }
  assert (INL : forall l, In l (La ++ Lb) -> In l L) by (intros l; apply Permutation_in, CP).
  assert (NL6 : forall l l', In l (La ++ Lb) -> In l' (La ++ Lb) -> ~ linked h6 l l').
  { intros l l' H1 H2. rewrite !SLK by (apply NAL, LALL; auto). apply NL; auto. }
  pose proof (tr_group _ _ _ _ _ _ _ _ _ _ _ _ _ _ _ TR) as GM.
  pose proof (gm_replaced _ _ _ _ _ _ _ GM WO6 HP NL6) as RP.
  pose proof (rp_wf _ _ _ _ _ WO6 RP) as WF. pose proof (rp_free _ _ _ _ _ WO6 RP) as FR.
  pose proof (rp_value _ _ _ _ _ WO6 RP) as RV.
  destruct (tr_shared_us _ _ _ _ _ _ _ _ _ _ _ _ _ _ _ _ _ TR WO6 HP NL6) as (S1 & S2 & S3).
  pose proof (tr_x _ _ _ _ _ _ _ _ _ _ _ _ _ _ _ TR) as EX. pose proof (tr_t _ _ _ _ _ _ _ _ _ _ _ _ _ _ _ TR) as ET.
  pose proof (tr_x0 _ _ _ _ _ _ _ _ _ _ _ _ _ _ _ TR) as Z0. pose proof (tr_x1 _ _ _ _ _ _ _ _ _ _ _ _ _ _ _ TR) as Z1.
  pose proof (tr_x2 _ _ _ _ _ _ _ _ _ _ _ _ _ _ _ TR) as Z2. pose proof (tr_x3 _ _ _ _ _ _ _ _ _ _ _ _ _ _ _ TR) as Z3.
  assert (NT : ntens h6 = S (ntens h0)) by (rewrite (ct_ntens _ _ _ _ _ _ CT); f_equal; apply NS).
  assert (NG : nleg h6 = nleg h0) by (rewrite (ct_nleg _ _ _ _ _ _ CT); apply NS).
  assert (NT5 : ntens h = ntens h0) by apply NS.
  assert (NG5 : nleg h = nleg h0) by apply NS.
  cbn [app] in *.
  assert (RT : forall t, In t rest -> t < ntens h /\ t <> ta /\ t <> tb).
  { intros t Ht. split; [apply (wt_id h), (wn_wf _ _ (wo_net _ _ WO)); simpl; auto|].
    pose proof (wn_ids _ _ (wo_net _ _ WO)) as NI. inversion NI as [|? ? N1 N2]; subst. inversion N2 as [|? ? N3 N4]; subst.
    split; intros ->; simpl in *; tauto. }
  split.
  - constructor.
    + exact S1.
    + exact S2.
    + exact S3.
    + apply (tr_u _ _ _ _ _ _ _ _ _ _ _ _ _ _ _ TR).
    + apply (tr_s _ _ _ _ _ _ _ _ _ _ _ _ _ _ _ TR).
    + apply (tr_v _ _ _ _ _ _ _ _ _ _ _ _ _ _ _ TR).
    + unfold dim_of. intros x [<-|[<-|[<-|[<-|[]]]]]; [rewrite Z0|rewrite Z1|rewrite Z2|rewrite Z3]; reflexivity.
    + rewrite Z0, Z1, Z2, Z3. auto.
    + simpl. intros x Hx. lia.
    + intros t Ht Hi. apply (wn_wf _ _ (wo_net _ _ WO)) in Hi. apply wt_id in Hi. apply (gm_ids _ _ _ _ _ GM) in Ht. lia.
    + apply (gm_nd _ _ _ _ _ GM).
    + exact FD.
    + exact FK.
    + intros l Hl. assert (In l L) as HL by auto.
      pose proof (ct_in _ _ _ _ _ _ CT l HL) as C6. destruct (ns_leg _ _ NS l) as (_ & ED & EB).
      rewrite in_app_iff in Hl. unfold dim_of.
      assert (E' : l_dim (legs h' l) = l_dim (legs h6 l) /\ l_name (legs h' l) = NStr (n l) /\ l_bond (legs h' l) = l_bond (legs h6 l)).
      { destruct Hl as [Hl|Hl]; [rewrite (tr_A _ _ _ _ _ _ _ _ _ _ _ _ _ _ _ TR l Hl)|rewrite (tr_B _ _ _ _ _ _ _ _ _ _ _ _ _ _ _ TR l Hl)]; cbn; auto. }
      destruct E' as (-> & -> & ->). rewrite C6. cbn. rewrite ED, EB, NM by auto. auto.
    + intros t Ht. destruct (RT t Ht) as (T1 & T2 & T3). rewrite (tr_tens _ _ _ _ _ _ _ _ _ _ _ _ _ _ _ TR) by (rewrite NT; lia).
      rewrite (ct_tens _ _ _ _ _ _ CT) by auto. now rewrite (ns_tens _ _ NS).
    + intros l Hl. assert (l < nleg h0) as Hlt by now apply (rest_lt h0 ta tb rest).
      assert (~ In l L) as NI.
      { intros Hi. apply (rest_apart h0 ta tb rest l); auto. unfold L in Hi. rewrite (ns_restA _ _ NS), (ns_restB _ _ NS) in Hi.
        unfold restA, restB in Hi. rewrite in_app_iff, !others_In in Hi. apply in_app_iff. tauto. }
      rewrite (tr_o _ _ _ _ _ _ _ _ _ _ _ _ _ _ _ TR).
      * rewrite (ct_out _ _ _ _ _ _ CT) by (auto; lia). auto.
      * rewrite NG. auto.
      * intros Hi. auto.
    + intros l l' Hl. rewrite app_assoc, in_app_iff in Hl.
      assert (HA' : In l (all_legs h (ta :: tb :: rest)) /\ In l (free_legs h6 [ntens h] ++ all_legs h6 rest)).
      { destruct Hl as [Hl|Hl].
        - split; [apply LALL; auto|]. apply in_app_iff. left. eapply Permutation_in; [exact HP|exact Hl].
        - unfold all_legs in Hl. apply in_flat_map in Hl. destruct Hl as (t & Ht & Hl). destruct (RT t Ht) as (T1 & T2 & T3).
          split; [unfold all_legs; apply in_flat_map; exists t; split; [simpl; auto|now rewrite (ns_legs_of _ _ NS)]|].
          apply in_app_iff. right. unfold all_legs. apply in_flat_map. exists t. split; auto. unfold legs_of.
          rewrite (ct_tens _ _ _ _ _ _ CT) by auto. change (In l (legs_of h t)). now rewrite (ns_legs_of _ _ NS). }
      destruct HA' as [H1 H2]. rewrite (rp_linked h6 h' [ntens h] _ rest WO6 RP) by auto. rewrite SLK by auto. apply (ns_linked _ _ NS).
    + exact WF.
    + rewrite FR, FR6, (ns_free _ _ NS). reflexivity.
  - intros SE HV a Ha. assert (DS : exists sA, t_arr (tens h' s) = Some sA).
    { destruct (wt_arr_diag h' s) as (sA & E & _); [apply (tr_ws _ _ _ _ _ _ _ _ _ _ _ _ _ _ _ TR)|apply FK|apply FD| |eauto].
      rewrite (tr_s _ _ _ _ _ _ _ _ _ _ _ _ _ _ _ TR). discriminate. }
    destruct DS as (sA & EA).
    rewrite RV.
    + rewrite <- (ns_netval _ _ NS). apply (step_value h h6 ta tb (ntens h) L rest (wo_net _ _ WO) CT (Permutation_refl _)); auto.
      rewrite (ns_free _ _ NS). now apply (ns_inb _ _ NS).
    + intros b Hb. rewrite (tr_value _ _ _ _ _ _ _ _ _ _ _ _ _ _ _ [ntens h] rest TR WO6 HP NL6 sA b); [|apply FD|exact EA].
      rewrite netval_single. rewrite free_single, EL in Hb.
      assert (B5 : in_bounds h L b).
      { intros l Hl. specialize (Hb l Hl). unfold dim_of in *. now rewrite (ct_in _ _ _ _ _ _ CT l Hl) in Hb. }
      assert (B0 : in_bounds h0 (La ++ Lb) b) by (intros l Hl; rewrite <- (ns_dim _ _ NS); auto).
      rewrite V6 by auto. rewrite (ns_einsum _ _ NS). rewrite <- HV by auto.
      assert (OLD : forall l x, In l (La ++ Lb) -> nleg h0 <= x -> forall i, upd b x i l = b l).
      { intros l x Hl Hx i. apply upd_other. apply INL, LALL, NAL in Hl. lia. }
      assert (MA : forall x i, nleg h0 <= x -> map (upd b x i) La = map b La).
      { intros x i Hx. apply map_ext_in. intros l Hl. apply OLD; auto. apply in_app_iff; auto. }
      assert (MB : forall x i, nleg h0 <= x -> map (upd b x i) Lb = map b Lb).
      { intros x i Hx. apply map_ext_in. intros l Hl. apply OLD; auto. apply in_app_iff; auto. }
      apply sumN_ext. intros i Hi. f_equal; [|f_equal].
      * rewrite (se_u _ _ _ _ _ _ _ _ _ _ _ _ _ _ SE).
        -- rewrite MA by lia. now rewrite upd_same.
        -- intros l Hl. rewrite OLD by (try lia; apply in_app_iff; auto). apply B0, in_app_iff; auto.
        -- now rewrite upd_same.
      * pose proof (se_s _ _ _ _ _ _ _ _ _ _ _ _ _ _ SE (fun _ => i) Hi Hi) as Q. cbv beta in Q. rewrite Nat.eqb_refl in Q. rewrite <- Q.
        symmetry. apply entry_diag_all; auto; [apply FD|]. rewrite (tr_s _ _ _ _ _ _ _ _ _ _ _ _ _ _ _ TR). discriminate.
      * rewrite (se_v _ _ _ _ _ _ _ _ _ _ _ _ _ _ SE).
        -- rewrite MB by lia. now rewrite upd_same.
        -- intros l Hl. rewrite OLD by (try lia; apply in_app_iff; auto). apply B0, in_app_iff; auto.
        -- now rewrite upd_same.
    + intros l Hl. assert (In l (free_legs h0 (ta :: tb :: rest))) as Hf by (rewrite <- (ns_free _ _ NS); eapply Permutation_in; [exact FR6|exact Hl]).
      assert (l < nleg h) as Hlt by (rewrite NG5; apply (free_alloc h0 _ l WO0 Hf)). destruct (SL l Hlt) as (_ & -> & _). rewrite (ns_dim _ _ NS). now apply Ha.
Qed.
End Assemble.

(** ** SchimdtDecomposition, three tensors *)
Theorem schimdt_usv (h : heap) ta tb rest la lb P swA swB : wf_open h (ta :: tb :: rest) ->
  t_like (tens h ta) = false -> t_like (tens h tb) = false -> t_diag (tens h ta) = false -> t_diag (tens h tb) = false ->
  shared h ta tb = (la, lb) :: P -> separable h ta tb swA swB ->
  let La := sideA h ta tb swA swB in let Lb := sideB h ta tb swA swB in
  exists m, matrix_of h (einsum h ta tb) La Lb m /\
  forall chi, let r := prodn (map (dim_of h) La) in let c := prodn (map (dim_of h) Lb) in
    let k := kept lib m r c chi in svd_shape lib m r c ->
    ((chi < 0)%Z -> exists h', schimdt lib ta tb chi false swA swB h = (h', Err ValueError)) /\
    ((0 <= chi)%Z -> (0 <= k <= chi)%Z /\
     exists h' u s v x0 x1 x2 x3, schimdt lib ta tb chi false swA swB h = (h', Ok (u, Some s, v)) /\
      split_triple h h' ta tb rest La Lb u s v x0 x1 x2 x3 (Z.to_nat k) (l_name (legs h la)) (l_name (legs h lb)) /\
      svd_entries lib m h h' La Lb u s v x0 x1 x2 x3 (Z.to_nat k) /\
      (svd_reproduces lib m r c -> lossless lib m (Z.to_nat k) ->
       forall a, in_bounds h (free_legs h (ta :: tb :: rest)) a -> netval h' (u :: s :: v :: rest) a = netval h (ta :: tb :: rest) a)).
Proof.
  intros WO KA KB DA DB SH SB La Lb. pose proof (open_pair _ _ _ _ WO) as WP.
  destruct (shareBonds_pair h ta tb WP) as (h1 & bs & ES & OB & B0 & B1 & EN).
  pose proof (ns_ob _ _ OB) as NS1. pose proof (ns_wf_pair _ _ NS1 _ _ WP) as WP1.
  rewrite SH in B0, B1, EN. destruct bs as [|b bs]; [discriminate|]. cbn [map fst snd] in B0, B1. injection B0 as B0 _. injection B1 as B1 _.
  assert (IN : In (la, lb) (shared h ta tb)) by (rewrite SH; simpl; auto). unfold shared in IN. apply pairs_In in IN. destruct IN as (IA & IB & _).
  assert (SD : sideLeg h1 b ta = Ok la /\ sideLeg h1 b tb = Ok lb).
  { unfold sideLeg, tlegs. rewrite B0, B1, (ob_tens _ _ OB).
    change (t_legs (tens h ta)) with (legs_of h ta). change (t_legs (tens h tb)) with (legs_of h tb).
    assert (inb la (legs_of h ta) = true) as -> by now apply inb_true.
    assert (inb la (legs_of h tb) = false) as -> by (apply inb_false; now apply (wp_disj h ta tb la WP)).
    assert (inb lb (legs_of h tb) = true) as -> by now apply inb_true. auto. }
  destruct SD as [S1 S2].
  assert (OKA : labelsInTensor h1 ta swA = true).
  { unfold labelsInTensor. apply forallb_forall. intros s Hs. apply inb_spec. destruct (sb_inA _ _ _ _ _ SB s Hs) as (l & Hl & E).
    unfold labels. apply in_map_iff. exists l. unfold legname, tlegs. rewrite (ob_legs _ _ OB), (ob_tens _ _ OB). auto. }
  assert (OKB : labelsInTensor h1 tb swB = true).
  { unfold labelsInTensor. apply forallb_forall. intros s Hs. apply inb_spec. destruct (sb_inB _ _ _ _ _ SB s Hs) as (l & Hl & E).
    unfold labels. apply in_map_iff. exists l. unfold legname, tlegs. rewrite (ob_legs _ _ OB), (ob_tens _ _ OB). auto. }
  assert (BE : forall l, base h1 l = base h l) by (intros; unfold base; now rewrite (ob_legs _ _ OB)).
  assert (CE : forall sw l, called h1 sw l = called h sw l) by (intros; unfold called; now rewrite (ob_legs _ _ OB)).
  destruct (tagging h1 ta tb swA swB WP1) as (h5 & EF & NS5 & TA & TB & TO).
  { rewrite !(ns_legs_of _ _ NS1), (ob_legs _ _ OB). apply SB. }
  { rewrite !(ns_legs_of _ _ NS1), (ob_legs _ _ OB). apply SB. }
  { rewrite !(ns_legs_of _ _ NS1), (ob_legs _ _ OB). apply SB. }
  rewrite (ns_legs_of _ _ NS1 ta) in TA, TO. rewrite (ns_legs_of _ _ NS1 tb) in TB, TO.
  set (d := prodn (map (fun b => legdim h1 (b0 (bonds h1 b))) (b :: bs))).
  assert (PRE : forall chi, schimdt lib ta tb chi false swA swB h = schTail3 ta tb chi d (l_name (legs h la)) (l_name (legs h lb)) false h5).
  { intros chi. rewrite (schimdt_prefix3 h h1 h5 ta tb b bs la lb false swA swB chi ES S1 S2); auto.
    - rewrite (ob_legs _ _ OB). reflexivity.
    - now rewrite (ob_tens _ _ OB).
    - now rewrite (ob_tens _ _ OB).
    - apply SB. }
  clearbody d.
  pose proof (ns_trans _ _ _ NS1 NS5) as NS. 
  set (g := fun l => if inb l (legs_of h ta) then negb (called h swA l) else called h swB l).
  assert (GA : forall l, In l (restA h ta tb) -> In l (legs_of h ta) /\ g l = negb (called h swA l)).
  { intros l Hl. unfold restA in Hl. apply others_In in Hl. destruct Hl as [Hl _]. split; auto. unfold g. now rewrite (proj2 (inb_true l _) Hl). }
  assert (GB : forall l, In l (restB h ta tb) -> In l (legs_of h tb) /\ g l = called h swB l).
  { intros l Hl. unfold restB in Hl. apply others_In in Hl. destruct Hl as [Hl _]. split; auto. unfold g.
    assert (inb l (legs_of h ta) = false) as ->; auto. apply inb_false. intros H. now apply (wp_disj h ta tb l WP) in H. }
  assert (FA : filter (fun l => Bool.eqb (g l) true) (restA h5 ta tb ++ restB h5 ta tb) = La).
  { rewrite (ns_restA _ _ NS), (ns_restB _ _ NS), filter_app. unfold La, sideA. f_equal; apply filter_ext_in; intros l Hl.
    - destruct (GA l Hl) as [_ ->]. now destruct (called h swA l).
    - destruct (GB l Hl) as [_ ->]. now destruct (called h swB l). }
  assert (FB : filter (fun l => Bool.eqb (g l) false) (restA h5 ta tb ++ restB h5 ta tb) = Lb).
  { rewrite (ns_restA _ _ NS), (ns_restB _ _ NS), filter_app. unfold Lb, sideB. f_equal; apply filter_ext_in; intros l Hl.
    - destruct (GA l Hl) as [_ ->]. now destruct (called h swA l).
    - destruct (GB l Hl) as [_ ->]. now destruct (called h swB l). }
  assert (NMS : forall l, In l (restA h ta tb ++ restB h ta tb) -> l_name (legs h l) = NStr (base h l)).
  { intros l Hl. assert (In l (legs_of h ta ++ legs_of h tb)) as H.
    { rewrite in_app_iff in *. destruct Hl as [Hl|Hl]; [apply GA in Hl|apply GB in Hl]; tauto. }
    destruct (sb_plain _ _ _ _ _ SB l H) as (s & E & _). unfold base. now rewrite E. }
  assert (LS : forall l, In l (restA h ta tb ++ restB h ta tb) -> In l La /\ g l = true \/ In l Lb /\ g l = false).
  { intros l Hl. rewrite <- FA, <- FB, !filter_In, (ns_restA _ _ NS), (ns_restB _ _ NS). destruct (g l); simpl; auto. }
  assert (HN : forall l, In l (restA h5 ta tb ++ restB h5 ta tb) -> l_name (legs h5 l) = NStr (letter (g l) ++ base h l)).
  { rewrite (ns_restA _ _ NS), (ns_restB _ _ NS). intros l Hl. apply in_app_iff in Hl. destruct Hl as [Hl|Hl].
    - destruct (GA l Hl) as [H ->]. rewrite TA, CE, BE by auto. reflexivity.
    - destruct (GB l Hl) as [H ->]. rewrite TB, CE, BE by auto. reflexivity. }
  assert (HI : forall l l', In l (restA h5 ta tb ++ restB h5 ta tb) -> In l' (restA h5 ta tb ++ restB h5 ta tb) -> g l = g l' -> base h l = base h l' -> l = l').
  { rewrite (ns_restA _ _ NS), (ns_restB _ _ NS). intros l l' H1 H2 EG EB. assert (l_name (legs h l) = l_name (legs h l')) as EN' by (rewrite !NMS by auto; congruence).
    destruct (LS l H1) as [[I1 G1]|[I1 G1]], (LS l' H2) as [[I2 G2]|[I2 G2]]; try congruence.
    - apply (nodup_map_inj _ La _ _ (proj1 (sb_sideA _ _ _ _ _ SB))); auto.
    - apply (nodup_map_inj _ Lb _ _ (proj1 (sb_sideB _ _ _ _ _ SB))); auto. }
  assert (TF : forall t, t_like (tens h5 t) = t_like (tens h t) /\ t_diag (tens h5 t) = t_diag (tens h t)) by (intros; rewrite (ns_tens _ _ NS); auto).
  destruct (core_dense3 h5 ta tb g (base h) (ns_wf_pair _ _ NS _ _ WP)) as (m & MO & CD); auto.
  { rewrite FA. apply SB. } { rewrite FB. apply SB. }
  { destruct (TF ta). congruence. } { destruct (TF tb). congruence. } { destruct (TF ta). congruence. } { destruct (TF tb). congruence. }
  rewrite FA, FB in MO, CD. rewrite !(ns_dims _ _ NS) in CD.
  exists m. split.
  { destruct MO as [M1 M2 M3]. rewrite !(ns_dims _ _ NS) in *. constructor; auto. intros s Hs. rewrite M3 by now apply (ns_inb _ _ NS). apply (ns_einsum _ _ NS). }
  intros chi r c k SS. destruct (CD chi d (l_name (legs h la)) (l_name (legs h lb)) SS) as [C1 C2]. fold r c k in C1, C2. rewrite PRE. split.
  - intros Hc. apply C1. unfold k, kept. lia.
  - intros Hc. assert (K : (0 <= k <= chi)%Z) by (unfold k, kept; lia). split; auto.
    destruct C2 as (h' & ET & CR & SE); [lia|].
    set (u := S (ntens h5)) in *. set (s := S u) in *. set (v := S s) in *. set (x0 := nleg h5) in *. set (x1 := S x0) in *. set (x2 := S x1) in *. set (x3 := S x2) in *.
    assert (SE0 : svd_entries lib m h h' La Lb u s v x0 x1 x2 x3 (Z.to_nat k)).
    { destruct SE as [Q1 Q2 Q3]. rewrite (ns_dims _ _ NS) in Q1, Q3. constructor; auto; intros a Ha; [apply Q1|apply Q3]; now apply (ns_inb _ _ NS). }
    destruct (assemble3 h h5 h' ta tb rest g (base h) (Z.to_nat k) (l_name (legs h la)) (l_name (legs h lb)) u s v x0 x1 x2 x3 m WO NS) as [SP VL]; auto.
    + intros l Hl. rewrite TO; [now rewrite (ob_legs _ _ OB)|]. intros Hi. exact (rest_apart h ta tb rest l WO Hi Hl).
    + rewrite (ns_restA _ _ NS), (ns_restB _ _ NS). auto.
    + rewrite (ns_restA _ _ NS), (ns_restB _ _ NS). intros l l' H1 H2. rewrite (ns_linked _ _ NS). now apply (sb_apart _ _ _ _ _ SB).
    + rewrite FA, FB in SP, VL. exists h', u, s, v, x0, x1, x2, x3. split; [exact ET|]. split; [exact SP|]. split; [exact SE0|].
      intros SX LSS a Ha. apply VL; auto. intros b' Hb. rewrite (cut3 m r c (Z.to_nat k)); auto.
      * destruct MO as [_ _ M3]. rewrite !(ns_dims _ _ NS) in M3. rewrite M3 by now apply (ns_inb _ _ NS). apply (ns_einsum _ _ NS).
      * unfold k, kept. lia.
      * apply ravel_lt, inrange_map. intros l Hl. apply Hb, in_app_iff; auto.
      * apply ravel_lt, inrange_map. intros l Hl. apply Hb, in_app_iff; auto.
Qed.
End Sm.
