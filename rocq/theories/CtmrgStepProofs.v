(** Proofs about tensorSVDDecomposition and the steps of CTMRG. *)
From Coq Require Import List Arith Bool String Lia Permutation.
From Verif Require Import Base Sums NdModel NdProofs HeapModel FuncsModel TensorModel TensorSpec TensorProofs MatrixProofs LabelProofs CtorProofs DiagCtorProofs CopyProofs ContractModel SvdModel SvdSpec SvdProofs CanonModel
  SearchSpec NetSpec FtnModel FtnNetSpec FtnProofs FtnFrameProofs FtnMainProofs NamedSpec NetsSpec NamedProofs NetsModel NetsProofs NamedMatProofs TorusProofs TrgModel TrgSpec TrgProofs DiagNetSpec NamedDiagProofs CtmrgNetProofs CtmrgTensProofs CtmrgModel CtmrgSpec.
Import ListNotations.
Local Open Scope nat_scope.
Local Open Scope string_scope.
Local Open Scope list_scope.

Section Cut.
Context {A B : Type} {HA : SR A}.
Variable num : numerics A B.
Notation lib := (nu_lib num).
Lemma svdCut_ok m r c chi order : svd_shape lib m r c -> ashape m = [r; c] -> let k := Nat.min chi (Nat.min r c) in
  exists u s v, svdCut num m chi order = Ok (u, s, v, cut_error num m (Nat.min r c) chi order) /\ wfa u /\ ashape u = [r; k] /\ wfa s /\ ashape s = [k] /\ wfa v /\ ashape v = [k; c] /\
    (forall i z, i < r -> z < k -> aget u [i; z] = aget (svd_u lib m) [i; z]) /\ (forall z, z < k -> aget s [z] = aget (svd_s lib m) [z]) /\ (forall z j, z < k -> j < c -> aget v [z; j] = aget (svd_v lib m) [z; j]).
Proof.
  intros SS Sm k. pose proof SS as [_ (Ws & Es) _].
  assert (LS : List.length (adata (svd_s lib m)) = Nat.min r c) by (rewrite Ws, Es; cbn; lia).
  assert (HK : k <= Nat.min r c) by (unfold k; lia).
  destruct (firstCols_spec lib m r c k SS HK) as (Wu & Su & Gu). destruct (firstRows_spec lib m r c k SS HK) as (Wv & Sv & Gv). destruct (firstEntries_spec lib m r c k SS HK) as (We & Se & Ge).
  unfold svdCut. rewrite Sm.
  replace (np_svd lib m) with (svd_u lib m, svd_s lib m, svd_v lib m) by (unfold svd_u, svd_s, svd_v; now destruct (np_svd lib m) as ((? & ?) & ?)).
  rewrite LS. fold k. eexists _, _, _. split; [|split; [exact Wu|split; [exact Su|split; [exact We|split; [exact Se|split; [exact Wv|split; [exact Sv|split; [|split]]]]]]]].
  - f_equal. f_equal. unfold cut_error. destruct (Nat.leb _ chi); auto. f_equal.
    + rewrite sumL_skip, LS. apply sumN_ext. intros i _. rewrite np_pow_pow. f_equal. symmetry. apply (aget1 _ (Nat.min r c)); auto.
    + change (adata (svd_s lib m)) with (skipn 0 (adata (svd_s lib m))) at 1. rewrite sumL_skip, LS, Nat.sub_0_r. apply sumN_ext. intros i _. rewrite np_pow_pow. f_equal. symmetry. apply (aget1 _ (Nat.min r c)); auto.
  - intros i z Hi Hz. now apply Gu.
  - intros z Hz. now apply Ge.
  - intros z j Hz Hj. now apply Gv.
Qed.
Lemma mat2_get r c (f : nat -> nat -> A) i j : i < r -> j < c -> aget (mat2 r c f) [i; j] = f i j.
Proof. intros Hi Hj. unfold mat2. rewrite aget_tab by (constructor; [exact Hi|constructor; [exact Hj|constructor]]). reflexivity. Qed.
Lemma mat2_unique (m : arr A) r c f : wfa m -> ashape m = [r; c] -> (forall i j, i < r -> j < c -> aget m [i; j] = f i j) -> m = mat2 r c f.
Proof.
  intros W S E. apply arr_ext; auto; [apply tab_wfa|]. rewrite S. intros idx I. inversion I as [|i ? idx' ? Hi I']; subst. inversion I' as [|j ? ? ? Hj I'']; subst. inversion I''; subst.
  rewrite E by auto. now rewrite mat2_get.
Qed.
Lemma mat2_ext r c (f g : nat -> nat -> A) : (forall i j, i < r -> j < c -> f i j = g i j) -> mat2 r c f = mat2 r c g.
Proof. intros E. apply mat2_unique; [apply tab_wfa|reflexivity|]. intros i j Hi Hj. rewrite mat2_get by auto. auto. Qed.
End Cut.

Section Svd.
Context {A B : Type} {HA : SR A}.
Notation heap := (heap A).
Notation world := (world A).
Variable num : numerics A B.
Notation lib := (nu_lib num).

Lemma tsvd_ok (w w' : world) a R C inner chi order u s v e : tensorSVDDecomposition num a (Some (map fst R)) (Some (map fst C)) inner chi order w = (w', Ok (u, s, v, e)) ->
  dense_legs (w_heap w) a (R ++ C) -> NoDup (map fst (R ++ C)) -> R <> [] -> C <> [] ->
  let rn := svd_name (map fst R) in let cn := svd_name (map fst C) in let rl := fst (svd_inner inner (map fst R) (map fst C)) in let cl := snd (svd_inner inner (map fst R) (map fst C)) in
  NoDup [rn; rl] -> NoDup [cl; cn] -> rn <> cn ->
  exists m, toMatrix (w_heap w) a (Some (map RStr (map fst R))) (Some (map RStr (map fst C))) = Ok m /\ wfa m /\ ashape m = [prodn (map snd R); prodn (map snd C)] /\
    (forall is js, inrange (map snd R) is -> inrange (map snd C) js ->
      aget m [ravel (map snd R) is; ravel (map snd C) js] = at_ (w_heap w) a (combine (map fst (R ++ C)) (is ++ js))) /\
    (svd_shape lib m (prodn (map snd R)) (prodn (map snd C)) ->
      let k := Nat.min chi (Nat.min (prodn (map snd R)) (prodn (map snd C))) in
      svd_tensors lib (w_heap w') m (prodn (map snd R)) (prodn (map snd C)) k rn rl cl cn u s v /\ e = cut_error num m (Nat.min (prodn (map snd R)) (prodn (map snd C))) chi order /\
      w' = with_heap w (w_heap w') /\ grown (w_heap w) (w_heap w') /\ u = ntens (w_heap w) /\ s = S u /\ v = S s /\ ntens (w_heap w') = S v).
Proof.
  intros RUN DL ND NR NC rn cn rl cl N1 N2 N3. destruct (toMatrix_named (w_heap w) a R C DL ND NR NC) as (m & EM & Wm & Sm & Gm).
  exists m. split; [exact EM|]. split; [exact Wm|]. split; [exact Sm|]. split; [exact Gm|]. intros SS k.
  unfold tensorSVDDecomposition in RUN. apply wbind_inv in RUN. destruct RUN as (w1 & m1 & R1 & RUN). apply lift_inv in R1. destruct R1 as (h1 & R1 & ->). unfold readsR in R1. cbn [option_map] in R1. rewrite EM in R1. injection R1 as <- <-.
  apply wbind_inv in RUN. destruct RUN as (w1 & n1 & R1 & RUN). apply liftR_inv in R1. destruct R1 as (-> & R1). injection R1 as <-. apply wbind_inv in RUN. destruct RUN as (w1 & n2 & R1 & RUN). apply liftR_inv in R1. destruct R1 as (-> & R1). injection R1 as <-.
  change (match inner with Some p => p | None => _ end) with (svd_inner inner (map fst R) (map fst C)) in RUN. destruct (svd_inner inner (map fst R) (map fst C)) as (rl0, cl0) eqn:EI. cbn [fst snd] in rl, cl.
  destruct (svdCut_ok num m _ _ chi order SS Sm) as (mu & ms & mv & EC & W1 & S1 & W2 & S2 & W3 & S3 & G1 & G2 & G3). fold k in S1, S2, S3, G1, G2, G3.
  apply wbind_inv in RUN. destruct RUN as (w1 & p & R1 & RUN). apply liftR_inv in R1. destruct R1 as (-> & R1). rewrite EC in R1. injection R1 as <-. cbv iota in RUN.
  apply wbind_inv in RUN. destruct RUN as (w1 & t1 & R1 & RUN). apply lift_inv in R1. destruct R1 as (h1 & R1 & ->).
  apply wbind_inv in RUN. destruct RUN as (w1 & t2 & R2 & RUN). apply lift_inv in R2. destruct R2 as (h2 & R2 & ->).
  apply wbind_inv in RUN. destruct RUN as (w1 & t3 & R3 & RUN). apply lift_inv in R3. destruct R3 as (h3 & R3 & ->). injection RUN as <- <- <- <- <-. cbn [with_heap w_heap w_names w_nnames w_ftn w_nftn] in *.
  destruct (new_data _ [rn; rl] _ _ _ W1 R1 N1) as (NT1 & D1 & E1). rewrite S1 in D1, E1. cbn [combine] in D1.
  destruct (new_diag _ _ _ rn cn _ k R2 W2 S2 N3) as (NT2 & D2 & E2).
  destruct (new_data _ [cl; cn] _ _ _ W3 R3 N2) as (NT3 & D3 & E3). rewrite S3 in D3, E3. cbn [combine] in D3.
  pose proof (new_grown _ _ _ NT1) as GR1. pose proof (new_grown _ _ _ NT2) as GR2. pose proof (new_grown _ _ _ NT3) as GR3.
  destruct (grown_as false _ _ _ _ (grown_trans _ _ _ GR2 GR3) D1) as (D1' & X1 & _). destruct (grown_as true _ _ _ _ GR3 D2) as (D2' & X2 & _).
  split; [split; auto|].
  - intros i z Hi Hz. rewrite X1. rewrite <- G1 by assumption. apply (E1 [i; z]). constructor; [assumption|constructor; [assumption|constructor]].
  - intros z Hz. rewrite X2, E2. auto.
  - intros z j Hz Hj. rewrite <- G3 by assumption. apply (E3 [z; j]). constructor; [assumption|constructor; [assumption|constructor]].
  - split; [reflexivity|]. split; [reflexivity|]. split; [eapply grown_trans; [exact GR1|eapply grown_trans; eauto]|].
    pose proof (nt_id _ _ _ _ NT1). pose proof (nt_id _ _ _ _ NT2). pose proof (nt_id _ _ _ _ NT3). pose proof (nt_ntens _ _ _ _ NT1). pose proof (nt_ntens _ _ _ _ NT2). pose proof (nt_ntens _ _ _ _ NT3). cbn [with_heap w_heap] in *. repeat split; lia.
Qed.
Lemma tsvd_none (w : world) a inner chi order rows cols m : (rows = None \/ cols = None) -> toMatrix (w_heap w) a (option_map (map RStr) rows) (option_map (map RStr) cols) = Ok m ->
  snd (tensorSVDDecomposition num a rows cols inner chi order w) = Err TypeError.
Proof.
  intros E M. unfold tensorSVDDecomposition, wbind at 1, lift at 1, readsR at 1. rewrite M. destruct rows as [l|]; [|reflexivity]. destruct cols as [l'|]; [|reflexivity]. destruct E; discriminate.
Qed.
End Svd.

Section Nets.
Context {A : Type} {HA : SR A}.
Notation world := (world A).
Variable symdiff : list nat -> list nat -> list nat.
Variable fuel : nat.
Lemma is_net_for_same (w w' : world) f N pat : is_net_for w f N pat -> w_ftn w' f = w_ftn w f -> (forall n, n < w_nnames w \/ n = f_names (w_ftn w f) -> w_names w' n = w_names w n) -> f < w_nftn w' -> is_net_for w' f N pat.
Proof. intros [I S] E1 E2 E3. split; [exact (is_net_same A w w' f N I E1 E2 E3)|rewrite E1; exact S]. Qed.
Lemma ready_same (w w' : world) fs : cnets_ready w fs -> w_ftn w' = w_ftn w -> w_names w' = w_names w -> w_nftn w' = w_nftn w -> cnets_ready w' fs.
Proof.
  intros [a b c d e f g N] E1 E2 E3. assert (G : forall x X, is_net w x X -> is_net w' x X) by (intros x X I; eapply is_net_same; [exact I|now rewrite E1|intros; now rewrite E2|rewrite E3; apply I]).
  assert (G' : forall x X p, is_net_for w x X p -> is_net_for w' x X p) by (intros x X p I; eapply is_net_for_same; [exact I|now rewrite E1|intros; now rewrite E2|rewrite E3; apply (fp_is _ _ _ _ _ _ _ I)]).
  split; auto.
Qed.
Lemma ready_heap (w : world) fs h : cnets_ready w fs -> cnets_ready (with_heap w h) fs.
Proof. intros N. eapply ready_same; eauto. Qed.
Lemma ready_contract (w w' : world) fs f d b r : cnets_ready w fs -> contract symdiff fuel f d b w = (w', r) ->
  (f = c_hExt fs -> is_net w' f hEdge_extend_net) -> (f = c_vExt fs -> is_net w' f vEdge_extend_net) -> (f = c_cExt fs -> is_net_for w' f corner_extend_net corner_diag) ->
  (f = c_vBuild fs -> is_net w' f vEdge_build_net) -> (f = c_hBuild fs -> is_net w' f hEdge_build_net) -> (f = c_even fs -> is_net_for w' f evenZ_net corner_diag) -> (f = c_odd fs -> is_net_for w' f oddZ_net corner_diag) ->
  cnets_ready w' fs.
Proof.
  intros [a1 a2 a3 a4 a5 a6 a7 N] R I1 I2 I3 I4 I5 I6 I7. destruct (contract_kept symdiff fuel f d b w) as (K1 & K2 & K3 & K4 & _). rewrite R in K1, K2, K3, K4. cbn [fst] in K1, K2, K3, K4.
  assert (G : forall x X, is_net w x X -> (f = x -> is_net w' x X) -> is_net w' x X).
  { intros x X I F. destruct (Nat.eq_dec f x) as [E|NE]; [now apply F|]. pose proof (is_net_other A HA symdiff fuel w x f d b X I NE) as K. now rewrite R in K. }
  assert (G' : forall x X p, is_net_for w x X p -> (f = x -> is_net_for w' x X p) -> is_net_for w' x X p).
  { intros x X p I F. destruct (Nat.eq_dec f x) as [E|NE]; [now apply F|]. eapply is_net_for_same; [exact I|auto| |].
    - now rewrite K1.
    - rewrite K3. apply (fp_is _ _ _ _ _ _ _ I). }
  split; auto; (apply G || apply G'); auto; intros E; subst f; auto.
Qed.
End Nets.
Ltac not_mine := let E := fresh "E" in intros E; exfalso; match goal with ND : NoDup [_; _; _; _; _; _; _] |- _ => revert ND; rewrite E; let ND' := fresh in intros ND'; repeat (apply NoDup_cons_iff in ND'; let X := fresh in destruct ND' as [X ND']; cbn in X); tauto end.

Section Reduce.
Context {A B : Type} {HA : SR A}.
Notation heap := (heap A).
Notation world := (world A).
Variable symdiff : list nat -> list nat -> list nat.
Hypothesis Hsd : symdiff_ok symdiff.
Variable fuel : nat.
Variable num : numerics A B.
Notation lib := (nu_lib num).
Add Ring CSring : (@SR_theory A HA).
Lemma reduce_ok (w w' : world) chi fs corner hEdge vEdge P Q H V s h v e : reduceDimension symdiff fuel num chi fs corner hEdge vEdge w = (w', Ok (s, h, v, e)) -> cnets_ready w fs ->
  dense_legs (w_heap w) corner [("u", P); ("r", Q)] -> dense_legs (w_heap w) hEdge [("l", Q); ("r", Q); ("u", V)] -> dense_legs (w_heap w) vEdge [("u", P); ("d", P); ("r", H)] ->
  let m := mat2 P Q (fun p q => at_ (w_heap w) corner [("u", p); ("r", q)]) in svd_shape lib m P Q -> let k := Nat.min chi (Nat.min P Q) in
  cnets_ready w' fs /\ grown (w_heap w) (w_heap w') /\ env_tensors (w_heap w') s h v H V k /\ e = cut_error num m (Nat.min P Q) chi 4 /\
  ntens (w_heap w) <= s < ntens (w_heap w') /\ ntens (w_heap w) <= h < ntens (w_heap w') /\ ntens (w_heap w) <= v < ntens (w_heap w') /\ NoDup [s; h; v] /\
  (forall z, z < k -> at_ (w_heap w') s [("u", z); ("r", z)] = aget (svd_s lib m) [z]) /\
  (forall y z u, y < k -> z < k -> u < V -> at_ (w_heap w') h [("l", y); ("r", z); ("u", u)] =
    sumN Q (fun p => sumN Q (fun q => aget (svd_v lib m) [y; p] * aget (svd_v lib m) [z; q] * at_ (w_heap w) hEdge [("l", p); ("r", q); ("u", u)]))%sr) /\
  (forall y z r, y < k -> z < k -> r < H -> at_ (w_heap w') v [("u", y); ("d", z); ("r", r)] =
    sumN P (fun p => sumN P (fun q => aget (svd_u lib m) [p; y] * aget (svd_u lib m) [q; z] * at_ (w_heap w) vEdge [("u", p); ("d", q); ("r", r)]))%sr).
Proof.
  intros R NR DC DH DV m SS k. unfold reduceDimension in R. apply wbind_inv in R. destruct R as (w1 & (((u, s0), v0), e0) & R1 & R). cbv iota in R.
  destruct (tsvd_ok num w w1 corner [("u", P)] [("r", Q)] (Some ("d", "l")) chi 4 u s0 v0 e0 R1 DC ltac:(now apply nodupb_ok) ltac:(discriminate) ltac:(discriminate) ltac:(now apply nodupb_ok) ltac:(now apply nodupb_ok) ltac:(discriminate))
    as (m' & _ & Wm & Sm & Gm & TS).
  assert (Em : m' = m).
  { cbn [map snd prodn fold_right] in Sm, Gm. rewrite !Nat.mul_1_r in Sm. apply mat2_unique; auto. intros i j Hi Hj. specialize (Gm [i] [j]). cbn [ravel prodn fold_right] in Gm. rewrite !Nat.mul_1_r, !Nat.add_0_r in Gm. apply Gm; (constructor; [assumption|constructor]). }
  subst m'. cbn [map snd prodn fold_right] in TS. rewrite !Nat.mul_1_r in TS. specialize (TS SS). destruct TS as ([D1 D2 D3 E1 E2 E3] & Ee & Ew & G1 & I1 & I2 & I3 & I4). fold k in D1, D2, D3, E1, E2, E3.
  cbn [map fst svd_inner svd_name String.concat snd] in D1, D2, D3, E1, E2, E3.
  assert (NR1 : cnets_ready w1 fs) by (rewrite Ew; now apply ready_heap).
  apply wbind_inv in R. destruct R as (w2 & au & R2 & R). apply lift_inv in R2. destruct R2 as (h2 & R2 & ->). destruct (copy_as false _ _ _ D1 ltac:(discriminate)) as (h2' & au' & R2' & NTa & Da & Ea). rewrite R2' in R2. injection R2 as -> ->.
  pose proof (new_grown _ _ _ NTa) as Ga. destruct (grown_as false _ _ _ _ Ga D1) as (D1a & E1a & _). destruct (grown_as false _ _ _ _ Ga D3) as (D3a & E3a & _).
  apply wbind_inv in R. destruct R as (w3 & ad & R3 & R). apply lift_inv in R3. destruct R3 as (h3 & R3 & ->). cbn [with_heap w_heap w_names w_nnames w_ftn w_nftn] in R3, R. destruct (copy_as false _ _ _ D1a ltac:(discriminate)) as (h3' & ad' & R3' & NTb & Db & Eb). rewrite R3' in R3. injection R3 as -> ->.
  pose proof (new_grown _ _ _ NTb) as Gb. destruct (grown_as false _ _ _ _ Gb D3a) as (D3b & E3b & _).
  apply wbind_inv in R. destruct R as (w4 & al & R4 & R). apply lift_inv in R4. destruct R4 as (h4 & R4 & ->). cbn [with_heap w_heap w_names w_nnames w_ftn w_nftn] in R4, R. destruct (copy_as false _ _ _ D3b ltac:(discriminate)) as (h4' & al' & R4' & NTc & Dc & Ec). rewrite R4' in R4. injection R4 as -> ->.
  pose proof (new_grown _ _ _ NTc) as Gc. destruct (grown_as false _ _ _ _ Gc D3b) as (D3c & E3c & _).
  apply wbind_inv in R. destruct R as (w5 & ar & R5 & R). apply lift_inv in R5. destruct R5 as (h5 & R5 & ->). cbn [with_heap w_heap w_names w_nnames w_ftn w_nftn] in R5, R. destruct (copy_as false _ _ _ D3c ltac:(discriminate)) as (h5' & ar' & R5' & NTd & Dd & Ed). rewrite R5' in R5. injection R5 as -> ->.
  pose proof (new_grown _ _ _ NTd) as Gd.
  pose proof (grown_trans _ _ _ Gc Gd) as Gcd. pose proof (grown_trans _ _ _ Gb Gcd) as Gbd. pose proof (grown_trans _ _ _ Ga Gbd) as Gad. pose proof (grown_trans _ _ _ G1 Gad) as G5.
  destruct (grown_as false _ _ _ _ Gbd Da) as (Da5 & Ea5 & _). destruct (grown_as false _ _ _ _ Gcd Db) as (Db5 & Eb5 & _). destruct (grown_as false _ _ _ _ Gd Dc) as (Dc5 & Ec5 & _).
  destruct (grown_as false _ _ _ _ G5 DV) as (DV5 & EV5 & _). destruct (grown_as false _ _ _ _ G5 DH) as (DH5 & EH5 & _). destruct (grown_as true _ _ _ _ Gad D2) as (D25 & E25 & _).
  set (w5 := with_heap w1 h5). match type of R with contract _ _ _ _ _ ?W = _ => idtac | wbind _ _ ?W = _ => change W with w5 in R end.
  assert (NR5 : cnets_ready w5 fs) by (now apply ready_heap).
  apply wbind_inv in R. destruct R as (w6 & nv & R6 & R). change h5 with (w_heap w5) in Da5, Db5, Dc5, DV5, DH5, D25.
  destruct (vEdge_build_value symdiff Hsd fuel w5 _ w6 nv au ad vEdge P P k k H R6 (cr_vBuild _ _ NR5) Da5 Db5 DV5) as (D6 & IN6 & EV6).
  assert (NR6 : cnets_ready w6 fs) by (pose proof (cr_nd _ _ NR5); eapply ready_contract; [exact NR5|exact R6|..]; try not_mine; intros _; exact IN6).
  pose proof (contract_grown _ _ _ _ _ _ _ _ R6) as G6. pose proof (contract_frame _ _ _ _ _ _ _ _ R6) as (_ & _ & _ & (T6 & _)).
  apply wbind_inv in R. destruct R as (w7 & nh & R7 & R).
  destruct (grown_as false _ _ _ _ G6 Dc5) as (Dc6 & Ec6 & _). destruct (grown_as false _ _ _ _ G6 Dd) as (Dd6 & Ed6 & _). destruct (grown_as false _ _ _ _ G6 DH5) as (DH6 & EH6 & _). destruct (grown_as true _ _ _ _ G6 D25) as (D26 & E26 & _).
  destruct (hEdge_build_value symdiff Hsd fuel w6 _ w7 nh al ar hEdge Q Q k k V R7 (cr_hBuild _ _ NR6) Dc6 Dd6 DH6) as (D7 & IN7 & EV7).
  assert (NR7 : cnets_ready w7 fs) by (pose proof (cr_nd _ _ NR6); eapply ready_contract; [exact NR6|exact R7|..]; try not_mine; intros _; exact IN7).
  pose proof (contract_grown _ _ _ _ _ _ _ _ R7) as G7. pose proof (contract_frame _ _ _ _ _ _ _ _ R7) as (_ & _ & _ & (T7 & _)).
  destruct (grown_as false _ _ _ _ G7 D6) as (D67 & E67 & _). destruct (grown_as true _ _ _ _ G7 D26) as (D27 & E27 & _).
  apply wbind_inv in R. destruct R as (w8 & hc & R8 & R). apply lift_inv in R8. destruct R8 as (h8 & R8 & ->). destruct (copy_as false _ _ _ D7 ltac:(discriminate)) as (hX & hcX & R8' & NT8 & D8 & E8). rewrite R8' in R8. injection R8 as -> ->.
  pose proof (new_grown _ _ _ NT8) as G8.
  apply wbind_inv in R. destruct R as (w9 & [] & R9 & R). apply lift_inv in R9. destruct R9 as (h9 & R9 & ->). cbn [with_heap w_heap w_names w_nnames w_ftn w_nftn] in R9, R. injection R as <- <- <- <- <-. cbn [with_heap w_heap].
  assert (PM : Permutation (names_of h8 hc) [NStr "u"; NStr "l"; NStr "r"]).
  { destruct D8 as (_ & HL8). apply (Permutation_map fst) in HL8. rewrite map_map in HL8. cbn [map fst] in HL8. replace (map fst (combine (names_of h8 hc) (dims_of h8 hc))) with (names_of h8 hc) in HL8.
    - etransitivity; [exact HL8|]. change [NStr "u"; NStr "l"; NStr "r"] with ([NStr "u"] ++ [NStr "l"; NStr "r"]). apply (Permutation_app_comm [NStr "l"; NStr "r"] [NStr "u"]).
    - symmetry. unfold names_of, dims_of. rewrite combine_map_same, map_map. reflexivity. }
  destruct (reArrange_ok h8 hc _ (proj1 (proj1 D8)) PM) as (hY & R9' & OT & _). rewrite R9' in R9. injection R9 as ->.
  assert (G9 : grown (w_heap w7) h9).
  { destruct G8 as [g1 g2 g3 g4], OT as [o1 o2 o3 o4 o5 o6 o7 o8]. pose proof (nt_id _ _ _ _ NT8) as I8. split.
    - intros l Hl. rewrite o1. auto.
    - intros t Ht. rewrite o3 by lia. auto.
    - lia.
    - lia. }
  destruct (grown_as false _ _ _ _ G9 D67) as (DvF & EvF & _). destruct (grown_as false _ _ _ _ G9 D7) as (DhF & EhF & _). destruct (grown_as true _ _ _ _ G9 D27) as (DsF & EsF & _).
  pose proof (grown_trans _ _ _ G6 (grown_trans _ _ _ G7 G9)) as G59. pose proof (grown_trans _ _ _ G5 G59) as GF.
  split; [apply (ready_heap w7 fs h9 NR7)|]. split; [exact GF|]. split; [split; assumption|]. split; [exact Ee|].
  pose proof (gr_ntens _ _ G1). pose proof (gr_ntens _ _ G5). pose proof (gr_ntens _ _ Gad). pose proof (gr_ntens _ _ G6). pose proof (gr_ntens _ _ G7). pose proof (gr_ntens _ _ G9). cbn [with_heap w_heap] in *. change (w_heap w5) with h5 in *.
  split; [lia|]. split; [lia|]. split; [lia|]. split; [repeat constructor; cbn; intuition lia|].
  split; [|split].
  - intros z Hz. rewrite EsF, E27, E26. cbn [w_heap w5]. rewrite E25. auto.
  - intros y z u0 Hy Hz Hu. rewrite EhF, EV7 by assumption. apply sumN_ext. intros p Hp. apply sumN_ext. intros q Hq. rewrite Ec6, Ed6, EH6. cbn [w_heap w5]. rewrite Ec5, Ec, Ed, EH5, E3c, !E3b, !E3a. rewrite !E3 by assumption. reflexivity.
  - intros y z r Hy Hz Hr. rewrite EvF, E67, EV6 by assumption. rewrite sumN_swap. apply sumN_ext. intros p Hp. apply sumN_ext. intros q Hq. cbn [w_heap w5]. rewrite Ea5, Ea, Eb5, Eb, EV5, !E1a. rewrite !E1 by assumption. reflexivity.
Qed.
End Reduce.
