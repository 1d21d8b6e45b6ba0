(** Proofs about the tensor renormalization group. *)
From Coq Require Import List Arith Bool String Lia Permutation.
From Verif Require Import Base Sums NdModel NdProofs HeapModel FuncsModel TensorModel TensorSpec TensorProofs MatrixProofs CtorProofs CopyProofs ContractModel SvdModel SvdSpec SvdProofs CanonModel
  SearchSpec NetSpec FtnModel FtnNetSpec FtnProofs FtnFrameProofs NamedSpec NetsSpec NamedProofs NetsModel NetsProofs NamedMatProofs TorusSpec TorusProofs TorusIsoProofs TrgModel TrgSpec.
Import ListNotations.
Local Open Scope nat_scope.
Local Open Scope string_scope.
Local Open Scope list_scope.

Section Dec.
Context {A B : Type} {HA : SR A}.
Variable num : numerics A B.
Notation lib := (nu_lib num).

Lemma np_pow_pow (x : A) n : np_pow x n = pow x n. Proof. induction n; cbn; congruence. Qed.
Lemma matmul_get (a b : arr A) n k m : ashape a = [n; k] -> ashape b = [k; m] ->
  exists c, np_matmul a b = Ok c /\ wfa c /\ ashape c = [n; m] /\ forall i j, i < n -> j < m -> aget c [i; j] = sumN k (fun x => rmul (aget a [i; x]) (aget b [x; j])).
Proof.
  intros Sa Sb. unfold np_matmul. rewrite Sa, Sb, Nat.eqb_refl. eexists. split; [reflexivity|]. split; [apply tab_wfa|]. split; [reflexivity|].
  intros i j Hi Hj. rewrite aget_tab by (repeat constructor; auto). reflexivity.
Qed.
Lemma diagm_get (s : arr A) k : wfa s -> ashape s = [k] -> ashape (np_diagm s) = [k; k] /\
  forall i j, i < k -> j < k -> aget (np_diagm s) [i; j] = if Nat.eqb i j then aget s [i] else r0.
Proof.
  intros W S. assert (E : List.length (adata s) = k) by (rewrite W, S; cbn; lia). unfold np_diagm. rewrite E. split; [reflexivity|]. intros i j Hi Hj. rewrite aget_tab; [reflexivity|]. constructor; [exact Hi|constructor; [exact Hj|constructor]].
Qed.
Lemma sumL_skip (l : list A) (f : A -> A) : forall c, sumL (skipn c l) f = sumN (List.length l - c) (fun i => f (nth (c + i) l r0)).
Proof.
  assert (Z : forall l : list A, sumL l f = sumN (List.length l) (fun i => f (nth i l r0))).
  { intros l0. unfold sumN. rewrite <- (sumL_map (fun i => nth i l0 r0) _ f). f_equal. symmetry. apply (map_seq_nth (fun i => nth i l0 r0) 0 l0 r0). intros k Hk. reflexivity. }
  assert (NS : forall (xs : list A) c i, nth i (skipn c xs) r0 = nth (c + i) xs r0).
  { induction xs as [|x xs IH]; intros [|c] i; cbn; auto. destruct i; auto. }
  intros c. rewrite Z, skipn_length. apply sumN_ext. intros i _. now rewrite NS.
Qed.
Lemma svd_spec m r c chi order : svd_shape lib m r c -> ashape m = [r; c] -> let k := Nat.min chi (Nat.min r c) in
  exists u v, SVDDecomposition num m chi order = Ok (u, v, cut_error num m (Nat.min r c) chi order) /\ wfa u /\ ashape u = [r; k] /\ wfa v /\ ashape v = [c; k] /\
    (forall i o, i < r -> o < k -> aget u [i; o] = half_u num m i o) /\ (forall j o, j < c -> o < k -> aget v [j; o] = half_v num m j o).
Proof.
  intros SS Sm k. pose proof SS as [_ (Ws & Es) _].
  assert (LS : List.length (adata (svd_s lib m)) = Nat.min r c) by (rewrite Ws, Es; cbn; lia).
  assert (HK : k <= Nat.min r c) by (unfold k; lia).
  destruct (firstCols_spec lib m r c k SS HK) as (Wu & Su & Gu). destruct (firstRows_spec lib m r c k SS HK) as (Wv & Sv & Gv). destruct (firstEntries_spec lib m r c k SS HK) as (We & Se & Ge).
  unfold SVDDecomposition, svdCut. rewrite Sm.
  replace (np_svd lib m) with (svd_u lib m, svd_s lib m, svd_v lib m) by (unfold svd_u, svd_s, svd_v; now destruct (np_svd lib m) as ((? & ?) & ?)).
  cbn [rbind]. rewrite LS. fold k.
  set (q := np_sqrts lib (firstEntries (svd_s lib m) k)).
  assert (Wq : wfa q) by (unfold wfa, q, np_sqrts; cbn; rewrite map_length; exact We). assert (Sq : ashape q = [k]) by exact Se.
  destruct (diagm_get q k Wq Sq) as (Sd & Gd).
  destruct (matmul_get (firstCols (svd_u lib m) k) (np_diagm q) r k k Su Sd) as (uR & E1 & W1 & S1 & G1). rewrite E1. cbn [rbind].
  destruct (matmul_get (np_diagm q) (firstRows (svd_v lib m) k) k k c Sd Sv) as (sv & E2 & W2 & S2 & G2). rewrite E2. cbn [rbind].
  unfold transposeConjugate. rewrite S2. cbn [rbind].
  assert (Gq : forall o, o < k -> aget q [o] = np_sqrt lib (aget (svd_s lib m) [o])) by (intros o Ho; unfold q; rewrite (sqrts_get lib _ k) by auto; now rewrite Ge).
  eexists _, _. split; [|split; [exact W1|split; [exact S1|split; [apply tab_wfa|split; [reflexivity|split]]]]].
  - f_equal. f_equal. unfold cut_error. destruct (Nat.leb _ chi); auto. f_equal.
    + rewrite sumL_skip, LS. apply sumN_ext. intros i _. rewrite np_pow_pow. f_equal. symmetry. apply (aget1 _ (Nat.min r c)); auto.
    + change (adata (svd_s lib m)) with (skipn 0 (adata (svd_s lib m))) at 1. rewrite sumL_skip, LS, Nat.sub_0_r. apply sumN_ext. intros i _. rewrite np_pow_pow. f_equal. symmetry. apply (aget1 _ (Nat.min r c)); auto.
  - intros i o Hi Ho. rewrite G1 by auto. rewrite (sumN_single k _ o) by (auto; intros x Hx NE; rewrite Gd by auto; apply Nat.eqb_neq in NE; rewrite NE, rmul_comm; apply rmul_0_l).
    rewrite Gd, Nat.eqb_refl, Gu, Gq by auto. reflexivity.
  - intros j o Hj Ho. rewrite aget_tab by (repeat constructor; auto). cbn [nth]. unfold half_v. f_equal. rewrite G2 by auto.
    rewrite (sumN_single k _ o) by (auto; intros x Hx NE; rewrite Gd by auto; apply not_eq_sym, Nat.eqb_neq in NE; rewrite NE; apply rmul_0_l).
    rewrite Gd, Nat.eqb_refl, Gv, Gq by auto. reflexivity.
Qed.
(** an exact decomposition without loss gives the matrix back, if the second factor is conjugated again *)
Lemma halves_product m r c chi i j : svd_exact lib m r c -> lossless lib m chi -> i < r -> j < c ->
  aget m [i; j] = sumN (Nat.min chi (Nat.min r c)) (fun o => rmul (half_u num m i o) (rmul (np_sqrt lib (aget (svd_s lib m) [o])) (aget (svd_v lib m) [o; j]))).
Proof.
  intros [SS EQ RT] LL Hi Hj. rewrite EQ by auto. pose proof SS as [_ (Ws & Es) _].
  assert (LS : List.length (adata (svd_s lib m)) = Nat.min r c) by (rewrite Ws, Es; cbn; lia).
  assert (X : forall o, o < Nat.min r c -> rmul (half_u num m i o) (rmul (np_sqrt lib (aget (svd_s lib m) [o])) (aget (svd_v lib m) [o; j])) = rmul (aget (svd_u lib m) [i; o]) (rmul (aget (svd_s lib m) [o]) (aget (svd_v lib m) [o; j]))).
  { intros o Ho. unfold half_u. rewrite <- !rmul_assoc. f_equal. rewrite rmul_assoc. f_equal. now apply RT. }
  rewrite (sumN_ext (Nat.min chi (Nat.min r c)) _ _ (fun o Ho => X o ltac:(lia))). apply sumN_cut; [lia|]. intros o Ho.
  rewrite (aget1 _ (Nat.min r c)) by auto. rewrite LL by lia. rewrite rmul_0_l, rmul_comm. apply rmul_0_l.
Qed.
End Dec.

Section Tens.
Context {A B : Type} {HA : SR A}.
Notation heap := (heap A).
Variable num : numerics A B.

Lemma legs_perm (h : heap) t m m' : Permutation m m' -> dense_legs h t m -> dense_legs h t m'.
Proof. intros P (D & HL). split; auto. unfold has_legs in *. etransitivity; [exact HL|]. now apply Permutation_map. Qed.
Lemma at_same (h : heap) t L m m' : has_legs h t L -> (forall n, In n (map fst L) -> look m 0 n = look m' 0 n) -> at_ h t m = at_ h t m'.
Proof. intros HL E. apply (at_names_at h t L (index_in m) m'); auto. Qed.
Lemma square_flip (h : heap) t V H : square h t V H -> dense_legs h t [("u", V); ("r", H); ("d", V); ("l", H)].
Proof.
  apply legs_perm. apply perm_skip. etransitivity; [apply perm_swap|]. etransitivity; [|apply perm_swap]. apply perm_skip. apply perm_swap.
Qed.
Lemma pair_ravel V H x y : x < V -> y < H -> x * H + y < V * H /\ (x * H + y) / H = x /\ (x * H + y) mod H = y.
Proof.
  intros Hx Hy. split; [nia|]. split; [rewrite Nat.div_add_l by lia; rewrite Nat.div_small by lia; lia|]. rewrite Nat.add_comm, Nat.mod_add by lia. now apply Nat.mod_small.
Qed.
Lemma pair_unravel V H i : i < V * H -> i / H < V /\ i mod H < H /\ i = i / H * H + i mod H.
Proof.
  intros Hi. assert (H <> 0) by (intros ->; lia). split; [apply Nat.div_lt_upper_bound; lia|]. split; [now apply Nat.mod_upper_bound|]. rewrite Nat.mul_comm. now apply Nat.div_mod.
Qed.
Lemma mat4_get V H (T : nat -> nat -> nat -> nat -> A) x y z w : x < V -> y < H -> z < V -> w < H -> aget (mat4 V H T) [x * H + y; z * H + w] = T x y z w.
Proof.
  intros Hx Hy Hz Hw. destruct (pair_ravel V H x y Hx Hy) as (I1 & D1 & M1). destruct (pair_ravel V H z w Hz Hw) as (I2 & D2 & M2).
  unfold mat4. rewrite aget_tab by (constructor; [exact I1|constructor; [exact I2|constructor]]). cbn [nth]. now rewrite D1, M1, D2, M2.
Qed.
Lemma mat4_unique (m : arr A) V H T : wfa m -> ashape m = [V * H; V * H] -> (forall x y z w, x < V -> y < H -> z < V -> w < H -> aget m [x * H + y; z * H + w] = T x y z w) -> m = mat4 V H T.
Proof.
  intros W S E. apply arr_ext; auto; [apply tab_wfa|]. rewrite S. intros idx I. inversion I as [|i ? idx' ? Hi I']; subst. inversion I' as [|j ? ? ? Hj I'']; subst. inversion I''; subst.
  destruct (pair_unravel V H i Hi) as (X1 & Y1 & ->). destruct (pair_unravel V H j Hj) as (X2 & Y2 & ->). rewrite E by auto. now rewrite mat4_get.
Qed.
Lemma square_mat (h : heap) t V H : square h t V H ->
  toMatrix h t (Some [RStr "u"; RStr "l"]) (Some [RStr "d"; RStr "r"]) = Ok (mat4 V H (entry4 h t)) /\
  toMatrix h t (Some [RStr "u"; RStr "r"]) (Some [RStr "d"; RStr "l"]) = Ok (mat4 V H (flipped (entry4 h t))).
Proof.
  intros Q.
  assert (G : forall a b c d, dense_legs h t [(a, V); (b, H); (c, V); (d, H)] -> NoDup [a; b; c; d] ->
    toMatrix h t (Some [RStr a; RStr b]) (Some [RStr c; RStr d]) = Ok (mat4 V H (fun x y z w => at_ h t [(a, x); (b, y); (c, z); (d, w)]))).
  { intros a b c d L ND. destruct (toMatrix_named h t [(a, V); (b, H)] [(c, V); (d, H)] L ND ltac:(discriminate) ltac:(discriminate)) as (m & E & W & S & G). cbn [map fst snd] in E. rewrite E. f_equal.
    cbn [map snd prodn fold_right] in S, G. rewrite Nat.mul_1_r in S. apply mat4_unique; auto. intros x y z w Hx Hy Hz Hw.
    specialize (G [x; y] [z; w]). cbn [ravel prodn fold_right] in G. rewrite !Nat.mul_1_r, !Nat.add_0_r in G.
    rewrite G by (constructor; [assumption|constructor; [assumption|constructor]]). reflexivity. }
  split.
  - apply (G "u" "l" "d" "r"); [exact Q|]. now apply nodupb_ok.
  - rewrite (G "u" "r" "d" "l"); [|now apply square_flip|now apply nodupb_ok]. f_equal. apply mat4_unique; [apply tab_wfa|reflexivity|]. intros x y z w Hx Hy Hz Hw. rewrite mat4_get by auto.
    unfold flipped, entry4. apply (at_same h t _ _ _ (proj2 Q)). intros n Hn. enum_in Hn ltac:(vm_compute; reflexivity).
Qed.
Lemma square_shape (h : heap) t V H : square h t V H -> shapeOfLabels h t [NStr "u"; NStr "l"] = Ok [V; H].
Proof.
  intros ((WF & NL & ND) & HL). destruct (has_legs_order _ _ _ HL) as (m' & P & En & Ed).
  assert (Es : shape h t = map snd m') by (rewrite <- Ed; now apply wf_shape).
  assert (El : labels h t = map NStr (map fst m')) by (rewrite map_map; exact En).
  assert (NDm : NoDup (map fst m')) by (eapply Permutation_NoDup; [symmetry; apply Permutation_map; exact P|]; now apply nodupb_ok).
  assert (F : forall n d, In (n, d) m' -> exists i, indexOfLabel h t (NStr n) false = Some i /\ nth_error (shape h t) i = Some d).
  { intros n d Hn. unfold indexOfLabel. rewrite El, Es. clear -Hn NDm. induction m' as [|p m' IH]; [destruct Hn|]. cbn [map] in *. inversion NDm as [|? ? N1 N2]; subst. cbn [index_of].
    destruct Hn as [->|Hn].
    - cbn [fst snd]. destruct (dec (NStr n) (NStr n)); [|congruence]. exists 0. auto.
    - destruct (dec (NStr n) (NStr (fst p))) as [E|NE]; [injection E as ->; exfalso; apply N1; now apply (in_map fst) in Hn|].
      destruct (IH N2 Hn) as (i & E1 & E2). exists (S i). rewrite E1. auto. }
  unfold shapeOfLabels. cbn [shapeOfLabelsAux]. change (inb (NStr "u") []) with false. change (inb (NStr "l") [NStr "u"]) with false.
  destruct (F "u" V) as (i & -> & ->); [eapply Permutation_in; [symmetry; exact P|]; cbn; auto|]. destruct (F "l" H) as (j & -> & ->); [eapply Permutation_in; [symmetry; exact P|]; cbn; auto|]. reflexivity.
Qed.
Lemma square_trace (h : heap) t V H : square h t V H ->
  trace h t (Some [RStr "u"; RStr "l"]) (Some [RStr "d"; RStr "r"]) = Ok (partition (grid 1 1) H V (fun _ => entry4 h t)).
Proof.
  intros Q. unfold trace. pose proof Q as ((_ & NL & ND) & _). rewrite NL, ND. rewrite (proj1 (square_mat h t V H Q)). cbn [rbind mat4 tab ashape]. rewrite Nat.eqb_refl. f_equal.
  rewrite partition_one. unfold np_trace. cbn [mat4 tab ashape nth]. rewrite sumN_mul. rewrite sumN_swap. apply sumN_ext. intros y Hy. apply sumN_ext. intros x Hx. now apply mat4_get.
Qed.
(** dividing the data of a tensor in place *)
Lemma divide_ok (h : heap) t m : dense_legs h t m -> NoDup (map fst m) -> exists h' n, divideByNorm num t h = (h', Ok n) /\ normalized num h' t n /\ dense_legs h' t m /\
  (forall t', t' <> t -> tens h' t' = tens h t') /\ legs h' = legs h /\ nleg h' = nleg h /\ ntens h' = ntens h /\
  forall idx, inrange (map snd m) idx -> at_ h' t (combine (map fst m) idx) = nu_div num (at_ h t (combine (map fst m) idx)) n.
Proof.
  intros ((WF & NL & ND) & HL) NDm. pose proof (wt_data _ _ WF) as DO. unfold data_ok in DO. rewrite NL, ND in DO. destruct (t_arr (tens h t)) as [a|] eqn:Ea; [|destruct DO]. destruct DO as (Wa & Sa).
  unfold divideByNorm. unfold bind at 1, reads at 1. rewrite NL. cbn [negb]. unfold assert, bind at 1, ret at 1. rewrite Ea. unfold bind at 1, setArr, modify. cbn [ret].
  set (n := nu_norm num a). set (a' := mkArr (ashape a) (map (fun x => nu_div num x n) (adata a))). set (h' := set_tens h t _).
  assert (Et : tens h' t = mkTensor (t_legs (tens h t)) (Some a') (t_diag (tens h t)) (t_like (tens h t)) (t_len (tens h t)) (t_name (tens h t))) by (unfold h'; cbn; now rewrite upd_same).
  assert (Ek : forall t', t' <> t -> tens h' t' = tens h t') by (intros t' Ht; unfold h'; cbn; now rewrite upd_other).
  assert (El : legs_of h' t = legs_of h t) by (unfold legs_of; now rewrite Et).
  assert (HL' : has_legs h' t m) by (unfold has_legs, names_of, dims_of, dim_of in *; rewrite El; exact HL).
  exists h', n. split; [reflexivity|]. split; [exists (ashape a), (adata a); rewrite Et; split; [unfold n; now destruct a|reflexivity]|].
  split; [split; [split; [|rewrite Et; auto]|exact HL']|].
  - destruct WF as [i nd al da dg]. split; [exact i|now rewrite El|rewrite El; exact al| |].
    + unfold data_ok. rewrite Et. cbn [t_like t_arr t_diag t_legs]. rewrite NL, ND. unfold a'. cbn [adata ashape]. rewrite map_length. split; [exact Wa|exact Sa].
    + rewrite Et. cbn [t_diag]. rewrite ND. discriminate.
  - split; auto. repeat split; auto. intros idx I. destruct (has_legs_order _ _ _ HL) as (m' & P & En & Ed).
    assert (LI : List.length idx = List.length m) by (apply inrange_len in I; now rewrite map_length in I).
    unfold at_, at_names, entry, entry_of. rewrite Et, Ea. cbn [t_arr t_diag t_legs]. rewrite ND. unfold a', aget. cbn [ashape adata].
    change (fun l => index_in (combine (map fst m) idx) (l_name (legs h' l))) with (fun l => index_in (combine (map fst m) idx) (l_name (legs h l))).
    set (s := fun l => index_in (combine (map fst m) idx) (l_name (legs h l))).
    rewrite (nth_indep _ r0 (nu_div num r0 n)); [apply (map_nth (fun x => nu_div num x n))|]. rewrite map_length, Wa. apply ravel_lt. rewrite Sa.
    (* every index is below the dimension of its leg *)
    change (t_legs (tens h t)) with (legs_of h t). unfold inrange.
    assert (IB : forall l, In l (legs_of h t) -> s l < dim_of h l).
    { intros l Hl. assert (In (l_name (legs h l), dim_of h l) (combine (names_of h t) (dims_of h t))) as Hp.
      { unfold names_of, dims_of. rewrite combine_map_same. now apply (in_map (fun x => (l_name (legs h x), dim_of h x))). }
      eapply Permutation_in in Hp; [|exact HL]. apply in_map_iff in Hp. destruct Hp as (p & Ep & Hp). injection Ep as E1 E2. unfold s. rewrite <- E1, <- E2. cbn [index_in].
      clear -I NDm Hp LI. revert idx I LI. induction m as [|q m IH]; [destruct Hp|]. intros [|i idx] I LI; [discriminate|]. cbn [map] in *. inversion I; subst. inversion NDm as [|? ? N1 N2]; subst. cbn [combine look].
      destruct Hp as [->|Hp]; [destruct (dec (fst p) (fst p)); [auto|congruence]|]. destruct (dec (fst p) (fst q)) as [E|NE]; [exfalso; apply N1; rewrite <- E; now apply in_map|]. apply IH; auto. }
    clear -IB. induction (legs_of h t) as [|l ls IH]; constructor; [apply IB; now left|]. apply IH. intros x Hx. apply IB. now right.
Qed.
(** a copy has the same legs and entries *)
Lemma copy_named (h : heap) t m : dense_legs h t m -> exists h' c, copy t h = (h', Ok c) /\ new_tensor h h' c None /\ dense_legs h' c m /\ forall g, at_ h' c g = at_ h t g.
Proof.
  intros ((WF & NL & ND) & HL). destruct (copy_ok h t WF) as (h' & c & E & [NT W O EN ED FD FN] & FL & V); [intros (E & _); congruence|].
  exists h', c. split; auto. split; auto. split; [split; [split; [auto|]|]|].
  - split; congruence.
  - unfold has_legs. now rewrite EN, ED.
  - intros g. unfold at_, at_names. apply V. rewrite <- !(map_map (fun l => l_name (legs _ l)) (index_in g)). f_equal. exact EN.
Qed.
End Tens.

Section Step.
Context {A B : Type} {HA : SR A}.
Notation heap := (heap A).
Notation world := (world A).
Notation trg := (trg A).
Variable symdiff : list nat -> list nat -> list nat.
Hypothesis Hsd : symdiff_ok symdiff.
Variable fuel : nat.
Variable num : numerics A B.

Lemma wbind_inv {X Y} (m : WM X) (k : X -> WM Y) (w w' : world) y : wbind m k w = (w', Ok y) -> exists w1 x, m w = (w1, Ok x) /\ k x w1 = (w', Ok y).
Proof. unfold wbind. destruct (m w) as [w1 [x|e]]; intros E; [eauto|discriminate]. Qed.
Definition with_heap (w : world) (h : heap) : world := mkWorld h (w_names w) (w_nnames w) (w_ftn w) (w_nftn w).
Lemma lift_inv {X} (m : M X) (w w' : world) x : lift m w = (w', Ok x) -> exists h', m (w_heap w) = (h', Ok x) /\ w' = with_heap w h'.
Proof. unfold lift. destruct (m (w_heap w)) as [h' r]. intros E. injection E as <- ->. eauto. Qed.
Lemma liftR_inv {X} (r : res X) (w w' : world) x : wliftR r w = (w', Ok x) -> w' = w /\ r = Ok x.
Proof. unfold wliftR. intros E. injection E as <- ->. auto. Qed.
Lemma grown_preserved (h h' : heap) : grown h h' -> preserved h h'.
Proof. intros G t m D. destruct (grown_dense h h' t m G D) as (D' & E & _). auto. Qed.

Lemma half_ok (h h' : heap) t V H (m : arr A) k labs : halfTensor V H m labs h = (h', Ok t) -> wfa m -> ashape m = [V * H; k] -> NoDup labs -> List.length labs = 3 ->
  new_tensor h h' t None /\ dense_legs h' t (combine labs [V; H; k]) /\
  forall x y o, x < V -> y < H -> o < k -> at_ h' t (combine labs [x; y; o]) = aget m [x * H + y; o].
Proof.
  unfold halfTensor. intros R W S ND L3. rewrite S in R. cbn [nth] in R. destruct (new_named _ _ _ _ _ _ W R ND) as (NT & DL & _ & _ & G).
  split; auto. split; auto. intros x y o Hx Hy Ho. rewrite G by (constructor; [exact Hx|constructor; [exact Hy|constructor; [exact Ho|constructor]]]).
  unfold aget. rewrite S. f_equal. cbn [ravel prodn fold_right]. lia.
Qed.
(** what appendToArchive does *)
Lemma append_ok (w w' : world) (g g' : trg) ns ar V H : appendToArchive num g w = (w', Ok g') -> square (w_heap w) (g_a g) V H -> g_norms g = Some ns -> g_archive g = Some ar ->
  exists n c, g' = mkTrg (g_a g) (g_b g) (g_dof g) (g_chi g) (g_net g) (Some (ns ++ [n])) (g_errors g) (Some (ar ++ [(c, g_dof g)])) /\
    w_names w' = w_names w /\ w_nnames w' = w_nnames w /\ w_ftn w' = w_ftn w /\ w_nftn w' = w_nftn w /\
    square (w_heap w') (g_a g) V H /\ normalized num (w_heap w') (g_a g) n /\ archived (w_heap w') (g_a g) c V H /\
    (forall h0, grown h0 (w_heap w) -> ntens h0 <= g_a g -> grown h0 (w_heap w')) /\
    forall u l d r, u < V -> l < H -> d < V -> r < H -> entry4 (w_heap w') (g_a g) u l d r = nu_div num (entry4 (w_heap w) (g_a g) u l d r) n.
Proof.
  intros R Q EN EA. unfold appendToArchive, normalizeTensors in R. rewrite EN in R. cbn [append] in R. apply wbind_inv in R. destruct R as (w1 & g1 & R1 & R).
  apply wbind_inv in R1. destruct R1 as (w2 & n & R2 & R1). apply lift_inv in R2. destruct R2 as (h2 & R2 & ->).
  assert (NDm : NoDup (map fst [("u", V); ("l", H); ("d", V); ("r", H)])) by now apply nodupb_ok.
  destruct (divide_ok num (w_heap w) (g_a g) _ Q NDm) as (h' & n' & E & NZ & Q' & KT & KL & KN & KM & EV). rewrite R2 in E. injection E as <- <-.
  unfold wbind, wret in R1. cbn in R1. injection R1 as <- <-. cbn [g_a g_b g_dof g_chi g_net g_norms g_errors g_archive] in R. rewrite EA in R.
  apply wbind_inv in R. destruct R as (w3 & c & R3 & R). apply lift_inv in R3. destruct R3 as (h3 & R3 & ->). injection R as <- <-. cbn [with_heap w_heap] in R3.
  destruct (copy_named h2 (g_a g) _ Q') as (h3' & c' & E & NT & Qc & EC). rewrite R3 in E. injection E as <- <-.
  pose proof (new_grown _ _ _ NT) as G. destruct (grown_dense _ _ _ _ G Q') as (Q3 & E3 & T3).
  exists n, c. split; auto. cbn [with_heap w_names w_nnames w_ftn w_nftn w_heap]. repeat (split; [reflexivity|]). split; [exact Q3|]. split; [|split; [|split]].
  - destruct NZ as (sh & d & En & Ed). exists sh, d. rewrite T3. auto.
  - split; [|split; [exact Qc|]].
    + intros ->. destruct Q' as ((W & _) & _). apply wt_id in W. pose proof (nt_id _ _ _ _ NT). lia.
    + intros u l d r. unfold entry4. rewrite EC, E3. reflexivity.
  - intros h0 [a b e f] Ht. eapply grown_trans; [|exact G]. split; [intros; rewrite KL; auto|intros t' Ht'; rewrite KT by lia; auto|lia|lia].
  - intros u l d r Hu Hl Hd Hr. unfold entry4. rewrite E3. apply (EV [u; l; d; r]). repeat (constructor; [assumption|]). constructor.
Qed.

Lemma iterate_ok (w w' : world) (g g' : trg) V H ns es ar : iterate symdiff fuel num g w = (w', Ok g') -> net_ready w g ->
  square (w_heap w) (g_a g) V H -> square (w_heap w) (g_b g) V H -> ready g ns es ar ->
  svd_shape (nu_lib num) (mat_a (w_heap w) g V H) (V * H) (V * H) -> svd_shape (nu_lib num) (mat_b (w_heap w) g V H) (V * H) (V * H) ->
  let k := Nat.min (g_chi g) (V * H) in
  exists a f n c, g' = mkTrg a a (2 * g_dof g) (g_chi g) (Some f) (Some (ns ++ [n]))
      (Some (es ++ [(cut_error num (mat_a (w_heap w) g V H) (V * H) (g_chi g) 2, cut_error num (mat_b (w_heap w) g V H) (V * H) (g_chi g) 2)])) (Some (ar ++ [(c, 2 * g_dof g)])) /\
    net_ready w' g' /\ square (w_heap w') a k k /\ normalized num (w_heap w') a n /\ archived (w_heap w') a c k k /\ grown (w_heap w) (w_heap w') /\ 
    forall u l d r, u < k -> l < k -> d < k -> r < k ->
      entry4 (w_heap w') a u l d r = nu_div num (coarse num V H (mat_a (w_heap w) g V H) (mat_b (w_heap w) g V H) u l d r) n.
Proof.
  intros R NR Qa Qb (EN & EE & EA) SA SB k. unfold iterate in R. apply wbind_inv in R. destruct R as (w1 & f & Rf & R).
  assert (N1 : is_net w1 f square_out_net /\ w_heap w1 = w_heap w).
  { unfold net_ready in NR. destruct (g_net g) as [f0|].
    - injection Rf as <- <-. auto.
    - destruct (square_out_made w) as (w2 & E & MN). rewrite E in Rf. injection Rf as -> <-. split; [apply MN|]. exact (ma_heap _ _ _ _ _ _ _ MN). }
  destruct N1 as (IN1 & EH1). clear Rf.
  apply wbind_inv in R. destruct R as (w2 & dims & R1 & R). apply lift_inv in R1. destruct R1 as (h2 & R1 & ->). unfold readsR in R1. rewrite EH1, (square_shape _ _ _ _ Qa) in R1. injection R1 as <- <-.
  cbn [nth] in R.
  apply wbind_inv in R. destruct R as (w2 & aM & R1 & R). apply lift_inv in R1. destruct R1 as (h2 & R1 & ->). unfold readsR in R1. cbn [with_heap w_heap] in R1. rewrite (proj1 (square_mat _ _ _ _ Qa)) in R1. injection R1 as <- <-.
  apply wbind_inv in R. destruct R as (w2 & bM & R1 & R). apply lift_inv in R1. destruct R1 as (h2 & R1 & ->). unfold readsR in R1. cbn [with_heap w_heap] in R1. rewrite (proj2 (square_mat _ _ _ _ Qb)) in R1. injection R1 as <- <-.
  fold (mat_a (w_heap w) g V H) in R. fold (mat_b (w_heap w) g V H) in R. set (mA := mat_a (w_heap w) g V H) in *. set (mB := mat_b (w_heap w) g V H) in *.
  destruct (svd_spec num mA _ _ (g_chi g) 2 SA eq_refl) as (uA & vA & EA1 & WuA & SuA & WvA & SvA & GuA & GvA).
  destruct (svd_spec num mB _ _ (g_chi g) 2 SB eq_refl) as (uB & vB & EB1 & WuB & SuB & WvB & SvB & GuB & GvB).
  rewrite !Nat.min_id in *. fold k in SuA, SvA, SuB, SvB, GuA, GvA, GuB, GvB. clearbody mA mB.
  apply wbind_inv in R. destruct R as (w2 & pa & R1 & R). apply liftR_inv in R1. destruct R1 as (-> & R1). rewrite EA1 in R1. injection R1 as <-.
  apply wbind_inv in R. destruct R as (w2 & pb & R1 & R). apply liftR_inv in R1. destruct R1 as (-> & R1). rewrite EB1 in R1. injection R1 as <-.
  apply wbind_inv in R. destruct R as (w2 & dr & R1 & R). apply lift_inv in R1. destruct R1 as (h1 & R1 & ->). cbn [with_heap w_heap w_names w_nnames w_ftn w_nftn] in R1, R.
  apply wbind_inv in R. destruct R as (w2 & ul & R2 & R). apply lift_inv in R2. destruct R2 as (h2 & R2 & ->). cbn [with_heap w_heap w_names w_nnames w_ftn w_nftn] in R2, R.
  apply wbind_inv in R. destruct R as (w2 & dl & R3 & R). apply lift_inv in R3. destruct R3 as (h3 & R3 & ->). cbn [with_heap w_heap w_names w_nnames w_ftn w_nftn] in R3, R.
  apply wbind_inv in R. destruct R as (w2 & ur & R4 & R). apply lift_inv in R4. destruct R4 as (h4 & R4 & ->). cbn [with_heap w_heap w_names w_nnames w_ftn w_nftn] in R4, R.
  apply half_ok with (k := k) in R1; auto; [|now apply nodupb_ok]. destruct R1 as (NT1 & D1 & G1).
  apply half_ok with (k := k) in R2; auto; [|now apply nodupb_ok]. destruct R2 as (NT2 & D2 & G2).
  apply half_ok with (k := k) in R3; auto; [|now apply nodupb_ok]. destruct R3 as (NT3 & D3 & G3).
  apply half_ok with (k := k) in R4; auto; [|now apply nodupb_ok]. destruct R4 as (NT4 & D4 & G4).
  pose proof (new_grown _ _ _ NT1) as W1. pose proof (new_grown _ _ _ NT2) as W2. pose proof (new_grown _ _ _ NT3) as W3. pose proof (new_grown _ _ _ NT4) as W4.
  destruct (grown_dense _ _ _ _ (grown_trans _ _ _ W2 (grown_trans _ _ _ W3 W4)) D1) as (D1' & E1' & _).
  destruct (grown_dense _ _ _ _ (grown_trans _ _ _ W3 W4) D2) as (D2' & E2' & _).
  destruct (grown_dense _ _ _ _ W4 D3) as (D3' & E3' & _).
  assert (GW : grown (w_heap w) h4) by (eapply grown_trans; [exact W1|eapply grown_trans; [exact W2|eapply grown_trans; [exact W3|exact W4]]]).
  apply wbind_inv in R. destruct R as (w5 & a & R5 & R).
  match type of R5 with contract _ _ _ _ _ ?w = _ => set (w4 := w) in * end.
  assert (IN4 : is_net w4 f square_out_net) by (apply (is_net_heap A w1 f square_out_net h4); auto).
  destruct (square_out_value symdiff Hsd fuel w4 f w5 a ul ur dl dr V H V H k k k k R5 IN4 D2' D4 D3' D1') as (Q5 & IN5 & V5).
  pose proof (contract_grown _ _ _ _ _ _ _ _ R5) as G5. pose proof (contract_frame _ _ _ _ _ _ _ _ R5) as (_ & _ & _ & (Ha & _)). unfold w4 in G5, Ha. cbn [with_heap w_heap] in G5, Ha.
  assert (Q5' : square (w_heap w5) a k k).
  { unfold square. eapply legs_perm; [|exact Q5]. apply perm_skip. etransitivity; [apply perm_swap|]. apply perm_skip. apply perm_swap. }
  apply wbind_inv in R. destruct R as (w6 & g6 & R6 & R). apply (append_ok _ _ _ _ ns ar k k) in R6; auto. cbn [g_a g_b g_dof g_chi g_net g_norms g_errors g_archive] in R6.
  destruct R6 as (n & c & -> & K1 & K2 & K3 & K4 & Q6 & NZ & AR & G6 & V6). cbn [g_a g_b g_dof g_chi g_net g_norms g_errors g_archive] in R. rewrite EE in R. cbn [append] in R. unfold wbind, wret in R. injection R as <- <-.
  exists a, f, n, c. split; [now rewrite Nat.mul_comm|]. split; [|split; [exact Q6|split; [exact NZ|split; [exact AR|split]]]].
  - unfold net_ready. cbn [g_net]. eapply is_net_same; [exact IN5|now rewrite K3|intros; now rewrite K1|rewrite K4; apply IN5].
  - apply G6; [eapply grown_trans; [exact GW|exact G5]|]. destruct GW as [_ _ _ GT]. cbn [g_a]. lia.
  - intros u l d r Hu Hl Hd Hr. rewrite V6 by auto. f_equal. unfold entry4.
    rewrite (at_same _ _ _ _ [("u", u); ("r", r); ("l", l); ("d", d)] (proj2 Q5')) by (intros x Hx; enum_in Hx ltac:(vm_compute; reflexivity)).
    rewrite V5 by auto. unfold coarse. apply sumN_ext. intros x Hx. apply sumN_ext. intros y Hy. apply sumN_ext. intros z Hz. apply sumN_ext. intros ww Hw.
    unfold w4. cbn [with_heap w_heap]. rewrite E2', E3', E1'.
    pose proof (G2 x y u Hx Hy Hu) as g2. pose proof (G4 z y r Hz Hy Hr) as g4. pose proof (G3 x ww l Hx Hw Hl) as g3. pose proof (G1 z ww d Hz Hw Hd) as g1. cbn [combine] in g1, g2, g3, g4. rewrite g1, g2, g3, g4.
    rewrite GvA, GvB, GuB, GuA by (auto; nia). reflexivity.
Qed.
End Step.

Section Scale.
Context {A : Type} {HA : SR A}.
Local Open Scope sr_scope.
Add Ring Aring3 : (@SR_theory A HA).
Lemma prodL_const {X} (ls : list X) (f : X -> A) c : prodL ls (fun x => c * f x) = pow c (List.length ls) * prodL ls f.
Proof. induction ls as [|x ls IH]; cbn; [ring|]. rewrite IH. ring. Qed.
Lemma pow_mul (x y : A) n : pow (x * y) n = pow x n * pow y n.
Proof. induction n as [|n IH]; cbn; [ring|rewrite IH; ring]. Qed.
Lemma pow_add (x : A) n m : pow x (n + m) = pow x n * pow x m.
Proof. induction n as [|n IH]; cbn; [ring|rewrite IH; ring]. Qed.
Lemma pow_pow (x : A) n m : pow (pow x n) m = pow x (n * m).
Proof. induction m as [|m IH]; cbn; [now rewrite Nat.mul_0_r|]. rewrite IH, Nat.mul_succ_r, Nat.add_comm. now rewrite <- pow_add. Qed.
Lemma partition_range (L : lattice) H V (T T' : site L -> nat -> nat -> nat -> nat -> A) : torus L ->
  (forall x u l d r, In x (sites L) -> (u < V)%nat -> (l < H)%nat -> (d < V)%nat -> (r < H)%nat -> T x u l d r = T' x u l d r) -> partition L H V T = partition L H V T'.
Proof.
  intros TL E. unfold partition. apply so_range. intros h Hh. apply so_range. intros v Hv. apply prodL_ext. intros x Hx. destruct (to_closed _ TL x Hx) as (_ & Hl & Hu & _). apply E; auto.
Qed.
Lemma partition_scale (L : lattice) H V (T : site L -> nat -> nat -> nat -> nat -> A) c :
  partition L H V (fun x u l d r => c * T x u l d r) = pow c (List.length (sites L)) * partition L H V T.
Proof.
  unfold partition. rewrite <- so_mul_l. apply so_ext. intros h. rewrite <- so_mul_l. apply so_ext. intros v. apply (prodL_const (sites L) (fun x => T x (v (up L x)) (h (left L x)) (v x) (h x))).
Qed.
Lemma norm_product_snoc (ns : list A) n : norm_product (ns ++ [n]) = norm_product ns * norm_product ns * n.
Proof.
  induction ns as [|m ns IH]; cbn [norm_product app]; [cbn; ring|]. rewrite IH, app_length. cbn [List.length]. rewrite Nat.add_1_r. replace (2 ^ S (List.length ns))%nat with (2 ^ List.length ns + 2 ^ List.length ns)%nat by (cbn; lia). rewrite pow_add. ring.
Qed.
End Scale.

Section Run.
Context {A B : Type} {HA : SR A}.
Notation heap := (heap A).
Notation world := (world A).
Notation trg := (trg A).
Local Open Scope sr_scope.
Add Ring Aring4 : (@SR_theory A HA).
Variable symdiff : list nat -> list nat -> list nat.
Hypothesis Hsd : symdiff_ok symdiff.
Variable fuel : nat.
Variable num : numerics A B.

Lemma faithful_halves (T : nat -> nat -> nat -> nat -> A) V H chi : (forall x, nu_conj num x = x) -> faithful num (mat4 V H T) (V * H) chi ->
  forall x y z w, x < V -> y < H -> z < V -> w < H ->
  T x y z w = sumN (Nat.min chi (V * H)) (fun o => half_u num (mat4 V H T) (x * H + y) o * half_v num (mat4 V H T) (z * H + w) o).
Proof.
  intros CJ (EX & LL) x y z w Hx Hy Hz Hw. rewrite <- (mat4_get V H T x y z w) by auto.
  rewrite (halves_product num _ _ _ chi _ _ EX LL) by (apply pair_ravel; auto). rewrite Nat.min_id. apply sumN_ext. intros o _. unfold half_v. now rewrite CJ.
Qed.
Lemma one_step (w w' : world) (g g' : trg) V H ns es ar (L : lattice) : iterate symdiff fuel num g w = (w', Ok g') -> net_ready w g ->
  square (w_heap w) (g_a g) V H -> square (w_heap w) (g_b g) V H -> ready g ns es ar ->
  faithful num (mat_a (w_heap w) g V H) (V * H) (g_chi g) -> faithful num (mat_b (w_heap w) g V H) (V * H) (g_chi g) ->
  (forall x, nu_conj num x = x) -> torus L -> let k := Nat.min (g_chi g) (V * H) in
  exists n, g_norms g' = Some (ns ++ [n]) /\ (invertible num n ->
    partition (refine L) H V (fun q => if snd q then entry4 (w_heap w) (g_b g) else entry4 (w_heap w) (g_a g)) =
    pow n (List.length (sites L)) * partition L k k (fun _ => entry4 (w_heap w') (g_a g'))).
Proof.
  intros R NR Qa Qb RD FA FB CJ TL k. destruct (iterate_ok symdiff Hsd fuel num w w' g g' V H ns es ar R NR Qa Qb RD) as (a & f & n & c & -> & _ & _ & _ & _ & _ & EV); [apply FA|apply FB|].
  fold k in EV. exists n. split; [reflexivity|]. intros IN. cbn [g_a].
  rewrite <- partition_scale.
  symmetry. apply (trg_step L TL _ _ _ (fun x y o => half_v num (mat_a (w_heap w) g V H) (x * H + y)%nat o) (fun x y o => half_v num (mat_b (w_heap w) g V H) (x * H + y)%nat o)
    (fun x y o => half_u num (mat_b (w_heap w) g V H) (x * H + y)%nat o) (fun x y o => half_u num (mat_a (w_heap w) g V H) (x * H + y)%nat o)).
  - intros u l d r Hu Hl Hd Hr. apply (faithful_halves _ V H (g_chi g) CJ FA); auto.
  - intros u l d r Hu Hl Hd Hr. apply (faithful_halves (flipped (entry4 (w_heap w) (g_b g))) V H (g_chi g) CJ FB u r d l); auto.
  - intros u l d r Hu Hl Hd Hr. rewrite EV by auto. rewrite (rmul_comm n). rewrite IN. reflexivity.
Qed.
Lemma run_state w0 g0 V0 H0 n w g V H ns es ar : exact_run num symdiff fuel w0 g0 V0 H0 n w g V H -> state w0 g0 V0 H0 -> ready g0 ns es ar ->
  exists ns' es' ar', state w g V H /\ ready g (ns ++ ns') (es ++ es') (ar ++ ar') /\ List.length ns' = n /\ List.length es' = n /\ List.length ar' = n /\ g_dof g = (2 ^ n * g_dof g0)%nat /\ g_chi g = g_chi g0 /\
    grown (w_heap w0) (w_heap w).
Proof.
  intros RN ST RD. induction RN as [|n w g V H w' g' RN IH R FA FB].
  - exists [], [], []. rewrite !app_nil_r. split; auto. split; auto. repeat (split; [reflexivity|]). split; [cbn; lia|]. split; [reflexivity|apply grown_refl].
  - destruct IH as (ns' & es' & ar' & [S1 S2 S3] & RD' & L1 & L2 & L3 & DF & CH & GR). 
    destruct (iterate_ok symdiff Hsd fuel num w w' g g' V H (ns ++ ns') (es ++ es') (ar ++ ar') R S1 S3) as (a & f & n1 & c & -> & N' & Q' & NZ & AR & G' & EV); [now rewrite S2|exact RD'|apply FA|apply FB|].
    exists (ns' ++ [n1]), (es' ++ [(cut_error num (mat_a (w_heap w) g V H) (V * H) (g_chi g) 2, cut_error num (mat_b (w_heap w) g V H) (V * H) (g_chi g) 2)]), (ar' ++ [(c, 2 * g_dof g)%nat]).
    split; [split; auto|]. split; [split; [cbn; now rewrite app_assoc|split; cbn; now rewrite app_assoc]|]. rewrite !app_length. cbn [List.length]. repeat (split; [lia|]). cbn [g_dof g_chi].
    split; [rewrite DF; cbn; lia|]. split; [exact CH|]. eapply grown_trans; eauto.
Qed.
Lemma run_value w0 g0 V0 H0 n w g V H ns es ar : exact_run num symdiff fuel w0 g0 V0 H0 n w g V H -> state w0 g0 V0 H0 -> ready g0 ns es ar -> (forall x, nu_conj num x = x) ->
  exists ns', g_norms g = Some (ns ++ ns') /\ List.length ns' = n /\ forall L, torus L -> (forall x, In x ns' -> invertible num x) ->
    partition (refined n L) H0 V0 (fun _ => entry4 (w_heap w0) (g_a g0)) = pow (norm_product ns') (List.length (sites L)) * partition L H V (fun _ => entry4 (w_heap w) (g_a g)).
Proof.
  intros RN ST RD CJ. induction RN as [|n w g V H w' g' RN IH R FA FB].
  - exists []. rewrite app_nil_r. split; [apply RD|]. split; auto. intros L _ _. cbn [refined norm_product]. assert (E : pow (A := A) 1 (List.length (sites L)) = 1) by (induction (List.length (sites L)) as [|m E]; cbn; [auto|rewrite E; ring]). rewrite E. ring.
  - destruct IH as (ns' & EN & LN & IH). destruct (run_state _ _ _ _ _ _ _ _ _ ns es ar RN ST RD) as (ns2 & es' & ar' & [S1 S2 S3] & RD' & _). destruct RD' as (E1 & E2 & E3).
    assert (RD2 : ready g (ns ++ ns') (es ++ es') (ar ++ ar')) by (split; auto).
    assert (ALL : forall L : lattice, torus L -> exists n, g_norms g' = Some ((ns ++ ns') ++ [n]) /\ (invertible num n ->
      partition (refine L) H V (fun _ => entry4 (w_heap w) (g_a g)) = pow n (List.length (sites L)) * partition L (Nat.min (g_chi g) (V * H)) (Nat.min (g_chi g) (V * H)) (fun _ => entry4 (w_heap w') (g_a g')))).
    { intros L TL. assert (S3' : square (w_heap w) (g_b g) V H) by now rewrite S2. destruct (one_step w w' g g' V H _ _ _ L R S1 S3 S3' RD2 FA FB CJ TL) as (m & Em & X). exists m. split; auto. intros IN. rewrite <- (X IN). apply partition_range; [now apply refine_torus|].
      intros q u l d r _ _ _ _ _. rewrite S2. now destruct (snd q). }
    destruct (ALL (grid 1 1) (grid_torus 1 1)) as (m & Em & _). exists (ns' ++ [m]). split; [now rewrite app_assoc|]. split; [rewrite app_length; cbn; lia|]. intros L TL IN.
    destruct (ALL L TL) as (m' & Em' & X). rewrite Em in Em'. injection Em' as Em'. apply app_inv_head in Em'. injection Em' as <-.
    specialize (IH (refine L) (refine_torus L TL)). replace (refined (S n) L) with (refined n (refine L)).
    2:{ change (refine L) with (refined 1 L). rewrite refined_plus. f_equal. lia. }
    rewrite IH by (intros x Hx; apply IN, in_or_app; auto). rewrite X by (apply IN, in_or_app; cbn; auto). rewrite norm_product_snoc, refine_count.
    rewrite !pow_mul. replace (2 * List.length (sites L))%nat with (List.length (sites L) + List.length (sites L))%nat by lia. rewrite pow_add. ring.
Qed.
(** the constructor *)
Lemma init_ok (w w' : world) x chi dof V H T g : newTrg symdiff fuel num (Some x) None chi w = (w', Ok g) -> given (w_heap w) x dof V H T ->
  exists n c, ready g [n] [] [(c, dof)] /\ g_dof g = dof /\ g_chi g = chi /\ g_net g = None /\ state w' g V H /\ archived (w_heap w') (g_a g) c V H /\ normalized num (w_heap w') (g_a g) n /\ grown (w_heap w) (w_heap w') /\
    ntens (w_heap w) <= g_a g /\ forall u l d r, u < V -> l < H -> d < V -> r < H -> entry4 (w_heap w') (g_a g) u l d r = nu_div num (T u l d r) n.
Proof.
  intros R GV. unfold newTrg in R. apply wbind_inv in R. destruct R as (w1 & p & R1 & R). apply lift_inv in R1. destruct R1 as (h1 & R1 & ->).
  assert (P : snd p = dof /\ square h1 (fst p) V H /\ grown (w_heap w) h1 /\ fst p = ntens (w_heap w) /\ forall u l d r, u < V -> l < H -> d < V -> r < H -> entry4 h1 (fst p) u l d r = T u l d r).
  { destruct GV as [t dof V H Q|a V H W S]; unfold ownTensor in R1.
    - destruct (copy_named (w_heap w) t _ Q) as (h2 & c & E & NT & D & G). unfold bind in R1. rewrite E in R1. injection R1 as <- <-. cbn [fst snd]. split; auto. split; auto. split; [now apply (new_grown _ _ _ NT)|]. split; [apply NT|].
      intros. apply G.
    - unfold makeSquareTensor, bind at 1 2 in R1. rewrite S in R1. cbn [List.length Nat.eqb assert] in R1. unfold ret at 1 in R1.
      destruct (mkDense None _ (Some a) None None false (w_heap w)) as (h2 & [t|e]) eqn:E; [|discriminate]. injection R1 as <- <-. cbn [fst snd].
      destruct (new_data _ ["u"; "l"; "d"; "r"] _ _ _ W E) as (NT & D & G); [now apply nodupb_ok|]. rewrite S in D, G. split; auto. split; [exact D|]. split; [now apply (new_grown _ _ _ NT)|]. split; [apply NT|].
      intros u l d r Hu Hl Hd Hr. apply (G [u; l; d; r]). repeat (constructor; [assumption|]). constructor. }
  destruct P as (ED & Q & G1 & EI & EV). unfold wbind at 1, wret at 1 in R. cbn [g_a g_b g_dof g_chi g_net g_norms g_errors g_archive] in R.
  apply (append_ok num _ _ _ _ [] [] V H) in R; auto. destruct R as (n & c & -> & K1 & K2 & K3 & K4 & Q6 & NZ & AR & G6 & V6). cbn [g_a g_b g_dof g_chi g_net g_norms g_errors g_archive app with_heap w_heap] in *.
  exists n, c. split; [split; [reflexivity|split; [reflexivity|cbn; now rewrite ED]]|]. repeat (split; [assumption || reflexivity|]). split; [split; [exact I|reflexivity|exact Q6]|]. repeat (split; [assumption|]).
  split; [apply G6; [exact G1|lia]|]. split; [lia|]. intros. rewrite V6 by auto. now rewrite EV.
Qed.
Lemma pow_refined {L : lattice} (x : A) n : pow x (List.length (sites (refined n L))) = pow (pow x (2 ^ n)) (List.length (sites L)).
Proof. now rewrite pow_pow, refined_count. Qed.
Theorem trg_value w w0 wn x chi dof V0 H0 T g0 g n V H L ns : newTrg symdiff fuel num (Some x) None chi w = (w0, Ok g0) -> given (w_heap w) x dof V0 H0 T ->
  exact_run num symdiff fuel w0 g0 V0 H0 n wn g V H -> (forall x, nu_conj num x = x) -> g_norms g = Some ns -> (forall x, In x ns -> invertible num x) -> torus L ->
  List.length ns = S n /\ partition (refined n L) H0 V0 (fun _ => T) = pow (norm_product ns) (List.length (sites L)) * partition L H V (fun _ => entry4 (w_heap wn) (g_a g)).
Proof.
  intros R0 GV RN CJ EN IN TL. destruct (init_ok _ _ _ _ _ _ _ _ _ R0 GV) as (n0 & c & RD & _ & _ & _ & ST & _ & _ & _ & _ & EV).
  destruct (run_value _ _ _ _ _ _ _ _ _ _ _ _ RN ST RD CJ) as (ns' & EN' & LN & X). rewrite EN in EN'. injection EN' as ->. cbn [app] in *. split; [cbn; lia|].
  specialize (X L TL (fun y Hy => IN y (or_intror Hy))). cbn [norm_product]. rewrite pow_mul, LN. rewrite <- rmul_assoc, <- X, <- pow_refined, <- partition_scale.
  apply partition_range; [now apply refined_torus|]. intros q u l d r _ Hu Hl Hd Hr. rewrite EV by auto. rewrite rmul_comm. symmetry. apply (IN n0). now left.
Qed.
(** every archived tensor stands for the network it was made from *)
Theorem trg_archive w w0 wn x chi dof V0 H0 T g0 g n V H ns ar : newTrg symdiff fuel num (Some x) None chi w = (w0, Ok g0) -> given (w_heap w) x dof V0 H0 T ->
  exact_run num symdiff fuel w0 g0 V0 H0 n wn g V H -> (forall x, nu_conj num x = x) -> g_norms g = Some ns -> (forall x, In x ns -> invertible num x) -> g_archive g = Some ar ->
  List.length ar = S n /\ forall i, i <= n -> exists c Vi Hi, nth_error ar i = Some (c, 2 ^ i * dof)%nat /\ square (w_heap wn) c Vi Hi /\
    forall L, torus L -> partition (refined i L) H0 V0 (fun _ => T) = pow (norm_product (firstn (S i) ns)) (List.length (sites L)) * partition L Hi Vi (fun _ => entry4 (w_heap wn) c).
Proof.
  intros R0 GV RN CJ. destruct (init_ok _ _ _ _ _ _ _ _ _ R0 GV) as (n0 & c0 & RD0 & DF0 & CH0 & _ & ST & AR0 & NZ0 & G0 & _ & EV).
  revert ns ar. induction RN as [|n w1 g V H w' g' RN IH R FA FB]; intros ns ar EN IN EA.
  - destruct RD0 as (E1 & _ & E2). rewrite E1 in EN. rewrite E2 in EA. injection EN as <-. injection EA as <-. split; [reflexivity|]. intros i Hi. assert (i = 0)%nat as -> by lia.
    destruct AR0 as (_ & Qc & EC). exists c0, V0, H0. split; [cbn; now rewrite Nat.add_0_r|]. split; [exact Qc|]. intros L TL.
    destruct (trg_value _ _ _ _ _ _ _ _ _ _ _ 0 _ _ L [n0] R0 GV (er_start _ _ _ _ _ _ _) CJ E1 IN TL) as (_ & X). rewrite X. f_equal. apply partition_range; [exact TL|]. intros. now rewrite EC.
  - destruct (run_state _ _ _ _ _ _ _ _ _ _ _ _ RN ST RD0) as (ns' & es' & ar' & [S1 S2 S3] & RD' & L1 & _ & L3 & DF & _ & _).
    assert (S3' : square (w_heap w1) (g_b g) V H) by now rewrite S2. assert (LNS : List.length ([n0] ++ ns') = S n) by (cbn; lia).
    set (ns1 := [n0] ++ ns') in *. set (ar1 := [(c0, dof)] ++ ar') in *. clearbody ns1 ar1. pose proof RD' as (E1 & _ & E3).
    destruct (iterate_ok symdiff Hsd fuel num w1 w' g g' V H _ _ _ R S1 S3 S3' RD') as (a & f & n1 & c & EG & N' & Q' & NZ & AR & G' & _); [apply FA|apply FB|].
    assert (EN' := EN). assert (EA' := EA). rewrite EG in EN', EA'. cbn [g_norms g_archive] in EN', EA'. injection EN' as <-. injection EA' as <-.
    specialize (IH _ _ E1 (fun y Hy => IN y (in_or_app _ _ y (or_introl Hy))) E3). destruct IH as (LA & IH). split; [rewrite app_length, LA; cbn; lia|].
    intros i Hi. destruct (Nat.eq_dec i (S n)) as [->|NE].
    + destruct AR as (_ & Qc & EC). exists c, (Nat.min (g_chi g) (V * H)), (Nat.min (g_chi g) (V * H)). split; [|split; [exact Qc|]].
      * rewrite nth_error_app2 by lia. rewrite LA, Nat.sub_diag. cbn [nth_error]. f_equal. f_equal. rewrite DF, DF0. cbn. lia.
      * intros L TL. assert (RN' := er_step _ _ _ _ _ _ _ _ _ _ _ _ _ _ RN R FA FB).
        destruct (trg_value _ _ _ _ _ _ _ _ _ _ _ (S n) _ _ L _ R0 GV RN' CJ EN IN TL) as (LN & X). rewrite X, firstn_all2 by (rewrite LN; lia). f_equal. apply partition_range; [exact TL|]. intros. rewrite EC, EG. reflexivity.
    + destruct (IH i) as (ci & Vi & Hi' & Ei & Qi & Xi); [lia|]. destruct (grown_dense _ _ _ _ G' Qi) as (Qi' & Vali & _). exists ci, Vi, Hi'. split; [rewrite nth_error_app1 by lia; exact Ei|]. split; [exact Qi'|].
      intros L TL. rewrite Xi by auto. f_equal; [|apply partition_range; [exact TL|]; intros; unfold entry4; now rewrite Vali]. rewrite firstn_app. replace (S i - List.length ns1)%nat with 0%nat by lia. cbn [firstn]. now rewrite app_nil_r.
Qed.

Lemma logz_aux (h : heap) pos d : log_ok num pos -> forall ar ns pre j0 acc, acc = nu_share num (nu_log num (norm_product pre)) (2 ^ j0 * d) -> pos (norm_product pre) -> (forall x, In x ns -> pos x) -> List.length ns = List.length ar ->
  (forall j x, nth_error ar j = Some x -> snd x = (2 ^ S (j0 + j) * d)%nat /\ exists V H, square h (fst x) V H /\ pos (partition (grid 1 1) H V (fun _ => entry4 h (fst x)))) ->
  exists xs, logZAux num h acc ns ar = Ok xs /\ List.length xs = List.length ar /\
    forall j x V H, nth_error ar j = Some x -> square h (fst x) V H ->
      nth_error xs j = Some (nu_share num (nu_log num (norm_product (pre ++ firstn (S j) ns) * partition (grid 1 1) H V (fun _ => entry4 h (fst x)))) (2 ^ S (j0 + j) * d)).
Proof.
  intros [LM LAs LZ LS LH]. induction ar as [|[t dof] ar IH]; intros ns pre j0 acc EA PP PN LN SQ.
  - destruct ns; [|discriminate]. exists []. cbn. split; auto. split; auto. intros [|j]; discriminate.
  - destruct ns as [|n ns]; [discriminate|]. cbn [logZAux]. destruct (SQ 0%nat _ eq_refl) as (ED & V & H & Q & PT). cbn [fst snd] in ED, Q, PT. rewrite Nat.add_0_r in ED. subst dof.
    rewrite (square_trace h t V H Q). cbn [rbind].
    assert (P2 : pos (norm_product pre * norm_product pre) /\ nu_log num (norm_product pre * norm_product pre) = nu_plus num (nu_log num (norm_product pre)) (nu_log num (norm_product pre))) by now apply LM.
    destruct P2 as (P2 & E2). destruct (LM _ n P2 (PN n (or_introl eq_refl))) as (P3 & E3). rewrite <- norm_product_snoc in P3, E3.
    assert (EA' : nu_plus num acc (nu_share num (nu_log num n) (2 ^ S j0 * d)) = nu_share num (nu_log num (norm_product (pre ++ [n]))) (2 ^ S j0 * d)).
    { rewrite E3, LS, E2, EA. f_equal. replace (2 ^ S j0 * d)%nat with (2 * (2 ^ j0 * d))%nat by (cbn; lia). now rewrite LH. }
    rewrite EA'. destruct (IH ns (pre ++ [n]) (S j0) _ eq_refl P3) as (xs & -> & LX & X).
    + intros y Hy. apply PN. now right.
    + cbn in LN. lia.
    + intros j y Ey. destruct (SQ (S j) y Ey) as (e & q). split; [|exact q]. now rewrite Nat.add_succ_r in e.
    + cbn [rbind]. eexists. split; [reflexivity|]. split; [cbn; lia|]. intros [|j] y V' H' Ey Qy.
      * cbn in Ey. injection Ey as <-. cbn [fst] in *. cbn [nth_error firstn]. rewrite Nat.add_0_r. f_equal.
        assert (EP : partition (grid 1 1) H V (fun _ => entry4 h t) = partition (grid 1 1) H' V' (fun _ => entry4 h t)).
        { pose proof (square_trace h t V H Q) as t1. rewrite (square_trace h t V' H' Qy) in t1. now injection t1. }
        rewrite EP in *. destruct (LM _ _ P3 PT) as (_ & ->). now rewrite LS.
      * cbn [nth_error] in *. rewrite (X j y V' H' Ey Qy). rewrite <- app_assoc. cbn [app firstn]. now rewrite Nat.add_succ_r.
Qed.
Theorem trg_density pos w w0 wn x chi dof V0 H0 T g0 g n V H ns ar : log_ok num pos -> newTrg symdiff fuel num (Some x) None chi w = (w0, Ok g0) -> given (w_heap w) x dof V0 H0 T ->
  exact_run num symdiff fuel w0 g0 V0 H0 n wn g V H -> (forall x, nu_conj num x = x) -> g_norms g = Some ns -> g_archive g = Some ar -> (forall x, In x ns -> invertible num x /\ pos x) ->
  (forall c d v, In (c, d) ar -> trace (w_heap wn) c (Some [RStr "u"; RStr "l"]) (Some [RStr "d"; RStr "r"]) = Ok v -> pos v) ->
  exists xs, logZDensity num (w_heap wn) g = Ok xs /\ List.length xs = S n /\
    forall i, i <= n -> nth_error xs i = Some (nu_share num (nu_log num (partition (refined i (grid 1 1)) H0 V0 (fun _ => T))) (2 ^ i * dof)).
Proof.
  intros LOG R0 GV RN CJ EN EA IN PT. destruct (trg_archive _ _ _ _ _ _ _ _ _ _ _ _ _ _ _ _ R0 GV RN CJ EN (fun y Hy => proj1 (IN y Hy)) EA) as (LA & X).
  destruct (trg_value _ _ _ _ _ _ _ _ _ _ _ _ _ _ (grid 1 1) _ R0 GV RN CJ EN (fun y Hy => proj1 (IN y Hy)) (grid_torus 1 1)) as (LN & _).
  assert (SQ : forall i y, nth_error ar i = Some y -> snd y = (2 ^ i * dof)%nat /\ exists Vi Hi, square (w_heap wn) (fst y) Vi Hi /\ pos (partition (grid 1 1) Hi Vi (fun _ => entry4 (w_heap wn) (fst y)))).
  { intros i y Ey. assert (Hi : i < List.length ar) by (apply nth_error_Some; congruence). destruct (X i) as (c & Vi & Hi' & Ei & Q & _); [lia|]. rewrite Ey in Ei. injection Ei as ->. cbn [fst snd]. split; auto. exists Vi, Hi'. split; auto.
    eapply PT; [eapply nth_error_In; eauto|]. now apply square_trace. }
  unfold logZDensity. rewrite EA, EN. destruct ns as [|n0 ns]; [discriminate|]. destruct ar as [|[c0 d0] ar]; [discriminate|].
  destruct (SQ 0%nat _ eq_refl) as (ED0 & Va & Ha & Q0 & P0). cbn [fst snd] in ED0, Q0, P0. cbn [Nat.pow] in ED0. rewrite Nat.mul_1_l in ED0. subst d0.
  cbn [logZAux]. rewrite (square_trace _ _ _ _ Q0). cbn [rbind]. rewrite (lo_zero _ _ LOG).
  assert (NP : norm_product [n0] = n0) by (cbn; ring).
  destruct (logz_aux (w_heap wn) pos dof LOG ar ns [n0] 0 (nu_share num (nu_log num n0) dof)) as (xs & -> & LX & XS).
  - rewrite NP. cbn [Nat.pow]. now rewrite Nat.mul_1_l.
  - rewrite NP. apply IN. now left.
  - intros y Hy. apply IN. now right.
  - cbn in LN, LA. lia.
  - intros j y Ey. apply (SQ (S j) y). exact Ey.
  - cbn [rbind]. eexists. split; [reflexivity|]. split; [cbn in *; lia|]. intros i Hi. destruct (X i Hi) as (c & Vi & Hi' & Ei & Q & XX). rewrite (XX _ (grid_torus 1 1)). change (List.length (sites (grid 1 1))) with 1%nat.
    replace (pow (norm_product (firstn (S i) (n0 :: ns))) 1) with (norm_product (firstn (S i) (n0 :: ns))) by (cbn; ring).
    destruct i as [|j].
    + cbn in Ei. injection Ei as ->. cbn [nth_error firstn Nat.pow]. rewrite NP, Nat.mul_1_l. f_equal. rewrite <- (lo_share _ _ LOG). f_equal.
      assert (EP : partition (grid 1 1) Ha Va (fun _ => entry4 (w_heap wn) c) = partition (grid 1 1) Hi' Vi (fun _ => entry4 (w_heap wn) c)).
      { pose proof (square_trace _ _ _ _ Q0) as t1. rewrite (square_trace _ _ _ _ Q) in t1. now injection t1. }
      rewrite EP in *. symmetry. apply (lo_mul _ _ LOG); auto. apply IN. now left.
    + cbn [nth_error] in Ei |- *. rewrite (XS j _ Vi Hi' Ei Q). reflexivity.
Qed.

(** in the words of the specification *)
Theorem iterate_spec (w w' : world) (g g' : trg) V H ns es ar : iterate symdiff fuel num g w = (w', Ok g') -> net_ready w g ->
  square (w_heap w) (g_a g) V H -> square (w_heap w) (g_b g) V H -> ready g ns es ar ->
  svd_shape (nu_lib num) (mat_a (w_heap w) g V H) (V * H) (V * H) -> svd_shape (nu_lib num) (mat_b (w_heap w) g V H) (V * H) (V * H) ->
  let k := Nat.min (g_chi g) (V * H) in
  exists n c, state w' g' k k /\ g_chi g' = g_chi g /\ g_dof g' = (2 * g_dof g)%nat /\
    ready g' (ns ++ [n]) (es ++ [(cut_error num (mat_a (w_heap w) g V H) (V * H) (g_chi g) 2, cut_error num (mat_b (w_heap w) g V H) (V * H) (g_chi g) 2)]) (ar ++ [(c, 2 * g_dof g)%nat]) /\
    normalized num (w_heap w') (g_a g') n /\ archived (w_heap w') (g_a g') c k k /\ preserved (w_heap w) (w_heap w') /\ 
    forall u l d r, u < k -> l < k -> d < k -> r < k ->
      entry4 (w_heap w') (g_a g') u l d r = nu_div num (coarse num V H (mat_a (w_heap w) g V H) (mat_b (w_heap w) g V H) u l d r) n.
Proof.
  intros R NR Qa Qb RD SA SB k. destruct (iterate_ok symdiff Hsd fuel num w w' g g' V H ns es ar R NR Qa Qb RD SA SB) as (a & f & n & c & -> & N' & Q' & NZ & AR & G' & EV).
  exists n, c. split; [split; auto|]. split; auto. split; auto. split; [split; [|split]; reflexivity|]. split; auto. split; auto. split; [now apply grown_preserved|exact EV].
Qed.
Theorem init_spec (w w' : world) x chi dof V H T g : newTrg symdiff fuel num (Some x) None chi w = (w', Ok g) -> given (w_heap w) x dof V H T ->
  exists n c, state w' g V H /\ g_chi g = chi /\ g_dof g = dof /\ ready g [n] [] [(c, dof)] /\
    normalized num (w_heap w') (g_a g) n /\ archived (w_heap w') (g_a g) c V H /\ preserved (w_heap w) (w_heap w') /\ 
    forall u l d r, u < V -> l < H -> d < V -> r < H -> entry4 (w_heap w') (g_a g) u l d r = nu_div num (T u l d r) n.
Proof.
  intros R GV. destruct (init_ok _ _ _ _ _ _ _ _ _ R GV) as (n & c & RD & DF & CH & _ & ST & AR & NZ & G & _ & EV). exists n, c. repeat (split; [assumption|]). split; [now apply grown_preserved|exact EV].
Qed.
Lemma run_chi w0 g0 V0 H0 n w g V H : exact_run num symdiff fuel w0 g0 V0 H0 n w g V H -> g_chi g = g_chi g0 -> n = 0%nat \/ (V <= g_chi g0 /\ H = V)%nat.
Proof.
  intros RN. induction RN as [|n w g V H w' g' RN IH R FA FB]; [auto|]. intros E. right. split; auto.
  assert (g_chi g' = g_chi g).
  { unfold iterate in R. repeat (apply wbind_inv in R; let w1 := fresh in let x := fresh "x" in let R' := fresh "R" in destruct R as (w1 & x & R' & R); try (destruct x as [[? ?] ?])).
    injection R as _ <-. cbn [g_chi].
    match goal with X : appendToArchive _ _ _ = _ |- _ => unfold appendToArchive in X; apply wbind_inv in X; destruct X as (? & g1 & Y & X); unfold normalizeTensors in Y;
      apply wbind_inv in Y; destruct Y as (? & ? & _ & Y); apply wbind_inv in Y; destruct Y as (? & ? & _ & Y); injection Y as _ <-; cbn [g_chi g_archive] in X end.
    destruct (g_archive g) as [l|]; [|discriminate]. match goal with X : wbind _ _ _ = _ |- _ => apply wbind_inv in X; destruct X as (? & ? & _ & X); injection X as _ <- end. reflexivity. }
  rewrite <- E. lia.
Qed.
(** the state after n steps *)
Theorem run_spec w w0 wn x chi dof V0 H0 T g0 g n V H : newTrg symdiff fuel num (Some x) None chi w = (w0, Ok g0) -> given (w_heap w) x dof V0 H0 T ->
  exact_run num symdiff fuel w0 g0 V0 H0 n wn g V H ->
  state wn g V H /\ g_chi g = chi /\ g_dof g = (2 ^ n * dof)%nat /\ (n = 0%nat \/ (V <= chi /\ H = V)%nat) /\ preserved (w_heap w) (w_heap wn) /\
  exists ns es ar, ready g ns es ar /\ List.length ns = S n /\ List.length es = n /\ List.length ar = S n.
Proof.
  intros R0 GV RN. destruct (init_ok _ _ _ _ _ _ _ _ _ R0 GV) as (n0 & c & RD & DF & CH & _ & ST & AR & NZ & G & _ & EV).
  destruct (run_state _ _ _ _ _ _ _ _ _ _ _ _ RN ST RD) as (ns' & es' & ar' & ST' & RD' & L1 & L2 & L3 & DF' & CH' & G'). split; auto. split; [congruence|]. split; [now rewrite DF', DF|].
  split; [rewrite <- CH; now apply (run_chi _ _ _ _ _ _ _ _ _ RN)|]. split; [apply grown_preserved; eapply grown_trans; eauto|]. exists ([n0] ++ ns'), ([] ++ es'), ([(c, dof)] ++ ar'). split; auto. cbn; repeat split; lia.
Qed.
(** a square torus of 2^m * 2^m sites *)
Theorem trg_torus w w0 wn x chi dof V0 H0 T g0 g m V H ns v : newTrg symdiff fuel num (Some x) None chi w = (w0, Ok g0) -> given (w_heap w) x dof V0 H0 T ->
  exact_run num symdiff fuel w0 g0 V0 H0 (2 * m) wn g V H -> (forall x, nu_conj num x = x) -> g_norms g = Some ns -> (forall x, In x ns -> invertible num x) ->
  trace (w_heap wn) (g_a g) (Some [RStr "u"; RStr "l"]) (Some [RStr "d"; RStr "r"]) = Ok v ->
  partition (grid (2 ^ m) (2 ^ m)) H0 V0 (fun _ => T) = norm_product ns * v.
Proof.
  intros R0 GV RN CJ EN IN EV. destruct (trg_value _ _ _ _ _ _ _ _ _ _ _ _ _ _ (grid 1 1) ns R0 GV RN CJ EN IN (grid_torus 1 1)) as (_ & X).
  destruct (run_spec _ _ _ _ _ _ _ _ _ _ _ _ _ _ R0 GV RN) as ([_ _ Q] & _). rewrite (square_trace _ _ _ _ Q) in EV. injection EV as <-.
  rewrite refined_square, !Nat.mul_1_r in X. rewrite X. f_equal. change (List.length (sites (grid 1 1))) with 1%nat. cbn. ring.
Qed.
(** two tensors *)
Lemma append_none {X} (x : X) w w' l : @append A X None x w <> (w', Ok l).
Proof. discriminate. Qed.
Theorem two_given (w w' : world) x y chi g : newTrg symdiff fuel num (Some x) (Some y) chi w <> (w', Ok g).
Proof.
  intros R. unfold newTrg in R. apply wbind_inv in R. destruct R as (w1 & p & _ & R). apply wbind_inv in R. destruct R as (w2 & g2 & R & _). apply wbind_inv in R. destruct R as (w3 & q & _ & R).
  unfold iterate in R. repeat (apply wbind_inv in R; let w1 := fresh in let x := fresh "x" in let R' := fresh "R" in destruct R as (w1 & x & R' & R); try (destruct x as [[? ?] ?])).
  match goal with X : appendToArchive _ _ _ = _ |- _ => unfold appendToArchive in X; apply wbind_inv in X; destruct X as (? & g1 & Y & X); unfold normalizeTensors in Y;
      apply wbind_inv in Y; destruct Y as (? & ? & _ & Y); apply wbind_inv in Y; destruct Y as (? & ? & Y & _); now apply append_none in Y end.
Qed.
End Run.
