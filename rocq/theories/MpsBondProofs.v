(** doubleMergeByBond on chains with room for everything. *)
From Coq Require Import List Arith Bool Lia String ZArith Permutation.
From Verif Require Import Base Sums NdModel NdProofs HeapModel FuncsModel FuncsProofs TensorModel TensorSpec TensorProofs MatrixProofs
  ContractModel NetSpec ShareProofs LinkProofs SumpairsProofs ContractProofs OuterProofs NetProofs MergeLinkSpec MergeLinkProofs GroupSpec GroupProofs NetSameProofs
  SvdModel SvdSpec SchmidtProofs MergeSvdProofs MpsModel MpsSpec MpsProofs MpsSwapProofs MpsMoveProofs MpsPreProofs MpsContractModel MpsContractSpec MpsOpenProofs MpsCommonProofs
  TripleSpec CanonSpec CanonRunProofs MpsFuseProofs MpsContractProofs MpsSiteProofs MpsDoubleSpec MpsDoubleProofs MpsCutProofs MpsDoubleMainProofs.
Import ListNotations.
Local Open Scope list_scope.
Local Open Scope nat_scope.

Section Bd.
Context {A : Type} {HA : SR A}.
Notation heap := (heap A).

(** ** networks that are not zero *)
Lemma sumN_r0 n : sumN n (fun _ => r0) = r0.
Proof. induction n as [|n IH]; [reflexivity|]. rewrite sumN_S, IH. apply radd_0_l. Qed.
Lemma sumpairs_empty d (f : assignment -> A) : forall P l l', In (l, l') P -> d l = 0 -> forall s, sumpairs d P f s = r0.
Proof.
  induction P as [|(a & b) P IH]; intros l l' H D s; [destruct H|]. destruct H as [E|H]; cbn [sumpairs].
  - injection E as -> ->. rewrite D. reflexivity.
  - rewrite (sumN_ext _ _ (fun _ => r0)); [apply sumN_r0|]. intros i _. now apply (IH l l').
Qed.
Lemma alive_positive (h : heap) ts : wf_net h ts -> alive h ts -> forall l, In l (all_legs h ts) -> 0 < dim_of h l.
Proof.
  intros W (s & B & NZ) l Hl. destruct (all_free_or_inner h ts l Hl) as [HF|HI]; [pose proof (B l HF); lia|].
  assert (exists a b, In (a, b) (inner h ts) /\ dim_of h l = dim_of h a) as (a & b & I & D).
  { unfold plegs in HI. apply in_app_iff in HI. destruct HI as [HI|HI]; apply in_map_iff in HI; destruct HI as ((a & b) & E & I); cbn [fst snd] in E; subst.
    - eauto.
    - exists a, l. split; auto. symmetry. exact (inner_dim h ts a l (wn_ids _ _ W) (wn_links _ _ W) I). }
  rewrite D. destruct (Nat.eq_dec (dim_of h a) 0) as [Z0|]; [|lia]. elim NZ. unfold netval. now apply (sumpairs_empty _ _ _ a b).
Qed.
Lemma alive_same (h h' : heap) ts ts' : same_free h ts h' ts' -> same_value h ts h' ts' -> alive h ts -> alive h' ts'.
Proof.
  intros [P D] V (s & B & NZ). exists s. split; [|now rewrite (V s B)]. intros l Hl. apply (Permutation_in _ P) in Hl. rewrite (D l Hl). now apply B.
Qed.
Lemma alive_perm (h : heap) ts ts' : wf_net h ts -> Permutation ts ts' -> alive h ts -> alive h ts'.
Proof.
  intros W P. apply alive_same.
  - eapply same_free_perm; [reflexivity|exact P|exact W|exact W|]. split; auto.
  - eapply same_value_perm; [reflexivity|exact P|exact W|exact W|]. intros s _. reflexivity.
Qed.

(** ** room *)
Lemma part_le (q : lid -> nat) L1 L2 : (forall l, 1 <= q l) -> prodn (map q L1) <= prodn (map q (L1 ++ L2)) /\ prodn (map q L2) <= prodn (map q (L1 ++ L2)).
Proof.
  intros Q. rewrite prodn_map_app. pose proof (prodn_ge1 q L1 Q). pose proof (prodn_ge1 q L2 Q). split; nia.
Qed.
Lemma dims_le (h : heap) (q : lid -> nat) L : (forall l, In l L -> dim_of h l <= q l) -> prodn (map (dim_of h) L) <= prodn (map q L).
Proof. induction L as [|l L IH]; intros H; [reflexivity|]. cbn [map]. rewrite !prodn_cons'. apply Nat.mul_le_mono; [apply H; simpl; auto|apply IH; intros; apply H; simpl; auto]. Qed.
Lemma fits_roomy (h : heap) q ts os env lf rt chi i : (forall l, 1 <= q l) -> chain h ts os env lf rt -> fits h q os rt chi -> i < List.length ts -> roomy h ts os rt i chi.
Proof.
  intros Q C (D & SL & P) Hi. pose proof (ch_len _ _ _ _ _ _ C) as LO. assert (Hi' : i < List.length os) by lia. assert (IO : In (nth i os 0) os) by now apply nth_In. unfold roomy. generalize dependent (nth i os 0). intros o IO.
  assert (EX : forall L R, os = L ++ R -> (In o L -> q o * prodn (map q R) <= prodn (map q os)) /\ (In o R -> q o * prodn (map q L) <= prodn (map q os))).
  { intros L R EO. rewrite EO, prodn_map_app. split; intros I; apply in_split in I; destruct I as (l1 & l2 & ->); rewrite prodn_map_app; cbn [map]; rewrite prodn_cons';
      pose proof (prodn_ge1 q l1 Q); pose proof (prodn_ge1 q l2 Q).
    - set (a := prodn (map q l1)) in *. set (b := prodn (map q l2)) in *. set (c := prodn (map q R)). replace (a * (q o * b) * c) with (a * b * (q o * c)) by ring. assert (1 <= a * b) by nia. nia.
    - set (a := prodn (map q l1)) in *. set (b := prodn (map q l2)) in *. set (c := prodn (map q L)). replace (c * (a * (q o * b))) with (a * b * (q o * c)) by ring. assert (1 <= a * b) by nia. nia. }
  split.
  - pose proof (D o IO). destruct (in_split _ _ IO) as (l1 & l2 & E). assert (q o <= prodn (map q os)) by (rewrite E, prodn_map_app; cbn [map]; rewrite prodn_cons'; pose proof (prodn_ge1 q l1 Q); pose proof (prodn_ge1 q l2 Q); set (a := prodn (map q l1)) in *; set (b := prodn (map q l2)) in *; assert (q o * 1 <= q o * b) by nia; nia). lia.
  - intros k Hk. assert (Hk' : S k < List.length os) by lia. destruct (SL k Hk') as [S1 S2]. pose proof (D o IO) as Do. destruct (EX (firstn (S k) os) (skipn (S k) os) (eq_sym (firstn_skipn _ _))) as [E1 E2].
    assert (dim_of h o * dim_of h (rt k) <= prodn (map q os)); [|lia].
    assert (IN : In o (firstn (S k) os ++ skipn (S k) os)) by now rewrite firstn_skipn. apply in_app_iff in IN. destruct IN as [IN|IN].
    + etransitivity; [apply Nat.mul_le_mono; [exact Do|exact S2]|auto].
    + etransitivity; [apply Nat.mul_le_mono; [exact Do|exact S1]|auto].
Qed.

(** ** pairs of chains *)
Lemma relocate_perm {X} (l : list X) i j : Permutation (relocate i j l) l.
Proof.
  unfold relocate. destruct (skipn i l) as [|x r] eqn:E; [reflexivity|]. cbn zeta. rewrite <- Permutation_middle, firstn_skipn.
  rewrite Permutation_middle. rewrite <- E. now rewrite firstn_skipn.
Qed.
Lemma exact_sym (h : heap) tsA tsB e osA osB q chi : exact_pair h tsA tsB e osA osB q chi -> exact_pair h tsB tsA e osB osA q chi.
Proof.
  intros (CL & AL & Q & lfA & rtA & lfB & rtB & CA & CB & FA & FB). split; [eapply closed_perm; [apply (ch_wf _ _ _ _ _ _ CA)|apply st_perm|exact CL]|].
  split; [eapply alive_perm; [apply (ch_wf _ _ _ _ _ _ CA)|apply st_perm|exact AL]|]. split; auto. exists lfB, rtB, lfA, rtA. auto.
Qed.

(** ** where a bond is *)
Section Two.
Context (h : heap) (tsA tsB e : list tid) (osA osB : list lid) (lfA rtA lfB rtB : nat -> lid).
Hypothesis CA : chain h tsA osA (tsB ++ e) lfA rtA.
Hypothesis CB : chain h tsB osB (tsA ++ e) lfB rtB.
Hypothesis CL : closed h (tsA ++ tsB ++ e).

Lemma link_back x y : In x osA -> linked h x y -> linked h y x /\ l_bond (legs h y) = l_bond (legs h x) /\ dim_of h x = dim_of h y.
Proof.
  intros Ix L. assert (W := two_net _ _ _ _ _ _ _ CA). assert (IX : In x (all_legs h (tsA ++ tsB ++ e))) by (rewrite all_legs_app; apply in_app_iff; left; exact (os_all _ _ _ _ _ _ _ CA x Ix)).
  assert (IL := closed_link h _ x y W CL IX L). destruct (inner_link_sym h _ x y (wn_links _ _ W) IL) as (t & t' & T & T' & _ & Y & _ & L'). split; auto.
  assert (IY : In y (all_legs h (tsA ++ tsB ++ e))) by (apply in_flat_map; exists t; auto).
  split; [|exact (link_dims h _ x y (wn_links _ _ W) IX IY L)].
  destruct L as (b & B & E). destruct (wn_links _ _ W x b IX B) as (y' & E' & K). assert (y' = y).
  { assert (x <> y) by (intros ->; destruct IL as (u & u' & U & U' & NE & X1 & X2 & _); apply NE; exact (one_owner h _ u u' y (wn_nodup _ _ W) U U' X1 X2)).
    unfold ends in E, E'. destruct E as [E|E], E' as [E'|E']; rewrite E in E'; injection E'; intros; congruence. }
  subst y'. destruct (K IY) as [K1 _]. congruence.
Qed.
Lemma bond_indices x y bd chia acta chib actb : In x osA -> In y osB -> linked h x y -> l_bond (legs h x) = Some bd ->
  exists i j, getBondTensorIndices h (mkMps tsA chia acta) (mkMps tsB chib actb) bd = Ok (i, j) /\ i < List.length tsA /\ j < List.length tsB /\ nth i osA 0 = x /\ nth j osB 0 = y.
Proof.
  intros Ix Iy L B. destruct (link_back x y Ix L) as (L' & _ & _). assert (CL' : closed h (tsB ++ tsA ++ e)) by (eapply closed_perm; [exact (two_net _ _ _ _ _ _ _ CA)|apply st_perm|exact CL]).
  destruct (other_end _ _ _ _ _ _ _ _ _ _ CA CB CL x y Ix L) as (tb & TB & _ & IB). destruct (other_end _ _ _ _ _ _ _ _ _ _ CB CA CL' y x Iy L') as (ta & TA & _ & IA).
  apply IB in Iy as Itb. apply IA in Ix as Ita.
  destruct (end_index _ _ _ _ _ _ _ _ _ _ CA CB CL x y tb Ix L TB Itb) as (j & J1 & J2 & J3). destruct (end_index _ _ _ _ _ _ _ _ _ _ CB CA CL' y x ta Iy L' TA Ita) as (i & I1 & I2 & I3).
  exists i, j. split; auto. destruct L as (b & B' & E). assert (b = bd) by congruence. subst b. unfold getBondTensorIndices. cbn [m_ts].
  assert (X1 : inb (Some ta) (map Some tsA) = true) by now apply inb_some. assert (X2 : inb (Some tb) (map Some tsB) = true) by now apply inb_some.
  assert (X3 : inb (Some tb) (map Some tsA) = false) by (apply not_true_is_false; intros X; apply inb_some in X; exact (two_disjt _ _ _ _ _ _ _ CA tb X Itb)).
  destruct E as [E|E]; rewrite E; cbn [b0 b1]; rewrite TA, TB.
  - rewrite X1. cbn beta iota. rewrite X1, X2. cbn [negb]. unfold tensorIndex. cbn [m_ts]. rewrite I1, J1. reflexivity.
  - rewrite X3. cbn beta iota. rewrite X1, X2. cbn [negb]. unfold tensorIndex. cbn [m_ts]. rewrite I1, J1. reflexivity.
Qed.
End Two.

Variable lib : linalg A.
Hypothesis PF : svd_perfect lib.
Hypothesis RK : svd_rank lib.
Let ST : svd_total lib := perfect_total lib PF.

Lemma adjacent_exact (h : heap) tsA tsB e osA osB q chi chia act i j : exact_pair h tsA tsB e osA osB q chi -> Z.le chi chia -> i < List.length tsA -> j < List.length tsA -> i <> j ->
  exists h' ts' os' act' k, makeAdjacent lib (Z.of_nat i) (Z.of_nat j) (mkMps tsA chia act) h = (h', Ok (mkMps ts' chia act', Z.of_nat k, Z.of_nat (S k))) /\
    exact_pair h' ts' tsB e os' osB q chi /\ Permutation os' osA /\ S k < List.length ts' /\ 
    ((nth k os' 0 = nth i osA 0 /\ nth (S k) os' 0 = nth j osA 0) \/ (nth k os' 0 = nth j osA 0 /\ nth (S k) os' 0 = nth i osA 0)) /\
    untouched h (tsB ++ e) h' /\ kept_legs h h' osA /\
    same_free h (tsA ++ tsB ++ e) h' (ts' ++ tsB ++ e) /\ same_value h (tsA ++ tsB ++ e) h' (ts' ++ tsB ++ e).
Proof.
  intros (CL & AL & Q & lfA & rtA & lfB & rtB & CA & CB & FA & FB) CI Hi Hj NE.
  assert (C0 : Z.le 0 chia) by (destruct FA as (_ & _ & P); lia).
  destruct (adjacent_ok lib ST h tsA osA (tsB ++ e) lfA rtA i j chia act CA Hi Hj NE C0) as (h' & ts' & lf' & rt' & act' & E & MV & N1 & N2 & SV).
  set (p := Nat.min i j) in *. set (r := Nat.max i j) in *. set (os' := relocate p (r - 1) osA) in *.
  assert (CA' := mv_chain _ _ _ _ _ _ _ _ _ _ _ _ _ _ MV). assert (SF := mv_free _ _ _ _ _ _ _ _ _ _ _ _ _ _ MV).
  assert (V : same_value h (tsA ++ tsB ++ e) h' (ts' ++ tsB ++ e)).
  { apply SV. right. split; auto. apply (fits_roomy h q tsA osA (tsB ++ e) lfA rtA chia); auto; [|unfold p; lia]. destruct FA as (D & SL & P). split; auto. split; auto. lia. }
  assert (U := moved_ut _ _ _ _ _ _ _ _ _ _ _ _ _ _ MV).
  assert (PO : Permutation os' osA) by apply relocate_perm.
  exists h', ts', os', act', (r - 1). split; [rewrite E; repeat f_equal; lia|]. split.
  - split; [exact (moved_closed _ _ _ _ _ _ _ _ _ _ _ _ _ _ CA MV CL)|]. split; [exact (alive_same _ _ _ _ SF V AL)|]. split; auto. exists lf', rt', lfB, rtB. split; auto. split; [|split].
    + apply (chain_frame h h' _ _ (tsA ++ e)); auto; [eapply ut_incl; [|exact U]; sub|]. eapply wf_open_perm; [apply st_perm|exact (ch_wf _ _ _ _ _ _ CA')].
    + destruct FA as (D & SL & P). split; [|split].
      * intros l Hl. apply (Permutation_in _ PO) in Hl. rewrite (mv_dims _ _ _ _ _ _ _ _ _ _ _ _ _ _ MV l Hl). auto.
      * apply (mv_slim _ _ _ _ _ _ _ _ _ _ _ _ _ _ MV); auto.
      * now rewrite (prodn_perm' _ _ (Permutation_map q PO)).
    + assert (UB : untouched h tsB h') by (eapply ut_incl; [|exact U]; sub). destruct FB as (D & SL & P). split; [|split]; auto.
      * intros l Hl. unfold dim_of. rewrite (ut_legs _ _ _ UB); [now apply D|]. exact (os_all _ _ _ _ _ _ _ CB l Hl).
      * exact (slim_frame h h' tsB osB _ lfB rtB q CB UB SL).
  - split; auto. split; [rewrite (mv_len _ _ _ _ _ _ _ _ _ _ _ _ _ _ MV); lia|]. replace (S (r - 1)) with r by lia. split.
    + rewrite N1, N2. unfold p, r. destruct (Nat.le_ge_cases i j); [left|right]; rewrite ?Nat.min_l, ?Nat.max_r, ?Nat.min_r, ?Nat.max_l by lia; auto.
    + split; auto. split; [exact (moved_kept _ _ _ _ _ _ _ _ _ _ _ _ _ _ MV)|]. auto.
Qed.

Lemma ends_room (h : heap) q L R chi : (forall l, 1 <= q l) -> (forall l, In l (L ++ R) -> dim_of h l <= q l) -> Z.le (Z.of_nat (prodn (map q (L ++ R)))) chi -> ends_fit h L R chi.
Proof.
  intros Q D P k. destruct (part_le q L R Q) as [P1 P2].
  assert (X1 := part_le q (firstn k L) (skipn k L) Q). assert (X2 := part_le q (firstn k R) (skipn k R) Q). rewrite firstn_skipn in X1, X2.
  assert (Y1 := dims_le h q (firstn k L)). assert (Y2 := dims_le h q (skipn k R)).
  split.
  - assert (prodn (map (dim_of h) (firstn k L)) <= prodn (map q (firstn k L))); [|lia]. apply Y1. intros l Hl. apply D, in_app_iff. left. rewrite <- (firstn_skipn k L). apply in_app_iff; auto.
  - assert (prodn (map (dim_of h) (skipn k R)) <= prodn (map q (skipn k R))); [|lia]. apply Y2. intros l Hl. apply D, in_app_iff. right. rewrite <- (firstn_skipn k R). apply in_app_iff; auto.
Qed.
Lemma alive_bonds (h : heap) ts os env lf rt : chain h ts os env lf rt -> alive h (ts ++ env) -> bonds_positive h ts rt.
Proof.
  intros C AL i Hi. apply (alive_positive h (ts ++ env)); auto; [apply (ch_wf _ _ _ _ _ _ C)|]. rewrite all_legs_app. apply in_app_iff. left. assert (Hi2 : i < List.length ts) by lia.
  apply (ch_all _ _ i _ Hi2), (ch_in_r _ _ _ _ _ _ C _ Hi).
Qed.
Lemma split_two {X} (l : list X) k d : S k < List.length l -> exists P Q, l = P ++ [nth k l d; nth (S k) l d] ++ Q /\ List.length P = k.
Proof.
  intros H. exists (firstn k l), (skipn (S (S k)) l). split; [|rewrite firstn_length; lia]. rewrite <- (firstn_skipn k l) at 1. f_equal. rewrite (skipn_nth l k d) by lia. cbn [app]. f_equal. apply skipn_nth. lia.
Qed.
Lemma cancel_two (X Y : list lid) a b a' b' R : Permutation (X ++ [a; b] ++ Y) (a' :: b' :: R) -> (a = a' /\ b = b') \/ (a = b' /\ b = a') -> Permutation (X ++ Y) R.
Proof.
  intros P C. assert (P' : Permutation (X ++ [a; b] ++ Y) (a :: b :: X ++ Y)).
  { cbn [app]. rewrite <- Permutation_middle. apply perm_skip. symmetry. apply Permutation_middle. }
  rewrite P' in P. destruct C as [[-> ->]|[-> ->]].
  - now apply Permutation_cons_inv, Permutation_cons_inv in P.
  - rewrite perm_swap in P. now apply Permutation_cons_inv, Permutation_cons_inv in P.
Qed.

(** doubleMerge on two chains with room for everything *)
Lemma double_exact (h : heap) tsA tsB e osA osB q chia chib acta actb ka kb RA RB x1 x2 y1 y2 :
  exact_pair h tsA tsB e osA osB q (Z.min chia chib) -> S ka < List.length tsA -> S kb < List.length tsB ->
  Permutation osA (x1 :: x2 :: RA) -> Permutation osB (y1 :: y2 :: RB) -> linked h x1 y1 -> linked h x2 y2 ->
  (nth ka osA 0 = x1 /\ nth (S ka) osA 0 = x2) \/ (nth ka osA 0 = x2 /\ nth (S ka) osA 0 = x1) ->
  (nth kb osB 0 = y1 /\ nth (S kb) osB 0 = y2) \/ (nth kb osB 0 = y2 /\ nth (S kb) osB 0 = y1) ->
  exists h' tsA' tsB' osA' osB' x y bd q', doubleMerge lib (mkMps tsA chia acta) (mkMps tsB chib actb) (Z.of_nat ka) (Z.of_nat kb) h = (h', Ok (mkMps tsA' chia None, mkMps tsB' chib None, bd)) /\
    exact_pair h' tsA' tsB' e osA' osB' q' (Z.min chia chib) /\ Permutation osA' (x :: RA) /\ Permutation osB' (y :: RB) /\ linked h' x y /\ l_bond (legs h' x) = Some bd /\
    q' x = q x1 * q x2 /\ q' y = q y1 * q y2 /\ (forall l, l <> x -> l <> y -> q' l = q l) /\
    untouched h e h' /\ kept_legs h h' (RA ++ RB) /\ same_free h (tsA ++ tsB ++ e) h' (tsA' ++ tsB' ++ e) /\ same_value h (tsA ++ tsB ++ e) h' (tsA' ++ tsB' ++ e).
Proof.
  intros (CL & AL & Q & lfA & rtA & lfB & rtB & CA & CB & FA & FB) HA' HB PA PB L1 L2 NA NB.
  assert (LA := ch_len _ _ _ _ _ _ CA). assert (LB := ch_len _ _ _ _ _ _ CB).
  destruct (split_two tsA ka 0 HA') as (XA & YA & EA & LXA). destruct (split_two tsB kb 0 HB) as (XB & YB & EB & LXB).
  assert (HA2 : S ka < List.length osA) by lia. assert (HB2 : S kb < List.length osB) by lia.
  destruct (split_two osA ka 0 HA2) as (XO & YO & EO & LXO). destruct (split_two osB kb 0 HB2) as (PO & QO & EP & LPO).
  set (o1 := nth ka osA 0) in *. set (o2 := nth (S ka) osA 0) in *. set (w1 := nth kb osB 0) in *. set (w2 := nth (S kb) osB 0) in *.
  set (a1 := nth ka tsA 0) in *. set (a2 := nth (S ka) tsA 0) in *. set (b1 := nth kb tsB 0) in *. set (b2 := nth (S kb) tsB 0) in *.
  clearbody o1 o2 w1 w2 a1 a2 b1 b2.
  assert (RAP : Permutation (XO ++ YO) RA) by (eapply cancel_two; [rewrite <- EO; exact PA|exact NA]).
  assert (RBP : Permutation (PO ++ QO) RB) by (eapply cancel_two; [rewrite <- EP; exact PB|exact NB]).
  subst tsA tsB osA osB.
  assert (LK : (linked h o1 w1 /\ linked h o2 w2) \/ (linked h o1 w2 /\ linked h o2 w1)) by (destruct NA as [[-> ->]|[-> ->]], NB as [[-> ->]|[-> ->]]; auto).
  assert (QX : q o1 * q o2 = q x1 * q x2) by (destruct NA as [[-> ->]|[-> ->]]; lia).
  assert (QY : q w1 * q w2 = q y1 * q y2) by (destruct NB as [[-> ->]|[-> ->]]; lia).
  assert (BA := alive_bonds _ _ _ _ _ _ CA AL).
  assert (BB : bonds_positive h (XB ++ [b1; b2] ++ YB) rtB).
  { apply (alive_bonds _ _ _ _ _ _ CB). eapply alive_perm; [exact (two_net _ _ _ _ _ _ _ CA)|apply st_perm|exact AL]. }
  destruct FA as (DA & SA & CHA). destruct FB as (DB & SB & CHB).
  destruct (double_merge lib ST h XA YA XB YB e a1 a2 b1 b2 XO YO PO QO o1 o2 w1 w2 lfA rtA lfB rtB chia chib acta actb CA CB CL (eq_trans LXO (eq_sym LXA)) (eq_trans LPO (eq_sym LXB)) LK BA BB
    ltac:(lia) ltac:(lia)) as (h' & tsA' & tsB' & x & y & bd & E & D & RK' & V).
  rewrite LXA, LXB in E. specialize (RK' RK).
  assert (QA : prodn (map q (XO ++ YO)) <= prodn (map q (XO ++ [o1; o2] ++ YO)) /\ prodn (map q (XO ++ [o1; o2] ++ YO)) = q o1 * q o2 * prodn (map q (XO ++ YO))).
  { rewrite !prodn_map_app. cbn [map]. rewrite !prodn_cons'. cbn [prodn fold_right]. pose proof (Q o1). pose proof (Q o2). set (u := prodn (map q XO)). set (v := prodn (map q YO)). unfold prodn. cbn [fold_right]. split; [|ring].
    assert (1 <= q o1 * q o2) by nia. replace (u * (q o1 * (q o2 * 1) * v)) with (q o1 * q o2 * (u * v)) by ring. nia. }
  assert (QB : prodn (map q (PO ++ QO)) <= prodn (map q (PO ++ [w1; w2] ++ QO)) /\ prodn (map q (PO ++ [w1; w2] ++ QO)) = q w1 * q w2 * prodn (map q (PO ++ QO))).
  { rewrite !prodn_map_app. cbn [map]. rewrite !prodn_cons'. cbn [prodn fold_right]. pose proof (Q w1). pose proof (Q w2). set (u := prodn (map q PO)). set (v := prodn (map q QO)). unfold prodn. cbn [fold_right]. split; [|ring].
    assert (1 <= q w1 * q w2) by nia. replace (u * (q w1 * (q w2 * 1) * v)) with (q w1 * q w2 * (u * v)) by ring. nia. }
  assert (IA : incl (XO ++ YO) (XO ++ [o1; o2] ++ YO)) by sub. assert (IB : incl (PO ++ QO) (PO ++ [w1; w2] ++ QO)) by sub.
  assert (V' : same_value h ((XA ++ [a1; a2] ++ YA) ++ (XB ++ [b1; b2] ++ YB) ++ e) h' (tsA' ++ tsB' ++ e)).
  { apply V; auto.
    - apply (ends_room h q); auto. lia.
    - apply (ends_room h q); auto. lia.
    - left. assert (prodn (map (dim_of h) (XO ++ YO)) <= prodn (map q (XO ++ YO))) by (apply dims_le; auto). lia. }
  assert (SF := db_free _ _ _ _ _ _ _ _ _ _ _ _ _ _ _ _ _ _ _ _ _ _ D).
  destruct (db_chains _ _ _ _ _ _ _ _ _ _ _ _ _ _ _ _ _ _ _ _ _ _ D) as (lfA' & rtA' & lfB' & rtB' & CA' & CB' & _ & _ & SL).
  assert (NDA := ch_ndo _ _ _ _ _ _ CA'). assert (NDB := ch_ndo _ _ _ _ _ _ CB').
  assert (DJ : forall l, In l (XO ++ [x] ++ YO) -> In l (PO ++ [y] ++ QO) -> False).
  { intros l I1 I2. apply (two_disj _ _ _ _ _ _ _ CA' l); [exact (os_all _ _ _ _ _ _ _ CA' l I1)|exact (os_all _ _ _ _ _ _ _ CB' l I2)]. }
  assert (XY : x <> y) by (intros ->; apply (DJ y); apply in_app_iff; right; left; auto).
  assert (NX : forall l, In l ((XO ++ YO) ++ (PO ++ QO)) -> l <> x /\ l <> y).
  { intros l Hl. apply in_app_iff in Hl. cbn [app] in NDA, NDB. pose proof (NoDup_remove_2 _ _ _ NDA). pose proof (NoDup_remove_2 _ _ _ NDB). destruct Hl as [Hl|Hl]; split; intros ->; auto.
    - apply (DJ y); [|apply in_app_iff; right; left; auto]. apply in_app_iff in Hl. apply in_app_iff. destruct Hl; auto. right. right. auto.
    - apply (DJ x); [apply in_app_iff; right; left; auto|]. apply in_app_iff in Hl. apply in_app_iff. destruct Hl; auto. right. right. auto. }
  set (q' := fun l => if Nat.eqb l x then q x1 * q x2 else if Nat.eqb l y then q y1 * q y2 else q l).
  assert (QX' : q' x = q x1 * q x2) by (unfold q'; now rewrite Nat.eqb_refl).
  assert (QY' : q' y = q y1 * q y2) by (unfold q'; destruct (Nat.eqb_spec y x); [congruence|now rewrite Nat.eqb_refl]).
  assert (QO' : forall l, l <> x -> l <> y -> q' l = q l) by (intros l N1 N2; unfold q'; destruct (Nat.eqb_spec l x); [congruence|]; destruct (Nat.eqb_spec l y); congruence).
  clearbody q'.
  assert (KL := db_kept _ _ _ _ _ _ _ _ _ _ _ _ _ _ _ _ _ _ _ _ _ _ D). destruct (db_bond _ _ _ _ _ _ _ _ _ _ _ _ _ _ _ _ _ _ _ _ _ _ D) as [_ BD].
  destruct (db_dim _ _ _ _ _ _ _ _ _ _ _ _ _ _ _ _ _ _ _ _ _ _ D) as [DY _].
  assert (D1 : dim_of h o1 * dim_of h o2 <= q o1 * q o2) by (apply Nat.mul_le_mono; apply DA; apply in_app_iff; right; simpl; auto).
  assert (DYX : dim_of h o1 * dim_of h o2 = dim_of h w1 * dim_of h w2).
  { assert (I1 : In o1 (XO ++ [o1; o2] ++ YO)) by (apply in_app_iff; right; simpl; auto). assert (I2 : In o2 (XO ++ [o1; o2] ++ YO)) by (apply in_app_iff; right; simpl; auto).
    destruct LK as [[K1 K2]|[K1 K2]]; destruct (link_back _ _ _ _ _ _ _ CA CL _ _ I1 K1) as (_ & _ & ->); destruct (link_back _ _ _ _ _ _ _ CA CL _ _ I2 K2) as (_ & _ & ->); lia. }
  assert (D2 : dim_of h w1 * dim_of h w2 <= q w1 * q w2) by (apply Nat.mul_le_mono; apply DB; apply in_app_iff; right; simpl; auto).
  destruct (SL q q') as [SLA SLB]; auto.
  { intros l Hl. apply in_app_iff in Hl. destruct Hl; auto. }
  { intros l Hl. destruct (NX l Hl). rewrite QO'; auto. }
  { lia. } { lia. }
  exists h', tsA', tsB', (XO ++ [x] ++ YO), (PO ++ [y] ++ QO), x, y, bd, q'. split; [exact E|]. split.
  - split; [exact (db_closed _ _ _ _ _ _ _ _ _ _ _ _ _ _ _ _ _ _ _ _ _ _ D)|]. split; [exact (alive_same _ _ _ _ SF V' AL)|]. split.
    { intros l. destruct (Nat.eq_dec l x) as [->|]; [rewrite QX'; pose proof (Q x1); pose proof (Q x2); nia|]. destruct (Nat.eq_dec l y) as [->|]; [rewrite QY'; pose proof (Q y1); pose proof (Q y2); nia|]. rewrite QO'; auto. }
    exists lfA', rtA', lfB', rtB'. split; auto. split; auto. split; (split; [|split; auto]).
    + intros l Hl. apply in_app_iff in Hl. destruct (Nat.eq_dec l x) as [->|NE]; [lia|]. assert (Hl' : In l (XO ++ YO)) by (apply in_app_iff; destruct Hl as [Hl|[Hl|Hl]]; auto; congruence).
      assert (Hl2 : In l ((XO ++ YO) ++ (PO ++ QO))) by (apply in_app_iff; auto). destruct (NX l Hl2). rewrite QO' by auto. destruct (KL l Hl2) as (-> & _). auto.
    + assert (prodn (map q' (XO ++ [x] ++ YO)) = q x1 * q x2 * prodn (map q (XO ++ YO))); [|destruct QA as [_ QA]; rewrite QX in QA; lia].
      rewrite !prodn_map_app. cbn [map]. rewrite prodn_cons', QX'. rewrite (map_ext_in q' q XO), (map_ext_in q' q YO). { unfold prodn at 2. cbn [fold_right]. ring. }
      * intros l Hl. destruct (NX l); auto. apply in_app_iff. left. apply in_app_iff. auto.
      * intros l Hl. destruct (NX l); auto. apply in_app_iff. left. apply in_app_iff. auto.
    + intros l Hl. apply in_app_iff in Hl. destruct (Nat.eq_dec l y) as [->|NE]; [lia|]. assert (Hl' : In l (PO ++ QO)) by (apply in_app_iff; destruct Hl as [Hl|[Hl|Hl]]; auto; congruence).
      assert (Hl2 : In l ((XO ++ YO) ++ (PO ++ QO))) by (apply in_app_iff; auto). destruct (NX l Hl2). rewrite QO' by auto. destruct (KL l Hl2) as (-> & _). auto.
    + assert (prodn (map q' (PO ++ [y] ++ QO)) = q y1 * q y2 * prodn (map q (PO ++ QO))); [|destruct QB as [_ QB]; rewrite QY in QB; lia].
      rewrite !prodn_map_app. cbn [map]. rewrite prodn_cons', QY'. rewrite (map_ext_in q' q PO), (map_ext_in q' q QO). { unfold prodn at 2. cbn [fold_right]. ring. }
      * intros l Hl. destruct (NX l); auto. apply in_app_iff. right. apply in_app_iff. auto.
      * intros l Hl. destruct (NX l); auto. apply in_app_iff. right. apply in_app_iff. auto.
  - split; [cbn [app]; rewrite <- Permutation_middle; apply perm_skip; exact RAP|]. split; [cbn [app]; rewrite <- Permutation_middle; apply perm_skip; exact RBP|].
    split; [exact (db_link _ _ _ _ _ _ _ _ _ _ _ _ _ _ _ _ _ _ _ _ _ _ D)|]. split; auto. split; auto. split; auto. split; auto. split; [exact (db_env _ _ _ _ _ _ _ _ _ _ _ _ _ _ _ _ _ _ _ _ _ _ D)|]. split; auto.
    eapply kept_incl; [|exact KL]. intros l Hl. apply in_app_iff in Hl. apply in_app_iff. destruct Hl as [Hl|Hl]; [left; eapply Permutation_in; [symmetry; exact RAP|auto]|right; eapply Permutation_in; [symmetry; exact RBP|auto]].
Qed.
End Bd.
