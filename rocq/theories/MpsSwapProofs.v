(** One call of FreeBoundaryMPS.swap. *)
From Coq Require Import List Arith Bool Lia String ZArith Permutation.
From Verif Require Import Base Sums NdModel NdProofs HeapModel FuncsModel FuncsProofs TensorModel TensorSpec
  ContractModel NetSpec ShareProofs LinkProofs SumpairsProofs ContractProofs NetProofs MergeLinkProofs GroupSpec GroupProofs NetSameProofs
  FtnNetSpec FtnMainProofs SvdModel SvdSpec SchmidtSpec MergeSvdProofs SchmidtProofs MpsModel MpsSpec MpsPairProofs MpsProofs.
Import ListNotations.
Local Open Scope list_scope.
Local Open Scope nat_scope.

Section Mp.
Context {A : Type} {HA : SR A}.
Notation heap := (heap A).

Lemma wf_open_perm (h : heap) ts ts' : Permutation ts ts' -> wf_open h ts -> wf_open h ts'.
Proof.
  intros P [W1 W2 W3]. assert (IN : forall l, In l (all_legs h ts') -> In l (all_legs h ts)).
  { intros l Hl. unfold all_legs in *. apply in_flat_map in Hl. destruct Hl as (t & Ht & Hl). apply in_flat_map. exists t. split; auto.
    eapply Permutation_in; [symmetry; exact P|auto]. }
  constructor; eauto using wf_net_perm.
Qed.
Lemma same_free_perm (h h' : heap) ts ts1 us us1 : Permutation ts ts1 -> Permutation us us1 -> wf_net h ts -> wf_net h' us ->
  same_free h ts h' us -> same_free h ts1 h' us1.
Proof.
  intros P Q W W' [F D]. pose proof (free_perm h ts ts1 P W) as E1. pose proof (free_perm h' us us1 Q W') as E2. split.
  - now rewrite <- E1, <- E2.
  - intros l Hl. apply D. eapply Permutation_in; [symmetry; exact E1|auto].
Qed.
Lemma same_value_perm (h h' : heap) ts ts1 us us1 : Permutation ts ts1 -> Permutation us us1 -> wf_net h ts -> wf_net h' us ->
  same_value h ts h' us -> same_value h ts1 h' us1.
Proof.
  intros P Q W W' V s Hs. rewrite <- (netval_perm h ts ts1 s P W), <- (netval_perm h' us us1 s Q W'). apply V. intros l Hl. apply Hs.
  eapply Permutation_in; [apply (free_perm h ts ts1 P W)|auto].
Qed.
Lemma same_free_trans (h h1 h2 : heap) ts ts1 ts2 : same_free h ts h1 ts1 -> same_free h1 ts1 h2 ts2 -> same_free h ts h2 ts2.
Proof.
  intros [F1 D1] [F2 D2]. split; [now rewrite F2|]. intros l Hl. rewrite D2; auto. eapply Permutation_in; [symmetry; exact F1|auto].
Qed.
Lemma same_value_trans (h h1 h2 : heap) ts ts1 ts2 : same_free h ts h1 ts1 -> same_value h ts h1 ts1 -> same_value h1 ts1 h2 ts2 -> same_value h ts h2 ts2.
Proof.
  intros [F1 D1] V1 V2 s Hs. rewrite V2; auto. intros l Hl. apply (Permutation_in _ F1) in Hl. rewrite D1 by auto. auto.
Qed.
Lemma same_free_refl (h : heap) ts : same_free h ts h ts. Proof. split; auto. Qed.

Lemma split_same_free (h h' : heap) ta tb rest La Lb u v k na nb like : wf_open h (ta :: tb :: rest) ->
  split_pair h h' ta tb rest La Lb u v k na nb like -> same_free h (ta :: tb :: rest) h' (u :: v :: rest).
Proof.
  intros W SP. split; [apply SP|]. intros l Hl. pose proof (free_alloc h _ l W Hl) as LT.
  apply (Permutation_in _ (Permutation_sym (sp_free _ _ _ _ _ _ _ _ _ _ _ _ _ SP))) in Hl. unfold free_legs in Hl. apply others_In in Hl. destruct Hl as [Hl _].
  destruct (sp_bond _ _ _ _ _ _ _ _ _ _ _ _ _ SP) as (x & y & _ & _ & _ & _ & _ & LU & LV & X & Y).
  unfold all_legs in Hl. cbn [flat_map] in Hl. rewrite !in_app_iff in Hl. rewrite LU, LV in Hl. rewrite in_app_iff in Hl. simpl in Hl.
  destruct Hl as [[Hl|[<-|[]]]|[[<-|Hl]|Hl]]; try lia.
  - apply (sp_legs _ _ _ _ _ _ _ _ _ _ _ _ _ SP). apply in_app_iff; auto.
  - apply (sp_legs _ _ _ _ _ _ _ _ _ _ _ _ _ SP). apply in_app_iff; auto.
  - unfold dim_of. rewrite (sp_restlegs _ _ _ _ _ _ _ _ _ _ _ _ _ SP); auto. unfold all_legs. apply in_flat_map in Hl. destruct Hl as (t & Ht & Hl).
    apply in_flat_map. exists t. split; auto. unfold legs_of in *. now rewrite (sp_rest _ _ _ _ _ _ _ _ _ _ _ _ _ SP) in Hl.
Qed.

Lemma perm_front (X Y env : list nat) a b : Permutation ((X ++ a :: b :: Y) ++ env) (a :: b :: (X ++ Y) ++ env).
Proof.
  rewrite <- !app_assoc. cbn [app]. rewrite <- (Permutation_middle X (b :: Y ++ env) a). apply perm_skip. now rewrite <- (Permutation_middle X (Y ++ env) b).
Qed.
Lemma perm_front' (X Y env : list nat) a b : Permutation ((X ++ a :: b :: Y) ++ env) (b :: a :: (X ++ Y) ++ env).
Proof. rewrite perm_front. apply perm_swap. Qed.

Lemma prodn_perm' (l l' : list nat) : Permutation l l' -> prodn l = prodn l'.
Proof. induction 1; cbn [prodn fold_right] in *; unfold prodn in *; cbn [fold_right]; try lia. Qed.

Variable lib : linalg A.

(** the bounds on the bonds, on the level of dimensions *)
Definition slimd (ds : list nat) (b : nat -> nat) : Prop :=
  forall k, S k < List.length ds -> b k <= prodn (firstn (S k) ds) /\ b k <= prodn (skipn (S k) ds).
Lemma slim_d (h : heap) q os rt : slim h q os rt <-> slimd (map q os) (fun k => dim_of h (rt k)).
Proof. unfold slim, slimd. rewrite map_length. split; intros H k Hk; specialize (H k Hk); rewrite firstn_map, skipn_map in *; exact H. Qed.
Lemma prodn_cons' a l : prodn (a :: l) = a * prodn l. Proof. reflexivity. Qed.
Lemma slimd_step X a1 a2 c1 c2 b k i : List.length X = i -> forall Y, (c1 = a1 /\ c2 = a2) \/ (c1 = a2 /\ c2 = a1) -> slimd (X ++ a1 :: a2 :: Y) b ->
  k <= c1 * (if Nat.ltb 0 i then b (i - 1) else 1) -> k <= c2 * (if Nat.ltb (S (S i)) (List.length (X ++ a1 :: a2 :: Y)) then b (S i) else 1) ->
  slimd (X ++ c1 :: c2 :: Y) (fun j => if Nat.eqb j i then k else b j).
Proof.
  intros LX Y PP SL K1 K2 j Hj. assert (Hj' : S j < List.length (X ++ a1 :: a2 :: Y)) by (rewrite app_length in *; exact Hj).
  assert (HL : List.length (X ++ a1 :: a2 :: Y) = i + 2 + List.length Y) by (rewrite app_length; cbn [List.length]; lia).
  destruct (Nat.eqb_spec j i) as [->|NE].
  - rewrite firstn_app, skipn_app, LX. replace (S i - i) with 1 by lia. rewrite (firstn_all2 X), (skipn_all2 X) by lia. cbn [firstn skipn app]. rewrite prodn_app. unfold prodn at 2 3. cbn [fold_right].
    fold (prodn Y). split.
    + destruct i as [|i']; [cbn [Nat.ltb Nat.leb] in K1|]. { destruct X; [|discriminate]. unfold prodn. cbn [fold_right]. lia. }
      change (Nat.ltb 0 (S i')) with true in K1. cbv iota in K1. replace (S i' - 1) with i' in K1 by lia. destruct (SL i') as [S1 _]; [lia|].
      rewrite firstn_app, LX, (firstn_all2 X) in S1 by lia. replace (S i' - S i') with 0 in S1 by lia. cbn [firstn] in S1. rewrite app_nil_r in S1. nia.
    + destruct (Nat.ltb_spec (S (S i)) (List.length (X ++ a1 :: a2 :: Y))) as [LT|GE].
      * destruct (SL (S i)) as [_ S2]; [lia|]. rewrite skipn_app, LX, (skipn_all2 X) in S2 by lia. replace (S (S i) - i) with 2 in S2 by lia. cbn [skipn app] in S2. nia.
      * destruct Y; [|cbn [List.length] in *; lia]. unfold prodn. cbn [fold_right]. lia.
  - destruct (SL j Hj') as [S1 S2]. assert (P : Permutation (c1 :: c2 :: Y) (a1 :: a2 :: Y)) by (destruct PP as [[-> ->]|[-> ->]]; [reflexivity|apply perm_swap]).
    destruct (Nat.lt_ge_cases j i) as [LT|GE].
    + rewrite firstn_app, skipn_app in *. replace (S j - List.length X) with 0 in * by lia. rewrite !skipn_O, !firstn_O in *. split; auto.
      now rewrite (prodn_perm' _ _ (Permutation_app_head (skipn (S j) X) P)).
    + rewrite firstn_app, skipn_app in *. replace (S j - List.length X) with (S (S (j - i - 1))) in * by lia. rewrite !skipn_cons, !firstn_cons in *. split; auto.
      rewrite (prodn_perm' (firstn (S j) X ++ c1 :: c2 :: firstn (j - i - 1) Y) (firstn (S j) X ++ a1 :: a2 :: firstn (j - i - 1) Y)); auto.
      apply Permutation_app_head. destruct PP as [[-> ->]|[-> ->]]; [reflexivity|apply perm_swap].
Qed.
Lemma dims_of_link (h : heap) ts os env lf rt k : chain h ts os env lf rt -> S k < List.length ts -> dim_of h (lf (S k)) = dim_of h (rt k).
Proof.
  intros CH Hk. assert (Hk' : k < List.length ts) by lia. assert (LK := wn_links _ _ (wo_net _ _ (ch_wf _ _ _ _ _ _ CH))).
  assert (I1 : In (rt k) (all_legs h (ts ++ env))) by (apply ch_all_env; eapply ch_all; [exact Hk'|]; now apply (ch_in_r _ _ _ _ _ _ CH)).
  assert (I2 : In (lf (S k)) (all_legs h (ts ++ env))) by (apply ch_all_env; eapply ch_all; [exact Hk|]; now apply (ch_in_l _ _ _ _ _ _ CH)).
  destruct (ch_link _ _ _ _ _ _ CH k Hk) as (b & B & E). destruct (LK (rt k) b I1 B) as (l1 & E1 & H).
  assert (l1 = lf (S k)) as -> by (apply (linked_fun h (rt k)); exists b; auto). symmetry. now apply H.
Qed.

(** what one step on the neighbours i and i + 1 does to a chain; [os'] are the outgoing legs afterwards *)
Record exchanged (h : heap) (ts : list tid) (os : list lid) (env : list tid) (lf rt : nat -> lid) (i : nat) (chi : Z)
  (h' : heap) (ts' : list tid) (os' : list lid) (lf' rt' : nat -> lid) : Prop := {
  ex_chain : chain h' ts' os' env lf' rt';
  ex_len : List.length ts' = List.length ts;
  ex_chi : (Z.of_nat (dim_of h' (rt' i)) <= chi)%Z;
  ex_bonds : forall j, j <> i -> rt' j = rt j /\ lf' (S j) = lf (S j);
  ex_dims : (forall j, S j < List.length ts -> j <> i -> dim_of h' (rt j) = dim_of h (rt j) /\ dim_of h' (lf (S j)) = dim_of h (lf (S j))) /\
    (forall l, In l os -> dim_of h' l = dim_of h l);
  ex_bond : forall l, In l os -> l_bond (legs h' l) = l_bond (legs h l);
  ex_links : forall l l', In l (os ++ all_legs h env) -> linked h' l l' <-> linked h l l';
  ex_env : forall t, In t env -> tens h' t = tens h t;
  ex_envlegs : forall l, In l (all_legs h env) -> legs h' l = legs h l;
  ex_slim : forall q, (forall l, In l os -> dim_of h l <= q l) -> slim h q os rt -> slim h' q os' rt';
  ex_free : same_free h (ts ++ env) h' (ts' ++ env) }.

Lemma swap_run (h h' : heap) ts chi act a b : (Z.of_nat a < Z.of_nat (List.length ts))%Z -> (Z.of_nat b < Z.of_nat (List.length ts))%Z -> a = S b \/ b = S a ->
  (forall r, schimdt lib (nth a ts 0) (nth b ts 0) chi true ["o"%string] ["o"%string] h = (h', r) ->
   swap lib (Z.of_nat a) (Z.of_nat b) (mkMps ts chi act) h = match r with Ok (u, _, v) => (h', Ok (mkMps (set_nth b v (set_nth a u ts)) chi None)) | Err e => (h', Err e) end).
Proof.
  intros Ha Hb AB r E. unfold swap. assert (isIndex (mkMps ts chi act) (Z.of_nat a) && isIndex (mkMps ts chi act) (Z.of_nat b) && Z.eqb (Z.abs (Z.of_nat a - Z.of_nat b)) 1 = true) as ->.
  { unfold isIndex, mlen. cbn [m_ts]. rewrite !andb_true_iff, !Z.leb_le, !Z.ltb_lt, Z.eqb_eq. lia. }
  erewrite bind_ok by reflexivity. unfold site, setSite. cbn [m_ts m_chi]. rewrite !Nat2Z.id. unfold bind. rewrite E. destruct r as [[[u0 o] v0]|e]; reflexivity.
Qed.

Section Step.
Variables (h : heap) (X Y : list tid) (t1 t2 : tid) (Xo Yo : list lid) (o1 o2 : lid) (env : list tid) (lf rt : nat -> lid) (i : nat) (chi : Z).
Hypothesis LX : List.length X = i.
Hypothesis LXo : List.length Xo = i.
Notation ts := (X ++ t1 :: t2 :: Y).
Notation os := (Xo ++ o1 :: o2 :: Yo).
Hypothesis CH : chain h ts os env lf rt.
Notation n := (List.length ts).
Notation outL := (opt (Nat.ltb 0 i) (lf i)).
Notation outR := (opt (Nat.ltb (S (S i)) n) (rt (S i))).

Lemma st_small : S i < n. Proof. rewrite app_length. simpl. lia. Qed.
Lemma st_pos : nth i ts 0 = t1 /\ nth (S i) ts 0 = t2 /\ nth i os 0 = o1 /\ nth (S i) os 0 = o2.
Proof. destruct (nth_two X Y t1 t2 0 i LX) as [-> ->], (nth_two Xo Yo o1 o2 0 i LXo) as [-> ->]. auto. Qed.
Lemma st_open : wf_open h (t1 :: t2 :: (X ++ Y) ++ env) /\ wf_open h (t2 :: t1 :: (X ++ Y) ++ env).
Proof. split; (eapply wf_open_perm; [|apply (ch_wf _ _ _ _ _ _ CH)]); [apply perm_front|apply perm_front']. Qed.
Lemma st_legs1 : Permutation (legs_of h t1) ((outL ++ [o1]) ++ [rt i]).
Proof.
  destruct st_pos as (E1 & E2 & E3 & E4). pose proof st_small as SM. assert (Q := ch_legs _ _ _ _ _ _ CH i (Nat.lt_succ_l _ _ SM)). rewrite E1, E3 in Q. rewrite Q.
  assert (Nat.ltb (S i) n = true) as -> by now apply Nat.ltb_lt. rewrite <- app_assoc. apply Permutation_app_head. apply perm_swap.
Qed.
Lemma st_legs2 : Permutation (legs_of h t2) ((outR ++ [o2]) ++ [lf (S i)]).
Proof.
  destruct st_pos as (E1 & E2 & E3 & E4). pose proof st_small as SM. assert (Q := ch_legs _ _ _ _ _ _ CH (S i) SM). rewrite E2, E4 in Q. rewrite Q.
  change (Nat.ltb 0 (S i)) with true. cbn [opt app]. apply Permutation_cons_append.
Qed.
Lemma st_outL : outL = [] \/ exists l, outL = [l] /\ l_name (legs h l) = NStr "l".
Proof. pose proof st_small. destruct i as [|j] eqn:E; [left; reflexivity|right]. exists (lf (S j)). split; auto. apply (ch_l _ _ _ _ _ _ CH). lia. Qed.
Lemma st_outR : outR = [] \/ exists l, outR = [l] /\ l_name (legs h l) = NStr "r".
Proof.
  destruct (Nat.ltb (S (S i)) n) eqn:E; [right|left; reflexivity]. apply Nat.ltb_lt in E. exists (rt (S i)). split; auto. now apply (ch_r _ _ _ _ _ _ CH).
Qed.
Lemma st_o : l_name (legs h o1) = NStr "o" /\ l_name (legs h o2) = NStr "o".
Proof. destruct st_pos as (E1 & E2 & E3 & E4). pose proof st_small as SM.
  assert (Q1 := ch_o _ _ _ _ _ _ CH i (Nat.lt_succ_l _ _ SM)). assert (Q2 := ch_o _ _ _ _ _ _ CH (S i) SM). rewrite E3 in Q1. rewrite E4 in Q2. auto. Qed.
Lemma st_apart l l' : In l (outL ++ outR ++ [o1; o2]) -> In l' (outL ++ outR ++ [o1; o2]) -> ~ linked h l l'.
Proof.
  destruct st_pos as (E1 & E2 & E3 & E4). intros H1 H2. apply (ch_apart _ _ _ _ _ _ CH i); [exact st_small| |]; rewrite E3, E4; auto.
Qed.
Lemma st_links : linked h (rt i) (lf (S i)) /\ linked h (lf (S i)) (rt i).
Proof. pose proof st_small. split; [now apply (ch_link _ _ _ _ _ _ CH)|now apply (ch_link' _ _ _ _ _ _ CH)]. Qed.

(** legs whose dimension, name and links survive *)
Lemma st_kept l : In l (outL ++ outR ++ [o1; o2]) -> l = nth i os 0 \/ l = nth (S i) os 0 \/ (0 < i /\ l = lf i) \/ (S (S i) < n /\ l = rt (S i)).
Proof.
  destruct st_pos as (_ & _ & -> & ->). rewrite !in_app_iff. simpl. intros [Hl|[Hl|[<-|[<-|[]]]]]; auto.
  - destruct i; [destruct Hl|]. destruct Hl as [<-|[]]. right; right; left. split; auto. lia.
  - destruct (Nat.ltb (S (S i)) n) eqn:E; [|destruct Hl]. apply Nat.ltb_lt in E. destruct Hl as [<-|[]]. auto.
Qed.

(** from the decomposition to the new chain *)
Lemma st_finish (h' : heap) w1 w2 x y k p1 p2 : (p1 = o1 /\ p2 = o2) \/ (p1 = o2 /\ p2 = o1) ->
  Permutation (legs_of h' w1) (outL ++ [x; p1]) -> Permutation (legs_of h' w2) (y :: outR ++ [p2]) ->
  (forall t, In t [w1; w2] -> t_diag (tens h' t) = false /\ t_like (tens h' t) = false) ->
  l_name (legs h' x) = NStr "r" /\ l_name (legs h' y) = NStr "l" -> linked h' x y -> nleg h <= x /\ nleg h <= y ->
  dim_of h' x = k -> (Z.of_nat k <= chi)%Z -> k <= prodn (map (dim_of h) (p1 :: outL)) -> k <= prodn (map (dim_of h) (p2 :: outR)) ->
  (forall t, In t ((X ++ Y) ++ env) -> tens h' t = tens h t) ->
  (forall l, In l (outL ++ outR ++ [o1; o2]) -> dim_of h' l = dim_of h l /\ l_name (legs h' l) = l_name (legs h l) /\ l_bond (legs h' l) = l_bond (legs h l) /\ forall l', linked h' l l' <-> linked h l l') ->
  (forall l, In l (all_legs h ((X ++ Y) ++ env)) -> legs h' l = legs h l /\ forall l', linked h' l l' <-> linked h l l') ->
  wf_open h' ((X ++ w1 :: w2 :: Y) ++ env) ->
  same_free h (ts ++ env) h' ((X ++ w1 :: w2 :: Y) ++ env) ->
  exchanged h ts os env lf rt i chi h' (X ++ w1 :: w2 :: Y) (Xo ++ p1 :: p2 :: Yo) (upd lf (S i) y) (upd rt i x).
Proof.
  intros PP P1 P2 KD NX LK FR DX KC KL KH RT KP KR WO SF. pose proof st_small as SM. destruct st_pos as (E1 & E2 & E3 & E4).
  assert (CN : chain h' (X ++ w1 :: w2 :: Y) (Xo ++ p1 :: p2 :: Yo) env (upd lf (S i) y) (upd rt i x)).
  { eapply (replaced_chain h h' X Y t1 t2 w1 w2 Xo Yo o1 o2 p1 p2 env lf rt i x y); eauto.
    - intros t Ht. apply RT. apply in_app_iff; auto.
    - intros l [Hl|Hl]; [apply KP in Hl; tauto|]. destruct (KR l) as [H1 H2]; [|rewrite H1; auto].
      unfold all_legs in *. rewrite flat_map_app. apply in_app_iff; auto. }
  assert (AW : forall j l, j < n -> j <> i -> j <> S i -> In l (legs_of h (nth j ts 0)) -> dim_of h' l = dim_of h l).
  { intros j l Hj N1 N2 Hl. unfold dim_of. destruct (KR l) as [-> _]; auto. unfold all_legs. rewrite flat_map_app. apply in_app_iff. left.
    apply (rpl_in h X Y t1 t2 w1 w2 i LX j l Hj N1 N2 Hl). }
  assert (AWL : forall j l, j < n -> j <> i -> j <> S i -> In l (legs_of h (nth j ts 0)) -> l_bond (legs h' l) = l_bond (legs h l) /\ forall l', linked h' l l' <-> linked h l l').
  { intros j l Hj N1 N2 Hl. destruct (KR l) as [-> H]; auto. unfold all_legs. rewrite flat_map_app. apply in_app_iff. left.
    apply (rpl_in h X Y t1 t2 w1 w2 i LX j l Hj N1 N2 Hl). }
  assert (OK : forall l, In l os -> l_bond (legs h' l) = l_bond (legs h l) /\ forall l', linked h' l l' <-> linked h l l').
  { intros l Hl. apply (ch_os _ _ _ _ _ _ CH) in Hl. destruct Hl as (j & Hj & ->).
    destruct (Nat.eq_dec j i) as [->|N1]; [destruct (KP (nth i os 0)) as (_ & _ & Q); [rewrite E3, !in_app_iff; simpl; auto|exact Q]|].
    destruct (Nat.eq_dec j (S i)) as [->|N2]; [destruct (KP (nth (S i) os 0)) as (_ & _ & Q); [rewrite E4, !in_app_iff; simpl; auto|exact Q]|].
    apply (AWL j); auto. now apply (ch_in_o _ _ _ _ _ _ CH). }
  assert (OE : forall l, In l (all_legs h env) -> legs h' l = legs h l /\ forall l', linked h' l l' <-> linked h l l').
  { intros l Hl. apply KR. unfold all_legs in *. rewrite flat_map_app. apply in_app_iff. auto. }
  assert (OD : forall l, In l os -> dim_of h' l = dim_of h l).
  { intros l Hl. apply (ch_os _ _ _ _ _ _ CH) in Hl. destruct Hl as (j & Hj & ->).
    destruct (Nat.eq_dec j i) as [->|N1]; [apply KP; rewrite E3, !in_app_iff; simpl; auto|].
    destruct (Nat.eq_dec j (S i)) as [->|N2]; [apply KP; rewrite E4, !in_app_iff; simpl; auto|].
    apply (AW j); auto. now apply (ch_in_o _ _ _ _ _ _ CH). }
  assert (RD : forall j, S j < n -> j <> i -> dim_of h' (rt j) = dim_of h (rt j)).
  { intros j Hj N. destruct (Nat.eq_dec j (S i)) as [->|N2].
    { apply KP. rewrite !in_app_iff. assert (Nat.ltb (S (S i)) n = true) as -> by now apply Nat.ltb_lt. simpl; auto. }
    apply (AW j); auto; [lia|]. now apply (ch_in_r _ _ _ _ _ _ CH). }
  assert (SL : forall q, (forall l, In l os -> dim_of h l <= q l) -> slim h q os rt -> slim h' q (Xo ++ p1 :: p2 :: Yo) (upd rt i x)).
  { intros q QL. rewrite !slim_d. intros SL. assert (LO : List.length os = n) by exact (ch_len _ _ _ _ _ _ CH).
    assert (PO : Permutation (Xo ++ p1 :: p2 :: Yo) os) by (apply Permutation_app_head; destruct PP as [[-> ->]|[-> ->]]; [reflexivity|apply perm_swap]).
    assert (Q1 : dim_of h p1 <= q p1) by (apply QL; eapply Permutation_in; [exact PO|]; rewrite in_app_iff; simpl; auto).
    assert (Q2 : dim_of h p2 <= q p2) by (apply QL; eapply Permutation_in; [exact PO|]; rewrite in_app_iff; simpl; auto).
    rewrite map_app in *. cbn [map] in *.
    assert (Q : slimd (map q Xo ++ q p1 :: q p2 :: map q Yo) (fun j => if Nat.eqb j i then k else dim_of h (rt j))).
    { apply (slimd_step (map q Xo) (q o1) (q o2) (q p1) (q p2) (fun k => dim_of h (rt k)) k i); [rewrite map_length; exact LXo|destruct PP as [[-> ->]|[-> ->]]; auto|exact SL| |].
      - revert KL. cbn [map]. rewrite prodn_cons'. destruct i as [|i']; [unfold prodn; cbn [fold_right map opt Nat.ltb Nat.leb]; lia|].
        change (Nat.ltb 0 (S i')) with true. cbn [opt map]. rewrite prodn_cons'. unfold prodn; cbn [fold_right]. rewrite Nat.mul_1_r.
        assert (dim_of h (lf (S i')) = dim_of h (rt i')) as ->; [|rewrite Nat.sub_succ, Nat.sub_0_r; nia].
        apply (dims_of_link _ _ _ _ _ _ _ CH). lia.
      - revert KH. cbn [map]. rewrite prodn_cons'. replace (List.length (map q Xo ++ q o1 :: q o2 :: map q Yo)) with n
          by (rewrite <- LO, !app_length; cbn [List.length]; rewrite !map_length; lia).
        destruct (Nat.ltb (S (S i)) n); cbn [opt map]; unfold prodn; cbn [fold_right]; [rewrite Nat.mul_1_r|]; nia. }
    intros j Hj. destruct (Q j Hj) as [R1 R2]. rewrite app_length in Hj. cbn [List.length] in Hj. rewrite !map_length in Hj. rewrite app_length in LO. cbn [List.length] in LO.
    assert (Hn : S j < n) by lia.
    destruct (Nat.eqb_spec j i) as [->|NE]; [rewrite upd_same, DX; auto|]. rewrite upd_other by auto. rewrite RD by auto. auto. }
  constructor.
  - exact CN.
  - rewrite !app_length. reflexivity.
  - rewrite upd_same. now rewrite DX.
  - intros j Hj. rewrite !upd_other by lia. auto.
  - split.
    + intros j Hj N. split.
      * destruct (Nat.eq_dec j (S i)) as [->|N2].
        { apply KP. rewrite !in_app_iff. assert (Nat.ltb (S (S i)) n = true) as -> by now apply Nat.ltb_lt. simpl; auto. }
        apply (AW j); auto; [lia|]. now apply (ch_in_r _ _ _ _ _ _ CH).
      * destruct (Nat.eq_dec (S j) i) as [E|N2].
        { apply KP. rewrite !in_app_iff. rewrite <- E. simpl; auto. }
        apply (AW (S j)); auto. now apply (ch_in_l _ _ _ _ _ _ CH).
    + intros l Hl. apply (ch_os _ _ _ _ _ _ CH) in Hl. destruct Hl as (j & Hj & ->).
      destruct (Nat.eq_dec j i) as [->|N1]; [apply KP; rewrite E3, !in_app_iff; simpl; auto|].
      destruct (Nat.eq_dec j (S i)) as [->|N2]; [apply KP; rewrite E4, !in_app_iff; simpl; auto|].
      apply (AW j); auto. now apply (ch_in_o _ _ _ _ _ _ CH).
  - intros l Hl. now apply OK.
  - intros l l' Hl. apply in_app_iff in Hl. destruct Hl as [Hl|Hl]; [now apply OK|now apply OE].
  - intros t Ht. apply RT. apply in_app_iff; auto.
  - intros l Hl. now apply OE.
  - exact SL.
  - exact SF.
Qed.

Hypothesis ST : svd_total lib.

Lemma kept_min (m : arr A) r c d1 d2 : r <= d1 -> c <= d2 -> (0 <= chi)%Z -> 
  (Z.of_nat (Z.to_nat (kept lib m r c chi)) <= chi)%Z /\ Z.to_nat (kept lib m r c chi) <= d1 /\ Z.to_nat (kept lib m r c chi) <= d2.
Proof. intros H1 H2 H3. unfold kept. lia. Qed.

Lemma perfect_kept (m : arr A) r c : svd_perfect lib -> wfa m -> ashape m = [r; c] -> (Z.of_nat r <= chi \/ Z.of_nat c <= chi)%Z ->
  svd_exact lib m r c /\ lossless lib m (Z.to_nat (kept lib m r c chi)).
Proof.
  intros PF WM SM BIG. destruct (PF m r c WM SM) as [EX LS]. split; auto. intros j H1 H2. apply LS; auto.
  destruct (ss_s _ _ _ _ (sx_shape _ _ _ _ EX)) as [W SS]. unfold wfa in W. rewrite SS in W. cbn in W. unfold kept in H1. lia.
Qed.

Lemma step_right act : 
  ((chi < 0)%Z -> exists h', swap lib (Z.of_nat i) (Z.of_nat (S i)) (mkMps ts chi act) h = (h', Err ValueError)) /\
  ((0 <= chi)%Z -> exists h' ts' lf' rt', swap lib (Z.of_nat i) (Z.of_nat (S i)) (mkMps ts chi act) h = (h', Ok (mkMps ts' chi None)) /\
    exchanged h ts os env lf rt i chi h' ts' (exchange i os) lf' rt' /\
    (nothing_lost lib h (nth i ts 0) (nth (S i) ts 0) chi -> same_value h (ts ++ env) h' (ts' ++ env)) /\
    (svd_perfect lib -> Z.le (Z.of_nat (prodn (map (dim_of h) (nth i os 0 :: outR)))) chi \/ Z.le (Z.of_nat (prodn (map (dim_of h) (nth (S i) os 0 :: outL)))) chi ->
      nothing_lost lib h (nth i ts 0) (nth (S i) ts 0) chi)).
Proof.
  pose proof st_small as SM. destruct st_pos as (E1 & E2 & E3 & E4). destruct st_open as [WO _]. destruct st_links as [LK _].
  assert (SW : forall h' r, schimdt lib t1 t2 chi true ["o"%string] ["o"%string] h = (h', r) ->
     swap lib (Z.of_nat i) (Z.of_nat (S i)) (mkMps ts chi act) h = match r with Ok (u, _, v) => (h', Ok (mkMps (set_nth (S i) v (set_nth i u ts)) chi None)) | Err e => (h', Err e) end).
  { intros h' r E. apply (swap_run h h' ts chi act i (S i)); [lia|lia|auto|]. now rewrite E1, E2. }
  assert (WP : wf_pair h t1 t2) by (apply (open_pair h t1 t2 _ WO)).
  assert (NLK : forall l l', In l ((outL ++ [o1]) ++ outR ++ [o2]) -> In l' ((outL ++ [o1]) ++ outR ++ [o2]) -> ~ linked h l l').
  { intros l l' H1 H2. apply st_apart; rewrite !in_app_iff in *; simpl in *; tauto. }
  assert (NX : l_name (legs h (rt i)) = NStr "r" /\ l_name (legs h (lf (S i))) = NStr "l") by (split; [apply (ch_r _ _ _ _ _ _ CH)|apply (ch_l _ _ _ _ _ _ CH)]; auto).
  assert (DN : "l"%string <> "r"%string /\ "l"%string <> "o"%string /\ "r"%string <> "o"%string /\ after_dash "l" = None /\ after_dash "r" = None) by (repeat split; discriminate).
  assert (SHR := pair_shared h t1 t2 outL outR o1 o2 (rt i) (lf (S i)) WP st_legs1 st_legs2 LK NLK).
  assert (SEP := pair_separable h t1 t2 outL outR o1 o2 (rt i) (lf (S i)) "l" "r" WP st_legs1 st_legs2 LK NLK st_outL st_outR st_o NX DN).
  assert (PSA := pair_sideA h t1 t2 outL outR o1 o2 (rt i) (lf (S i)) "l" "r" WP st_legs1 st_legs2 LK NLK st_outL st_outR st_o NX DN).
  assert (PSB := pair_sideB h t1 t2 outL outR o1 o2 (rt i) (lf (S i)) "l" "r" WP st_legs1 st_legs2 LK NLK st_outL st_outR st_o NX DN).
  destruct (ch_kind _ _ _ _ _ _ CH t1) as [DA KA]; [rewrite in_app_iff; simpl; auto|].
  destruct (ch_kind _ _ _ _ _ _ CH t2) as [DB KB]; [rewrite in_app_iff; simpl; auto|].
  destruct (schimdt_dense lib h t1 t2 ((X ++ Y) ++ env) (rt i) (lf (S i)) [] ["o"%string] ["o"%string] WO KA KB DA DB SHR SEP) as (m & MO & RUN).
  cbv zeta in RUN. set (La := sideA h t1 t2 ["o"%string] ["o"%string]) in *. set (Lb := sideB h t1 t2 ["o"%string] ["o"%string]) in *.
  set (r := prodn (map (dim_of h) La)) in *. set (c := prodn (map (dim_of h) Lb)) in *.
  destruct (RUN chi) as [R1 R2]; [apply ST; [apply MO|apply (mo_shape _ _ _ _ _ MO)]|]. split.
  - intros HC. destruct (R1 HC) as (h' & E). exists h'. apply (SW h' _ E).
  - intros HC. destruct (R2 HC) as (KC & h' & u & v & E & SP & VAL).
    destruct (sp_bond _ _ _ _ _ _ _ _ _ _ _ _ _ SP) as (x & y & SH' & DX & DY & NAX & NBY & LU & LV & FX & FY).
    set (k := Z.to_nat (kept lib m r c chi)) in *.
    assert (RC : r = prodn (map (dim_of h) (o2 :: outL)) /\ c = prodn (map (dim_of h) (o1 :: outR))).
    { unfold r, c. rewrite (prodn_perm' _ _ (Permutation_map (dim_of h) PSA)), (prodn_perm' _ _ (Permutation_map (dim_of h) PSB)). split; auto.
      apply prodn_perm', Permutation_map. symmetry. apply Permutation_cons_append. }
    destruct RC as [RC1 RC2].
    destruct (kept_min m r c r c (Nat.le_refl _) (Nat.le_refl _) HC) as (K0 & K1 & K2). fold k in K0, K1, K2.
    assert (WN : wf_open h' ((X ++ u :: v :: Y) ++ env)).
    { eapply wf_open_perm; [symmetry; apply perm_front|]. apply SP. }
    assert (SF : same_free h (ts ++ env) h' ((X ++ u :: v :: Y) ++ env)).
    { eapply same_free_perm; [symmetry; apply perm_front|symmetry; apply perm_front|apply WO|apply SP|]. eapply split_same_free; eauto. }
    exists h', (X ++ u :: v :: Y), (upd lf (S i) y), (upd rt i x). split; [|split; [|split]].
    + rewrite (SW h' _ E). destruct (set_two X Y t1 t2 u v i LX) as [-> _]. reflexivity.
    + rewrite (exchange_two _ _ _ _ _ LXo). apply (st_finish h' u v x y k o2 o1); auto; try lia.
      * rewrite LU, PSA, <- app_assoc. apply Permutation_app_head. apply perm_swap.
      * rewrite LV, PSB. apply perm_skip. apply Permutation_cons_append.
      * intros t [<-|[<-|[]]]; split; apply SP.
      * rewrite NAX, NBY. apply NX.
      * assert (In (x, y) (shared h' u v)) as IN by (rewrite SH'; simpl; auto). unfold shared in IN. apply pairs_In in IN. tauto.
      * apply SP.
      * intros l Hl. assert (In l (La ++ Lb)) as HL.
        { apply in_app_iff. rewrite !in_app_iff in Hl. simpl in Hl.
          destruct Hl as [Hl|[Hl|[<-|[<-|[]]]]].
          - left. eapply Permutation_in; [symmetry; exact PSA|]. apply in_app_iff; auto.
          - right. eapply Permutation_in; [symmetry; exact PSB|]. simpl; auto.
          - right. eapply Permutation_in; [symmetry; exact PSB|]. simpl; auto.
          - left. eapply Permutation_in; [symmetry; exact PSA|]. apply in_app_iff; simpl; auto. }
        destruct (sp_legs _ _ _ _ _ _ _ _ _ _ _ _ _ SP l HL) as (H1 & H2 & H3). split; auto. split; auto. split; auto. intros l'.
        apply (sp_links _ _ _ _ _ _ _ _ _ _ _ _ _ SP). rewrite app_assoc. apply in_app_iff; auto.
      * intros l Hl. split; [now apply (sp_restlegs _ _ _ _ _ _ _ _ _ _ _ _ _ SP)|]. intros l'.
        apply (sp_links _ _ _ _ _ _ _ _ _ _ _ _ _ SP). rewrite app_assoc. apply in_app_iff; auto.
    + rewrite E1, E2. intros NLS. destruct (NLS m MO) as [N1 N2]. fold La Lb r c k in N1, N2.
      eapply same_value_perm; [symmetry; apply perm_front|symmetry; apply perm_front|apply WO|apply SP|]. intros s Hs. now apply VAL.
    + rewrite E1, E2, E3, E4. intros PF BIG m' MO'. apply perfect_kept; [exact PF|apply MO'|apply (mo_shape _ _ _ _ _ MO')|]. fold La Lb r c. rewrite <- RC1, <- RC2 in BIG. lia.
Qed.

Lemma step_left act : 
  ((chi < 0)%Z -> exists h', swap lib (Z.of_nat (S i)) (Z.of_nat i) (mkMps ts chi act) h = (h', Err ValueError)) /\
  ((0 <= chi)%Z -> exists h' ts' lf' rt', swap lib (Z.of_nat (S i)) (Z.of_nat i) (mkMps ts chi act) h = (h', Ok (mkMps ts' chi None)) /\
    exchanged h ts os env lf rt i chi h' ts' (exchange i os) lf' rt' /\
    (nothing_lost lib h (nth (S i) ts 0) (nth i ts 0) chi -> same_value h (ts ++ env) h' (ts' ++ env)) /\
    (svd_perfect lib -> Z.le (Z.of_nat (prodn (map (dim_of h) (nth i os 0 :: outR)))) chi \/ Z.le (Z.of_nat (prodn (map (dim_of h) (nth (S i) os 0 :: outL)))) chi ->
      nothing_lost lib h (nth (S i) ts 0) (nth i ts 0) chi)).
Proof.
  pose proof st_small as SM. destruct st_pos as (E1 & E2 & E3 & E4). destruct st_open as [_ WO]. destruct st_links as [_ LK].
  assert (SW : forall h' r, schimdt lib t2 t1 chi true ["o"%string] ["o"%string] h = (h', r) ->
     swap lib (Z.of_nat (S i)) (Z.of_nat i) (mkMps ts chi act) h = match r with Ok (u, _, v) => (h', Ok (mkMps (set_nth i v (set_nth (S i) u ts)) chi None)) | Err e => (h', Err e) end).
  { intros h' r E. apply (swap_run h h' ts chi act (S i) i); [lia|lia|auto|]. now rewrite E1, E2. }
  assert (WP : wf_pair h t2 t1) by (apply (open_pair h t2 t1 _ WO)).
  assert (NLK : forall l l', In l ((outR ++ [o2]) ++ outL ++ [o1]) -> In l' ((outR ++ [o2]) ++ outL ++ [o1]) -> ~ linked h l l').
  { intros l l' H1 H2. apply st_apart; rewrite !in_app_iff in *; simpl in *; tauto. }
  assert (NX : l_name (legs h (lf (S i))) = NStr "l" /\ l_name (legs h (rt i)) = NStr "r") by (split; [apply (ch_l _ _ _ _ _ _ CH)|apply (ch_r _ _ _ _ _ _ CH)]; auto).
  assert (NO : l_name (legs h o2) = NStr "o" /\ l_name (legs h o1) = NStr "o") by (destruct st_o; auto).
  assert (DN : "r"%string <> "l"%string /\ "r"%string <> "o"%string /\ "l"%string <> "o"%string /\ after_dash "r" = None /\ after_dash "l" = None) by (repeat split; discriminate).
  assert (SHR := pair_shared h t2 t1 outR outL o2 o1 (lf (S i)) (rt i) WP st_legs2 st_legs1 LK NLK).
  assert (SEP := pair_separable h t2 t1 outR outL o2 o1 (lf (S i)) (rt i) "r" "l" WP st_legs2 st_legs1 LK NLK st_outR st_outL NO NX DN).
  assert (PSA := pair_sideA h t2 t1 outR outL o2 o1 (lf (S i)) (rt i) "r" "l" WP st_legs2 st_legs1 LK NLK st_outR st_outL NO NX DN).
  assert (PSB := pair_sideB h t2 t1 outR outL o2 o1 (lf (S i)) (rt i) "r" "l" WP st_legs2 st_legs1 LK NLK st_outR st_outL NO NX DN).
  destruct (ch_kind _ _ _ _ _ _ CH t1) as [DA KA]; [rewrite in_app_iff; simpl; auto|].
  destruct (ch_kind _ _ _ _ _ _ CH t2) as [DB KB]; [rewrite in_app_iff; simpl; auto|].
  destruct (schimdt_dense lib h t2 t1 ((X ++ Y) ++ env) (lf (S i)) (rt i) [] ["o"%string] ["o"%string] WO KB KA DB DA SHR SEP) as (m & MO & RUN).
  cbv zeta in RUN. set (La := sideA h t2 t1 ["o"%string] ["o"%string]) in *. set (Lb := sideB h t2 t1 ["o"%string] ["o"%string]) in *.
  set (r := prodn (map (dim_of h) La)) in *. set (c := prodn (map (dim_of h) Lb)) in *.
  destruct (RUN chi) as [R1 R2]; [apply ST; [apply MO|apply (mo_shape _ _ _ _ _ MO)]|]. split.
  - intros HC. destruct (R1 HC) as (h' & E). exists h'. apply (SW h' _ E).
  - intros HC. destruct (R2 HC) as (KC & h' & u & v & E & SP & VAL).
    destruct (sp_bond _ _ _ _ _ _ _ _ _ _ _ _ _ SP) as (x & y & SH' & DX & DY & NAX & NBY & LU & LV & FX & FY).
    set (k := Z.to_nat (kept lib m r c chi)) in *.
    assert (RC : r = prodn (map (dim_of h) (o1 :: outR)) /\ c = prodn (map (dim_of h) (o2 :: outL))).
    { unfold r, c. rewrite (prodn_perm' _ _ (Permutation_map (dim_of h) PSA)), (prodn_perm' _ _ (Permutation_map (dim_of h) PSB)). split; auto.
      apply prodn_perm', Permutation_map. symmetry. apply Permutation_cons_append. }
    destruct RC as [RC1 RC2].
    destruct (kept_min m r c r c (Nat.le_refl _) (Nat.le_refl _) HC) as (K0 & K1 & K2). fold k in K0, K1, K2.
    assert (WN : wf_open h' ((X ++ v :: u :: Y) ++ env)).
    { eapply wf_open_perm; [symmetry; apply perm_front'|]. apply SP. }
    assert (SF : same_free h (ts ++ env) h' ((X ++ v :: u :: Y) ++ env)).
    { eapply same_free_perm; [symmetry; apply perm_front'|symmetry; apply perm_front'|apply WO|apply SP|]. eapply split_same_free; eauto. }
    assert (LXY : linked h' y x).
    { assert (In (x, y) (shared h' u v)) as IN by (rewrite SH'; simpl; auto). unfold shared in IN. apply pairs_In in IN.
      apply (link_back h' (all_legs h' (u :: v :: (X ++ Y) ++ env))); [apply SP| | |tauto]; unfold all_legs; cbn [flat_map]; rewrite !in_app_iff; tauto. }
    exists h', (X ++ v :: u :: Y), (upd lf (S i) x), (upd rt i y). split; [|split; [|split]].
    + rewrite (SW h' _ E). destruct (set_two X Y t1 t2 u v i LX) as [_ ->]. reflexivity.
    + rewrite (exchange_two _ _ _ _ _ LXo). apply (st_finish h' v u y x k o2 o1); auto; try lia.
      * rewrite LV, PSB. cbn [app]. rewrite (Permutation_app_comm outL [y; o2]). reflexivity.
      * rewrite LU, PSA. rewrite <- app_assoc. cbn [app]. rewrite (Permutation_app_comm outR [o1; x]). cbn [app].
        rewrite (perm_swap x o1 outR). apply perm_skip. apply Permutation_cons_append.
      * intros t [<-|[<-|[]]]; split; apply SP.
      * rewrite NAX, NBY. split; apply NX.
      * apply SP.
      * intros l Hl. assert (In l (La ++ Lb)) as HL.
        { apply in_app_iff. rewrite !in_app_iff in Hl. simpl in Hl.
          destruct Hl as [Hl|[Hl|[<-|[<-|[]]]]].
          - right. eapply Permutation_in; [symmetry; exact PSB|]. simpl; auto.
          - left. eapply Permutation_in; [symmetry; exact PSA|]. apply in_app_iff; auto.
          - left. eapply Permutation_in; [symmetry; exact PSA|]. apply in_app_iff; simpl; auto.
          - right. eapply Permutation_in; [symmetry; exact PSB|]. simpl; auto. }
        destruct (sp_legs _ _ _ _ _ _ _ _ _ _ _ _ _ SP l HL) as (H1 & H2 & H3). split; auto. split; auto. split; auto. intros l'.
        apply (sp_links _ _ _ _ _ _ _ _ _ _ _ _ _ SP). rewrite app_assoc. apply in_app_iff; auto.
      * intros l Hl. split; [now apply (sp_restlegs _ _ _ _ _ _ _ _ _ _ _ _ _ SP)|]. intros l'.
        apply (sp_links _ _ _ _ _ _ _ _ _ _ _ _ _ SP). rewrite app_assoc. apply in_app_iff; auto.
    + rewrite E1, E2. intros NLS. destruct (NLS m MO) as [N1 N2]. fold La Lb r c k in N1, N2.
      eapply same_value_perm; [symmetry; apply perm_front'|symmetry; apply perm_front'|apply WO|apply SP|]. intros s Hs. now apply VAL.
    + rewrite E1, E2, E3, E4. intros PF BIG m' MO'. apply perfect_kept; [exact PF|apply MO'|apply (mo_shape _ _ _ _ _ MO')|]. fold La Lb r c. rewrite <- RC1, <- RC2 in BIG. lia.
Qed.
End Step.
End Mp.
