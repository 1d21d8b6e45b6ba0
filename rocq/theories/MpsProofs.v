(** FreeBoundaryMPS.swap exchanges two outgoing legs and keeps the chain. *)
From Coq Require Import List Arith Bool Lia String ZArith Permutation.
From Verif Require Import Base Sums NdModel NdProofs HeapModel FuncsModel FuncsProofs TensorModel TensorSpec
  ContractModel NetSpec ShareProofs LinkProofs SumpairsProofs ContractProofs NetProofs MergeLinkProofs GroupSpec GroupProofs NetSameProofs
  FtnNetSpec FtnMainProofs SvdModel SvdSpec SchmidtSpec MergeSvdProofs SchmidtProofs MpsModel MpsSpec MpsPairProofs.
Import ListNotations.
Local Open Scope list_scope.
Local Open Scope nat_scope.

Lemma link_back {A} (h : heap A) L l l' : links_ok h L -> In l L -> In l' L -> linked h l l' -> linked h l' l.
Proof.
  intros LO H1 H2 (b & Eb & En). destruct (LO l b H1 Eb) as (z & Ez & K). assert (z = l') as -> by (apply (linked_fun h l); exists b; auto).
  destruct (K H2) as [K1 _]. exists b. split; auto. destruct En as [En|En]; [right|left]; auto.
Qed.

(** positions *)
Lemma nth_two {X} (P Q : list X) a b d i : List.length P = i -> nth i (P ++ a :: b :: Q) d = a /\ nth (S i) (P ++ a :: b :: Q) d = b.
Proof. intros <-. rewrite !app_nth2 by lia. replace (List.length P - List.length P) with 0 by lia. replace (S (List.length P) - List.length P) with 1 by lia. auto. Qed.
Lemma nth_away {X} (P Q : list X) a b a' b' d i k : List.length P = i -> k <> i -> k <> S i ->
  nth k (P ++ a :: b :: Q) d = nth k (P ++ a' :: b' :: Q) d /\ (k < List.length (P ++ a :: b :: Q) -> In (nth k (P ++ a :: b :: Q) d) (P ++ Q)).
Proof.
  intros <- N1 N2. destruct (lt_dec k (List.length P)) as [H|H].
  - rewrite !app_nth1 by auto. split; auto. intros _. apply in_app_iff. left. now apply nth_In.
  - rewrite !app_nth2 by lia. rewrite app_length. simpl. destruct (k - List.length P) as [|[|j]] eqn:E; try lia. cbn [nth]. split; auto.
    intros Hk. apply in_app_iff. right. apply nth_In. lia.
Qed.
Lemma split_two {X} (l : list X) i : S i < List.length l -> exists P a b Q, l = P ++ a :: b :: Q /\ List.length P = i.
Proof.
  intros H. pose proof (firstn_skipn i l) as E. assert (LF : List.length (firstn i l) = i) by (rewrite firstn_length; lia).
  pose proof (skipn_length i l) as LS. destruct (skipn i l) as [|a [|b Q]] eqn:ES; simpl in LS; try lia.
  exists (firstn i l), a, b, Q. auto.
Qed.
Lemma exchange_two {X} (P Q : list X) a b i : List.length P = i -> exchange i (P ++ a :: b :: Q) = P ++ b :: a :: Q.
Proof.
  intros <-. unfold exchange. rewrite firstn_app, skipn_app, firstn_all, skipn_all. replace (List.length P - List.length P) with 0 by lia.
  cbn [skipn firstn]. rewrite app_nil_r. cbn [app]. reflexivity.
Qed.
Lemma set_two {X} (P Q : list X) a b u v i : List.length P = i ->
  set_nth (S i) v (set_nth i u (P ++ a :: b :: Q)) = P ++ u :: v :: Q /\ set_nth i v (set_nth (S i) u (P ++ a :: b :: Q)) = P ++ v :: u :: Q.
Proof.
  intros <-. induction P as [|p P [I1 I2]]; [auto|]. split.
  - change (p :: set_nth (S (List.length P)) v (set_nth (List.length P) u (P ++ a :: b :: Q)) = p :: (P ++ u :: v :: Q)). now rewrite I1.
  - change (p :: set_nth (List.length P) v (set_nth (S (List.length P)) u (P ++ a :: b :: Q)) = p :: (P ++ v :: u :: Q)). now rewrite I2.
Qed.

Section Mp.
Context {A : Type} {HA : SR A}.
Notation heap := (heap A).

(** ** facts about a chain *)
Section Chain.
Variables (h : heap) (ts : list tid) (os : list lid) (env : list tid) (lf rt : nat -> lid).
Hypothesis CH : chain h ts os env lf rt.
Notation n := (List.length ts).

Lemma ch_in_o i : i < n -> In (nth i os 0) (legs_of h (nth i ts 0)).
Proof. intros H. eapply Permutation_in; [symmetry; apply (ch_legs _ _ _ _ _ _ CH i H)|]. rewrite !in_app_iff. simpl; auto. Qed.
Lemma ch_in_l i : S i < n -> In (lf (S i)) (legs_of h (nth (S i) ts 0)).
Proof. intros H. eapply Permutation_in; [symmetry; apply (ch_legs _ _ _ _ _ _ CH (S i) H)|]. rewrite !in_app_iff. simpl; auto. Qed.
Lemma ch_in_r i : S i < n -> In (rt i) (legs_of h (nth i ts 0)).
Proof.
  intros H. eapply Permutation_in; [symmetry; apply (ch_legs _ _ _ _ _ _ CH i)|]; [lia|]. rewrite !in_app_iff.
  assert (Nat.ltb (S i) n = true) as -> by now apply Nat.ltb_lt. simpl; auto.
Qed.
Lemma ch_all i l : i < n -> In l (legs_of h (nth i ts 0)) -> In l (all_legs h ts).
Proof. intros H Hl. unfold all_legs. apply in_flat_map. exists (nth i ts 0). split; auto. now apply nth_In. Qed.
Lemma ch_all_env l : In l (all_legs h ts) -> In l (all_legs h (ts ++ env)).
Proof. intros H. unfold all_legs in *. rewrite flat_map_app, in_app_iff. auto. Qed.
Lemma ch_nodup : NoDup (all_legs h ts).
Proof. pose proof (wn_nodup _ _ (wo_net _ _ (ch_wf _ _ _ _ _ _ CH))) as N. unfold all_legs in *. rewrite flat_map_app in N. now apply NoDup_app_inv in N. Qed.
Lemma ch_ids : NoDup ts.
Proof. pose proof (wn_ids _ _ (wo_net _ _ (ch_wf _ _ _ _ _ _ CH))) as N. now apply NoDup_app_inv in N. Qed.
Lemma ch_site i j l : i < n -> j < n -> In l (legs_of h (nth i ts 0)) -> In l (legs_of h (nth j ts 0)) -> i = j.
Proof.
  intros Hi Hj H1 H2. assert (nth i ts 0 = nth j ts 0) as E by (apply (one_owner h ts _ _ l ch_nodup); auto; now apply nth_In).
  apply (proj1 (NoDup_nth ts 0)); auto. apply ch_ids.
Qed.
Lemma ch_back l l' : In l (all_legs h ts) -> In l' (all_legs h ts) -> linked h l l' -> linked h l' l.
Proof.
  intros H1 H2. apply (link_back h (all_legs h (ts ++ env))); auto using ch_all_env. apply (wo_net _ _ (ch_wf _ _ _ _ _ _ CH)).
Qed.
Lemma ch_link' i : S i < n -> linked h (lf (S i)) (rt i).
Proof.
  intros H. apply ch_back; [|apply (ch_all (S i)); auto; now apply ch_in_l|now apply (ch_link _ _ _ _ _ _ CH)].
  apply (ch_all i); [lia|]. now apply ch_in_r.
Qed.
Lemma ch_os l : In l os <-> exists i, i < n /\ l = nth i os 0.
Proof.
  rewrite <- (ch_len _ _ _ _ _ _ CH). split.
  - intros H. destruct (In_nth os l 0 H) as (i & Hi & E). eauto.
  - intros (i & Hi & ->). now apply nth_In.
Qed.
Lemma ch_lt l : In l (all_legs h ts) -> l < nleg h.
Proof.
  intros H. apply ch_all_env in H. unfold all_legs in H. apply in_flat_map in H. destruct H as (t & Ht & Hl).
  apply (wt_alloc h t); auto. now apply (wn_wf _ _ (wo_net _ _ (ch_wf _ _ _ _ _ _ CH))).
Qed.

(** the legs of two neighbours apart from their bond are not linked to each other *)
Lemma ch_apart i l l' : S i < n ->
  In l (opt (Nat.ltb 0 i) (lf i) ++ opt (Nat.ltb (S (S i)) n) (rt (S i)) ++ [nth i os 0; nth (S i) os 0]) ->
  In l' (opt (Nat.ltb 0 i) (lf i) ++ opt (Nat.ltb (S (S i)) n) (rt (S i)) ++ [nth i os 0; nth (S i) os 0]) -> ~ linked h l l'.
Proof.
  intros Hi H1 H2 LK.
  assert (IN : forall x, In x (opt (Nat.ltb 0 i) (lf i) ++ opt (Nat.ltb (S (S i)) n) (rt (S i)) ++ [nth i os 0; nth (S i) os 0]) ->
     exists j, (j = i \/ j = S i) /\ In x (legs_of h (nth j ts 0))).
  { intros x Hx. rewrite !in_app_iff in Hx. destruct Hx as [Hx|[Hx|Hx]].
    - exists i. split; auto. destruct i as [|i]; [destruct Hx|]. destruct Hx as [<-|[]]. apply ch_in_l. lia.
    - exists (S i). split; auto. destruct (Nat.ltb (S (S i)) n) eqn:E; [|destruct Hx]. apply Nat.ltb_lt in E. destruct Hx as [<-|[]]. now apply ch_in_r.
    - simpl in Hx. destruct Hx as [<-|[<-|[]]]; [exists i|exists (S i)]; (split; [auto|]); apply ch_in_o; lia. }
  assert (AL : forall x, In x (opt (Nat.ltb 0 i) (lf i) ++ opt (Nat.ltb (S (S i)) n) (rt (S i)) ++ [nth i os 0; nth (S i) os 0]) -> In x (all_legs h ts)).
  { intros x Hx. destruct (IN x Hx) as (j & Hj & Hl). apply (ch_all j); auto. lia. }
  destruct (IN l' H2) as (j & Hj & Hl').
  pose proof H1 as H1'. rewrite !in_app_iff in H1'. destruct H1' as [Hx|[Hx|Hx]].
  - destruct i as [|i]; [destruct Hx|]. destruct Hx as [<-|[]].
    pose proof (linked_fun _ _ _ _ LK (ch_link' i ltac:(lia))) as ->.
    assert (i = j); [|lia]. apply (ch_site i j (rt i)); auto; try lia. apply ch_in_r. lia.
  - destruct (Nat.ltb (S (S i)) n) eqn:E; [|destruct Hx]. apply Nat.ltb_lt in E. destruct Hx as [<-|[]].
    pose proof (linked_fun _ _ _ _ LK (ch_link _ _ _ _ _ _ CH (S i) E)) as ->.
    assert (S (S i) = j); [|lia]. apply (ch_site (S (S i)) j (lf (S (S i)))); auto; try lia. now apply ch_in_l.
  - apply (ch_out _ _ _ _ _ _ CH l l'); auto. apply ch_os. simpl in Hx. destruct Hx as [<-|[<-|[]]]; [exists i|exists (S i)]; split; auto; lia.
Qed.
End Chain.

(** ** replacing two neighbours *)
Section Repl.
Variables (h h' : heap) (X Y : list tid) (t1 t2 w1 w2 : tid) (Xo Yo : list lid) (o1 o2 p1 p2 : lid) (env : list tid) (lf rt : nat -> lid) (i : nat) (x y : lid).
Hypothesis LX : List.length X = i.
Hypothesis LXo : List.length Xo = i.
Notation ts := (X ++ t1 :: t2 :: Y).
Notation ts' := (X ++ w1 :: w2 :: Y).
Notation os := (Xo ++ o1 :: o2 :: Yo).
Hypothesis PP : (p1 = o1 /\ p2 = o2) \/ (p1 = o2 /\ p2 = o1).
Hypothesis CH : chain h ts os env lf rt.
Notation n := (List.length ts).
Hypothesis P1 : Permutation (legs_of h' w1) (opt (Nat.ltb 0 i) (lf i) ++ [x; p1]).
Hypothesis P2 : Permutation (legs_of h' w2) (y :: opt (Nat.ltb (S (S i)) n) (rt (S i)) ++ [p2]).
Hypothesis KD : forall t, In t [w1; w2] -> t_diag (tens h' t) = false /\ t_like (tens h' t) = false.
Hypothesis NX : l_name (legs h' x) = NStr "r" /\ l_name (legs h' y) = NStr "l".
Hypothesis LKS : linked h' x y.
Hypothesis FR : nleg h <= x /\ nleg h <= y.
Hypothesis RT : forall t, In t (X ++ Y) -> tens h' t = tens h t.
Hypothesis KP : forall l, In l (opt (Nat.ltb 0 i) (lf i) ++ opt (Nat.ltb (S (S i)) n) (rt (S i)) ++ [o1; o2]) \/ In l (all_legs h (X ++ Y)) ->
  l_name (legs h' l) = l_name (legs h l) /\ forall l', linked h' l l' <-> linked h l l'.
Hypothesis WO : wf_open h' (ts' ++ env).

Lemma rpl_len : List.length ts' = n.
Proof. rewrite !app_length. reflexivity. Qed.
Lemma rpl_pos : nth i ts 0 = t1 /\ nth (S i) ts 0 = t2 /\ nth i ts' 0 = w1 /\ nth (S i) ts' 0 = w2 /\
  nth i os 0 = o1 /\ nth (S i) os 0 = o2 /\ nth i (Xo ++ p1 :: p2 :: Yo) 0 = p1 /\ nth (S i) (Xo ++ p1 :: p2 :: Yo) 0 = p2.
Proof.
  destruct (nth_two X Y t1 t2 0 i LX) as [-> ->], (nth_two X Y w1 w2 0 i LX) as [-> ->].
  destruct (nth_two Xo Yo o1 o2 0 i LXo) as [-> ->], (nth_two Xo Yo p1 p2 0 i LXo) as [-> ->]. auto 10.
Qed.
Lemma rpl_small : S i < n.
Proof. rewrite app_length. simpl. lia. Qed.
Lemma rpl_away k : k <> i -> k <> S i -> nth k ts' 0 = nth k ts 0 /\ nth k (Xo ++ p1 :: p2 :: Yo) 0 = nth k os 0.
Proof.
  intros N1 N2. destruct (nth_away X Y t1 t2 w1 w2 0 i k LX N1 N2) as [-> _], (nth_away Xo Yo o1 o2 p1 p2 0 i k LXo N1 N2) as [-> _]. auto.
Qed.
Lemma rpl_in k l : k < n -> k <> i -> k <> S i -> In l (legs_of h (nth k ts 0)) -> In l (all_legs h (X ++ Y)).
Proof.
  intros Hk N1 N2 Hl. destruct (nth_away X Y t1 t2 w1 w2 0 i k LX N1 N2) as [_ IN]. unfold all_legs. apply in_flat_map. exists (nth k ts 0). auto.
Qed.
Lemma rpl_legs k : k < n -> k <> i -> k <> S i -> legs_of h' (nth k ts 0) = legs_of h (nth k ts 0).
Proof. intros Hk N1 N2. destruct (nth_away X Y t1 t2 w1 w2 0 i k LX N1 N2) as [_ IN]. unfold legs_of. now rewrite RT by auto. Qed.
Lemma rpl_keep_o k : k < n -> l_name (legs h' (nth k os 0)) = l_name (legs h (nth k os 0)) /\ forall l', linked h' (nth k os 0) l' <-> linked h (nth k os 0) l'.
Proof.
  intros Hk. destruct rpl_pos as (_ & _ & _ & _ & E1 & E2 & _). apply KP.
  destruct (Nat.eq_dec k i) as [->|N1]; [left; rewrite !in_app_iff, E1; simpl; auto|].
  destruct (Nat.eq_dec k (S i)) as [->|N2]; [left; rewrite !in_app_iff, E2; simpl; auto|].
  right. apply (rpl_in k); auto. now apply (ch_in_o _ _ _ _ _ _ CH).
Qed.
Lemma rpl_keep_r k : S k < n -> k <> i -> l_name (legs h' (rt k)) = l_name (legs h (rt k)) /\ forall l', linked h' (rt k) l' <-> linked h (rt k) l'.
Proof.
  intros Hk N. apply KP. destruct (Nat.eq_dec k (S i)) as [->|N2].
  - left. rewrite !in_app_iff. assert (Nat.ltb (S (S i)) n = true) as -> by now apply Nat.ltb_lt. simpl. auto.
  - right. apply (rpl_in k); auto; try lia. now apply (ch_in_r _ _ _ _ _ _ CH).
Qed.
Lemma rpl_keep_l k : S k < n -> k <> i -> l_name (legs h' (lf (S k))) = l_name (legs h (lf (S k))) /\ forall l', linked h' (lf (S k)) l' <-> linked h (lf (S k)) l'.
Proof.
  intros Hk N. apply KP. destruct (Nat.eq_dec (S k) i) as [E|N2].
  - left. rewrite !in_app_iff. rewrite <- E. simpl. auto.
  - right. apply (rpl_in (S k)); auto; try lia. now apply (ch_in_l _ _ _ _ _ _ CH).
Qed.

Lemma rpl_o p : In p [p1; p2] -> l_name (legs h' p) = NStr "o" /\ In p [o1; o2].
Proof.
  destruct rpl_pos as (_ & _ & _ & _ & E5 & E6 & _). pose proof rpl_small as SM. intros Hp.
  assert (H : In p [o1; o2]) by (simpl in *; destruct PP as [[-> ->]|[-> ->]]; tauto). split; auto.
  destruct H as [<-|[<-|[]]]; [rewrite <- E5; destruct (rpl_keep_o i) as [-> _]; [lia|apply (ch_o _ _ _ _ _ _ CH); lia]|].
  rewrite <- E6. destruct (rpl_keep_o (S i) SM) as [-> _]. now apply (ch_o _ _ _ _ _ _ CH).
Qed.
Lemma replaced_chain : chain h' ts' (Xo ++ p1 :: p2 :: Yo) env (upd lf (S i) y) (upd rt i x).
Proof.
  pose proof rpl_len as LN. pose proof rpl_small as SM. destruct rpl_pos as (E1 & E2 & E3 & E4 & E5 & E6 & E7 & E8).
  constructor.
  - pose proof (ch_len _ _ _ _ _ _ CH) as L. rewrite !app_length in *. simpl in *. lia.
  - exact WO.
  - intros t Ht. rewrite in_app_iff in Ht. simpl in Ht.
    destruct Ht as [Ht|[<-|[<-|Ht]]]; [|apply KD; simpl; auto|apply KD; simpl; auto|];
      (rewrite RT by (apply in_app_iff; auto); apply (ch_kind _ _ _ _ _ _ CH); apply in_app_iff; simpl; auto).
  - rewrite LN. intros k Hk. destruct (Nat.eq_dec k i) as [->|N1].
    { rewrite E3, E7, P1. rewrite upd_same. rewrite (upd_other lf) by lia. assert (Nat.ltb (S i) n = true) as -> by now apply Nat.ltb_lt. reflexivity. }
    destruct (Nat.eq_dec k (S i)) as [->|N2].
    { rewrite E4, E8, P2. rewrite upd_same. rewrite (upd_other rt) by lia. reflexivity. }
    destruct (rpl_away k N1 N2) as [-> ->]. rewrite rpl_legs by auto. rewrite !upd_other by auto. now apply (ch_legs _ _ _ _ _ _ CH).
  - rewrite LN. intros k Hk.
    destruct (Nat.eq_dec k i) as [->|N1].
    { rewrite E7. apply rpl_o. simpl; auto. }
    destruct (Nat.eq_dec k (S i)) as [->|N2].
    { rewrite E8. apply rpl_o. simpl; auto. }
    destruct (rpl_away k N1 N2) as [_ ->]. destruct (rpl_keep_o k Hk) as [-> _]. now apply (ch_o _ _ _ _ _ _ CH).
  - rewrite LN. intros k Hk. destruct (Nat.eq_dec k i) as [->|N1]; [rewrite upd_same; apply NX|]. rewrite upd_other by lia.
    destruct (rpl_keep_l k Hk N1) as [-> _]. now apply (ch_l _ _ _ _ _ _ CH).
  - rewrite LN. intros k Hk. destruct (Nat.eq_dec k i) as [->|N1]; [rewrite upd_same; apply NX|]. rewrite upd_other by lia.
    destruct (rpl_keep_r k Hk N1) as [-> _]. now apply (ch_r _ _ _ _ _ _ CH).
  - rewrite LN. intros k Hk. destruct (Nat.eq_dec k i) as [->|N1]; [rewrite !upd_same; auto|]. rewrite !upd_other by lia.
    apply (rpl_keep_r k Hk N1). now apply (ch_link _ _ _ _ _ _ CH).
  - intros l l' Hl Hl' LK.
    assert (Hl0 : In l os) by (rewrite in_app_iff in *; simpl in *; destruct PP as [[-> ->]|[-> ->]]; tauto).
    assert (KO : forall l', linked h' l l' <-> linked h l l').
    { apply (ch_os _ _ _ _ _ _ CH) in Hl0. destruct Hl0 as (k & Hk & ->). now apply rpl_keep_o. }
    assert (LT : l < nleg h).
    { apply (ch_os _ _ _ _ _ _ CH) in Hl0. destruct Hl0 as (k & Hk & ->). apply (ch_lt _ _ _ _ _ _ CH). apply (ch_all _ _ k); auto. now apply (ch_in_o _ _ _ _ _ _ CH). }
    assert (AX : forall z, In z (opt (Nat.ltb 0 i) (lf i) ++ opt (Nat.ltb (S (S i)) n) (rt (S i)) ++ [o1; o2]) -> In z (all_legs h ts)).
    { intros z Hz. rewrite !in_app_iff in Hz. destruct Hz as [Hz|[Hz|Hz]].
      - destruct i as [|j] eqn:Ei; [destruct Hz|]. destruct Hz as [<-|[]]. apply (ch_all _ _ (S j)); [lia|]. apply (ch_in_l _ _ _ _ _ _ CH). lia.
      - destruct (Nat.ltb (S (S i)) n) eqn:E; [|destruct Hz]. apply Nat.ltb_lt in E. destruct Hz as [<-|[]]. apply (ch_all _ _ (S i)); [lia|]. now apply (ch_in_r _ _ _ _ _ _ CH).
      - simpl in Hz. destruct Hz as [<-|[<-|[]]].
        + rewrite <- E5. apply (ch_all _ _ i); [lia|]. apply (ch_in_o _ _ _ _ _ _ CH). lia.
        + rewrite <- E6. apply (ch_all _ _ (S i)); [lia|]. now apply (ch_in_o _ _ _ _ _ _ CH). }
    assert (IW : forall z, In z (legs_of h' w1 ++ legs_of h' w2) -> In z (all_legs h' (ts' ++ env))).
    { intros z Hz. unfold all_legs. apply in_flat_map. apply in_app_iff in Hz. destruct Hz as [Hz|Hz]; [exists w1|exists w2]; (split; [|auto]); rewrite !in_app_iff; simpl; auto. }
    assert (IX : In x (legs_of h' w1)) by (eapply Permutation_in; [symmetry; exact P1|]; rewrite in_app_iff; simpl; auto).
    assert (IY : In y (legs_of h' w2)) by (eapply Permutation_in; [symmetry; exact P2|]; simpl; auto).
    assert (BK : forall z, In z [x; y] -> ~ linked h' l z).
    { intros z Hz L1. assert (In l (all_legs h' (ts' ++ env))) as HL.
      { rewrite in_app_iff in Hl0. simpl in Hl0. unfold all_legs. destruct (ch_os _ _ _ _ _ _ CH l) as [F _].
        destruct F as (k & Hk & ->); [rewrite in_app_iff; simpl; auto|].
        assert (PW : In p1 (legs_of h' w1) /\ In p2 (legs_of h' w2)).
        { split; (eapply Permutation_in; [symmetry; first [exact P1|exact P2]|]); [|right]; rewrite in_app_iff; simpl; auto. }
        assert (OW : forall o, In o [o1; o2] -> In o (legs_of h' w1 ++ legs_of h' w2)).
        { intros o Ho. apply in_app_iff. simpl in Ho. destruct PP as [[Q1 Q2]|[Q1 Q2]], PW as [W1 W2]; rewrite Q1 in W1; rewrite Q2 in W2; destruct Ho as [<-|[<-|[]]]; auto. }
        destruct (Nat.eq_dec k i) as [->|N1]; [rewrite E5; apply IW, OW; simpl; auto|].
        destruct (Nat.eq_dec k (S i)) as [->|N2]; [rewrite E6; apply IW, OW; simpl; auto|].
        apply in_flat_map. exists (nth k ts 0). split.
        - destruct (rpl_away k N1 N2) as [E _]. rewrite <- E. apply in_app_iff. left. apply nth_In. lia.
        - rewrite rpl_legs by auto. now apply (ch_in_o _ _ _ _ _ _ CH). }
      assert (In z (all_legs h' (ts' ++ env))) as HZ by (apply IW, in_app_iff; simpl in Hz; destruct Hz as [<-|[<-|[]]]; auto).
      pose proof (link_back h' _ l z (wn_links _ _ (wo_net _ _ WO)) HL HZ L1) as L2.
      pose proof (link_back h' _ x y (wn_links _ _ (wo_net _ _ WO)) (IW x (in_or_app _ _ _ (or_introl IX))) (IW y (in_or_app _ _ _ (or_intror IY))) LKS) as L3.
      simpl in Hz. destruct Hz as [<-|[<-|[]]].
      - pose proof (linked_fun _ _ _ _ L2 LKS). lia.
      - pose proof (linked_fun _ _ _ _ L2 L3). lia. }
    unfold all_legs in Hl'. apply in_flat_map in Hl'. destruct Hl' as (t & Ht & Hl'). rewrite in_app_iff in Ht. simpl in Ht.
    assert (OLD : In l' (all_legs h ts) -> False) by (intros H; apply (ch_out _ _ _ _ _ _ CH l l'); auto; now apply KO).
    assert (XY : In t (X ++ Y) -> False).
    { intros H. apply OLD. unfold all_legs. apply in_flat_map. exists t. rewrite !in_app_iff in *. simpl. unfold legs_of in *. rewrite RT in Hl' by (apply in_app_iff; auto). tauto. }
    destruct Ht as [Ht|[<-|[<-|Ht]]].
    + apply XY, in_app_iff; auto.
    + apply (Permutation_in _ P1) in Hl'. rewrite in_app_iff in Hl'. simpl in Hl'. destruct Hl' as [Hl'|[<-|[<-|[]]]].
      * apply OLD, AX. rewrite !in_app_iff. auto.
      * apply (BK x); simpl; auto.
      * apply OLD, AX. rewrite !in_app_iff. right; right. apply rpl_o. simpl; auto.
    + apply (Permutation_in _ P2) in Hl'. simpl in Hl'. rewrite in_app_iff in Hl'. simpl in Hl'. destruct Hl' as [<-|[Hl'|[<-|[]]]].
      * apply (BK y); simpl; auto.
      * apply OLD, AX. rewrite !in_app_iff. auto.
      * apply OLD, AX. rewrite !in_app_iff. right; right. apply rpl_o. simpl; auto.
    + apply XY, in_app_iff; auto.
Qed.
End Repl.
End Mp.
