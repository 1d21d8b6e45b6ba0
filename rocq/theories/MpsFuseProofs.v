(** Joining two chains at the last site of the one and the first site of the other. *)
From Coq Require Import List Arith Bool Lia String ZArith Permutation.
From Verif Require Import Base Sums NdModel NdProofs HeapModel FuncsModel FuncsProofs TensorModel TensorSpec MatrixProofs
  ContractModel NetSpec ShareProofs LinkProofs SumpairsProofs ContractProofs OuterProofs NetProofs MergeLinkProofs GroupSpec GroupProofs NetSameProofs
  SvdModel MpsModel MpsSpec MpsProofs MpsSwapProofs MpsMoveProofs MpsPreProofs MpsContractSpec MpsOpenProofs MpsContractModel MpsCommonProofs.
Import ListNotations.
Local Open Scope list_scope.
Local Open Scope nat_scope.

Section Mp.
Context {A : Type} {HA : SR A}.
Notation heap := (heap A).

Lemma ch_ndo (h : heap) ts os env lf rt : chain h ts os env lf rt -> NoDup os.
Proof.
  intros CH. apply (NoDup_nth os 0). rewrite (ch_len _ _ _ _ _ _ CH). intros i j Hi Hj E.
  apply (ch_site _ _ _ _ _ _ CH i j (nth i os 0) Hi Hj); [now apply (ch_in_o _ _ _ _ _ _ CH)|]. rewrite E. now apply (ch_in_o _ _ _ _ _ _ CH).
Qed.
Lemma opt_In c (l x : lid) : In x (opt c l) <-> c = true /\ x = l.
Proof. destruct c; cbn; intuition congruence. Qed.

Section Fuse.
Variables (h : heap) (tsA tsB e : list tid) (osA osB : list lid) (lfA rtA lfB rtB : nat -> lid) (xa xb : lid).
Hypothesis CA : chain h tsA osA (tsB ++ e) lfA rtA.
Hypothesis CB : chain h tsB osB (tsA ++ e) lfB rtB.
Hypothesis LK : linked h xa xb.
Hypothesis ONLY : forall l l', In l osA -> In l' osB -> linked h l l' -> l = xa /\ l' = xb.
Notation N := (tsA ++ tsB ++ e).

Lemma fz_net : wf_net h N. Proof. apply (ch_wf _ _ _ _ _ _ CA). Qed.
Lemma fz_A l : In l (all_legs h tsA) -> In l (all_legs h N).
Proof. apply all_incl. intros t Ht. apply in_app_iff; auto. Qed.
Lemma fz_B l : In l (all_legs h tsB) -> In l (all_legs h N).
Proof. apply all_incl. intros t Ht. rewrite !in_app_iff; auto. Qed.
Lemma fz_disj l : In l (all_legs h tsA) -> In l (all_legs h tsB) -> False.
Proof. exact (two_disj h tsA tsB e osA lfA rtA CA l). Qed.
Lemma fz_back l l' : In l (all_legs h N) -> In l' (all_legs h N) -> linked h l l' -> linked h l' l.
Proof. apply link_back. apply fz_net. Qed.
Lemma fz_Ain i l : i < List.length tsA -> In l (legs_of h (nth i tsA 0)) -> In l (all_legs h tsA). Proof. apply ch_all. Qed.
Lemma fz_Bin i l : i < List.length tsB -> In l (legs_of h (nth i tsB 0)) -> In l (all_legs h tsB). Proof. apply ch_all. Qed.
Lemma fz_oA i : i < List.length tsA -> In (nth i osA 0) (all_legs h tsA).
Proof. intros Hi. apply (fz_Ain i _ Hi), (ch_in_o _ _ _ _ _ _ CA _ Hi). Qed.
Lemma fz_oB i : i < List.length tsB -> In (nth i osB 0) (all_legs h tsB).
Proof. intros Hi. apply (fz_Bin i _ Hi), (ch_in_o _ _ _ _ _ _ CB _ Hi). Qed.
Lemma fz_rB i : S i < List.length tsB -> In (rtB i) (all_legs h tsB) /\ In (lfB (S i)) (all_legs h tsB).
Proof.
  intros Hi. split; [assert (Hi' : i < List.length tsB) by lia; apply (fz_Bin i _ Hi'), (ch_in_r _ _ _ _ _ _ CB _ Hi)|].
  apply (fz_Bin (S i) _ Hi), (ch_in_l _ _ _ _ _ _ CB _ Hi).
Qed.
Lemma fz_rA i : S i < List.length tsA -> In (rtA i) (all_legs h tsA) /\ In (lfA (S i)) (all_legs h tsA).
Proof.
  intros Hi. split; [assert (Hi' : i < List.length tsA) by lia; apply (fz_Ain i _ Hi'), (ch_in_r _ _ _ _ _ _ CA _ Hi)|].
  apply (fz_Ain (S i) _ Hi), (ch_in_l _ _ _ _ _ _ CA _ Hi).
Qed.
(** links between the two chains *)
Lemma fz_cross l l' : In l (all_legs h tsA) -> In l' (all_legs h tsB) -> linked h l l' -> l = xa /\ l' = xb.
Proof.
  intros Hl Hl' LL. pose proof (fz_back _ _ (fz_A _ Hl) (fz_B _ Hl') LL) as BK.
  assert (Ho : In l osA).
  { destruct (chain_leg _ _ _ _ _ _ _ CA Hl) as [H|[(i & Hi & ->)|(i & Hi & ->)]]; auto; exfalso.
    - rewrite (linked_fun h _ _ _ LL (ch_link _ _ _ _ _ _ CA i Hi)) in Hl'. apply (fz_disj (lfA (S i))); auto. now apply fz_rA.
    - rewrite (linked_fun h _ _ _ LL (ch_link' _ _ _ _ _ _ CA i Hi)) in Hl'. apply (fz_disj (rtA i)); auto. now apply fz_rA. }
  assert (Ho' : In l' osB).
  { destruct (chain_leg _ _ _ _ _ _ _ CB Hl') as [H|[(i & Hi & ->)|(i & Hi & ->)]]; auto; exfalso.
    - rewrite (linked_fun h _ _ _ BK (ch_link _ _ _ _ _ _ CB i Hi)) in Hl. apply (fz_disj (lfB (S i))); auto. now apply fz_rB.
    - rewrite (linked_fun h _ _ _ BK (ch_link' _ _ _ _ _ _ CB i Hi)) in Hl. apply (fz_disj (rtB i)); auto. now apply fz_rB. }
  now apply ONLY.
Qed.

Section First.
Variables (XA YB : list tid) (ta tb : tid) (XO YO : list lid).
Hypothesis EA : tsA = XA ++ [ta]. Hypothesis EB : tsB = tb :: YB.
Hypothesis EO : osA = XO ++ [xa]. Hypothesis EP : osB = xb :: YO.
Notation a := (List.length XA). Notation b := (List.length YB).

Lemma fz_lenA : List.length tsA = S a. Proof. rewrite EA, app_length. cbn. lia. Qed.
Lemma fz_lenB : List.length tsB = S b. Proof. now rewrite EB. Qed.
Lemma fz_lenXO : List.length XO = a. Proof. pose proof (ch_len _ _ _ _ _ _ CA) as L. rewrite fz_lenA, EO, app_length in L. cbn in L. lia. Qed.
Lemma fz_lenYO : List.length YO = b. Proof. pose proof (ch_len _ _ _ _ _ _ CB) as L. rewrite fz_lenB, EP in L. cbn in L. lia. Qed.
Lemma fz_ta : nth a tsA 0 = ta. Proof. rewrite EA, app_nth2 by lia. now rewrite Nat.sub_diag. Qed.
Lemma fz_tb : nth 0 tsB 0 = tb. Proof. now rewrite EB. Qed.
Lemma fz_xa : nth a osA 0 = xa. Proof. rewrite EO, app_nth2 by (rewrite fz_lenXO; lia). now rewrite fz_lenXO, Nat.sub_diag. Qed.
Lemma fz_legsA : Permutation (legs_of h ta) (xa :: opt (Nat.ltb 0 a) (lfA a)).
Proof.
  pose proof fz_lenA as L. rewrite <- fz_ta. rewrite (ch_legs _ _ _ _ _ _ CA a) by lia. rewrite fz_xa.
  destruct (Nat.ltb_spec (S a) (List.length tsA)); [lia|]. cbn [opt app]. symmetry. apply Permutation_cons_append.
Qed.
Lemma fz_legsB : Permutation (legs_of h tb) (xb :: opt (Nat.ltb 0 b) (rtB 0)).
Proof.
  pose proof fz_lenB as L. rewrite <- fz_tb. rewrite (ch_legs _ _ _ _ _ _ CB 0) by lia. cbn [Nat.ltb Nat.leb opt app]. rewrite L.
  change (Nat.ltb 1 (S b)) with (Nat.ltb 0 b). rewrite EP. cbn [nth]. symmetry. apply Permutation_cons_append.
Qed.
Lemma fz_perm : Permutation N (ta :: tb :: XA ++ YB ++ e).
Proof.
  rewrite EA, EB. rewrite <- app_assoc. cbn [app]. rewrite <- (Permutation_middle XA (tb :: YB ++ e) ta). apply perm_skip. symmetry. apply Permutation_middle.
Qed.

(** the two sites contracted *)
Lemma fuse_first : exists h1 t, contractTwoTensors ta tb h = (h1, Ok t) /\ joined h ta tb (XA ++ YB ++ e) h1 t /\
  Permutation (legs_of h1 t) (opt (Nat.ltb 0 a) (lfA a) ++ opt (Nat.ltb 0 b) (rtB 0)).
Proof.
  pose proof fz_lenA as LA. pose proof fz_lenB as LB.
  apply (join_one h ta tb (XA ++ YB ++ e) xa xb).
  - eapply wf_open_perm; [apply fz_perm|]. apply (ch_wf _ _ _ _ _ _ CA).
  - apply (ch_kind _ _ _ _ _ _ CA). rewrite EA. apply in_app_iff. simpl; auto.
  - apply (ch_kind _ _ _ _ _ _ CB). rewrite EB. simpl; auto.
  - exact fz_legsA.
  - exact fz_legsB.
  - exact LK.
  - intros z w Hz LZ Hw. apply opt_In in Hz. destruct Hz as [Ha ->]. apply Nat.ltb_lt in Ha. destruct a as [|a'] eqn:Ea; [lia|].
    assert (Hi : S a' < List.length tsA) by lia. rewrite (linked_fun h _ _ _ LZ (ch_link' _ _ _ _ _ _ CA a' Hi)) in Hw.
    apply (fz_disj (rtA a')); [now apply fz_rA|]. apply (fz_Bin 0); [lia|]. now rewrite fz_tb.
Qed.
End First.

(** *** The first chain has another site *)
Section Left.
Variables (XA YB : list tid) (t1 ta tb : tid) (XO YO : list lid) (o1 : lid).
Hypothesis EA : tsA = XA ++ [t1; ta]. Hypothesis EB : tsB = tb :: YB.
Hypothesis EO : osA = XO ++ [o1; xa]. Hypothesis EP : osB = xb :: YO.
Notation p := (List.length XA). Notation b := (List.length YB).
Variables (h1 : heap) (t : tid).
Hypothesis J : joined h ta tb ((XA ++ [t1]) ++ YB ++ e) h1 t.
Hypothesis LT : Permutation (legs_of h1 t) ([lfA (S p)] ++ opt (Nat.ltb 0 b) (rtB 0)).

Lemma fl_EA : tsA = (XA ++ [t1]) ++ [ta]. Proof. now rewrite <- app_assoc. Qed.
Lemma fl_EO : osA = (XO ++ [o1]) ++ [xa]. Proof. now rewrite <- app_assoc. Qed.
Lemma fl_lenA : List.length tsA = S (S p). Proof. rewrite EA, app_length. cbn. lia. Qed.
Lemma fl_lenB : List.length tsB = S b. Proof. now rewrite EB. Qed.
Lemma fl_lenXO : List.length XO = p. Proof. pose proof (ch_len _ _ _ _ _ _ CA) as L. rewrite fl_lenA, EO, app_length in L. cbn in L. lia. Qed.
Lemma fl_lenYO : List.length YO = b. Proof. pose proof (ch_len _ _ _ _ _ _ CB) as L. rewrite fl_lenB, EP in L. cbn in L. lia. Qed.
Lemma fl_t1 : nth p tsA 0 = t1. Proof. rewrite EA, app_nth2 by lia. now rewrite Nat.sub_diag. Qed.
Lemma fl_o1 : nth p osA 0 = o1. Proof. rewrite EO, app_nth2 by (rewrite fl_lenXO; lia). now rewrite fl_lenXO, Nat.sub_diag. Qed.
Lemma fl_lt l : In l (all_legs h N) -> l < nleg h. Proof. apply open_lt. apply (ch_wf _ _ _ _ _ _ CA). Qed.
Lemma fl_link1 l l' : In l (all_legs h N) -> linked h1 l l' <-> linked h l l'.
Proof. intros H. apply (jn_links _ _ _ _ _ _ J). now apply fl_lt. Qed.
Lemma fl_perm1 : Permutation (t :: (XA ++ [t1]) ++ YB ++ e) (t1 :: t :: XA ++ YB ++ e).
Proof. rewrite <- app_assoc. cbn [app]. rewrite <- (Permutation_middle XA (YB ++ e) t1). apply perm_swap. Qed.
Lemma fl_tens1 u : In u (t1 :: XA ++ YB ++ e) -> tens h1 u = tens h u.
Proof. intros Hu. apply (ut_tens _ _ _ (jn_rest _ _ _ _ _ _ J)). rewrite !in_app_iff. cbn [In] in *. rewrite !in_app_iff in Hu. tauto. Qed.
Lemma fl_legs1 u : In u (t1 :: XA ++ YB ++ e) -> legs_of h1 u = legs_of h u.
Proof. intros Hu. unfold legs_of. now rewrite fl_tens1. Qed.

Lemma fl_second : exists h2 t2, contractTwoTensors t1 t h1 = (h2, Ok t2) /\ joined h1 t1 t (XA ++ YB ++ e) h2 t2 /\
  Permutation (legs_of h2 t2) ((opt (Nat.ltb 0 p) (lfA p) ++ [o1]) ++ opt (Nat.ltb 0 b) (rtB 0)).
Proof.
  pose proof fl_lenA as LA. pose proof fl_lenB as LB. assert (Hp : S p < List.length tsA) by lia. assert (Hp' : p < List.length tsA) by lia.
  assert (L1 : Permutation (legs_of h t1) (rtA p :: (opt (Nat.ltb 0 p) (lfA p) ++ [o1]))).
  { rewrite <- fl_t1. rewrite (ch_legs _ _ _ _ _ _ CA p Hp'). rewrite fl_o1. destruct (Nat.ltb_spec (S p) (List.length tsA)); [|lia]. cbn [opt].
    symmetry. cbn [app]. apply (Permutation_middle (opt (Nat.ltb 0 p) (lfA p)) [o1] (rtA p)). }
  assert (ND : NoDup (legs_of h t1)).
  { apply (wt_nodup _ _ (wn_wf _ _ fz_net t1 ltac:(rewrite EA; rewrite !in_app_iff; simpl; auto))). }
  apply (join_one h1 t1 t (XA ++ YB ++ e) (rtA p) (lfA (S p))).
  - eapply wf_open_perm; [apply fl_perm1|]. apply (jn_wf _ _ _ _ _ _ J).
  - rewrite fl_tens1 by (simpl; auto). apply (ch_kind _ _ _ _ _ _ CA). rewrite EA. apply in_app_iff. simpl; auto.
  - apply (jn_flags _ _ _ _ _ _ J).
  - rewrite fl_legs1 by (simpl; auto). exact L1.
  - exact LT.
  - apply fl_link1; [apply fz_A; now apply fz_rA|]. now apply (ch_link _ _ _ _ _ _ CA).
  - intros z w Hz LZ Hw. assert (HZ : In z (legs_of h t1)) by (eapply Permutation_in; [symmetry; exact L1|simpl; auto]).
    assert (HZA : In z (all_legs h tsA)) by (apply (fz_Ain p _ Hp'); now rewrite fl_t1).
    apply fl_link1 in LZ; [|now apply fz_A]. apply (Permutation_in _ LT) in Hw. apply in_app_iff in Hw. destruct Hw as [[<-|[]]|Hw].
    + assert (BK := fz_back _ _ (fz_A _ HZA) (fz_A _ (proj2 (fz_rA p Hp))) LZ).
      rewrite (linked_fun h _ _ _ BK (ch_link' _ _ _ _ _ _ CA p Hp)) in Hz. rewrite L1 in ND. apply NoDup_cons_iff in ND. tauto.
    + apply opt_In in Hw. destruct Hw as [Hb ->]. apply Nat.ltb_lt in Hb. assert (H0 : 1 < List.length tsB) by lia.
      assert (BK := fz_back _ _ (fz_A _ HZA) (fz_B _ (proj1 (fz_rB 0 H0))) LZ).
      rewrite (linked_fun h _ _ _ BK (ch_link _ _ _ _ _ _ CB 0 H0)) in HZA. apply (fz_disj (lfB 1)); auto. now apply fz_rB.
Qed.

Definition fl_lf (i : nat) : lid := if Nat.leb i p then lfA i else lfB (i - p).
Definition fl_rt (i : nat) : lid := if Nat.ltb i p then rtA i else rtB (i - p).

Lemma fl_pre h2 t2 : joined h1 t1 t (XA ++ YB ++ e) h2 t2 ->
  Permutation (legs_of h2 t2) ((opt (Nat.ltb 0 p) (lfA p) ++ [o1]) ++ opt (Nat.ltb 0 b) (rtB 0)) ->
  prechain h2 (XA ++ [t2] ++ YB) ((XO ++ [o1]) ++ YO) e fl_lf fl_rt.
Proof.
  intros J2 L2. pose proof fl_lenA as LA. pose proof fl_lenB as LB. pose proof fl_lenXO as LXO. pose proof fl_lenYO as LYO.
  assert (T2 : forall u, In u (XA ++ YB ++ e) -> legs_of h2 u = legs_of h u).
  { intros u Hu. unfold legs_of. rewrite (ut_tens _ _ _ (jn_rest _ _ _ _ _ _ J2)) by auto. rewrite fl_tens1 by (simpl; auto). reflexivity. }
  assert (K2 : forall l l', In l (all_legs h N) -> linked h2 l l' <-> linked h l l').
  { intros l l' Hl. rewrite (jn_links _ _ _ _ _ _ J2) by (rewrite (jn_nleg _ _ _ _ _ _ J); now apply fl_lt). now apply fl_link1. }
  assert (ILA : forall i, i < p -> nth i tsA 0 = nth i XA 0) by (intros i Hi; rewrite EA; now apply app_nth1).
  assert (ILB : forall i, i < b -> nth (S i) tsB 0 = nth i YB 0) by (intros i Hi; now rewrite EB).
  assert (AL : forall l, In l (all_legs h2 (XA ++ [t2] ++ YB)) -> (In l (all_legs h tsA) /\ l <> xa) \/ (In l (all_legs h tsB) /\ l <> xb)).
  { intros l Hl. pose proof (ch_ndo _ _ _ _ _ _ CA) as NDO. pose proof (ch_ndo _ _ _ _ _ _ CB) as NDB. rewrite fl_EO in NDO.
    assert (XAa : xa = nth (S p) osA 0) by (rewrite EO, app_nth2 by lia; replace (S p - List.length XO) with 1 by lia; reflexivity).
    assert (XBb : xb = nth 0 osB 0) by (rewrite EP; reflexivity).
    assert (SA : forall i m, i < S p -> In m (legs_of h (nth i tsA 0)) -> In m (all_legs h tsA) /\ m <> xa).
    { intros i m Hi Hm. split; [apply (fz_Ain i); auto; lia|]. intros ->. assert (i = S p); [|lia].
      apply (ch_site _ _ _ _ _ _ CA i (S p) xa); try lia; auto. rewrite XAa. apply (ch_in_o _ _ _ _ _ _ CA). lia. }
    assert (SB : forall i m, 0 < i -> i < List.length tsB -> In m (legs_of h (nth i tsB 0)) -> In m (all_legs h tsB) /\ m <> xb).
    { intros i m Hi Hi2 Hm. split; [apply (fz_Bin i); auto; lia|]. intros ->. assert (i = 0); [|lia].
      apply (ch_site _ _ _ _ _ _ CB i 0 xb); try lia; auto. rewrite XBb. apply (ch_in_o _ _ _ _ _ _ CB). lia. }
    unfold all_legs in Hl. rewrite !flat_map_app in Hl. rewrite !in_app_iff in Hl. destruct Hl as [Hl|[Hl|Hl]].
    - left. apply in_flat_map in Hl. destruct Hl as (u & Hu & Hl). rewrite T2 in Hl by (apply in_app_iff; auto).
      destruct (In_nth _ _ 0 Hu) as (i & Hi & <-). apply (SA i); [lia|]. now rewrite ILA.
    - cbn [flat_map] in Hl. rewrite app_nil_r in Hl. apply (Permutation_in _ L2) in Hl. rewrite !in_app_iff in Hl. destruct Hl as [[Hl|[<-|[]]]|Hl].
      + left. apply opt_In in Hl. destruct Hl as [Hp ->]. apply Nat.ltb_lt in Hp. apply (SA p); [lia|]. destruct p as [|p'] eqn:Ep; [lia|]. apply (ch_in_l _ _ _ _ _ _ CA). lia.
      + left. apply (SA p); [lia|]. rewrite <- fl_o1. apply (ch_in_o _ _ _ _ _ _ CA). lia.
      + right. apply opt_In in Hl. destruct Hl as [Hb ->]. apply Nat.ltb_lt in Hb. split; [apply fz_rB; lia|]. intros E.
        apply (ch_out _ _ _ _ _ _ CB xb (lfB 1)); [rewrite EP; simpl; auto|apply fz_rB; lia|]. rewrite <- E. apply (ch_link _ _ _ _ _ _ CB). lia.
    - right. apply in_flat_map in Hl. destruct Hl as (u & Hu & Hl). rewrite T2 in Hl by (rewrite !in_app_iff; auto).
      destruct (In_nth _ _ 0 Hu) as (i & Hi & <-). apply (SB (S i)); [lia|lia|]. now rewrite ILB. }
  constructor.
  - rewrite !app_length. cbn [List.length]. lia.
  - eapply wf_open_perm; [|apply (jn_wf _ _ _ _ _ _ J2)]. rewrite <- !app_assoc. cbn [app]. apply Permutation_middle.
  - intros u Hu. rewrite !in_app_iff in Hu. destruct Hu as [Hu|[[<-|[]]|Hu]]; [|apply J2|];
      rewrite (ut_tens _ _ _ (jn_rest _ _ _ _ _ _ J2)) by (rewrite !in_app_iff; auto); rewrite fl_tens1 by (cbn [In]; rewrite !in_app_iff; auto).
    + apply (ch_kind _ _ _ _ _ _ CA). rewrite EA. apply in_app_iff; auto.
    + apply (ch_kind _ _ _ _ _ _ CB). rewrite EB. simpl; auto.
  - intros i Hi. rewrite !app_length in *. cbn [List.length] in *. unfold fl_lf, fl_rt. destruct (Nat.lt_trichotomy i p) as [LI|[->|GI]].
    + rewrite app_nth1 by auto. rewrite T2 by (apply in_app_iff; left; now apply nth_In). rewrite <- ILA by auto. rewrite (ch_legs _ _ _ _ _ _ CA i) by lia.
      destruct (Nat.leb_spec i p); [|lia]. destruct (Nat.ltb_spec i p); [|lia]. destruct (Nat.ltb_spec (S i) (List.length tsA)); [|lia]. destruct (Nat.ltb_spec (S i) (p + (1 + b))); [|lia].
      replace (nth i osA 0) with (nth i ((XO ++ [o1]) ++ YO) 0); [reflexivity|]. rewrite fl_EO, !app_nth1 by (rewrite ?app_length; cbn; lia). reflexivity.
    + rewrite app_nth2 by lia. rewrite Nat.sub_diag. cbn [app nth]. rewrite L2. rewrite Nat.leb_refl, Nat.ltb_irrefl. cbv iota.
      rewrite (app_nth1 (XO ++ [o1])) by (rewrite app_length; cbn; lia). rewrite app_nth2 by lia. rewrite LXO, Nat.sub_diag. cbn [nth].
      replace (Nat.ltb (S p) (p + (1 + b))) with (Nat.ltb 0 b) by (destruct (Nat.ltb_spec 0 b), (Nat.ltb_spec (S p) (p + (1 + b))); auto; lia).
      rewrite <- app_assoc. apply Permutation_app_head. apply Permutation_app_comm.
    + assert (exists k, i = p + S k) as (k & ->) by (exists (i - p - 1); lia). replace (p + S k - p) with (S k) by lia.
      rewrite app_nth2 by lia. replace (p + S k - p) with (S k) by lia. cbn [app nth]. rewrite T2 by (rewrite !in_app_iff; right; left; apply nth_In; lia).
      rewrite <- ILB by lia. rewrite (ch_legs _ _ _ _ _ _ CB (S k)) by lia. destruct (Nat.leb_spec (p + S k) p); [lia|]. destruct (Nat.ltb_spec (p + S k) p); [lia|].
      change (Nat.ltb 0 (S k)) with true. destruct (Nat.ltb_spec 0 (p + S k)); [|lia].
      replace (Nat.ltb (S (S k)) (List.length tsB)) with (Nat.ltb (S (p + S k)) (p + (1 + b))).
      2:{ destruct (Nat.ltb_spec (S (S k)) (List.length tsB)), (Nat.ltb_spec (S (p + S k)) (p + (1 + b))); auto; lia. }
      replace (nth (S k) osB 0) with (nth (p + S k) ((XO ++ [o1]) ++ YO) 0); [reflexivity|].
      rewrite EP. cbn [nth]. rewrite app_nth2 by (rewrite app_length; cbn; lia). f_equal. rewrite app_length. cbn. lia.
  - intros i Hi. rewrite !app_length in *. cbn [List.length] in *. unfold fl_lf, fl_rt. destruct (Nat.ltb_spec i p) as [LI|GI].
    + destruct (Nat.leb_spec (S i) p); [|lia]. apply K2; [apply fz_A, fz_rA; lia|]. apply (ch_link _ _ _ _ _ _ CA). lia.
    + destruct (Nat.leb_spec (S i) p); [lia|]. replace (S i - p) with (S (i - p)) by lia. apply K2; [apply fz_B, fz_rB; lia|]. apply (ch_link _ _ _ _ _ _ CB). lia.
  - intros l l' Hl Hl' LL. apply AL in Hl'. pose proof (ch_ndo _ _ _ _ _ _ CA) as NDO. pose proof (ch_ndo _ _ _ _ _ _ CB) as NDB. rewrite fl_EO in NDO. rewrite EP in NDB.
    apply in_app_iff in Hl. destruct Hl as [Hl|Hl].
    + assert (HA' : In l osA) by (rewrite fl_EO; apply in_app_iff; auto). assert (HAl : In l (all_legs h tsA)) by exact (os_all h tsA tsB e osA lfA rtA CA l HA').
      assert (NX : l <> xa). { intros ->. apply (NoDup_app_disj _ _ xa NDO Hl). simpl; auto. }
      apply K2 in LL; [|now apply fz_A]. destruct Hl' as [[Hl' _]|[Hl' _]].
      * exact (ch_out _ _ _ _ _ _ CA l l' HA' Hl' LL).
      * apply NX. now apply (fz_cross l l').
    + assert (HB' : In l osB) by (rewrite EP; simpl; auto). assert (HBl : In l (all_legs h tsB)) by exact (os_all h tsB tsA e osB lfB rtB CB l HB').
      assert (NX : l <> xb) by (intros ->; apply NoDup_cons_iff in NDB; tauto).
      apply K2 in LL; [|now apply fz_B]. destruct Hl' as [[Hl' _]|[Hl' _]].
      * apply NX. apply (fz_cross l' l); auto. apply fz_back; auto; [now apply fz_B|now apply fz_A].
      * exact (ch_out _ _ _ _ _ _ CB l l' HB' Hl' LL).
Qed.
End Left.

(** *** The first chain has no other site *)
Section Right.
Variables (YB : list tid) (ta tb t1 : tid) (YO : list lid) (o1 : lid).
Hypothesis EA : tsA = [ta]. Hypothesis EB : tsB = tb :: t1 :: YB.
Hypothesis EO : osA = [xa]. Hypothesis EP : osB = xb :: o1 :: YO.
Notation b := (List.length YB).
Variables (h1 : heap) (t : tid).
Hypothesis J : joined h ta tb (([] ++ (t1 :: YB)) ++ e) h1 t.
Hypothesis LT : Permutation (legs_of h1 t) [rtB 0].

Lemma fr_lenB : List.length tsB = S (S b). Proof. now rewrite EB. Qed.
Lemma fr_lenYO : List.length YO = b. Proof. pose proof (ch_len _ _ _ _ _ _ CB) as L. rewrite fr_lenB, EP in L. cbn in L. lia. Qed.
Lemma fr_lt l : In l (all_legs h N) -> l < nleg h. Proof. apply open_lt. apply (ch_wf _ _ _ _ _ _ CA). Qed.
Lemma fr_link1 l l' : In l (all_legs h N) -> linked h1 l l' <-> linked h l l'.
Proof. intros H. apply (jn_links _ _ _ _ _ _ J). now apply fr_lt. Qed.
Lemma fr_tens1 u : In u (t1 :: YB ++ e) -> tens h1 u = tens h u.
Proof. intros Hu. apply (ut_tens _ _ _ (jn_rest _ _ _ _ _ _ J)). exact Hu. Qed.
Lemma fr_legs1 u : In u (t1 :: YB ++ e) -> legs_of h1 u = legs_of h u.
Proof. intros Hu. unfold legs_of. now rewrite fr_tens1. Qed.

Lemma fr_second : exists h2 t2, contractTwoTensors t t1 h1 = (h2, Ok t2) /\ joined h1 t t1 (YB ++ e) h2 t2 /\
  Permutation (legs_of h2 t2) (opt (Nat.ltb 0 b) (rtB 1) ++ [o1]).
Proof.
  pose proof fr_lenB as LB. assert (H1 : 1 < List.length tsB) by lia.
  assert (L1 : Permutation (legs_of h t1) (lfB 1 :: (opt (Nat.ltb 0 b) (rtB 1) ++ [o1]))).
  { replace t1 with (nth 1 tsB 0) by (now rewrite EB). rewrite (ch_legs _ _ _ _ _ _ CB 1 H1). rewrite LB, EP. change (Nat.ltb 2 (S (S b))) with (Nat.ltb 0 b). reflexivity. }
  destruct (join_one h1 t t1 (YB ++ e) (rtB 0) (lfB 1) [] (opt (Nat.ltb 0 b) (rtB 1) ++ [o1])) as (h2 & t2 & E & J2 & L2).
  - apply (jn_wf _ _ _ _ _ _ J).
  - apply (jn_flags _ _ _ _ _ _ J).
  - rewrite fr_tens1 by (simpl; auto). apply (ch_kind _ _ _ _ _ _ CB). rewrite EB. simpl; auto.
  - exact LT.
  - rewrite fr_legs1 by (simpl; auto). exact L1.
  - apply fr_link1; [apply fz_B; now apply fz_rB|]. now apply (ch_link _ _ _ _ _ _ CB).
  - intros z w [].
  - exists h2, t2. auto.
Qed.

Definition fr_lf (i : nat) : lid := lfB (S i).
Definition fr_rt (i : nat) : lid := rtB (S i).

Lemma fr_pre h2 t2 : joined h1 t t1 (YB ++ e) h2 t2 -> Permutation (legs_of h2 t2) (opt (Nat.ltb 0 b) (rtB 1) ++ [o1]) ->
  prechain h2 (t2 :: YB) (o1 :: YO) e fr_lf fr_rt.
Proof.
  intros J2 L2. pose proof fr_lenB as LB. pose proof fr_lenYO as LYO.
  assert (T2 : forall u, In u (YB ++ e) -> legs_of h2 u = legs_of h u).
  { intros u Hu. unfold legs_of. rewrite (ut_tens _ _ _ (jn_rest _ _ _ _ _ _ J2)) by auto. rewrite fr_tens1 by (simpl; auto). reflexivity. }
  assert (K2 : forall l l', In l (all_legs h N) -> linked h2 l l' <-> linked h l l').
  { intros l l' Hl. rewrite (jn_links _ _ _ _ _ _ J2) by (rewrite (jn_nleg _ _ _ _ _ _ J); now apply fr_lt). now apply fr_link1. }
  assert (ILB : forall i, i < b -> nth (S (S i)) tsB 0 = nth i YB 0) by (intros i Hi; now rewrite EB).
  assert (AL : forall l, In l (all_legs h2 (t2 :: YB)) -> In l (all_legs h tsB)).
  { intros l Hl. unfold all_legs in Hl. cbn [flat_map] in Hl. rewrite in_app_iff in Hl. destruct Hl as [Hl|Hl].
    - apply (Permutation_in _ L2) in Hl. rewrite in_app_iff, opt_In in Hl. destruct Hl as [[Hb ->]|[<-|[]]].
      + apply Nat.ltb_lt in Hb. apply fz_rB. lia.
      + replace o1 with (nth 1 osB 0) by (now rewrite EP). apply fz_oB. lia.
    - apply in_flat_map in Hl. destruct Hl as (u & Hu & Hl). rewrite T2 in Hl by (apply in_app_iff; auto). destruct (In_nth _ _ 0 Hu) as (i & Hi & <-).
      apply (fz_Bin (S (S i))); [lia|]. now rewrite ILB. }
  constructor.
  - cbn [List.length]. lia.
  - apply (jn_wf _ _ _ _ _ _ J2).
  - intros u [<-|Hu]; [apply J2|]. rewrite (ut_tens _ _ _ (jn_rest _ _ _ _ _ _ J2)) by (rewrite !in_app_iff; auto). rewrite fr_tens1 by (cbn [In]; rewrite !in_app_iff; auto).
    apply (ch_kind _ _ _ _ _ _ CB). rewrite EB. simpl; auto.
  - intros i Hi. cbn [List.length] in *. unfold fr_lf, fr_rt. destruct i as [|i].
    + cbn [nth opt Nat.ltb Nat.leb app]. exact L2.
    + cbn [nth]. rewrite T2 by (apply in_app_iff; left; apply nth_In; lia). rewrite <- ILB by lia. rewrite (ch_legs _ _ _ _ _ _ CB (S (S i))) by lia.
      rewrite LB, EP. cbn [nth]. reflexivity.
  - intros i Hi. cbn [List.length] in *. unfold fr_lf, fr_rt. apply K2; [apply fz_B, fz_rB; lia|]. apply (ch_link _ _ _ _ _ _ CB). lia.
  - intros l l' Hl Hl' LL. apply AL in Hl'. assert (HB' : In l osB) by (rewrite EP; simpl in *; auto). apply K2 in LL.
    + exact (ch_out _ _ _ _ _ _ CB l l' HB' Hl' LL).
    + apply fz_B. exact (os_all h tsB tsA e osB lfB rtB CB l HB').
Qed.
End Right.
End Fuse.
End Mp.
