(** The first half of doubleMerge: two neighbouring sites of each chain become one, and the two bonds between them become one. *)
From Coq Require Import List Arith Bool Lia String ZArith Permutation.
From Verif Require Import Base Sums NdModel NdProofs HeapModel FuncsModel FuncsProofs TensorModel TensorSpec MatrixProofs
  ContractModel NetSpec ShareProofs LinkProofs SumpairsProofs ContractProofs OuterProofs NetProofs MergeLinkSpec MergeLinkProofs GroupSpec GroupProofs NetSameProofs
  SvdModel SvdSpec SchmidtProofs MergeSvdProofs MpsModel MpsSpec MpsProofs MpsSwapProofs MpsMoveProofs MpsPreProofs MpsContractModel MpsContractSpec MpsOpenProofs MpsCommonProofs
  MpsContractProofs MpsSiteProofs.
Import ListNotations.
Local Open Scope list_scope.
Local Open Scope nat_scope.

Ltac sub := clear; let u := fresh "u" in intros u; rewrite !in_app_iff; cbn [In]; tauto.

Section Db.
Context {A : Type} {HA : SR A}.
Notation heap := (heap A).

Lemma others_sub (L R X X' : list lid) : NoDup L -> Permutation L (R ++ X') -> (forall z, In z X <-> In z X') -> Permutation (others L X) R.
Proof.
  intros ND P E. assert (ND2 : NoDup (R ++ X')) by (eapply Permutation_NoDup; [exact P|auto]).
  apply NoDup_Permutation; [now apply NoDup_filter|now apply NoDup_app_l in ND2|]. intros l. rewrite others_In. split.
  - intros [H1 H2]. apply (Permutation_in _ P) in H1. apply in_app_iff in H1. destruct H1 as [H1|H1]; auto. apply E in H1. contradiction.
  - intros H. split; [eapply Permutation_in; [symmetry; exact P|apply in_app_iff; auto]|]. intros H2. apply E in H2. exact (NoDup_app_disj _ _ l ND2 H H2).
Qed.
Lemma fst_pairs_nodup (h : heap) L1 L2 : NoDup L1 -> NoDup (map fst (pairs_between h L1 L2)).
Proof.
  induction L1 as [|l L1 IH]; intros ND; [constructor|]. apply NoDup_cons_iff in ND. destruct ND as [NI ND]. rewrite pairs_one, map_app.
  destruct (partner h l) as [l'|]; [|now apply IH]. destruct (inb l' L2); [|now apply IH]. cbn [map app fst]. constructor; [|now apply IH].
  intros H. apply in_map_iff in H. destruct H as ((a & b) & E & H). cbn [fst] in E. subst a. apply pairs_In in H. tauto.
Qed.
Lemma pairs_nodup' (h : heap) L1 L2 : NoDup L1 -> NoDup (pairs_between h L1 L2).
Proof. intros ND. apply (NoDup_map_inv fst). now apply fst_pairs_nodup. Qed.
Lemma shared_one_legs (h : heap) ta tb la lb : wf_pair h ta tb -> shared h ta tb = [(la, lb)] ->
  Permutation (legs_of h ta) (la :: restA h ta tb) /\ Permutation (legs_of h tb) (lb :: restB h ta tb).
Proof.
  intros WP SH. assert (I : In (la, lb) (shared h ta tb)) by (rewrite SH; simpl; auto). apply pairs_In in I. destruct I as (IA & IB & _).
  unfold restA, restB. rewrite SH. cbn [map fst snd]. pose proof (wp_nodup _ _ _ WP) as ND.
  assert (X : forall L x, NoDup L -> In x L -> Permutation L (x :: others L [x])).
  { intros L x NL IL. apply NoDup_Permutation; auto.
    - constructor; [|now apply NoDup_filter]. rewrite others_In. intros [_ H]. apply H. simpl; auto.
    - intros z. cbn [In]. rewrite others_In. cbn [In]. split; [intros H; destruct (Nat.eq_dec x z); [auto|right; intuition]|intros [->|[H _]]; auto]. }
  split; apply X; auto; [now apply NoDup_app_l in ND|now apply NoDup_app_r in ND].
Qed.

Lemma right_not_out (h : heap) ts os env lf rt : chain h ts os env lf rt -> forall i, S i < List.length ts -> ~ In (rt i) os.
Proof. intros C i Hi HI. apply (ch_out _ _ _ _ _ _ C (rt i) (lf (S i)) HI); [apply (ch_all _ _ _ _ Hi), (ch_in_l _ _ _ _ _ _ C _ Hi)|apply (ch_link _ _ _ _ _ _ C _ Hi)]. Qed.

(** two neighbours of one chain contracted *)
Lemma join_sites (h : heap) XA a1 a2 YA XO x1 x2 YO env lf rt : chain h (XA ++ [a1; a2] ++ YA) (XO ++ [x1; x2] ++ YO) env lf rt -> List.length XO = List.length XA ->
  exists h1 t, contractTwoTensors a1 a2 h = (h1, Ok t) /\ joined h a1 a2 ((XA ++ YA) ++ env) h1 t /\
   Permutation (legs_of h1 t) (opt (Nat.ltb 0 (List.length XA)) (lf (List.length XA)) ++ opt (Nat.ltb 0 (List.length YA)) (rt (List.length XA + 1)) ++ [x1; x2]).
Proof.
  intros C LX. set (p := List.length XA) in *. set (ts := XA ++ [a1; a2] ++ YA) in *. set (os := XO ++ [x1; x2] ++ YO) in *.
  assert (LN : List.length ts = p + 2 + List.length YA) by (unfold ts, p; rewrite !app_length; cbn [List.length]; lia).
  assert (Hp : p < List.length ts) by lia. assert (Hp' : S p < List.length ts) by lia.
  assert (N1 : nth p ts 0 = a1) by (unfold ts; rewrite app_nth2, Nat.sub_diag by (unfold p; lia); reflexivity).
  assert (N2 : nth (S p) ts 0 = a2) by (unfold ts; rewrite app_nth2 by (unfold p; lia); replace (S p - List.length XA) with 1 by (unfold p; lia); reflexivity).
  assert (O1 : nth p os 0 = x1) by (unfold os; rewrite app_nth2 by lia; rewrite LX, Nat.sub_diag; reflexivity).
  assert (O2 : nth (S p) os 0 = x2) by (unfold os; rewrite app_nth2 by lia; replace (S p - List.length XO) with 1 by lia; reflexivity).
  pose proof (ch_legs _ _ _ _ _ _ C p Hp) as L1. rewrite N1, O1 in L1. pose proof (ch_legs _ _ _ _ _ _ C (S p) Hp') as L2. rewrite N2, O2 in L2.
  destruct (Nat.ltb_spec (S p) (List.length ts)); [|lia]. cbn [opt] in L1. change (Nat.ltb 0 (S p)) with true in L2. cbn [opt] in L2.
  assert (WO : wf_open h (a1 :: a2 :: (XA ++ YA) ++ env)) by (eapply wf_open_perm; [apply (perm_front XA YA env a1 a2)|]; exact (ch_wf _ _ _ _ _ _ C)).
  assert (INA : forall t, In t [a1; a2] -> In t ts) by (intros t Ht; unfold ts; rewrite !in_app_iff; auto).
  destruct (join_one h a1 a2 ((XA ++ YA) ++ env) (rt p) (lf (S p)) (opt (Nat.ltb 0 p) (lf p) ++ [x1]) (opt (Nat.ltb 0 (List.length YA)) (rt (p + 1)) ++ [x2])) as (h1 & t & E & J & P); auto.
  - apply (ch_kind _ _ _ _ _ _ C), INA. simpl; auto.
  - apply (ch_kind _ _ _ _ _ _ C), INA. simpl; auto.
  - rewrite L1. cbn [app]. now rewrite <- Permutation_middle.
  - rewrite L2. cbn [app]. replace (p + 1) with (S p) by lia. destruct (Nat.ltb_spec (S (S p)) (List.length ts)), (Nat.ltb_spec 0 (List.length YA)); try lia; reflexivity.
  - now apply (ch_link _ _ _ _ _ _ C).
  - intros z w Hz LK Hw. apply in_app_iff in Hz. assert (IW : In w (all_legs h ts)) by (apply (ch_all _ _ (S p) _ Hp'); now rewrite N2). destruct Hz as [Hz|[<-|[]]].
    + destruct (Nat.ltb_spec 0 p) as [G|G]; [|destruct Hz]. destruct Hz as [<-|[]].
      assert (exists p', p = S p') as (p' & EP) by (exists (p - 1); lia). rewrite EP in LK.
      assert (G1 : S p' < List.length ts) by lia. pose proof (ch_link' _ _ _ _ _ _ C p' G1) as LK'. rewrite (linked_fun _ _ _ _ LK LK') in Hw.
      assert (G2 : p' < List.length ts) by lia. pose proof (ch_in_r _ _ _ _ _ _ C p' G1) as IR. rewrite <- N2 in Hw. pose proof (ch_site _ _ _ _ _ _ C p' (S p) _ G2 Hp' IR Hw). lia.
    + apply (ch_out _ _ _ _ _ _ C x1 w); auto. unfold os. rewrite !in_app_iff. simpl. auto.
  - exists h1, t. split; auto. split; auto. rewrite P. rewrite <- !app_assoc. apply Permutation_app_head. cbn [app]. rewrite Permutation_middle. reflexivity.
Qed.

Section Stage1.
Variables (h : heap) (XA YA XB YB e : list tid) (a1 a2 b1 b2 : tid) (XO YO PO QO : list lid) (x1 x2 y1 y2 : lid) (lfA rtA lfB rtB : nat -> lid).
Notation tsA := (XA ++ [a1; a2] ++ YA).
Notation tsB := (XB ++ [b1; b2] ++ YB).
Notation osA := (XO ++ [x1; x2] ++ YO).
Notation osB := (PO ++ [y1; y2] ++ QO).
Hypothesis CA : chain h tsA osA (tsB ++ e) lfA rtA.
Hypothesis CB : chain h tsB osB (tsA ++ e) lfB rtB.
Hypothesis CL : closed h (tsA ++ tsB ++ e).
Hypothesis LX : List.length XO = List.length XA.
Hypothesis LP : List.length PO = List.length XB.
Hypothesis LK : (linked h x1 y1 /\ linked h x2 y2) \/ (linked h x1 y2 /\ linked h x2 y1).
Notation p := (List.length XA).
Notation r := (List.length XB).
Notation optA := (opt (Nat.ltb 0 p) (lfA p) ++ opt (Nat.ltb 0 (List.length YA)) (rtA (p + 1))).
Notation optB := (opt (Nat.ltb 0 r) (lfB r) ++ opt (Nat.ltb 0 (List.length YB)) (rtB (r + 1))).
Hypothesis POS : forall l, In l (optA ++ optB) -> 0 < dim_of h l.

Definition merged_once (h3 : heap) (ta tb : tid) (la lb : lid) : Prop :=
  chain h3 (XA ++ [ta] ++ YA) (XO ++ [la] ++ YO) ((XB ++ [tb] ++ YB) ++ e) (sh_l p 1 lfA) (sh_r p 1 rtA) /\
  chain h3 (XB ++ [tb] ++ YB) (PO ++ [lb] ++ QO) ((XA ++ [ta] ++ YA) ++ e) (sh_l r 1 lfB) (sh_r r 1 rtB) /\
  linked h3 la lb /\ untouched h e h3 /\ kept_legs h h3 ((XO ++ YO) ++ (PO ++ QO)) /\
  closed h3 ((XA ++ [ta] ++ YA) ++ (XB ++ [tb] ++ YB) ++ e) /\
  same_free h (tsA ++ tsB ++ e) h3 ((XA ++ [ta] ++ YA) ++ (XB ++ [tb] ++ YB) ++ e) /\
  same_value h (tsA ++ tsB ++ e) h3 ((XA ++ [ta] ++ YA) ++ (XB ++ [tb] ++ YB) ++ e) /\
  dim_of h3 la = dim_of h x1 * dim_of h x2 /\ dim_of h3 lb = dim_of h3 la /\
  forall q q', (forall l, In l ((XO ++ YO) ++ (PO ++ QO)) -> q l <= q' l) -> q x1 * q x2 <= q' la -> q y1 * q y2 <= q' lb ->
    (slim h q osA rtA -> slim h3 q' (XO ++ [la] ++ YO) (sh_r p 1 rtA)) /\ (slim h q osB rtB -> slim h3 q' (PO ++ [lb] ++ QO) (sh_r r 1 rtB)).

Lemma st_perm (X Y Z : list tid) : Permutation (X ++ Y ++ Z) (Y ++ X ++ Z).
Proof. rewrite !app_assoc. apply Permutation_app_tail, Permutation_app_comm. Qed.
Lemma st_front (X Y Z : list tid) t : Permutation ((X ++ [t] ++ Y) ++ Z) (t :: (X ++ Y) ++ Z).
Proof. rewrite <- !app_assoc. cbn [app]. symmetry. rewrite app_comm_cons. change (t :: X ++ Y ++ Z) with ((t :: X) ++ Y ++ Z). cbn [app]. apply Permutation_middle. Qed.
Lemma st_front2 t u (X Y P Q Z : list tid) : Permutation ((X ++ [t] ++ Y) ++ (P ++ [u] ++ Q) ++ Z) (t :: u :: (X ++ Y) ++ (P ++ Q) ++ Z).
Proof.
  etransitivity; [apply st_front|]. apply perm_skip. etransitivity; [apply Permutation_app_head, st_front|]. symmetry. apply Permutation_middle.
Qed.

Lemma stage1 : exists h1 h2 h3 ta tb la lb, contractTwoTensors a1 a2 h = (h1, Ok ta) /\ contractTwoTensors b1 b2 h1 = (h2, Ok tb) /\
  mergeLink ta tb (Some (NStr "o")) h2 = (h3, Ok tt) /\ t_like (tens h2 ta) = t_like (tens h2 tb) /\ merged_once h3 ta tb la lb.
Proof.
  destruct (join_sites h XA a1 a2 YA XO x1 x2 YO (tsB ++ e) lfA rtA CA LX) as (h1 & ta & E1 & J1 & L1).
  assert (W1 : wf_open h1 ((XA ++ [ta] ++ YA) ++ tsB ++ e)) by (eapply wf_open_perm; [symmetry; apply st_front|apply (jn_wf _ _ _ _ _ _ J1)]).
  assert (U1 : untouched h ((XA ++ YA) ++ tsB ++ e) h1) by apply J1.
  assert (CB1 : chain h1 tsB osB ((XA ++ [ta] ++ YA) ++ e) lfB rtB).
  { apply (chain_frame h h1 tsB osB (tsA ++ e)); auto; [eapply ut_incl; [|exact U1]; sub|]. eapply wf_open_perm; [apply st_perm|exact W1]. }
  destruct (join_sites h1 XB b1 b2 YB PO y1 y2 QO _ lfB rtB CB1 LP) as (h2 & tb & E2 & J2 & L2).
  assert (U2 : untouched h1 ((XB ++ YB) ++ (XA ++ [ta] ++ YA) ++ e) h2) by apply J2.
  set (rest := (XA ++ YA) ++ (XB ++ YB) ++ e).
  assert (PM2 : Permutation (tb :: (XB ++ YB) ++ (XA ++ [ta] ++ YA) ++ e) (ta :: tb :: rest)).
  { unfold rest. etransitivity; [|apply perm_swap]. apply perm_skip. etransitivity; [apply Permutation_app_head, st_front|]. etransitivity; [symmetry; apply Permutation_middle|]. apply perm_skip. apply st_perm. }
  assert (W2 : wf_open h2 (ta :: tb :: rest)) by (eapply wf_open_perm; [exact PM2|apply (jn_wf _ _ _ _ _ _ J2)]).
  set (N := tsA ++ tsB ++ e) in *.
  assert (W0 : wf_open h N) by apply (ch_wf _ _ _ _ _ _ CA).
  assert (P0 : Permutation N (a1 :: a2 :: (XA ++ YA) ++ tsB ++ e)) by (unfold N; apply perm_front).
  assert (W0' : wf_open h (a1 :: a2 :: (XA ++ YA) ++ tsB ++ e)) by (eapply wf_open_perm; eauto).
  assert (P1 : Permutation (ta :: (XA ++ YA) ++ tsB ++ e) (b1 :: b2 :: (XB ++ YB) ++ (XA ++ [ta] ++ YA) ++ e)).
  { etransitivity; [symmetry; apply st_front|]. etransitivity; [apply st_perm|]. apply (perm_front XB YB ((XA ++ [ta] ++ YA) ++ e) b1 b2). }
  assert (W1' : wf_open h1 (b1 :: b2 :: (XB ++ YB) ++ (XA ++ [ta] ++ YA) ++ e)) by (eapply wf_open_perm; [exact P1|apply (jn_wf _ _ _ _ _ _ J1)]).
  assert (SF2 : same_free h N h2 (ta :: tb :: rest)).
  { eapply same_free_trans; [eapply same_free_perm; [symmetry; exact P0|exact P1|apply W0'|apply (jn_wf _ _ _ _ _ _ J1)|exact (jn_free _ _ _ _ _ _ J1)]|].
    eapply same_free_perm; [reflexivity|exact PM2|apply W1'|apply (jn_wf _ _ _ _ _ _ J2)|exact (jn_free _ _ _ _ _ _ J2)]. }
  assert (SV2 : same_value h N h2 (ta :: tb :: rest)).
  { eapply same_value_trans; [eapply same_free_perm; [symmetry; exact P0|exact P1|apply W0'|apply (jn_wf _ _ _ _ _ _ J1)|exact (jn_free _ _ _ _ _ _ J1)]|
      eapply same_value_perm; [symmetry; exact P0|exact P1|apply W0'|apply (jn_wf _ _ _ _ _ _ J1)|exact (jn_value _ _ _ _ _ _ J1)]|].
    eapply same_value_perm; [reflexivity|exact PM2|apply W1'|apply (jn_wf _ _ _ _ _ _ J2)|exact (jn_value _ _ _ _ _ _ J2)]. }
  (* legs of the first heap *)
  assert (K2 : forall l, l < nleg h -> dim_of h2 l = dim_of h l /\ l_name (legs h2 l) = l_name (legs h l) /\ l_bond (legs h2 l) = l_bond (legs h l) /\ forall l', linked h2 l l' <-> linked h l l').
  { intros l Hl. destruct (jn_leg _ _ _ _ _ _ J1 l Hl) as (B1 & D1 & N1). assert (Hl1 : l < nleg h1) by now rewrite (jn_nleg _ _ _ _ _ _ J1).
    destruct (jn_leg _ _ _ _ _ _ J2 l Hl1) as (B2 & D2 & N2). rewrite D2, N2, B2. split; [exact D1|]. split; [exact N1|]. split; [exact B1|]. intros l'. split; intros H.
    - apply (jn_links _ _ _ _ _ _ J1 l l' Hl). now apply (jn_links _ _ _ _ _ _ J2 l l' Hl1).
    - apply (jn_links _ _ _ _ _ _ J2 l l' Hl1). now apply (jn_links _ _ _ _ _ _ J1 l l' Hl). }
  assert (LT : forall l, In l (all_legs h N) -> l < nleg h) by (intros l; apply (open_lt _ _ _ W0)).
  assert (IA : forall l, In l (all_legs h tsA) -> In l (all_legs h N)) by (intros l; apply all_incl; intros u Hu; apply in_app_iff; auto).
  assert (IB : forall l, In l (all_legs h tsB) -> In l (all_legs h N)) by (intros l; apply all_incl; intros u Hu; apply in_app_iff; right; apply in_app_iff; auto).
  assert (TA2 : tens h2 ta = tens h1 ta) by (apply (ut_tens _ _ _ U2); rewrite !in_app_iff; simpl; auto 10).
  assert (LA2 : Permutation (legs_of h2 ta) (optA ++ [x1; x2])) by (unfold legs_of; rewrite TA2; rewrite app_assoc in L1; exact L1).
  assert (LB2 : Permutation (legs_of h2 tb) (optB ++ [y1; y2])) by (rewrite app_assoc in L2; exact L2).
  assert (WP := open_pair _ _ _ _ W2).
  assert (NDA : NoDup (legs_of h2 ta)) by (apply WP). assert (NDB : NoDup (legs_of h2 tb)) by (apply WP).
  assert (LNA : List.length tsA = p + 2 + List.length YA) by (rewrite !app_length; cbn [List.length]; lia).
  assert (LNB : List.length tsB = r + 2 + List.length YB) by (rewrite !app_length; cbn [List.length]; lia).
  assert (OPA : forall l, In l optA -> In l (all_legs h tsA) /\ exists l', linked h l l' /\ In l' (all_legs h tsA)).
  { intros l Hl. apply in_app_iff in Hl. destruct Hl as [Hl|Hl].
    - destruct (Nat.ltb_spec 0 p) as [G|G]; [|destruct Hl]. destruct Hl as [<-|[]]. assert (exists p', p = S p') as (p' & EP) by (exists (p - 1); lia). rewrite EP.
      assert (G1 : S p' < List.length tsA) by lia. assert (G2 : p' < List.length tsA) by lia. split; [apply (ch_all _ _ _ _ G1), (ch_in_l _ _ _ _ _ _ CA _ G1)|].
      exists (rtA p'). split; [apply (ch_link' _ _ _ _ _ _ CA _ G1)|]. apply (ch_all _ _ _ _ G2), (ch_in_r _ _ _ _ _ _ CA _ G1).
    - destruct (Nat.ltb_spec 0 (List.length YA)) as [G|G]; [|destruct Hl]. destruct Hl as [<-|[]].
      assert (G1 : S (p + 1) < List.length tsA) by lia. assert (G2 : p + 1 < List.length tsA) by lia. split; [apply (ch_all _ _ _ _ G2), (ch_in_r _ _ _ _ _ _ CA _ G1)|].
      exists (lfA (S (p + 1))). split; [apply (ch_link _ _ _ _ _ _ CA _ G1)|]. apply (ch_all _ _ _ _ G1), (ch_in_l _ _ _ _ _ _ CA _ G1). }
  assert (OPB : forall l, In l optB -> In l (all_legs h tsB) /\ exists l', linked h l l' /\ In l' (all_legs h tsB)).
  { intros l Hl. apply in_app_iff in Hl. destruct Hl as [Hl|Hl].
    - destruct (Nat.ltb_spec 0 r) as [G|G]; [|destruct Hl]. destruct Hl as [<-|[]]. assert (exists p', r = S p') as (p' & EP) by (exists (r - 1); lia). rewrite EP.
      assert (G1 : S p' < List.length tsB) by lia. assert (G2 : p' < List.length tsB) by lia. split; [apply (ch_all _ _ _ _ G1), (ch_in_l _ _ _ _ _ _ CB _ G1)|].
      exists (rtB p'). split; [apply (ch_link' _ _ _ _ _ _ CB _ G1)|]. apply (ch_all _ _ _ _ G2), (ch_in_r _ _ _ _ _ _ CB _ G1).
    - destruct (Nat.ltb_spec 0 (List.length YB)) as [G|G]; [|destruct Hl]. destruct Hl as [<-|[]].
      assert (G1 : S (r + 1) < List.length tsB) by lia. assert (G2 : r + 1 < List.length tsB) by lia. split; [apply (ch_all _ _ _ _ G2), (ch_in_r _ _ _ _ _ _ CB _ G1)|].
      exists (lfB (S (r + 1))). split; [apply (ch_link _ _ _ _ _ _ CB _ G1)|]. apply (ch_all _ _ _ _ G1), (ch_in_l _ _ _ _ _ _ CB _ G1). }
  assert (DJ : forall l, In l (all_legs h tsA) -> In l (all_legs h tsB) -> False) by exact (two_disj h tsA tsB e osA lfA rtA CA).
  assert (XIN : forall l, In l [x1; x2] -> In l (all_legs h tsA)) by (intros l Hl; apply (os_all h tsA tsB e osA lfA rtA CA); rewrite !in_app_iff; auto).
  assert (YIN : forall l, In l [y1; y2] -> In l (all_legs h tsB)) by (intros l Hl; apply (os_all h tsB tsA e osB lfB rtB CB); rewrite !in_app_iff; auto).
  assert (X12 : x1 <> x2 /\ y1 <> y2).
  { assert (NX : NoDup (optA ++ [x1; x2])) by (eapply Permutation_NoDup; eauto). assert (NY : NoDup (optB ++ [y1; y2])) by (eapply Permutation_NoDup; eauto).
    apply NoDup_app_r in NX. apply NoDup_app_r in NY. apply NoDup_cons_iff in NX. apply NoDup_cons_iff in NY. simpl in NX, NY. intuition. }
  destruct X12 as [X12 Y12].
  assert (exists z1 z2, linked h x1 z1 /\ linked h x2 z2 /\ ((z1 = y1 /\ z2 = y2) \/ (z1 = y2 /\ z2 = y1))) as (z1 & z2 & K1 & K3 & ZZ) by (destruct LK as [[? ?]|[? ?]]; eauto 10).
  assert (ZIN : forall z, In z [z1; z2] <-> In z [y1; y2]) by (intros z; destruct ZZ as [[-> ->]|[-> ->]]; simpl; tauto).
  assert (SH2 : Permutation (shared h2 ta tb) [(x1, z1); (x2, z2)]).
  { apply NoDup_Permutation; [apply pairs_nodup'; auto|constructor; [simpl; intros [X|[]]; injection X; intros; congruence|constructor; [intros []|constructor]]|].
    intros (l, l'). unfold shared. rewrite pairs_In. split.
    - intros (I1 & I2 & K). apply (Permutation_in _ LA2) in I1. apply in_app_iff in I1. destruct I1 as [I1|I1].
      + exfalso. destruct (OPA l I1) as (Q1 & l2 & Q2 & Q3). apply (K2 l) in K; [|now apply LT, IA]. rewrite (linked_fun _ _ _ _ K Q2) in I2.
        apply (Permutation_in _ LB2) in I2. apply in_app_iff in I2. apply (DJ l2 Q3). destruct I2 as [I2|I2]; [now apply OPB|now apply YIN].
      + assert (HL : l < nleg h) by now apply LT, IA, XIN. apply (K2 l HL) in K. destruct I1 as [<-|[<-|[]]]; [rewrite (linked_fun _ _ _ _ K K1)|rewrite (linked_fun _ _ _ _ K K3)]; simpl; auto.
    - assert (HB : forall z, In z [z1; z2] -> In z (legs_of h2 tb)).
      { intros z Hz. eapply Permutation_in; [symmetry; exact LB2|]. apply in_app_iff. right. now apply ZIN. }
      assert (HAx : forall z, In z [x1; x2] -> In z (legs_of h2 ta)) by (intros z Hz; eapply Permutation_in; [symmetry; exact LA2|]; apply in_app_iff; auto).
      intros [X|[X|[]]]; injection X as <- <-; (split; [apply HAx; simpl; auto|split; [apply HB; simpl; auto|]]); apply K2; auto; apply LT, IA, XIN; simpl; auto. }
  assert (RA2 : Permutation (restA h2 ta tb) optA).
  { unfold restA. apply (others_sub _ _ _ [x1; x2] NDA LA2). intros z. split; intros Hz; (eapply Permutation_in; [|exact Hz]); [|symmetry]; apply (Permutation_map fst SH2). }
  assert (RB2 : Permutation (restB h2 ta tb) optB).
  { unfold restB. apply (others_sub _ _ _ [y1; y2] NDB LB2). intros z. rewrite <- (ZIN z). split; intros Hz; (eapply Permutation_in; [|exact Hz]); [|symmetry]; apply (Permutation_map snd SH2). }
  assert (FA2 : t_diag (tens h2 ta) = false /\ t_like (tens h2 ta) = false) by (rewrite TA2; apply J1).
  assert (FB2 : t_diag (tens h2 tb) = false /\ t_like (tens h2 tb) = false) by apply J2.
  assert (CL2 : closed h2 (ta :: tb :: rest)).
  { apply (closed_step h h2 _ _ SF2); auto. intros l l' Hl. apply K2. apply LT, free_all, Hl. }
  assert (LS2 : List.length (shared h2 ta tb) = 2) by (rewrite (Permutation_length SH2); reflexivity).
  destruct (linked_once_ok h2 ta tb rest (Some (NStr "o")) (NStr "o") (NStr "o")) as (h3 & E3 & LO).
  { now apply closed_list. }
  { intros _. split; [tauto|]. split; [tauto|]. split; intros _ l Hl.
    - apply (Permutation_in _ RA2) in Hl. destruct (K2 l) as (-> & _); [now apply LT, IA, OPA|]. apply POS, in_app_iff; auto.
    - apply (Permutation_in _ RB2) in Hl. destruct (K2 l) as (-> & _); [now apply LT, IB, OPB|]. apply POS, in_app_iff; auto. }
  { apply mn_many; [lia|apply bn_one]. }
  destruct (lo_one _ _ _ _ _ _ _ LO) as (la & lb & SH3 & NA & NB & DA3 & DB3).
  exists h1, h2, h3, ta, tb, la, lb. split; auto. split; auto. split; auto. split; [destruct FA2 as [_ ->]; destruct FB2 as [_ ->]; auto|].
  assert (W3 := lo_wf _ _ _ _ _ _ _ LO). assert (WP3 := open_pair _ _ _ _ W3).
  destruct (shared_one_legs h3 ta tb la lb WP3 SH3) as [LA3 LB3]. destruct (lo_rest _ _ _ _ _ _ _ LO) as [RA3 RB3]. rewrite RA3, RA2 in LA3. rewrite RB3, RB2 in LB3.
  assert (U3 : untouched h2 rest h3).
  { constructor; [apply (lo_tens _ _ _ _ _ _ _ LO)|apply (lo_restlegs _ _ _ _ _ _ _ LO)|]. intros l l' Hl. apply (lo_links _ _ _ _ _ _ _ LO). rewrite !in_app_iff; auto. }
  assert (UR : untouched h rest h3).
  { eapply ut_trans; [|exact U3]. eapply ut_trans; [eapply ut_incl; [|exact U1]|eapply ut_incl; [|exact U2]]; unfold rest; sub. }
  assert (KO : forall l, In l (optA ++ optB) -> dim_of h3 l = dim_of h l /\ l_name (legs h3 l) = l_name (legs h l) /\ forall l', linked h3 l l' <-> linked h l l').
  { intros l Hl. assert (Hr : In l (restA h2 ta tb ++ restB h2 ta tb)) by (eapply Permutation_in; [symmetry; apply Permutation_app; [exact RA2|exact RB2]|exact Hl]).
    assert (HL : l < nleg h) by (apply LT; apply in_app_iff in Hl; destruct Hl as [Hl|Hl]; [apply IA, OPA, Hl|apply IB, OPB, Hl]).
    destruct (K2 l HL) as (D & NM & _ & K). unfold dim_of in *. rewrite (lo_legs _ _ _ _ _ _ _ LO l Hr). split; auto. split; auto. intros l'.
    rewrite (lo_links _ _ _ _ _ _ _ LO) by (rewrite app_assoc; apply in_app_iff; left; exact Hr). apply K. }
  assert (LK3 : linked h3 la lb) by (assert (I : In (la, lb) (shared h3 ta tb)) by (rewrite SH3; simpl; auto); apply pairs_In in I; tauto).
  assert (ILA : In la (legs_of h3 ta)) by (eapply Permutation_in; [symmetry; exact LA3|simpl; auto]).
  assert (ILB : In lb (legs_of h3 tb)) by (eapply Permutation_in; [symmetry; exact LB3|simpl; auto]).
  assert (LK3' : linked h3 lb la) by (eapply (link_back h3 _ la lb (wp_links _ _ _ WP3)); auto; apply in_app_iff; auto).
  assert (FL3 : forall t, t_diag (tens h3 t) = t_diag (tens h2 t) /\ t_like (tens h3 t) = t_like (tens h2 t)) by apply (lo_flags _ _ _ _ _ _ _ LO).
  assert (WN3 : wf_open h3 ((XA ++ [ta] ++ YA) ++ (XB ++ [tb] ++ YB) ++ e)) by (eapply wf_open_perm; [symmetry; apply st_front2|exact W3]).
  assert (WN3' : wf_open h3 ((XB ++ [tb] ++ YB) ++ (XA ++ [ta] ++ YA) ++ e)) by (eapply wf_open_perm; [apply st_perm|exact WN3]).
  assert (NN3 := wo_net _ _ WN3).
  assert (NDN : NoDup (XA ++ [ta] ++ YA) /\ forall u, In u (XA ++ [ta] ++ YA) -> In u (XB ++ [tb] ++ YB) -> False).
  { pose proof (wn_ids _ _ NN3) as ND. split; [now apply NoDup_app_l in ND|]. intros u Hu Hv. apply (NoDup_app_disj _ _ u ND Hu). apply in_app_iff; auto. }
  assert (TAin : In ta (XA ++ [ta] ++ YA)) by (rewrite !in_app_iff; simpl; auto 10). assert (TBin : In tb (XB ++ [tb] ++ YB)) by (rewrite !in_app_iff; simpl; auto 10).
  assert (SEP : forall u l, In u ((XA ++ [ta] ++ YA) ++ (XB ++ [tb] ++ YB) ++ e) -> forall v, In v ((XA ++ [ta] ++ YA) ++ (XB ++ [tb] ++ YB) ++ e) -> In l (legs_of h3 u) -> In l (legs_of h3 v) -> u = v).
  { intros u l Hu v Hv. apply (one_owner h3 _ u v l (wn_nodup _ _ NN3)); auto. }
  assert (CA3 : chain h3 (XA ++ [ta] ++ YA) (XO ++ [la] ++ YO) ((XB ++ [tb] ++ YB) ++ e) (sh_l p 1 lfA) (sh_r p 1 rtA)).
  { apply (build_chain h h3 XA [a1; a2] YA XO [x1; x2] YO (tsB ++ e) _ lfA rtA 1 ta la CA eq_refl eq_refl LX); auto.
    - eapply ut_incl; [|exact UR]. unfold rest; sub.
    - destruct (FL3 ta) as [-> ->]. exact FA2.
    - rewrite LA3. rewrite app_assoc. apply Permutation_cons_append.
    - intros l Hl. apply KO, in_app_iff; auto.
    - intros l' Hl' K. rewrite (linked_fun _ _ _ _ K LK3) in Hl'. apply in_flat_map in Hl'. destruct Hl' as (u & Hu & Hl').
      assert (u = tb) by (apply (SEP u lb); auto; [apply in_app_iff; auto|apply in_app_iff; right; apply in_app_iff; auto]). subst u. exact (proj2 NDN tb Hu TBin). }
  assert (CB3 : chain h3 (XB ++ [tb] ++ YB) (PO ++ [lb] ++ QO) ((XA ++ [ta] ++ YA) ++ e) (sh_l r 1 lfB) (sh_r r 1 rtB)).
  { apply (build_chain h h3 XB [b1; b2] YB PO [y1; y2] QO (tsA ++ e) _ lfB rtB 1 tb lb CB eq_refl eq_refl LP); auto.
    - eapply ut_incl; [|exact UR]. unfold rest; sub.
    - destruct (FL3 tb) as [-> ->]. exact FB2.
    - rewrite LB3. rewrite app_assoc. apply Permutation_cons_append.
    - intros l Hl. apply KO, in_app_iff; auto.
    - intros l' Hl' K. rewrite (linked_fun _ _ _ _ K LK3') in Hl'. apply in_flat_map in Hl'. destruct Hl' as (u & Hu & Hl').
      assert (u = ta) by (apply (SEP u la); auto; [apply in_app_iff; right; apply in_app_iff; auto|apply in_app_iff; auto]). subst u. exact (proj2 NDN ta TAin Hu). }
  assert (FR : forall l, In l (free_legs h2 (ta :: tb :: rest)) -> In l (restA h2 ta tb ++ restB h2 ta tb ++ all_legs h2 rest)).
  { intros l Hl. pose proof (free_all _ _ _ Hl) as Ha. unfold all_legs in Ha. cbn [flat_map] in Ha. rewrite !in_app_iff in Ha.
    assert (NI : forall l', ~ inner_link h2 (ta :: tb :: rest) l l') by (intros l' IL; exact (inner_not_free _ _ _ _ (wo_net _ _ W2) IL Hl)).
    assert (NSH : ~ In l (map fst (shared h2 ta tb)) /\ ~ In l (map snd (shared h2 ta tb))).
    { split; intros I; apply in_map_iff in I; destruct I as ((u & v) & E & I); cbn [fst snd] in E; subst; apply pairs_In in I; destruct I as (I1 & I2 & K).
      - apply (NI v). exists ta, tb. simpl. repeat (split; auto). apply WP.
      - apply (NI u). exists tb, ta. simpl. repeat (split; auto). intros EQ. apply (wp_ne _ _ _ WP). now rewrite EQ. eapply (link_back h2 _ u l (wp_links _ _ _ WP)); auto; apply in_app_iff; auto. }
    rewrite !in_app_iff. unfold restA, restB. rewrite !others_In. change (t_legs (tens h2 ta)) with (legs_of h2 ta) in Ha. change (t_legs (tens h2 tb)) with (legs_of h2 tb) in Ha. unfold all_legs. tauto. }
  assert (SF3 : same_free h2 (ta :: tb :: rest) h3 (ta :: tb :: rest)) by (split; [apply (lo_free _ _ _ _ _ _ _ LO)|apply (lo_dims _ _ _ _ _ _ _ LO)]).
  assert (SV3 : same_value h2 (ta :: tb :: rest) h3 (ta :: tb :: rest)) by exact (lo_value _ _ _ _ _ _ _ LO).
  assert (CL3 : closed h3 (ta :: tb :: rest)).
  { apply (closed_step h2 h3 _ _ SF3); auto. intros l l' Hl. apply (lo_links _ _ _ _ _ _ _ LO). now apply FR. }
  assert (PE : Permutation (ta :: tb :: rest) ((XA ++ [ta] ++ YA) ++ (XB ++ [tb] ++ YB) ++ e)) by (symmetry; apply st_front2).
  assert (INR : forall l, In l ((XO ++ YO) ++ (PO ++ QO)) -> In l (all_legs h rest)).
  { assert (GEN : forall X m1 m2 Y Xo n1 n2 Yo env lf rt, chain h (X ++ [m1; m2] ++ Y) (Xo ++ [n1; n2] ++ Yo) env lf rt -> List.length Xo = List.length X -> forall l, In l (Xo ++ Yo) -> In l (all_legs h (X ++ Y))).
    { intros X m1 m2 Y Xo n1 n2 Yo env lf rt CC LL l Hl. pose proof (ch_len _ _ _ _ _ _ CC) as LC. rewrite !app_length in LC. cbn [List.length] in LC.
      apply in_app_iff in Hl. destruct Hl as [Hl|Hl]; apply (In_nth _ _ 0) in Hl; destruct Hl as (k & Hk & <-).
      - rewrite LL in Hk. destruct (bd_lo X [m1; m2] Y Xo [n1; n2] Yo 1 0 0 eq_refl eq_refl LL k Hk) as (_ & _ & I). apply in_flat_map. exists (nth k (X ++ [m1; m2] ++ Y) 0). split; auto.
        replace (nth k Xo 0) with (nth k (Xo ++ [n1; n2] ++ Yo) 0) by (rewrite app_nth1 by lia; auto). apply (ch_in_o _ _ _ _ _ _ CC). rewrite !app_length. lia.
      - assert (Hk' : k < List.length Y) by lia. pose proof (bd_hi h X [m1; m2] Y Xo [n1; n2] Yo env lf rt 1 0 0 CC eq_refl eq_refl LL k Hk') as (_ & E & I).
        apply in_flat_map. exists (nth (List.length X + 2 + k) (X ++ [m1; m2] ++ Y) 0). split; auto.
        replace (nth k Yo 0) with (nth (List.length X + 2 + k) (Xo ++ [n1; n2] ++ Yo) 0).
        + apply (ch_in_o _ _ _ _ _ _ CC). rewrite !app_length. cbn [List.length]. lia.
        + rewrite (app_nth2 Xo) by lia. rewrite LL. replace (List.length X + 2 + k - List.length X) with (2 + k) by lia. reflexivity. }
    intros l Hl. apply in_app_iff in Hl. destruct Hl as [Hl|Hl].
    - eapply all_incl; [|exact (GEN _ _ _ _ _ _ _ _ _ _ _ CA LX l Hl)]. unfold rest; sub.
    - eapply all_incl; [|exact (GEN _ _ _ _ _ _ _ _ _ _ _ CB LP l Hl)]. unfold rest; sub. }
  split; [exact CA3|]. split; [exact CB3|]. split; [exact LK3|].
  split; [eapply ut_incl; [|exact UR]; unfold rest; sub|].
  split; [eapply kept_incl; [exact INR|]; now apply ut_kept|].
  split; [eapply closed_perm; [apply W3|exact PE|exact CL3]|].
  split; [eapply same_free_trans; [exact SF2|]; eapply same_free_perm; [reflexivity|exact PE|apply W2|apply W3|exact SF3]|].
  split; [eapply same_value_trans; [exact SF2|exact SV2|]; eapply same_value_perm; [reflexivity|exact PE|apply W2|apply W3|exact SV3]|].
  split.
  { rewrite DA3. rewrite (prodn_perm' _ _ (Permutation_map (fun q => dim_of h2 (fst q)) SH2)). cbn [map fst]. unfold prodn. cbn [fold_right].
    destruct (K2 x1) as (-> & _); [apply LT, IA, XIN; simpl; auto|]. destruct (K2 x2) as (-> & _); [apply LT, IA, XIN; simpl; auto|]. lia. }
  split; [exact DB3|].
  intros q q' Q QA QB.
  assert (DK : forall X Y t x R, Permutation (legs_of h3 t) (x :: R) -> (forall l, In l R -> dim_of h3 l = dim_of h l) -> untouched h (X ++ Y) h3 ->
    forall l, l <> x -> In l (all_legs h3 (X ++ [t] ++ Y)) -> dim_of h3 l = dim_of h l).
  { intros X Y t x R PR DR UX l NX Hl. apply in_flat_map in Hl. destruct Hl as (u & Hu & Hl). rewrite !in_app_iff in Hu.
    assert (D : u = t \/ In u (X ++ Y)) by (rewrite in_app_iff; destruct Hu as [Hu|[[->|[]]|Hu]]; auto). destruct D as [->|D].
    - apply DR. apply (Permutation_in _ PR) in Hl. destruct Hl as [->|Hl]; [now elim NX|auto].
    - unfold legs_of in Hl. rewrite (ut_tens _ _ _ UX u D) in Hl. unfold dim_of. rewrite (ut_legs _ _ _ UX); auto. apply in_flat_map. eauto. }
  assert (UA3 : untouched h (XA ++ YA) h3) by (eapply ut_incl; [|exact UR]; unfold rest; sub).
  assert (UB3 : untouched h (XB ++ YB) h3) by (eapply ut_incl; [|exact UR]; unfold rest; sub).
  split.
  - apply (bd_slim h h3 XA [a1; a2] YA XO [x1; x2] YO (tsB ++ e) lfA rtA 1 ta la CA eq_refl eq_refl LX UA3); auto.
    + destruct (FL3 ta) as [-> ->]. exact FA2.
    + rewrite LA3. rewrite app_assoc. apply Permutation_cons_append.
    + intros l Hl. apply KO, in_app_iff; auto.
    + intros l _ N1 H1. apply (DK XA YA ta la optA); auto. intros l0 H0. apply KO, in_app_iff; auto.
    + intros l Hl. apply Q, in_app_iff; auto.
    + unfold prodn. cbn [map fold_right]. lia.
    + intros i Hi EQ. apply (right_not_out _ _ _ _ _ _ CA3 i Hi). rewrite EQ, !in_app_iff. simpl. auto 10.
  - apply (bd_slim h h3 XB [b1; b2] YB PO [y1; y2] QO (tsA ++ e) lfB rtB 1 tb lb CB eq_refl eq_refl LP UB3); auto.
    + destruct (FL3 tb) as [-> ->]. exact FB2.
    + rewrite LB3. rewrite app_assoc. apply Permutation_cons_append.
    + intros l Hl. apply KO, in_app_iff; auto.
    + intros l _ N1 H1. apply (DK XB YB tb lb optB); auto. intros l0 H0. apply KO, in_app_iff; auto.
    + intros l Hl. apply Q, in_app_iff; auto.
    + unfold prodn. cbn [map fold_right]. lia.
    + intros i Hi EQ. apply (right_not_out _ _ _ _ _ _ CB3 i Hi). rewrite EQ, !in_app_iff. simpl. auto 10.
Qed.
End Stage1.
End Db.
