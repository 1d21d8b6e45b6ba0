(** The second half of doubleMerge: two sites of two chains with one bond between them are decomposed again. *)
From Coq Require Import List Arith Bool Lia String ZArith Permutation.
From Verif Require Import Base Sums NdModel NdProofs HeapModel FuncsModel FuncsProofs TensorModel TensorSpec TensorProofs MatrixProofs
  ContractModel NetSpec ShareProofs LinkProofs SumpairsProofs ContractProofs OuterProofs NetProofs MergeLinkSpec MergeLinkProofs GroupSpec GroupProofs NetSameProofs
  SvdModel SvdSpec SchmidtProofs MergeSvdProofs MpsModel MpsSpec MpsProofs MpsSwapProofs MpsMoveProofs MpsPreProofs MpsContractModel MpsContractSpec MpsOpenProofs MpsCommonProofs
  MpsContractProofs MpsSiteProofs MpsDoubleSpec MpsDoubleProofs.
Import ListNotations.
Local Open Scope list_scope.
Local Open Scope nat_scope.

Section Cut.
Context {A : Type} {HA : SR A}.
Notation heap := (heap A).
Variable lib : linalg A.
Hypothesis ST : svd_total lib.

Lemma put_any ls : forall idx s s' (l : lid), List.length idx = List.length ls -> In l ls -> put ls idx s l = put ls idx s' l.
Proof.
  induction ls as [|x ls IH]; intros [|i idx] s s' l L H; try discriminate; [destruct H|]. cbn [put]. unfold upd. destruct (Nat.eqb_spec l x); auto.
  destruct H as [->|H]; [contradiction|]. apply IH; auto.
Qed.

Lemma pair_factors (h : heap) ta tb la lb m : wf_pair h ta tb -> shared h ta tb = [(la, lb)] -> matrix_of h (einsum h ta tb) (restA h ta tb) (restB h ta tb) m ->
  factors m (prodn (map (dim_of h) (restA h ta tb))) (prodn (map (dim_of h) (restB h ta tb))) (dim_of h la).
Proof.
  intros WP SH MO. destruct (shared_one_legs h ta tb la lb WP SH) as [LA LB]. set (RA := restA h ta tb) in *. set (RB := restB h ta tb) in *.
  assert (NDL := wp_nodup _ _ _ WP).
  assert (ND : NoDup ((la :: RA) ++ (lb :: RB))) by (eapply Permutation_NoDup; [apply Permutation_app; [exact LA|exact LB]|exact NDL]).
  assert (NDA : NoDup RA) by (apply NoDup_app_l in ND; now inversion ND). assert (NDB : NoDup RB) by (apply NoDup_app_r in ND; now inversion ND).
  assert (DJ : forall l, In l RA -> In l RB -> False) by (intros l H1 H2; apply (NoDup_app_disj _ _ l ND); simpl; auto).
  set (sa := fun i => put RA (digits (map (dim_of h) RA) i) (fun _ => 0)). set (sb := fun j => put RB (digits (map (dim_of h) RB) j) (fun _ => 0)).
  exists (fun i x => entry h ta (upd (upd (sa i) la x) lb x)), (fun x j => entry h tb (upd (upd (sb j) la x) lb x)). intros i j Hi Hj.
  pose proof (digits_inrange _ _ Hi) as GI. pose proof (digits_inrange _ _ Hj) as GJ.
  assert (LI : List.length (digits (map (dim_of h) RA) i) = List.length RA) by (apply Forall2_length in GI; rewrite map_length in GI; auto).
  assert (LJ : List.length (digits (map (dim_of h) RB) j) = List.length RB) by (apply Forall2_length in GJ; rewrite map_length in GJ; auto).
  set (s := put RB (digits (map (dim_of h) RB) j) (sa i)).
  assert (SB : map s RB = digits (map (dim_of h) RB) j) by now apply put_map.
  assert (SA : map s RA = digits (map (dim_of h) RA) i).
  { transitivity (map (sa i) RA); [|now apply put_map]. apply map_ext_in. intros l Hl. apply put_notin. intros H. eauto. }
  assert (IB : in_bounds h (RA ++ RB) s).
  { red. apply (inrange_map_inv (dim_of h) s). rewrite !map_app, SA, SB. now apply Forall2_app. }
  pose proof (mo_entry _ _ _ _ _ MO s IB) as E. rewrite SA, SB, !ravel_digits in E by auto. rewrite E. unfold einsum. rewrite SH. cbn [sumpairs].
  apply sumN_ext. intros x Hx. f_equal; apply entry_ext; intros l Hl; unfold upd; destruct (Nat.eqb_spec l lb) as [|NB]; auto; destruct (Nat.eqb_spec l la) as [|NE]; auto.
  - apply (Permutation_in _ LA) in Hl. destruct Hl as [->|Hl]; [now elim NE|]. unfold s. apply put_notin. intros H. eauto.
  - apply (Permutation_in _ LB) in Hl. destruct Hl as [Hl|Hl]; [now elim NB|now apply put_any].
Qed.

Lemma c_site {X} (L1 L2 : list X) x d : nth (List.length L1) (L1 ++ [x] ++ L2) d = x.
Proof. rewrite app_nth2, Nat.sub_diag by lia. reflexivity. Qed.

Section Stage3.
Variables (h : heap) (XA YA XB YB e : list tid) (ta tb : tid) (XO YO PO QO : list lid) (la lb : lid) (lfA rtA lfB rtB : nat -> lid) (chi : Z).
Notation tsA := (XA ++ [ta] ++ YA).
Notation tsB := (XB ++ [tb] ++ YB).
Notation osA := (XO ++ [la] ++ YO).
Notation osB := (PO ++ [lb] ++ QO).
Hypothesis CA : chain h tsA osA (tsB ++ e) lfA rtA.
Hypothesis CB : chain h tsB osB (tsA ++ e) lfB rtB.
Hypothesis CL : closed h (tsA ++ tsB ++ e).
Hypothesis LX : List.length XO = List.length XA.
Hypothesis LP : List.length PO = List.length XB.
Hypothesis LK : linked h la lb.
Hypothesis CHI : Z.le 0 chi.
Notation p := (List.length XA).
Notation r := (List.length XB).
Notation optA := (opt (Nat.ltb 0 p) (lfA p) ++ opt (Nat.ltb 0 (List.length YA)) (rtA (p + 0))).
Notation optB := (opt (Nat.ltb 0 r) (lfB r) ++ opt (Nat.ltb 0 (List.length YB)) (rtB (r + 0))).

Definition cut_again (h' : heap) (u v : tid) (x y : lid) : Prop :=
  shared h' u v = [(x, y)] /\
  chain h' (XA ++ [u] ++ YA) (XO ++ [x] ++ YO) ((XB ++ [v] ++ YB) ++ e) (sh_l p 0 lfA) (sh_r p 0 rtA) /\
  chain h' (XB ++ [v] ++ YB) (PO ++ [y] ++ QO) ((XA ++ [u] ++ YA) ++ e) (sh_l r 0 lfB) (sh_r r 0 rtB) /\
  linked h' x y /\ untouched h e h' /\ kept_legs h h' ((XO ++ YO) ++ (PO ++ QO)) /\
  closed h' ((XA ++ [u] ++ YA) ++ (XB ++ [v] ++ YB) ++ e) /\
  same_free h (tsA ++ tsB ++ e) h' ((XA ++ [u] ++ YA) ++ (XB ++ [v] ++ YB) ++ e) /\
  (svd_perfect lib -> Z.le (Z.of_nat (prodn (map (dim_of h) optA))) chi \/ Z.le (Z.of_nat (prodn (map (dim_of h) optB))) chi ->
    same_value h (tsA ++ tsB ++ e) h' ((XA ++ [u] ++ YA) ++ (XB ++ [v] ++ YB) ++ e)) /\
  Z.le (Z.of_nat (dim_of h' x)) chi /\ dim_of h' y = dim_of h' x /\ (svd_rank lib -> dim_of h' x <= dim_of h la) /\
  (forall i, S i < List.length tsA -> dim_of h' (sh_r p 0 rtA i) = dim_of h (rtA i)) /\ (forall i, S i < List.length tsB -> dim_of h' (sh_r r 0 rtB i) = dim_of h (rtB i)) /\
  forall q q', (forall l, In l ((XO ++ YO) ++ (PO ++ QO)) -> q l <= q' l) -> q la <= q' x -> q lb <= q' y ->
    (slim h q osA rtA -> slim h' q' (XO ++ [x] ++ YO) (sh_r p 0 rtA)) /\ (slim h q osB rtB -> slim h' q' (PO ++ [y] ++ QO) (sh_r r 0 rtB)).

Lemma stage3 : exists h' u v x y, merge lib ta tb (Some chi) (Some (NStr "o")) h = (h', Ok (u, v)) /\ cut_again h' u v x y.
Proof.
  set (rest := (XA ++ YA) ++ (XB ++ YB) ++ e). set (N := tsA ++ tsB ++ e) in *.
  assert (W0 : wf_open h N) by apply (ch_wf _ _ _ _ _ _ CA).
  assert (P0 : Permutation N (ta :: tb :: rest)) by apply st_front2.
  assert (W : wf_open h (ta :: tb :: rest)) by (eapply wf_open_perm; eauto).
  assert (WP := open_pair _ _ _ _ W).
  assert (LNA : List.length tsA = p + 1 + List.length YA) by (rewrite !app_length; cbn [List.length]; lia).
  assert (LNB : List.length tsB = r + 1 + List.length YB) by (rewrite !app_length; cbn [List.length]; lia).
  assert (Hp : p < List.length tsA) by lia. assert (Hr : r < List.length tsB) by lia.
  assert (LA : Permutation (legs_of h ta) (optA ++ [la])).
  { pose proof (ch_legs _ _ _ _ _ _ CA p Hp) as L. rewrite c_site in L. rewrite <- LX in L at 5. rewrite c_site in L. rewrite LNA in L. rewrite L, <- app_assoc. rewrite Nat.add_0_r.
    destruct (Nat.ltb_spec (S p) (p + 1 + List.length YA)), (Nat.ltb_spec 0 (List.length YA)); try lia; reflexivity. }
  assert (LB : Permutation (legs_of h tb) (optB ++ [lb])).
  { pose proof (ch_legs _ _ _ _ _ _ CB r Hr) as L. rewrite c_site in L. rewrite <- LP in L at 5. rewrite c_site in L. rewrite LNB in L. rewrite L, <- app_assoc. rewrite Nat.add_0_r.
    destruct (Nat.ltb_spec (S r) (r + 1 + List.length YB)), (Nat.ltb_spec 0 (List.length YB)); try lia; reflexivity. }
  assert (LT : forall l, In l (all_legs h N) -> l < nleg h) by (intros l; apply (open_lt _ _ _ W0)).
  assert (IA : forall l, In l (all_legs h tsA) -> In l (all_legs h N)) by (intros l; apply all_incl; intros u Hu; apply in_app_iff; auto).
  assert (IB : forall l, In l (all_legs h tsB) -> In l (all_legs h N)) by (intros l; apply all_incl; intros u Hu; apply in_app_iff; right; apply in_app_iff; auto).
  assert (NDA : NoDup (legs_of h ta)) by (apply WP). assert (NDB : NoDup (legs_of h tb)) by (apply WP).
  assert (DJ : forall l, In l (all_legs h tsA) -> In l (all_legs h tsB) -> False) by exact (two_disj h tsA tsB e osA lfA rtA CA).
  assert (TAin : In ta tsA) by (rewrite !in_app_iff; simpl; auto). assert (TBin : In tb tsB) by (rewrite !in_app_iff; simpl; auto).
  assert (OPA : forall l, In l optA -> exists l', linked h l l' /\ In l' (all_legs h tsA)).
  { intros l Hl. apply in_app_iff in Hl. destruct Hl as [Hl|Hl].
    - destruct (Nat.ltb_spec 0 p) as [G|G]; [|destruct Hl]. destruct Hl as [<-|[]]. assert (exists p', p = S p') as (p' & EP) by (exists (p - 1); lia). rewrite EP.
      assert (G1 : S p' < List.length tsA) by lia. assert (G2 : p' < List.length tsA) by lia.
      exists (rtA p'). split; [apply (ch_link' _ _ _ _ _ _ CA _ G1)|]. apply (ch_all _ _ _ _ G2), (ch_in_r _ _ _ _ _ _ CA _ G1).
    - destruct (Nat.ltb_spec 0 (List.length YA)) as [G|G]; [|destruct Hl]. destruct Hl as [<-|[]].
      assert (G1 : S (p + 0) < List.length tsA) by lia.
      exists (lfA (S (p + 0))). split; [apply (ch_link _ _ _ _ _ _ CA _ G1)|]. apply (ch_all _ _ _ _ G1), (ch_in_l _ _ _ _ _ _ CA _ G1). }
  assert (SAL : forall l, In l (legs_of h ta) -> In l (all_legs h tsA)) by (intros l Hl; apply in_flat_map; eauto).
  assert (SBL : forall l, In l (legs_of h tb) -> In l (all_legs h tsB)) by (intros l Hl; apply in_flat_map; eauto).
  assert (SH : shared h ta tb = [(la, lb)]).
  { apply Permutation_length_1_inv. symmetry. apply NoDup_Permutation; [apply pairs_nodup'; auto|constructor; [intros []|constructor]|].
    intros (l, l'). unfold shared. rewrite pairs_In. split.
    - intros (I1 & I2 & K). apply (Permutation_in _ LA) in I1. apply in_app_iff in I1. destruct I1 as [I1|[<-|[]]].
      + exfalso. destruct (OPA l I1) as (l2 & Q2 & Q3). rewrite (linked_fun _ _ _ _ K Q2) in I2. apply (DJ l2 Q3). auto.
      + rewrite (linked_fun _ _ _ _ K LK). simpl; auto.
    - intros [X|[]]; injection X as <- <-. split; [eapply Permutation_in; [symmetry; exact LA|apply in_app_iff; simpl; auto]|].
      split; [eapply Permutation_in; [symmetry; exact LB|apply in_app_iff; simpl; auto]|exact LK]. }
  assert (RA : Permutation (restA h ta tb) optA) by (unfold restA; rewrite SH; apply (others_sub _ _ _ [la] NDA LA); reflexivity).
  assert (RB : Permutation (restB h ta tb) optB) by (unfold restB; rewrite SH; apply (others_sub _ _ _ [lb] NDB LB); reflexivity).
  assert (KA : t_diag (tens h ta) = false /\ t_like (tens h ta) = false) by (apply (ch_kind _ _ _ _ _ _ CA); auto).
  assert (KB : t_diag (tens h tb) = false /\ t_like (tens h tb) = false) by (apply (ch_kind _ _ _ _ _ _ CB); auto).
  assert (CL2 : closed h (ta :: tb :: rest)) by (eapply closed_perm; [apply W0|exact P0|exact CL]).
  destruct (merge_dense lib h ta tb rest (Some (NStr "o")) (NStr "o") (NStr "o")) as (m & MO & G); [now apply closed_list|tauto|tauto|rewrite SH; cbn [List.length]; lia|rewrite SH; apply mn_given|].
  pose proof (ST m _ _ (mo_wf _ _ _ _ _ MO) (mo_shape _ _ _ _ _ MO)) as SS.
  destruct (proj2 (G chi SS) CHI) as (KK & h' & u & v & EM & SP & SV). clear G.
  destruct (sp_bond _ _ _ _ _ _ _ _ _ _ _ _ _ SP) as (x & y & SH' & DX & DY & NX & NY & LU & LV & FX & FY).
  exists h', u, v, x, y. split; [exact EM|].
  assert (W' := sp_wf _ _ _ _ _ _ _ _ _ _ _ _ _ SP). assert (WP' := open_pair _ _ _ _ W').
  assert (LA' : Permutation (legs_of h' u) (x :: optA)) by (rewrite LU, RA; symmetry; apply Permutation_cons_append).
  assert (LB' : Permutation (legs_of h' v) (y :: optB)) by (rewrite LV, RB; reflexivity).
  assert (UR : untouched h rest h').
  { constructor; [apply (sp_rest _ _ _ _ _ _ _ _ _ _ _ _ _ SP)|apply (sp_restlegs _ _ _ _ _ _ _ _ _ _ _ _ _ SP)|]. intros l l' Hl. apply (sp_links _ _ _ _ _ _ _ _ _ _ _ _ _ SP). rewrite !in_app_iff; auto. }
  assert (KO : forall l, In l (optA ++ optB) -> dim_of h' l = dim_of h l /\ l_name (legs h' l) = l_name (legs h l) /\ forall l', linked h' l l' <-> linked h l l').
  { intros l Hl. assert (Hr' : In l (restA h ta tb ++ restB h ta tb)) by (eapply Permutation_in; [symmetry; apply Permutation_app; [exact RA|exact RB]|exact Hl]).
    destruct (sp_legs _ _ _ _ _ _ _ _ _ _ _ _ _ SP l Hr') as (D & NM & _). split; auto. split; auto. intros l'.
    apply (sp_links _ _ _ _ _ _ _ _ _ _ _ _ _ SP). rewrite app_assoc. apply in_app_iff. left. exact Hr'. }
  assert (LK' : linked h' x y) by (assert (I : In (x, y) (shared h' u v)) by (rewrite SH'; simpl; auto); apply pairs_In in I; tauto).
  assert (ILA : In x (legs_of h' u)) by (eapply Permutation_in; [symmetry; exact LA'|simpl; auto]).
  assert (ILB : In y (legs_of h' v)) by (eapply Permutation_in; [symmetry; exact LB'|simpl; auto]).
  assert (LK2 : linked h' y x) by (eapply (link_back h' _ x y (wp_links _ _ _ WP')); auto; apply in_app_iff; auto).
  assert (FL : (t_diag (tens h' u) = false /\ t_like (tens h' u) = false) /\ (t_diag (tens h' v) = false /\ t_like (tens h' v) = false)) by (destruct (sp_flags _ _ _ _ _ _ _ _ _ _ _ _ _ SP) as (? & ? & ? & ?); auto).
  destruct FL as [FU FV].
  assert (WN : wf_open h' ((XA ++ [u] ++ YA) ++ (XB ++ [v] ++ YB) ++ e)) by (eapply wf_open_perm; [symmetry; apply st_front2|exact W']).
  assert (WN' : wf_open h' ((XB ++ [v] ++ YB) ++ (XA ++ [u] ++ YA) ++ e)) by (eapply wf_open_perm; [apply st_perm|exact WN]).
  assert (NN := wo_net _ _ WN).
  assert (NDN : forall w, In w (XA ++ [u] ++ YA) -> In w (XB ++ [v] ++ YB) -> False).
  { pose proof (wn_ids _ _ NN) as ND. intros w Hu Hv. apply (NoDup_app_disj _ _ w ND Hu). apply in_app_iff; auto. }
  assert (UAin : In u (XA ++ [u] ++ YA)) by (rewrite !in_app_iff; simpl; auto). assert (VBin : In v (XB ++ [v] ++ YB)) by (rewrite !in_app_iff; simpl; auto).
  assert (SEP : forall w w' l, In w ((XA ++ [u] ++ YA) ++ (XB ++ [v] ++ YB) ++ e) -> In w' ((XA ++ [u] ++ YA) ++ (XB ++ [v] ++ YB) ++ e) -> In l (legs_of h' w) -> In l (legs_of h' w') -> w = w').
  { intros w w' l Hw Hw'. apply (one_owner h' _ w w' l (wn_nodup _ _ NN)); auto. }
  assert (UA : untouched h (XA ++ YA) h') by (eapply ut_incl; [|exact UR]; unfold rest; sub).
  assert (UB : untouched h (XB ++ YB) h') by (eapply ut_incl; [|exact UR]; unfold rest; sub).
  assert (PA : Permutation (legs_of h' u) (opt (Nat.ltb 0 p) (lfA p) ++ opt (Nat.ltb 0 (List.length YA)) (rtA (p + 0)) ++ [x])) by (rewrite LA', app_assoc; apply Permutation_cons_append).
  assert (PB : Permutation (legs_of h' v) (opt (Nat.ltb 0 r) (lfB r) ++ opt (Nat.ltb 0 (List.length YB)) (rtB (r + 0)) ++ [y])) by (rewrite LB', app_assoc; apply Permutation_cons_append).
  assert (KAo : forall l, In l optA -> l_name (legs h' l) = l_name (legs h l) /\ forall l', linked h' l l' <-> linked h l l') by (intros l Hl; apply KO, in_app_iff; auto).
  assert (KBo : forall l, In l optB -> l_name (legs h' l) = l_name (legs h l) /\ forall l', linked h' l l' <-> linked h l l') by (intros l Hl; apply KO, in_app_iff; auto).
  assert (CA' : chain h' (XA ++ [u] ++ YA) (XO ++ [x] ++ YO) ((XB ++ [v] ++ YB) ++ e) (sh_l p 0 lfA) (sh_r p 0 rtA)).
  { apply (build_chain h h' XA [ta] YA XO [la] YO (tsB ++ e) _ lfA rtA 0 u x CA eq_refl eq_refl LX UA WN FU PA NX KAo).
    intros l' Hl' K. rewrite (linked_fun _ _ _ _ K LK') in Hl'. apply in_flat_map in Hl'. destruct Hl' as (w & Hw & Hl').
    assert (w = v) by (apply (SEP w v y); auto; [apply in_app_iff; auto|apply in_app_iff; right; apply in_app_iff; auto]). subst w. exact (NDN v Hw VBin). }
  assert (CB' : chain h' (XB ++ [v] ++ YB) (PO ++ [y] ++ QO) ((XA ++ [u] ++ YA) ++ e) (sh_l r 0 lfB) (sh_r r 0 rtB)).
  { apply (build_chain h h' XB [tb] YB PO [lb] QO (tsA ++ e) _ lfB rtB 0 v y CB eq_refl eq_refl LP UB WN' FV PB NY KBo).
    intros l' Hl' K. rewrite (linked_fun _ _ _ _ K LK2) in Hl'. apply in_flat_map in Hl'. destruct Hl' as (w & Hw & Hl').
    assert (w = u) by (apply (SEP w u x); auto; [apply in_app_iff; right; apply in_app_iff; auto|apply in_app_iff; auto]). subst w. exact (NDN u UAin Hw). }
  assert (FR : forall l, In l (free_legs h (ta :: tb :: rest)) -> In l (restA h ta tb ++ restB h ta tb ++ all_legs h rest)).
  { intros l Hl. pose proof (free_all _ _ _ Hl) as Ha. unfold all_legs in Ha. cbn [flat_map] in Ha. rewrite !in_app_iff in Ha.
    assert (NI : forall l', ~ inner_link h (ta :: tb :: rest) l l') by (intros l' IL; exact (inner_not_free _ _ _ _ (wo_net _ _ W) IL Hl)).
    assert (NSH : ~ In l (map fst (shared h ta tb)) /\ ~ In l (map snd (shared h ta tb))).
    { split; intros I; apply in_map_iff in I; destruct I as ((a & b) & E & I); cbn [fst snd] in E; subst; apply pairs_In in I; destruct I as (I1 & I2 & K).
      - apply (NI b). exists ta, tb. simpl. repeat (split; auto). apply WP.
      - apply (NI a). exists tb, ta. simpl. repeat (split; auto). intros EQ. apply (wp_ne _ _ _ WP). now rewrite EQ. eapply (link_back h _ a l (wp_links _ _ _ WP)); auto; apply in_app_iff; auto. }
    rewrite !in_app_iff. unfold restA, restB. rewrite !others_In. change (t_legs (tens h ta)) with (legs_of h ta) in Ha. change (t_legs (tens h tb)) with (legs_of h tb) in Ha. unfold all_legs. clear - Ha NSH. tauto. }
  assert (SF : same_free h (ta :: tb :: rest) h' (u :: v :: rest)).
  { split; [apply (sp_free _ _ _ _ _ _ _ _ _ _ _ _ _ SP)|]. intros l Hl. apply FR in Hl. rewrite app_assoc in Hl. apply in_app_iff in Hl. destruct Hl as [Hl|Hl].
    - apply (sp_legs _ _ _ _ _ _ _ _ _ _ _ _ _ SP l Hl).
    - unfold dim_of. now rewrite (ut_legs _ _ _ UR l Hl). }
  assert (CL' : closed h' (u :: v :: rest)).
  { apply (closed_step h h' _ _ SF); auto. intros l l' Hl. apply (sp_links _ _ _ _ _ _ _ _ _ _ _ _ _ SP). now apply FR. }
  assert (PE : Permutation (u :: v :: rest) ((XA ++ [u] ++ YA) ++ (XB ++ [v] ++ YB) ++ e)) by (symmetry; apply st_front2).
  assert (INR : forall l, In l ((XO ++ YO) ++ (PO ++ QO)) -> In l (all_legs h rest)).
  { assert (GEN : forall X m1 Y Xo n1 Yo env lf rt, chain h (X ++ [m1] ++ Y) (Xo ++ [n1] ++ Yo) env lf rt -> List.length Xo = List.length X -> forall l, In l (Xo ++ Yo) -> In l (all_legs h (X ++ Y))).
    { intros X m1 Y Xo n1 Yo env lf rt CC LL l Hl. pose proof (ch_len _ _ _ _ _ _ CC) as LC. rewrite !app_length in LC. cbn [List.length] in LC.
      apply in_app_iff in Hl. destruct Hl as [Hl|Hl]; apply (In_nth _ _ 0) in Hl; destruct Hl as (k & Hk & <-).
      - rewrite LL in Hk. destruct (bd_lo X [m1] Y Xo [n1] Yo 0 0 0 eq_refl eq_refl LL k Hk) as (_ & _ & I). apply in_flat_map. exists (nth k (X ++ [m1] ++ Y) 0). split; auto.
        replace (nth k Xo 0) with (nth k (Xo ++ [n1] ++ Yo) 0) by (rewrite app_nth1 by lia; auto). apply (ch_in_o _ _ _ _ _ _ CC). rewrite !app_length. lia.
      - assert (Hk' : k < List.length Y) by lia. pose proof (bd_hi h X [m1] Y Xo [n1] Yo env lf rt 0 0 0 CC eq_refl eq_refl LL k Hk') as (_ & E & I).
        apply in_flat_map. exists (nth (List.length X + 1 + k) (X ++ [m1] ++ Y) 0). split; auto.
        replace (nth k Yo 0) with (nth (List.length X + 1 + k) (Xo ++ [n1] ++ Yo) 0).
        + apply (ch_in_o _ _ _ _ _ _ CC). rewrite !app_length. cbn [List.length]. lia.
        + rewrite (app_nth2 Xo) by lia. rewrite LL. replace (List.length X + 1 + k - List.length X) with (1 + k) by lia. reflexivity. }
    intros l Hl. apply in_app_iff in Hl. destruct Hl as [Hl|Hl].
    - eapply all_incl; [|exact (GEN _ _ _ _ _ _ _ _ _ CA LX l Hl)]. unfold rest; sub.
    - eapply all_incl; [|exact (GEN _ _ _ _ _ _ _ _ _ CB LP l Hl)]. unfold rest; sub. }
  split; [exact SH'|]. split; [exact CA'|]. split; [exact CB'|]. split; [exact LK'|].
  split; [eapply ut_incl; [|exact UR]; unfold rest; sub|].
  split; [eapply kept_incl; [exact INR|]; now apply ut_kept|].
  split; [eapply closed_perm; [apply W'|exact PE|exact CL']|].
  split; [eapply same_free_perm; [symmetry; exact P0|exact PE|apply W|apply W'|exact SF]|].
  split.
  { intros SP' BIG. destruct (SP' m _ _ (mo_wf _ _ _ _ _ MO) (mo_shape _ _ _ _ _ MO)) as [EX LL].
    eapply same_value_perm; [symmetry; exact P0|exact PE|apply W|apply W'|]. refine (SV EX _).
    intros i Hi Hl. apply LL; auto. destruct (ss_s _ _ _ _ SS) as [WS ES]. red in WS. rewrite ES in WS. unfold prodn in WS. cbn [fold_right] in WS.
    rewrite <- (prodn_perm' _ _ (Permutation_map (dim_of h) RA)), <- (prodn_perm' _ _ (Permutation_map (dim_of h) RB)) in BIG. unfold kept in Hi. 
    fold (prodn (map (dim_of h) (restA h ta tb))) in WS. fold (prodn (map (dim_of h) (restB h ta tb))) in WS. lia. }
  split; [rewrite DX; lia|]. split; [congruence|].
  split; [intros SR; rewrite DX; assert (above lib m <= dim_of h la) by (eapply SR; [apply (mo_wf _ _ _ _ _ MO)|apply (mo_shape _ _ _ _ _ MO)|now apply (pair_factors h ta tb la lb)]); unfold kept; lia|].
  assert (DK : forall X Y t z R, Permutation (legs_of h' t) (z :: R) -> (forall l, In l R -> dim_of h' l = dim_of h l) -> untouched h (X ++ Y) h' ->
    forall l, l <> z -> In l (all_legs h' (X ++ [t] ++ Y)) -> dim_of h' l = dim_of h l).
  { intros X Y t z R PR DR UX l NZ Hl. apply in_flat_map in Hl. destruct Hl as (w & Hw & Hl). rewrite !in_app_iff in Hw.
    assert (D : w = t \/ In w (X ++ Y)) by (rewrite in_app_iff; destruct Hw as [Hw|[[->|[]]|Hw]]; auto). destruct D as [->|D].
    - apply DR. apply (Permutation_in _ PR) in Hl. destruct Hl as [->|Hl]; [now elim NZ|auto].
    - unfold legs_of in Hl. rewrite (ut_tens _ _ _ UX w D) in Hl. unfold dim_of. rewrite (ut_legs _ _ _ UX); auto. apply in_flat_map. eauto. }
  assert (S0 : forall k rt i, sh_r k 0 rt i = rt i) by (intros k rt i; unfold sh_r; rewrite Nat.add_0_r; destruct (Nat.ltb i k); auto).
  assert (DKA : forall l, l <> x -> In l (all_legs h' (XA ++ [u] ++ YA)) -> dim_of h' l = dim_of h l) by (apply (DK XA YA u x optA); auto; intros l0 H0; apply KO, in_app_iff; auto).
  assert (DKB : forall l, l <> y -> In l (all_legs h' (XB ++ [v] ++ YB)) -> dim_of h' l = dim_of h l) by (apply (DK XB YB v y optB); auto; intros l0 H0; apply KO, in_app_iff; auto).
  assert (LNu : List.length (XA ++ [u] ++ YA) = List.length tsA) by (rewrite !app_length; reflexivity).
  assert (LNv : List.length (XB ++ [v] ++ YB) = List.length tsB) by (rewrite !app_length; reflexivity).
  split.
  { intros i Hi. rewrite <- LNu in Hi. transitivity (dim_of h (sh_r p 0 rtA i)); [apply DKA|now rewrite S0].
    - intros EQ. apply (right_not_out _ _ _ _ _ _ CA' i Hi). rewrite EQ, !in_app_iff. simpl. auto 10.
    - assert (Hi' : i < List.length (XA ++ [u] ++ YA)) by lia. apply (ch_all _ _ _ _ Hi'), (ch_in_r _ _ _ _ _ _ CA' _ Hi). }
  split.
  { intros i Hi. rewrite <- LNv in Hi. transitivity (dim_of h (sh_r r 0 rtB i)); [apply DKB|now rewrite S0].
    - intros EQ. apply (right_not_out _ _ _ _ _ _ CB' i Hi). rewrite EQ, !in_app_iff. simpl. auto 10.
    - assert (Hi' : i < List.length (XB ++ [v] ++ YB)) by lia. apply (ch_all _ _ _ _ Hi'), (ch_in_r _ _ _ _ _ _ CB' _ Hi). }
  intros q q' Q QA QB.
  split.
  - apply (bd_slim h h' XA [ta] YA XO [la] YO (tsB ++ e) lfA rtA 0 u x CA eq_refl eq_refl LX UA FU PA KAo).
    + intros l _ N1 H1. now apply DKA.
    + intros l Hl. apply Q, in_app_iff; auto.
    + unfold prodn. cbn [map fold_right]. lia.
    + intros i Hi EQ. apply (right_not_out _ _ _ _ _ _ CA' i Hi). rewrite EQ, !in_app_iff. simpl. auto 10.
  - apply (bd_slim h h' XB [tb] YB PO [lb] QO (tsA ++ e) lfB rtB 0 v y CB eq_refl eq_refl LP UB FV PB KBo).
    + intros l _ N1 H1. now apply DKB.
    + intros l Hl. apply Q, in_app_iff; auto.
    + unfold prodn. cbn [map fold_right]. lia.
    + intros i Hi EQ. apply (right_not_out _ _ _ _ _ _ CB' i Hi). rewrite EQ, !in_app_iff. simpl. auto 10.
Qed.
End Stage3.
End Cut.
