(** The capped search (C26, C27). *)
From Coq Require Import List Arith Bool Lia ZArith Permutation Relations.
From Verif Require Import Base FuncsModel FuncsProofs NetSpec SearchModel BitProofs SearchSpec SearchBase BfProofs GreedyProofs.
Import ListNotations.
Local Open Scope nat_scope.

Lemma rfold_ind {S X} (f : S -> X -> res S) (I : list X -> S -> Prop) L :
  (forall dn x rest s, L = dn ++ x :: rest -> I dn s -> exists s', f s x = Ok s' /\ I (dn ++ [x]) s') ->
  forall s, I [] s -> exists s', rfold f L s = Ok s' /\ I L s'.
Proof.
  intros ST. assert (G : forall L' dn s, L = dn ++ L' -> I dn s -> exists s', rfold f L' s = Ok s' /\ I L s').
  { induction L' as [|x L' IH]; intros dn s E H; cbn [rfold].
    - exists s. rewrite app_nil_r in E. subst. auto.
    - destruct (ST dn x L' s E H) as (s1 & E1 & H1). rewrite E1. cbn [rbind]. apply (IH (dn ++ [x])); auto. now rewrite <- app_assoc. }
  intros s H. apply (G L []); auto.
Qed.
Lemma seq_split k m dn x rest : seq k m = dn ++ x :: rest -> x = k + List.length dn /\ List.length dn < m.
Proof.
  revert k m. induction dn as [|y dn IH]; intros k [|m] E; simpl in E; try discriminate.
  - injection E as <- _. simpl. lia.
  - injection E as <- E. destruct (IH _ _ E). simpl. lia.
Qed.
Lemma triangle_In L : forall pre x y, In (x, y) (triangle pre L) -> In x (pre ++ L) /\ In y L.
Proof.
  induction L as [|a L IH]; intros pre x y H; simpl in H; [tauto|]. apply in_app_iff in H. destruct H as [H|H].
  - apply in_map_iff in H. destruct H as (z & E & Hz). injection E as <- <-. split; [apply in_app_iff; auto|simpl; auto].
  - apply IH in H. rewrite <- app_assoc in H. simpl in *. tauto.
Qed.
Lemma triangle_all L : forall pre x y, x <> y -> In y L -> In x (pre ++ L) -> In (x, y) (triangle pre L) \/ In (y, x) (triangle pre L).
Proof.
  induction L as [|a L IH]; intros pre x y N Hy Hx; [destruct Hy|]. cbn [triangle]. rewrite !in_app_iff, !in_map_iff.
  destruct (Z.eq_dec a y) as [->|NA].
  - apply in_app_iff in Hx. destruct Hx as [Hx|[->|Hx]]; [left; left; eauto|congruence|].
    destruct (IH (pre ++ [y]) y x) as [H|H]; auto. apply in_app_iff. left. apply in_app_iff. simpl. auto.
  - destruct Hy as [->|Hy]; [congruence|]. destruct (IH (pre ++ [a]) x y N Hy) as [H|H]; auto. rewrite <- app_assoc. exact Hx.
Qed.
Lemma iter_In obj c1 c2 x y : In (x, y) (obj_iterator obj c1 c2) -> In x (obj c1) /\ In y (obj c2).
Proof.
  unfold obj_iterator. destruct (Nat.eqb_spec c1 c2) as [->|N].
  - intros H. now apply triangle_In in H. - intros H. now apply in_prod_iff in H.
Qed.
Lemma iter_all obj c1 c2 x y : x <> y -> In x (obj c1) -> In y (obj c2) -> In (x, y) (obj_iterator obj c1 c2) \/ (In (y, x) (obj_iterator obj c1 c2) /\ c1 = c2).
Proof.
  intros N Hx Hy. unfold obj_iterator. destruct (Nat.eqb_spec c1 c2) as [->|NC].
  - destruct (triangle_all (obj c2) [] x y N Hy Hx); auto.
  - left. now apply in_prod.
Qed.

Section Cap.
Variable symdiff : list nat -> list nat -> list nat.
Hypothesis SD : symdiff_ok symdiff.
Variable verts : list vres.
Variable dim : nat -> nat.
Variable typ : option nat.
Hypothesis WG : wf_graph verts dim.
Notation n := (List.length verts).
Notation join_cost := (join_cost verts dim typ).
Notation tree_cost := (tree_cost verts dim typ).
Notation rep := (rep verts dim).
Notation grp := (grp verts).
Notation flat := (flat verts dim).
Notation fits := (fits verts dim typ).
Notation mem := (members (List.length verts)).
Notation ok := (setok (List.length verts)).
Notation on := (on verts).
Notation ndo := (no_diag_outer verts).
Notation joinable := (joinable verts).
Notation common := (common verts).
Notation all_dg := (all_dg verts).

Lemma ndo_good t : grp (leaves t) -> ndo t -> flat (leaves t) /\ (all_dg (leaves t) = true -> conn verts (leaves t)).
Proof.
  induction t as [i|a IHa b IHb]; simpl; intros GG N.
  - split; [apply flat_single; auto; apply GG; simpl; auto|]. intros _ x y [<-|[]] [<-|[]]. apply rt_refl.
  - destruct N as (Na & Nb & J). pose proof (grp_app _ _ _ GG) as (Ga & Gb). destruct (IHa Ga Na) as (Fa & Ca). destruct (IHb Gb Nb) as (Fb & Cb). split.
    + intros D. generalize D. rewrite all_dg_app in D. apply andb_true_iff in D. destruct D as (Da & Db). apply (flat_join verts dim WG); auto.
    + rewrite all_dg_app. intros D. apply andb_true_iff in D. destruct D as (Da & Db). apply conn_join; auto; [apply Ga|apply Gb].
Qed.
Lemma joinable_perm G1 G1' G2 G2' : Permutation G1 G1' -> Permutation G2 G2' -> joinable G1 G2 -> joinable G1' G2'.
Proof.
  intros P1 P2 J D1 D2 E. rewrite <- (all_dg_perm _ _ _ P1) in D1. rewrite <- (all_dg_perm _ _ _ P2) in D2. apply (J D1 D2).
  pose proof (common_perm verts _ _ _ _ P1 P2) as P. rewrite E in P. now apply Permutation_sym, Permutation_nil in P.
Qed.
Lemma joinable_sym G1 G2 : joinable G1 G2 -> joinable G2 G1.
Proof.
  intros J D2 D1 E. apply (J D1 D2). pose proof (common_sym verts G1 G2) as P. rewrite E in P. now apply Permutation_sym, Permutation_nil in P.
Qed.
Lemma join_fits G1 G2 : grp (G1 ++ G2) -> flat G1 -> flat G2 -> joinable G1 G2 -> fits G1 G2.
Proof.
  intros GG F1 F2 J. apply Build_fits; auto. intros _ D1 D2. specialize (J D1 D2). destruct (common G1 G2) as [|e l] eqn:E; [congruence|].
  assert (In e (common G1 G2)) as H by (rewrite E; simpl; auto). apply common_In in H. destruct H as (H1 & H2). apply bnd_In in H1, H2. exists e, e. auto.
Qed.
Lemma outer_spec r1 r2 G1 G2 : rep r1 G1 -> rep r2 G2 -> isDiagonalOuterProduct r1 r2 = false <-> joinable G1 G2.
Proof.
  intros R1 R2. unfold isDiagonalOuterProduct. rewrite (rp_diag _ _ _ _ R1), (rp_diag _ _ _ _ R2). pose proof (sharing_spec verts dim r1 r2 G1 G2 R1 R2) as SH. unfold SearchSpec.joinable.
  destruct (all_dg G1), (all_dg G2), (isSharingBond r1 r2); simpl; split; try discriminate; auto; try (intros; discriminate); try (intros _ _ _; now apply SH).
  intros J. exfalso. apply (proj2 SH) in J; auto. discriminate.
Qed.

Record cinv (s : cst) : Prop := {
  ci_res : forall x r, s_res (c_st s) x = Some r -> ok x /\ rep r (mem x);
  ci_cost : forall x c, s_cost (c_st s) x = Some c -> ok x /\ (exists r, s_res (c_st s) x = Some r) /\
            exists t, on t x /\ ndo t /\ tree_cost t = c /\ s_seq (c_st s) x = Some (tseq t);
  ci_obj : forall k x, In x (c_obj s k) <-> s_cost (c_st s) x <> None /\ List.length (mem x) = k;
  ci_single : forall i, i < n -> s_cost (c_st s) (2 ^ Z.of_nat i) = Some 0 }.
Definition bound (s : cst) (mu : nat) : Prop := forall x c, s_cost (c_st s) x = Some c -> c <= mu.
Definition better (s s' : cst) : Prop := forall x c, s_cost (c_st s) x = Some c -> exists c', s_cost (c_st s') x = Some c' /\ c' <= c.
Definition frame (c : nat) (s s' : cst) : Prop :=
  (forall x, List.length (mem x) <> c -> s_cost (c_st s') x = s_cost (c_st s) x) /\ (forall k, k <> c -> c_obj s' k = c_obj s k).
(** every tree of cost at most [mu] whose size satisfies [p] is accounted for *)
Definition cover (p : nat -> Prop) (s : cst) (mu : nat) : Prop := positive_costs verts dim typ -> forall t x, ok x -> on t x -> ndo t -> p (List.length (mem x)) ->
  tree_cost t <= mu -> exists v, s_cost (c_st s) x = Some v /\ v <= tree_cost t.
Definition always : nat -> Prop := fun _ => True.

Lemma better_refl s : better s s. Proof. intros x c H. eauto. Qed.
Lemma better_trans a b c : better a b -> better b c -> better a c.
Proof. intros H1 H2 x v E. destruct (H1 x v E) as (v1 & E1 & L1). destruct (H2 x v1 E1) as (v2 & E2 & L2). exists v2. split; auto. lia. Qed.
Lemma frame_refl c s : frame c s s. Proof. split; auto. Qed.
Lemma frame_trans c a b d : frame c a b -> frame c b d -> frame c a d.
Proof. intros (A1 & A2) (B1 & B2). split; intros; [rewrite B1, A1|rewrite B2, A2]; auto. Qed.
Lemma cover_better p s s' mu : better s s' -> cover p s mu -> cover p s' mu.
Proof. intros B C PC t x H1 H2 H3 H4 H5. destruct (C PC t x H1 H2 H3 H4 H5) as (v & E & L). destruct (B x v E) as (v' & E' & L'). exists v'. split; auto. lia. Qed.
Lemma cinv_flat s x : cinv s -> s_cost (c_st s) x <> None -> ok x /\ flat (mem x).
Proof.
  intros I E. destruct (s_cost (c_st s) x) as [c|] eqn:EC; [|congruence]. destruct (ci_cost _ I x c EC) as (O & _ & t & ON & N & _). split; auto.
  eapply flat_perm; [exact ON|]. apply ndo_good; auto. eapply grp_perm; [apply Permutation_sym, ON|apply grp_mem].
Qed.
(** what has been done for the pair (t1, t2) *)
Definition seen (mu_old mu_new : nat) (s : cst) (p : Z * Z) : Prop :=
  let '(t1, t2) := p in
  Z.land t1 t2 = 0%Z -> joinable (mem t1) (mem t2) -> forall v1 v2, s_cost (c_st s) t1 = Some v1 -> s_cost (c_st s) t2 = Some v2 ->
  let m := v1 + v2 + join_cost (mem t1) (mem t2) in m <= mu_new ->
  m <= mu_old \/ m = 0 \/ exists v, s_cost (c_st s) (Z.lor t1 t2) = Some v /\ v <= m.

Lemma union_length a b : Z.land a b = 0%Z -> List.length (mem (Z.lor a b)) = List.length (mem a) + List.length (mem b).
Proof. intros D. rewrite (Permutation_length (members_union n a b D)). apply app_length. Qed.

Lemma pair_ok mu_old mu_new c c1 c2 s t1 t2 : cinv s -> bound s mu_new -> c_next s = mu_new -> c1 + c2 = c ->
  In t1 (c_obj s c1) -> In t2 (c_obj s c2) ->
  exists s', cap_pair symdiff typ mu_old mu_new c s (t1, t2) = Ok s' /\ cinv s' /\ bound s' mu_new /\ c_next s' = mu_new /\
    better s s' /\ frame c s s' /\ seen mu_old mu_new s' (t1, t2) /\
    ((forall x v, s_cost (c_st s) x = Some v -> v = 0) -> (forall G1 G2, grp (G1 ++ G2) -> G1 <> [] -> G2 <> [] -> joinable G1 G2 -> join_cost G1 G2 = 0) ->
      s_cost (c_st s') = s_cost (c_st s)).
Proof.
  intros I B NX EC H1 H2. unfold cap_pair. apply (ci_obj _ I) in H1, H2. destruct H1 as (H1 & L1), H2 as (H2 & L2).
  destruct (Z.land t1 t2 =? 0)%Z eqn:ED; cbn [negb].
  2:{ exists s. apply Z.eqb_neq in ED. split; auto. split; auto. split; auto. split; auto. split; [apply better_refl|]. split; [apply frame_refl|]. split; auto. intros E. congruence. }
  apply Z.eqb_eq in ED.
  destruct (s_cost (c_st s) t1) as [v1|] eqn:E1; [|congruence]. destruct (s_cost (c_st s) t2) as [v2|] eqn:E2; [|congruence].
  destruct (ci_cost _ I _ _ E1) as (O1 & (r1 & R1) & ta & ON1 & N1 & T1 & Q1). destruct (ci_cost _ I _ _ E2) as (O2 & (r2 & R2) & tb & ON2 & N2 & T2 & Q2).
  rewrite R1. cbn [need rbind]. rewrite R2. cbn [need rbind].
  destruct (ci_res _ I _ _ R1) as (_ & RP1). destruct (ci_res _ I _ _ R2) as (_ & RP2).
  pose proof (outer_spec r1 r2 _ _ RP1 RP2) as OS.
  destruct (isDiagonalOuterProduct r1 r2) eqn:EO.
  { exists s. split; auto. split; auto. split; auto. split; auto. split; [apply better_refl|]. split; [apply frame_refl|]. split; auto.
    intros _ J. apply OS in J. discriminate. }
  assert (J : joinable (mem t1) (mem t2)) by now apply OS.
  assert (GG : grp (mem t1 ++ mem t2)) by now apply grp_two.
  assert (FT : fits (mem t1) (mem t2)).
  { apply join_fits; auto; [apply (cinv_flat s t1 I); congruence|apply (cinv_flat s t2 I); congruence]. }
  set (tt := Z.lor t1 t2). set (st := match s_res (c_st s) tt with Some _ => c_st s | None => _ end).
  assert (SC : s_cost st = s_cost (c_st s)) by (unfold st; destruct (s_res (c_st s) tt); auto).
  assert (SQ : s_seq st = s_seq (c_st s)) by (unfold st; destruct (s_res (c_st s) tt); auto).
  assert (OT : ok tt) by now apply lor_setok.
  assert (LT : List.length (mem tt) = c) by (unfold tt; rewrite union_length; auto; lia).
  assert (RT : exists r, s_res st tt = Some r).
  { unfold st. destruct (s_res (c_st s) tt) eqn:E; [eauto|]. cbn [s_res]. rewrite updZ_same. eauto. }
  assert (RX : forall x r, s_res (c_st s) x = Some r -> s_res st x = Some r).
  { intros x r E. unfold st. destruct (s_res (c_st s) tt) eqn:E'; auto. cbn [s_res]. rewrite updZ_other; auto. congruence. }
  assert (I' : forall obj nw nx, obj = c_obj s -> cinv (mkCst st obj nw nx)).
  { intros obj nw nx ->. constructor; cbn [c_st c_obj].
    - intros x r. unfold st. destruct (s_res (c_st s) tt) eqn:E; [apply I|]. cbn [s_res]. unfold updZ. destruct (Z.eqb_spec x tt) as [->|NZ]; [|apply I].
      intros Er. injection Er as <-. split; auto. eapply rep_perm; [symmetry; apply members_union, ED|]. now apply calc_rep.
    - intros x v. rewrite SC, SQ. intros E. destruct (ci_cost _ I x v E) as (K1 & (r & K2) & K3). split; auto. split; auto. exists r. auto.
    - intros k x. rewrite SC. apply I.
    - rewrite SC. apply I. }
  cbn [c_st c_obj c_new c_next]. rewrite SC, E1, E2. cbn [need rbind]. rewrite (fits_cost verts dim typ WG r1 r2 _ _ RP1 RP2 FT). cbn [rbind].
  set (m := v1 + v2 + join_cost (mem t1) (mem t2)). set (mu_0 := if c_new s t1 || c_new s t2 then 0 else mu_old).
  assert (M0 : m <= mu_0 -> m <= mu_old \/ m = 0) by (unfold mu_0; destruct (c_new s t1 || c_new s t2); lia).
  destruct (Nat.ltb_spec mu_new m) as [LM|LM].
  { eexists. split; [reflexivity|]. split; [now apply I'|]. split; [intros x v; cbn [c_st]; rewrite SC; apply B|]. split.
    - cbn [c_next]. destruct (Nat.ltb_spec m (c_next s)); auto; lia.
    - split; [intros x v E; cbn [c_st]; rewrite SC; eauto|]. split; [split; intros; cbn [c_st c_obj]; auto; now rewrite SC|]. split; [|intros; cbn [c_st]; auto].
      intros _ _ w1 w2. cbn [c_st]. rewrite SC, E1, E2. intros EE1 EE2. injection EE1 as <-. injection EE2 as <-. fold m. lia. }
  destruct (Nat.ltb_spec mu_0 m) as [L0|L0]; cbn [andb].
  2:{ eexists. split; [reflexivity|]. split; [now apply I'|]. split; [intros x v; cbn [c_st]; rewrite SC; apply B|]. split; [auto|].
      split; [intros x v E; cbn [c_st]; rewrite SC; eauto|]. split; [split; intros; cbn [c_st c_obj]; auto; now rewrite SC|]. split; [|intros; cbn [c_st]; auto].
      intros _ _ w1 w2. cbn [c_st]. rewrite SC, E1, E2. intros EE1 EE2. injection EE1 as <-. injection EE2 as <-. fold m. destruct (M0 L0); auto. }
  destruct (Nat.leb_spec m mu_new) as [LE|LE]; [|lia].
  (* the accepted pair *)
  rewrite SQ, Q1, Q2. cbn [need rbind].
  set (old := s_cost (c_st s) tt). set (obj := match old with None => upd (c_obj s) c (c_obj s c ++ [tt]) | Some _ => c_obj s end).
  set (bt := match old with None => true | Some o => m <? o end).
  assert (ON : on (Node ta tb) tt). { unfold BfProofs.on in *. simpl. rewrite ON1, ON2. symmetry. now apply members_union. }
  assert (TC : tree_cost (Node ta tb) = m).
  { simpl. rewrite T1, T2. unfold m. f_equal. symmetry. apply (cost_perm verts dim typ); auto; now apply Permutation_sym. }
  assert (TS : tseq (Node ta tb) = tseq ta ++ tseq tb ++ [(lowbitI t1, lowbitI t2)]).
  { simpl. do 3 f_equal. rewrite (lowbitI_lowest n t1 O1), (lowbitI_lowest n t2 O2). now rewrite (lowest_perm _ _ ON1), (lowest_perm _ _ ON2). }
  assert (ND : ndo (Node ta tb)).
  { simpl. split; auto. split; auto. eapply joinable_perm; [apply Permutation_sym, ON1|apply Permutation_sym, ON2|exact J]. }
  assert (T1N : tt <> t1 /\ tt <> t2).
  { pose proof (members_nonempty n t1 O1). pose proof (members_nonempty n t2 O2). 
    split; intros E; pose proof (union_length t1 t2 ED) as UL; fold tt in UL; rewrite E in UL; destruct (mem t1), (mem t2); simpl in *; try congruence; lia. }
  destruct bt eqn:EB.
  - eexists. split; [reflexivity|]. split; [|split; [|split; [auto|split; [|split; [|split]]]]].
    + constructor; cbn [c_st c_obj s_cost s_seq s_res].
      * apply (I' (c_obj s) (c_new s) 0 eq_refl).
      * intros x v. unfold updZ. destruct (Z.eqb_spec x tt) as [->|NZ].
        -- intros E. injection E as <-. split; auto. split; auto. exists (Node ta tb). rewrite TS. auto.
        -- rewrite ?SC, ?SQ. intros E. destruct (ci_cost _ I x v E) as (K1 & (r & K2) & K3). split; auto. split; auto. exists r. auto.
      * intros k x. unfold updZ. unfold obj. pose proof (ci_obj _ I k x) as CO. destruct (Z.eqb_spec x tt) as [->|NZ].
        -- unfold old. destruct (s_cost (c_st s) tt) as [o|] eqn:EO'.
           ++ rewrite CO. split; intros (K1 & K2); split; auto; discriminate.
           ++ unfold upd. destruct (Nat.eqb_spec k c) as [->|NK].
              ** rewrite in_app_iff. split; [intros _; split; [discriminate|auto]|intros _; right; simpl; auto].
              ** split; [intros Hk; apply CO in Hk; exfalso; now apply (proj1 Hk)|intros (_ & K2); congruence].
        -- unfold old. destruct (s_cost (c_st s) tt) as [o|] eqn:EO'; auto. unfold upd. destruct (Nat.eqb_spec k c) as [->|NK]; auto.
           rewrite in_app_iff, CO. simpl. split; [intros [K|[K|[]]]; auto; congruence|auto].
      * intros i Hi. unfold updZ. destruct (Z.eqb_spec (2 ^ Z.of_nat i) tt) as [E|NZ]; [|rewrite ?SC; now apply I].
        exfalso. rewrite <- E in LT. rewrite members_single in LT by auto. simpl in LT.
        pose proof (members_nonempty n t1 O1). pose proof (members_nonempty n t2 O2). destruct (mem t1), (mem t2); simpl in *; try congruence; lia.
    + intros x v. cbn [c_st s_cost]. unfold updZ. destruct (Z.eqb_spec x tt) as [->|NZ]; [intros E; injection E as <-; auto|rewrite ?SC; apply B].
    + intros x v E. cbn [c_st s_cost]. unfold updZ. destruct (Z.eqb_spec x tt) as [->|NZ]; [|rewrite ?SC; eauto].
      exists m. split; auto. unfold bt, old in EB. rewrite E in EB. apply Nat.ltb_lt in EB. lia.
    + split; cbn [c_st c_obj s_cost].
      * intros x Hx. unfold updZ. destruct (Z.eqb_spec x tt) as [->|NZ]; [congruence|now rewrite ?SC].
      * intros k Hk. unfold obj. destruct old; auto. now rewrite upd_other.
    + intros _ _ w1 w2. cbn [c_st s_cost]. destruct T1N. rewrite !updZ_other by auto. rewrite ?SC, E1, E2. intros EE1 EE2. injection EE1 as <-. injection EE2 as <-. fold m.
      intros _. right. right. exists m. fold tt. rewrite updZ_same. auto.
    + intros ZR ZJ. exfalso. assert (join_cost (mem t1) (mem t2) = 0) as Z0 by (apply ZJ; auto; apply members_nonempty; auto).
      pose proof (ZR _ _ E1). pose proof (ZR _ _ E2). unfold m in L0. lia.
  - assert (OB : exists o, old = Some o /\ o <= m). { unfold bt in EB. destruct old as [o|]; [|discriminate]. apply Nat.ltb_ge in EB. eauto. }
    destruct OB as (o & EO' & LO). eexists. split; [reflexivity|]. split; [apply I'; unfold obj; now rewrite EO'|]. split; [intros x v; cbn [c_st]; rewrite SC; apply B|]. split; [auto|].
    split; [intros x v E; cbn [c_st]; rewrite ?SC; eauto|]. split; [split; intros; cbn [c_st c_obj]; [now rewrite ?SC|unfold obj; now rewrite EO']|]. split; [|intros; cbn [c_st]; auto].
    intros _ _ w1 w2. cbn [c_st]. rewrite ?SC, E1, E2. intros EE1 EE2. injection EE1 as <-. injection EE2 as <-. fold m. intros _. right. right. exists o. auto.
Qed.

Definition zero_joins : Prop := forall G1 G2, grp (G1 ++ G2) -> G1 <> [] -> G2 <> [] -> joinable G1 G2 -> join_cost G1 G2 = 0.
Definition all_zero (s : cst) : Prop := forall x v, s_cost (c_st s) x = Some v -> v = 0.
(** the facts kept by a whole pass *)
Record step (mu_new : nat) (s s' : cst) : Prop := {
  st_inv : cinv s';
  st_bound : bound s' mu_new;
  st_next : c_next s' = mu_new;
  st_better : better s s';
  st_zero : zero_joins -> all_zero s -> s_cost (c_st s') = s_cost (c_st s) }.
Lemma step_refl mu s : cinv s -> bound s mu -> c_next s = mu -> step mu s s.
Proof. intros. constructor; auto. apply better_refl. Qed.
Lemma step_trans mu a b c : step mu a b -> step mu b c -> step mu a c.
Proof.
  intros [A1 A2 A3 A4 A5] [B1 B2 B3 B4 B5]. constructor; auto; [eapply better_trans; eauto|].
  intros ZJ ZA. rewrite B5; auto. intros x v. rewrite A5 by auto. apply ZA.
Qed.
Lemma seen_keep mu_old mu_new c s s' t1 t2 : better s s' -> frame c s s' -> List.length (mem t1) <> c -> List.length (mem t2) <> c ->
  seen mu_old mu_new s (t1, t2) -> seen mu_old mu_new s' (t1, t2).
Proof.
  intros B (F & _) N1 N2 SN D J v1 v2. rewrite (F t1 N1), (F t2 N2). intros E1 E2 m L. destruct (SN D J v1 v2 E1 E2 L) as [H|[H|(v & E & LV)]]; auto.
  destruct (B _ _ E) as (v' & E' & L'). right. right. exists v'. split; auto. unfold m. lia.
Qed.
Definition seen_size (mu_old mu_new c c1 : nat) (s : cst) : Prop := forall p, In p (obj_iterator (c_obj s) c1 (c - c1)) -> seen mu_old mu_new s p.

Lemma inner_ok mu_old mu_new c c1 s : 0 < c1 -> c1 < c -> cinv s -> bound s mu_new -> c_next s = mu_new ->
  exists s', rfold (cap_pair symdiff typ mu_old mu_new c) (obj_iterator (c_obj s) c1 (c - c1)) s = Ok s' /\ step mu_new s s' /\ frame c s s' /\ seen_size mu_old mu_new c c1 s'.
Proof.
  intros P1 P2 I B NX. set (L := obj_iterator (c_obj s) c1 (c - c1)).
  destruct (rfold_ind (cap_pair symdiff typ mu_old mu_new c) (fun dn s' => step mu_new s s' /\ frame c s s' /\ forall p, In p dn -> seen mu_old mu_new s' p) L) with (s := s) as (s' & E & ST & F & SN).
  - intros dn [t1 t2] rest s1 EL (ST & F & SN).
    assert (Hp : In (t1, t2) L) by (rewrite EL; apply in_app_iff; simpl; auto). apply iter_In in Hp. destruct Hp as (H1 & H2).
    rewrite <- (proj2 F c1) in H1 by lia. rewrite <- (proj2 F (c - c1)) in H2 by lia.
    destruct (pair_ok mu_old mu_new c c1 (c - c1) s1 t1 t2) as (s2 & E & I2 & B2 & N2 & BT & F2 & SN2 & Z2); auto; try apply ST; [lia|].
    exists s2. split; auto. split; [|split].
    + eapply step_trans; [exact ST|]. constructor; auto.
    + eapply frame_trans; eauto.
    + intros [u1 u2] Hp. apply in_app_iff in Hp. destruct Hp as [Hp|[Hp|[]]]; [|now injection Hp as <- <-].
      assert (HL : In (u1, u2) L) by (rewrite EL; apply in_app_iff; auto). apply iter_In in HL. destruct HL as (K1 & K2).
      apply (ci_obj _ I) in K1, K2. eapply (seen_keep mu_old mu_new c s1 s2); eauto; lia.
  - split; [now apply step_refl|]. split; [apply frame_refl|]. intros p [].
  - exists s'. split; auto. split; auto. split; auto. unfold seen_size. unfold obj_iterator. rewrite !(proj2 F) by lia. exact SN.
Qed.
Lemma size_ok mu_old mu_new c s : 2 <= c -> cinv s -> bound s mu_new -> c_next s = mu_new ->
  exists s', cap_size symdiff typ mu_old mu_new s c = Ok s' /\ step mu_new s s' /\ frame c s s' /\ forall c1, 0 < c1 <= c / 2 -> seen_size mu_old mu_new c c1 s'.
Proof.
  intros Hc I B NX. unfold cap_size. assert (HC : c / 2 < c) by (apply Nat.div_lt; lia).
  destruct (rfold_ind (fun s c1 => rfold (cap_pair symdiff typ mu_old mu_new c) (obj_iterator (c_obj s) c1 (c - c1)) s)
     (fun dn s' => step mu_new s s' /\ frame c s s' /\ forall c1, 0 < c1 <= List.length dn -> seen_size mu_old mu_new c c1 s') (seq 1 (c / 2))) with (s := s) as (s' & E & ST & F & SN).
  - intros dn c1 rest s1 EL (ST & F & SN). destruct (seq_split _ _ _ _ _ EL) as (EC & LC).
    destruct (inner_ok mu_old mu_new c c1 s1) as (s2 & E & ST2 & F2 & SN2); try apply ST; [lia|lia|].
    exists s2. split; auto. split; [eapply step_trans; eauto|]. split; [eapply frame_trans; eauto|].
    intros k. rewrite app_length. simpl. intros Hk. destruct (Nat.eq_dec k c1) as [->|NK]; auto.
    intros [u1 u2] Hp. assert (Hp' := Hp). unfold obj_iterator in Hp. rewrite !(proj2 F2) in Hp by lia. apply iter_In in Hp'. destruct Hp' as (K1 & K2). apply (ci_obj _ (st_inv _ _ _ ST2)) in K1, K2.
    eapply (seen_keep mu_old mu_new c s1 s2); [apply ST2|exact F2|lia|lia|]. apply (SN k); [lia|exact Hp].
  - split; [now apply step_refl|]. split; [apply frame_refl|]. simpl. lia.
  - exists s'. rewrite seq_length in SN. auto.
Qed.

Lemma split_tree l r x : ok x -> on (Node l r) x -> let a := mask (leaves l) in let b := mask (leaves r) in
  on l a /\ on r b /\ ok a /\ ok b /\ Z.land a b = 0%Z /\ Z.lor a b = x.
Proof. intros Hx. now apply split_of_tree. Qed.

Lemma size_cover mu_old mu_new c s : 2 <= c -> cinv s -> cover always s mu_old -> cover (fun k => k < c) s mu_new ->
  (forall c1, 0 < c1 <= c / 2 -> seen_size mu_old mu_new c c1 s) -> cover (fun k => k < S c) s mu_new.
Proof.
  intros Hc I CO CN SN PC t x Hx ON ND LT LC. destruct (Nat.eq_dec (List.length (mem x)) c) as [EL|NE]; [|apply (CN PC t x); auto; lia].
  destruct t as [i|l r].
  { unfold BfProofs.on in ON. pose proof (Permutation_length ON) as E. simpl in E. lia. }
  destruct (split_tree l r x Hx ON) as (Ol & Or & La & Lb & D & U). set (a := mask (leaves l)) in *. set (b := mask (leaves r)) in *.
  destruct ND as (Nl & Nr & J). simpl in LC.
  assert (Ja : joinable (mem a) (mem b)) by (eapply joinable_perm; [exact Ol|exact Or|exact J]).
  assert (LL : List.length (mem a) + List.length (mem b) = c) by (rewrite <- union_length by auto; now rewrite U).
  assert (N1 := members_nonempty n a La). assert (N2 := members_nonempty n b Lb).
  assert (P1 : 0 < List.length (mem a)) by (destruct (mem a); [congruence|simpl; lia]). assert (P2 : 0 < List.length (mem b)) by (destruct (mem b); [congruence|simpl; lia]).
  destruct (CN PC l a La Ol Nl ltac:(cbv beta; lia) ltac:(lia)) as (va & Ea & Lva). destruct (CN PC r b Lb Or Nr ltac:(cbv beta; lia) ltac:(lia)) as (vb & Eb & Lvb).
  assert (GG : grp (mem a ++ mem b)) by now apply grp_two.
  assert (FT : fits (mem a) (mem b)) by (apply join_fits; auto; [apply (cinv_flat s a I); congruence|apply (cinv_flat s b I); congruence]).
  assert (JC : join_cost (leaves l) (leaves r) = join_cost (mem a) (mem b)).
  { symmetry. apply (cost_perm verts dim typ); auto; now apply Permutation_sym. }
  assert (JS : join_cost (mem b) (mem a) = join_cost (mem a) (mem b)) by (symmetry; apply cost_sym; auto).
  assert (PJ : 0 < join_cost (mem a) (mem b)) by (apply PC; auto; apply GG).
  set (m := va + vb + join_cost (mem a) (mem b)). assert (LM : m <= tree_cost (Node l r)) by (simpl; unfold m; lia).
  assert (OLD : m <= mu_old -> exists v, s_cost (c_st s) x = Some v /\ v <= m).
  { intros LO. destruct (ci_cost _ I _ _ Ea) as (_ & _ & ta & ON1 & ND1 & T1 & _). destruct (ci_cost _ I _ _ Eb) as (_ & _ & tb & ON2 & ND2 & T2 & _).
    assert (TT : tree_cost (Node ta tb) = m).
    { simpl. rewrite T1, T2. unfold m. f_equal. symmetry. apply (cost_perm verts dim typ); auto; now apply Permutation_sym. }
    destruct (CO PC (Node ta tb) x Hx) as (v & Ev & Lv).
    - unfold BfProofs.on in *. simpl. rewrite ON1, ON2. rewrite <- U. symmetry. now apply members_union.
    - simpl. split; auto. split; auto. eapply joinable_perm; [apply Permutation_sym, ON1|apply Permutation_sym, ON2|exact Ja].
    - exact Logic.I.
    - rewrite TT. exact LO.
    - exists v. rewrite TT in Lv. auto. }
  assert (AB : a <> b). { intros E. rewrite E in D. rewrite Z.land_diag in D. unfold setok in Lb. lia. }
  assert (Oa : In a (c_obj s (List.length (mem a)))) by (apply (ci_obj _ I); split; auto; congruence).
  assert (Ob : In b (c_obj s (List.length (mem b)))) by (apply (ci_obj _ I); split; auto; congruence).
  assert (FIN : m <= mu_old \/ m = 0 \/ exists v, s_cost (c_st s) x = Some v /\ v <= m).
  { assert (SAB : forall c1, 0 < c1 <= c / 2 -> In (a, b) (obj_iterator (c_obj s) c1 (c - c1)) -> m <= mu_old \/ m = 0 \/ exists v, s_cost (c_st s) x = Some v /\ v <= m).
    { intros c1 H1 H2. pose proof (SN c1 H1 _ H2 D Ja va vb Ea Eb) as H. cbv zeta in H. fold m in H. rewrite U in H. apply H. unfold m. simpl in LC. lia. }
    assert (SBA : forall c1, 0 < c1 <= c / 2 -> In (b, a) (obj_iterator (c_obj s) c1 (c - c1)) -> m <= mu_old \/ m = 0 \/ exists v, s_cost (c_st s) x = Some v /\ v <= m).
    { intros c1 H1 H2. rewrite Z.land_comm in D. pose proof (SN c1 H1 _ H2 D (joinable_sym _ _ Ja) vb va Eb Ea) as H. cbv zeta in H. rewrite JS in H. replace (vb + va + join_cost (mem a) (mem b)) with m in H by (unfold m; lia).
      rewrite Z.lor_comm, U in H. apply H. unfold m. lia. }
    assert (HF : forall k, k + k <= c -> k <= c / 2) by (intros k Hk; apply Nat.div_le_lower_bound; lia).
    destruct (Nat.le_gt_cases (List.length (mem a)) (List.length (mem b))) as [LE|GT].
    - assert (K : 0 < List.length (mem a) <= c / 2) by (split; auto; apply HF; lia). replace (List.length (mem b)) with (c - List.length (mem a)) in Ob by lia.
      destruct (iter_all (c_obj s) _ _ a b AB Oa Ob) as [H|(H & _)]; eauto.
    - assert (K : 0 < List.length (mem b) <= c / 2) by (split; auto; apply HF; lia). replace (List.length (mem a)) with (c - List.length (mem b)) in Oa by lia.
      destruct (iter_all (c_obj s) _ _ b a (not_eq_sym AB) Ob Oa) as [H|(H & _)]; eauto. }
  destruct FIN as [H|[H|(v & Ev & Lv)]].
  - destruct (OLD H) as (v & Ev & Lv). exists v. split; auto. lia.
  - unfold m in H. lia.
  - exists v. split; auto. lia.
Qed.

Lemma pass_ok mu_old mu_new s : mu_old <= mu_new -> cinv s -> bound s mu_old -> cover always s mu_old ->
  exists s', cap_pass symdiff verts typ mu_old mu_new s = Ok s' /\ step mu_new s s' /\ cover always s' mu_new.
Proof.
  intros LE I B CO. unfold cap_pass. set (s0 := mkCst (c_st s) (c_obj s) (c_new s) mu_new).
  assert (I0 : cinv s0) by (destruct I; constructor; auto).
  change (SearchModel.n verts) with n.
  destruct (rfold_ind (cap_size symdiff typ mu_old mu_new) (fun dn s' => step mu_new s0 s' /\ cover always s' mu_old /\ cover (fun k => k < 2 + List.length dn) s' mu_new) (seq 2 (n - 1))) with (s := s0) as (s' & E & ST & _ & CN).
  - intros dn c rest s1 EL (ST & C1 & C2). destruct (seq_split _ _ _ _ _ EL) as (EC & LC).
    destruct (size_ok mu_old mu_new c s1) as (s2 & E & ST2 & F2 & SN2); try apply ST; [lia|]. exists s2. split; auto. split; [eapply step_trans; eauto|].
    assert (C1' : cover always s2 mu_old) by (eapply cover_better; [apply ST2|exact C1]).
    split; auto. rewrite app_length. simpl. replace (S (S (List.length dn + 1))) with (S c) by lia. apply size_cover with (mu_old := mu_old); auto; [lia|apply ST2|].
    eapply cover_better; [apply ST2|]. rewrite EC. exact C2.
  - split; [apply step_refl; auto; intros x v Ev; specialize (B x v Ev); lia|]. split; [exact CO|].
    intros PC t x Hx ON ND LT LC. destruct t as [i|l r].
    + assert (In i (mem x)) as Hi by (apply (Permutation_in _ ON); simpl; auto). apply members_In in Hi.
      unfold BfProofs.on in ON. simpl in ON. apply Permutation_length_1_inv in ON. rewrite (single_inj n x i Hx ON). exists 0. split; [apply I0; tauto|lia].
    + unfold BfProofs.on in ON. pose proof (Permutation_length ON) as EL. simpl in EL. rewrite app_length in EL. pose proof (leaves_nonempty l). pose proof (leaves_nonempty r).
      destruct (leaves l), (leaves r); simpl in *; try congruence; lia.
  - exists s'. split; auto. split.
    + destruct ST; constructor; auto.
    + intros PC t x Hx ON ND _ LC. apply (CN PC t x); auto. rewrite seq_length.
      assert (List.length (mem x) <= n); [|lia]. rewrite <- (seq_length n 0) at 2. apply NoDup_incl_length; [apply members_NoDup|apply members_incl].
Qed.

Lemma loop_inv chi f : forall mu_old mu_new s, mu_old <= mu_new -> 1 <= chi -> cinv s -> bound s mu_old -> cover always s mu_old ->
  (cap_loop symdiff verts typ f chi mu_old mu_new s = Err OutOfFuel) \/
  (exists s' mu, cap_loop symdiff verts typ f chi mu_old mu_new s = Ok s' /\ cinv s' /\ bound s' mu /\ cover always s' mu /\ c_obj s' n <> []).
Proof.
  induction f as [|f IH]; intros mu_old mu_new s LE HC I B CO; cbn [cap_loop]; change (SearchModel.n verts) with n.
  - destruct (c_obj s n) eqn:E; [left; auto|right]. exists s, mu_old. rewrite E. split; [auto|]. split; [auto|]. split; [auto|]. split; [auto|discriminate].
  - destruct (c_obj s n) eqn:E.
    + destruct (pass_ok mu_old mu_new s LE I B CO) as (s1 & E1 & ST & C1). rewrite E1. cbn [rbind]. apply IH; auto.
      * pose proof (Nat.mul_le_mono_l 1 chi mu_new HC). lia.
      * destruct (st_inv _ _ _ ST). constructor; auto.
      * apply ST.
    + right. exists s, mu_old. rewrite E. split; [auto|]. split; [auto|]. split; [auto|]. split; [auto|discriminate].
Qed.
Lemma loop_more chi f k : forall mu_old mu_new s s', cap_loop symdiff verts typ f chi mu_old mu_new s = Ok s' -> cap_loop symdiff verts typ (f + k) chi mu_old mu_new s = Ok s'.
Proof.
  induction f as [|f IH]; intros mu_old mu_new s s' E; cbn [cap_loop Nat.add] in *.
  - destruct k; cbn [cap_loop]; destruct (c_obj s (SearchModel.n verts)); auto; discriminate.
  - destruct (c_obj s (SearchModel.n verts)); auto. destruct (cap_pass symdiff verts typ mu_old mu_new s); cbn [rbind] in *; [|discriminate]. now apply IH.
Qed.
Lemma full_mem : mem (full verts) = seq 0 n.
Proof. apply members_full. Qed.
Lemma obj_full s : 0 < n -> cinv s -> c_obj s n <> [] -> s_cost (c_st s) (full verts) <> None.
Proof.
  intros Hn I H. destruct (c_obj s n) as [|x l] eqn:E; [congruence|]. assert (In x (c_obj s n)) as Hx by (rewrite E; simpl; auto). apply (ci_obj _ I) in Hx. destruct Hx as (Hx & L).
  replace (full verts) with x; auto. destruct (s_cost (c_st s) x) as [c|] eqn:EC; [|congruence]. destruct (ci_cost _ I _ _ EC) as (O & _).
  assert (FO := full_setok n Hn). change (2 ^ Z.of_nat n - 1)%Z with (full verts) in FO. unfold setok in *. apply (members_inj n); [lia|lia|].
  intros i. rewrite full_mem. split; [apply members_incl|]. apply NoDup_length_incl; [apply members_NoDup|rewrite seq_length; lia|apply members_incl].
Qed.
Lemma full_obj s : cinv s -> s_cost (c_st s) (full verts) <> None -> c_obj s n <> [].
Proof.
  intros I H E. assert (In (full verts) (c_obj s n)) as K; [|rewrite E in K; destruct K]. apply (ci_obj _ I). split; auto. now rewrite full_mem, seq_length.
Qed.
Lemma loop_S chi f mu_old mu_new s : cap_loop symdiff verts typ (S f) chi mu_old mu_new s = match c_obj s n with
  | _ :: _ => Ok s
  | [] => letr s := cap_pass symdiff verts typ mu_old mu_new s in
          cap_loop symdiff verts typ f chi mu_new (Nat.max (c_next s) (mu_new * chi)) (mkCst (c_st s) (c_obj s) (clear_new verts s) (c_next s))
  end.
Proof. reflexivity. Qed.
Lemma loop_stops chi T f : positive_costs verts dim typ -> 0 < n -> spans verts T -> ndo T -> 2 <= chi -> forall mu_old mu_new s, mu_old <= mu_new -> cinv s -> bound s mu_old -> cover always s mu_old ->
  tree_cost T <= mu_new * 2 ^ f -> exists s', cap_loop symdiff verts typ (S f) chi mu_old mu_new s = Ok s'.
Proof.
  intros PC Hn SP ND HC. assert (FO := full_setok n Hn). change (2 ^ Z.of_nat n - 1)%Z with (full verts) in FO.
  induction f as [|f IH]; intros mu_old mu_new s LE I B CO LT; rewrite loop_S.
  - destruct (c_obj s n); [|eauto]. destruct (pass_ok mu_old mu_new s LE I B CO) as (s1 & E1 & ST & C1). rewrite E1. cbn [rbind c_obj cap_loop]. change (SearchModel.n verts) with n.
    destruct (C1 PC T (full verts) FO) as (v & Ev & _); auto; [unfold BfProofs.on; now rewrite full_mem|exact Logic.I|simpl in LT; lia|].
    pose proof (full_obj s1 (st_inv _ _ _ ST)) as FN. destruct (c_obj s1 n); [exfalso; apply FN; congruence|eauto].
  - destruct (c_obj s n); [|eauto]. destruct (pass_ok mu_old mu_new s LE I B CO) as (s1 & E1 & ST & C1). rewrite E1. cbn [rbind].
    assert (LM : mu_new * 2 <= Nat.max (c_next s1) (mu_new * chi)) by (pose proof (Nat.mul_le_mono_l 2 chi mu_new HC); lia).
    apply (IH mu_new (Nat.max (c_next s1) (mu_new * chi))).
    + lia.
    + destruct (st_inv _ _ _ ST). constructor; auto.
    + apply ST.
    + exact C1.
    + rewrite Nat.pow_succ_r' in LT. pose proof (Nat.mul_le_mono_r _ _ (2 ^ f) LM). lia.
Qed.
Lemma loop_never chi f : (forall s, cinv s -> c_obj s n = []) -> forall mu_old mu_new s, 1 <= chi -> mu_old <= mu_new -> cinv s -> bound s mu_old -> cover always s mu_old ->
  cap_loop symdiff verts typ f chi mu_old mu_new s = Err OutOfFuel.
Proof.
  intros NE mu_old mu_new s HC LE I B CO. destruct (loop_inv chi f mu_old mu_new s LE HC I B CO) as [H|(s' & mu & _ & I' & _ & _ & O)]; auto.
  exfalso. now apply O, NE.
Qed.
Lemma loop_zero chi f : zero_joins -> 2 <= n -> forall mu_old mu_new s, 1 <= chi -> mu_old <= mu_new -> cinv s -> bound s mu_old -> cover always s mu_old -> all_zero s -> s_cost (c_st s) (full verts) = None ->
  cap_loop symdiff verts typ f chi mu_old mu_new s = Err OutOfFuel.
Proof.
  intros ZJ Hn. induction f as [|f IH]; intros mu_old mu_new s HC LE I B CO AZ FN; cbn [cap_loop]; change (SearchModel.n verts) with n; pose proof (obj_full s ltac:(lia) I) as OF.
  - destruct (c_obj s n); auto. exfalso. now apply OF.
  - destruct (c_obj s n); [|exfalso; now apply OF]. destruct (pass_ok mu_old mu_new s LE I B CO) as (s1 & E1 & ST & C1). rewrite E1. cbn [rbind].
    pose proof (st_zero _ _ _ ST ZJ AZ) as EZ. apply IH; auto.
    + pose proof (Nat.mul_le_mono_l 1 chi mu_new HC). lia.
    + destruct (st_inv _ _ _ ST). constructor; auto.
    + apply ST.
    + intros x v. cbn [c_st]. rewrite EZ. apply AZ.
    + cbn [c_st]. now rewrite EZ.
Qed.

(** ** the start *)
Definition start : cst := mkCst (init_st verts) (upd (fun _ => []) 1 (map (fun i => (2 ^ Z.of_nat i)%Z) (seq 0 n))) (fun _ => true) 1.
Lemma start_ok : cinv start /\ bound start 0 /\ cover always start 0 /\ all_zero start /\ (2 <= n -> s_cost (c_st start) (full verts) = None).
Proof.
  destruct (init_inv verts dim typ WG) as (I0 & IC & IS).
  assert (AZ : all_zero start).
  { intros x c E. cbn [c_st start] in E. destruct (IC x) as (i & Hi & ->); [congruence|]. rewrite IS in E by auto. now injection E. }
  assert (CI : cinv start).
  { constructor; cbn [c_st c_obj start].
    - apply I0.
    - intros x c E. destruct (i_cost _ _ _ _ I0 x c E) as (O & R & _). split; auto. split; auto. destruct (IC x) as (i & Hi & ->); [congruence|].
      destruct (i_cost _ _ _ _ I0 _ c E) as (_ & _ & t & ON & TC & SQ). exists t. split; auto. split; auto.
      unfold BfProofs.on in ON. rewrite members_single in ON by auto. destruct t as [j|l r]; [exact Logic.I|]. exfalso. pose proof (Permutation_length ON) as EL. simpl in EL. rewrite app_length in EL.
      pose proof (leaves_nonempty l). pose proof (leaves_nonempty r). destruct (leaves l), (leaves r); simpl in *; try congruence; lia.
    - intros k x. unfold upd. destruct (Nat.eqb_spec k 1) as [->|NK].
      + rewrite in_map_iff. split.
        * intros (i & <- & Hi). apply in_seq in Hi. split; [rewrite IS by lia; discriminate|]. now rewrite members_single by lia.
        * intros (E & _). destruct (IC x E) as (i & Hi & ->). exists i. split; auto. apply in_seq. lia.
      + split; [intros []|]. intros (E & L). destruct (IC x E) as (i & Hi & ->). rewrite members_single in L by auto. simpl in L. congruence.
    - exact IS. }
  split; auto. split; [intros x c E; rewrite (AZ x c E); auto|]. split; [|split; auto].
  - intros PC t x Hx ON ND _ LC. destruct t as [i|l r].
    + assert (In i (mem x)) as Hi by (apply (Permutation_in _ ON); simpl; auto). apply members_In in Hi.
      unfold BfProofs.on in ON. simpl in ON. apply Permutation_length_1_inv in ON. rewrite (single_inj n x i Hx ON). exists 0. split; [apply CI; tauto|lia].
    + exfalso. destruct ND as (_ & _ & J). simpl in LC. assert (GG : grp (leaves l ++ leaves r)) by (eapply grp_perm; [apply Permutation_sym, ON|apply grp_mem]).
      pose proof (PC (leaves l) (leaves r) (proj1 GG) (proj2 GG) (leaves_nonempty l) (leaves_nonempty r) J). lia.
  - intros Hn. cbn [c_st start]. destruct (s_cost (init_st verts) (full verts)) eqn:E; auto. exfalso. destruct (IC (full verts)) as (i & Hi & EF); [congruence|].
    pose proof (full_mem) as FM. rewrite EF, members_single in FM by auto. apply (f_equal (@List.length nat)) in FM. rewrite seq_length in FM. simpl in FM. lia.
Qed.

(** the smallest dimension is defined unless exact costs are asked for and a tensor has no legs *)
Definition has_min : Prop := typ = None -> forall i, In i (vertices verts) -> vshape verts i <> [].
Lemma vert_of r : In r verts -> exists i, In i (vertices verts) /\ vert verts i = r.
Proof. intros H. apply (In_nth _ _ (([], [], false) : vres)) in H. destruct H as (i & Hi & E). exists i. split; auto. apply in_seq. change (i < n) in Hi. lia. Qed.
Lemma mins_ok : has_min -> 0 < n -> exists chi, match typ with
              | None => letr ms := rmapM (fun r => py_min (r_shape r)) verts in py_min ms
              | Some d => Ok d
              end = Ok chi.
Proof.
  intros HM Hn. unfold has_min in HM. destruct typ as [d|]; [eauto|]. specialize (HM eq_refl).
  assert (G : forall l, incl l verts -> exists ms, rmapM (fun r => py_min (r_shape r)) l = Ok ms /\ List.length ms = List.length l).
  { induction l as [|r l IH]; intros HI; [exists []; auto|]. destruct (IH (fun z Hz => HI z (or_intror Hz))) as (ms & E & L).
    destruct (vert_of r (HI r (or_introl eq_refl))) as (i & Hi & Ei). specialize (HM i Hi). unfold vshape in HM. rewrite Ei in HM. cbn [rmapM]. unfold r_shape at 1.
    destruct (snd (fst r)) as [|w l'] eqn:ES; [congruence|]. cbn [py_min rbind]. rewrite E. cbn [rbind]. eexists. split; [reflexivity|]. simpl. lia. }
  destruct (G verts (incl_refl _)) as (ms & E & L). rewrite E. cbn [rbind]. destruct ms; [simpl in L; lia|]. cbn [py_min]. eauto.
Qed.
Lemma mins_fail : typ = None -> (exists i, In i (vertices verts) /\ vshape verts i = []) -> match typ with
              | None => letr ms := rmapM (fun r => py_min (r_shape r)) verts in py_min ms
              | Some d => Ok d
              end = Err ValueError.
Proof.
  intros -> (i & Hi & E). assert (G : forall l, In (vert verts i) l -> rmapM (fun r => py_min (r_shape r)) l = Err ValueError).
  { induction l as [|r l IH]; intros HI; [destruct HI|]. cbn [rmapM]. destruct HI as [->|HI].
    - unfold vshape in E. unfold r_shape at 1. rewrite E. reflexivity.
    - destruct (py_min (r_shape r)) as [w|e] eqn:EP; cbn [rbind].
      + now rewrite (IH HI).
      + unfold py_min in EP. destruct (r_shape r); [now injection EP as <-|discriminate]. }
  rewrite G; auto. apply nth_In. apply in_seq in Hi. lia.
Qed.

Lemma capping_sound fuel sq c : positive_costs verts dim typ -> capping symdiff verts typ fuel = Ok (sq, c) ->
  exists t, spans verts t /\ ndo t /\ sq = tseq t /\ c = tree_cost t /\ forall t', spans verts t' -> ndo t' -> tree_cost t <= tree_cost t'.
Proof.
  intros PC E. unfold capping in E. match type of E with (rbind ?m _) = _ => destruct m as [chi|] end; cbn [rbind] in E; [|discriminate].
  change (SearchModel.n verts) with n in E. destruct (Nat.eqb_spec n 0) as [|Hn]; [discriminate|]. fold start in E.
  destruct start_ok as (I0 & B0 & C0 & _). destruct (loop_inv (Nat.max chi 2) fuel 0 1 start ltac:(lia) ltac:(lia) I0 B0 C0) as [H|(s & mu & H & I & B & C & O)]; [rewrite H in E; discriminate|].
  rewrite H in E. cbn [rbind] in E. pose proof (obj_full s ltac:(lia) I O) as F. destruct (s_cost (c_st s) (full verts)) as [c0|] eqn:EC; [|congruence].
  destruct (ci_cost _ I _ _ EC) as (OF & _ & t & ON & ND & TC & SQ). rewrite SQ in E. cbn [need rbind] in E. injection E as <- <-.
  unfold BfProofs.on in ON. rewrite full_mem in ON. exists t. split; [exact ON|]. split; auto. split; auto. split; auto.
  intros t' SP ND'. destruct (Nat.le_gt_cases (tree_cost t') mu) as [LE|GT].
  - destruct (C PC t' (full verts) OF) as (v & Ev & Lv); auto; [unfold BfProofs.on; now rewrite full_mem|exact Logic.I|]. rewrite EC in Ev. injection Ev as <-. lia.
  - specialize (B _ _ EC). lia.
Qed.
(** without the positivity hypothesis: the answer is a tree without diagonal outer products *)
Lemma capping_tree fuel sq c : capping symdiff verts typ fuel = Ok (sq, c) -> exists t, spans verts t /\ ndo t /\ sq = tseq t /\ c = tree_cost t.
Proof.
  intros E. unfold capping in E. match type of E with (rbind ?m _) = _ => destruct m as [chi|] end; cbn [rbind] in E; [|discriminate].
  change (SearchModel.n verts) with n in E. destruct (Nat.eqb_spec n 0) as [|Hn]; [discriminate|]. fold start in E.
  destruct start_ok as (I0 & B0 & C0 & _). destruct (loop_inv (Nat.max chi 2) fuel 0 1 start ltac:(lia) ltac:(lia) I0 B0 C0) as [H|(s & mu & H & I & B & C & O)]; [rewrite H in E; discriminate|].
  rewrite H in E. cbn [rbind] in E. pose proof (obj_full s ltac:(lia) I O) as F. destruct (s_cost (c_st s) (full verts)) as [c0|] eqn:EC; [|congruence].
  destruct (ci_cost _ I _ _ EC) as (OF & _ & t & ON & ND & TC & SQ). rewrite SQ in E. cbn [need rbind] in E. injection E as <- <-.
  unfold BfProofs.on in ON. rewrite full_mem in ON. exists t. auto.
Qed.

(** ** trees without diagonal outer products exist *)
Lemma grow_nondiag i0 t L : In i0 (leaves t) -> vdiag verts i0 = false -> ndo t -> exists t', Permutation (leaves t') (leaves t ++ L) /\ ndo t'.
Proof.
  intros H0 D. revert t H0. induction L as [|j L IH]; intros t H0 N; [exists t; rewrite app_nil_r; auto|].
  destruct (IH (Node t (Leaf j))) as (t' & P & N').
  - simpl. apply in_app_iff. auto.
  - simpl. split; auto. split; auto. intros A. exfalso. unfold SearchSpec.all_dg in A. rewrite forallb_forall in A. specialize (A i0 H0). congruence.
  - exists t'. split; auto. rewrite P. simpl. now rewrite <- app_assoc.
Qed.
Lemma crossing (G : list nat) x y : clos_refl_trans nat (adjacent verts) x y -> In x G -> ~ In y G -> exists u v, In u G /\ ~ In v G /\ adjacent verts u v.
Proof.
  intros H. apply clos_rt_rt1n in H. induction H as [|x y z AD _ IH]; intros H1 H2; [contradiction|].
  destruct (in_dec Nat.eq_dec y G) as [Hy|Hy]; [now apply IH|]. exists x, y. auto.
Qed.
Lemma grow_conn k : connected verts -> forall t, grp (leaves t) -> ndo t -> List.length (leaves t) + k = n -> exists t', spans verts t' /\ ndo t'.
Proof.
  intros CN. induction k as [|k IH]; intros t GG N EL.
  - exists t. split; auto. unfold spans. apply NoDup_Permutation_bis; try apply GG. unfold vertices. rewrite seq_length. lia.
  - assert (EX : exists w, In w (vertices verts) /\ ~ In w (leaves t)).
    { destruct (existsb (fun w => negb (if in_dec Nat.eq_dec w (leaves t) then true else false)) (vertices verts)) eqn:E.
      - apply existsb_exists in E. destruct E as (w & Hw & E). exists w. split; auto. destruct (in_dec Nat.eq_dec w (leaves t)); [discriminate|auto].
      - exfalso. assert (incl (vertices verts) (leaves t)) as HI.
        { intros w Hw. destruct (in_dec Nat.eq_dec w (leaves t)) as [|NI]; auto. exfalso. assert (existsb (fun w => negb (if in_dec Nat.eq_dec w (leaves t) then true else false)) (vertices verts) = true); [|congruence].
          apply existsb_exists. exists w. split; auto. destruct (in_dec Nat.eq_dec w (leaves t)); [contradiction|reflexivity]. }
        apply NoDup_incl_length in HI; [|apply seq_NoDup]. unfold vertices in HI. rewrite seq_length in HI. lia. }
    destruct EX as (w & Hw & NW). pose proof (leaves_nonempty t) as NE. destruct (leaves t) as [|u0 l0] eqn:EE; [congruence|]. rewrite <- EE in *.
    assert (U0 : In u0 (leaves t)) by (rewrite EE; simpl; auto).
    destruct (crossing (leaves t) u0 w) as (u & v & Hu & Hv & AD); auto; [apply CN; auto; now apply GG|].
    assert (GV : grp (leaves t ++ [v])).
    { split; [apply NoDup_app; [apply GG|repeat constructor; simpl; tauto|intros z Hz [<-|[]]; contradiction]|]. intros z Hz. apply in_app_iff in Hz. destruct Hz as [Hz|[<-|[]]]; [now apply GG|apply AD]. }
    apply (IH (Node t (Leaf v))); [exact GV| |simpl; rewrite app_length; simpl; lia].
    simpl. split; auto. split; auto. intros _ _. apply (adj_common verts dim WG (leaves t) [v] u v); simpl; auto.
Qed.
Lemma tree_exists : 0 < n -> (exists i, In i (vertices verts) /\ vdiag verts i = false) \/ connected verts -> exists t, spans verts t /\ ndo t.
Proof.
  intros Hn [(i & Hi & D)|CN].
  - assert (Hi' := Hi). apply in_split in Hi'. destruct Hi' as (l1 & l2 & E). destruct (grow_nondiag i (Leaf i) (l1 ++ l2)) as (t & P & N); simpl; auto.
    exists t. split; auto. unfold spans. rewrite P, E. simpl. apply Permutation_middle.
  - apply (grow_conn (n - 1) CN (Leaf 0)); simpl; auto; [|lia]. split; [repeat constructor; simpl; tauto|]. intros z [<-|[]]. apply in_seq. lia.
Qed.

Lemma capping_stops : positive_costs verts dim typ -> 0 < n -> has_min -> (exists i, In i (vertices verts) /\ vdiag verts i = false) \/ connected verts ->
  exists r fuel0, forall fuel, fuel0 <= fuel -> capping symdiff verts typ fuel = Ok r.
Proof.
  intros PC Hn HM EX. destruct (tree_exists Hn EX) as (T & SP & ND). destruct (mins_ok HM Hn) as (chi & EM).
  destruct start_ok as (I0 & B0 & C0 & _). 
  destruct (loop_stops (Nat.max chi 2) T (tree_cost T) PC Hn SP ND ltac:(lia) 0 1 start ltac:(lia) I0 B0 C0) as (s & E).
  { rewrite Nat.mul_1_l. apply Nat.lt_le_incl, Nat.pow_gt_lin_r. lia. }
  destruct (loop_inv (Nat.max chi 2) (S (tree_cost T)) 0 1 start ltac:(lia) ltac:(lia) I0 B0 C0) as [H|(s' & mu & H & I & B & C & O)]; [rewrite H in E; discriminate|].
  pose proof (obj_full s' ltac:(lia) I O) as F. destruct (s_cost (c_st s') (full verts)) as [c0|] eqn:EC; [|congruence].
  destruct (ci_cost _ I _ _ EC) as (OF & _ & t & ON & _ & TC & SQ).
  exists (tseq t, c0), (S (tree_cost T)). intros fuel LE. unfold capping. rewrite EM. cbn [rbind]. change (SearchModel.n verts) with n.
  destruct (Nat.eqb_spec n 0) as [|NZ0]; [lia|]. fold start. replace fuel with (S (tree_cost T) + (fuel - S (tree_cost T))) by lia. rewrite (loop_more _ _ _ _ _ _ _ H). cbn [rbind]. rewrite SQ. cbn [need rbind]. rewrite EC. reflexivity.
Qed.
Lemma capping_never : has_min -> 2 <= n -> (forall i, In i (vertices verts) -> vdiag verts i = true) -> ~ connected verts -> forall fuel, capping symdiff verts typ fuel = Err OutOfFuel.
Proof.
  intros HM Hn AD NC fuel. destruct (mins_ok HM ltac:(lia)) as (chi & EM). unfold capping. rewrite EM. cbn [rbind]. change (SearchModel.n verts) with n.
  destruct (Nat.eqb_spec n 0) as [|NZ0]; [lia|]. fold start. destruct start_ok as (I0 & B0 & C0 & _). rewrite loop_never; auto; [|lia].
  intros s I. destruct (c_obj s n) eqn:EO; auto. exfalso. assert (F : s_cost (c_st s) (full verts) <> None) by (apply obj_full; auto; [lia|rewrite EO; discriminate]).
  destruct (s_cost (c_st s) (full verts)) as [c|] eqn:EC; [|congruence]. destruct (ci_cost _ I _ _ EC) as (_ & _ & t & ON & ND & _). apply NC.
  unfold BfProofs.on in ON. rewrite full_mem in ON. assert (GG : grp (leaves t)) by (eapply grp_perm; [apply Permutation_sym, ON|split; [apply seq_NoDup|apply incl_refl]]).
  destruct (ndo_good t GG ND) as (_ & CN). intros i j Hi Hj. apply CN.
  - unfold SearchSpec.all_dg. apply forallb_forall. intros x Hx. apply AD, GG, Hx.
  - exact (Permutation_in _ (Permutation_sym ON) Hi). - exact (Permutation_in _ (Permutation_sym ON) Hj).
Qed.
Lemma capping_zero : has_min -> 2 <= n -> zero_joins -> forall fuel, capping symdiff verts typ fuel = Err OutOfFuel.
Proof.
  intros HM Hn ZJ fuel. destruct (mins_ok HM ltac:(lia)) as (chi & EM). unfold capping. rewrite EM. cbn [rbind]. change (SearchModel.n verts) with n.
  destruct (Nat.eqb_spec n 0) as [|NZ0]; [lia|]. fold start. destruct start_ok as (I0 & B0 & C0 & AZ & FN). rewrite loop_zero; auto. lia.
Qed.
Lemma capping_no_min fuel : typ = None -> (exists i, In i (vertices verts) /\ vshape verts i = []) -> capping symdiff verts typ fuel = Err ValueError.
Proof. intros T E. unfold capping. now rewrite (mins_fail T E). Qed.
Lemma positive_dims : (forall d, typ = Some d -> 0 < d) -> (forall i e, In i (vertices verts) -> In e (vedges verts i) -> 0 < dim e) -> positive_costs verts dim typ.
Proof.
  intros HT HD G1 G2 N HI N1 N2 J. unfold SearchSpec.join_cost.
  assert (HB : forall G e, incl G (vertices verts) -> In e (bnd verts G) -> 0 < dim e).
  { intros G e HG He. apply bnd_In in He. destruct (proj1 (cnt_pos verts G e) ltac:(lia)) as (i & Hi & Hv). apply (HD i); auto. }
  assert (I1 : incl G1 (vertices verts)) by (intros z Hz; apply HI, in_app_iff; auto). assert (I2 : incl G2 (vertices verts)) by (intros z Hz; apply HI, in_app_iff; auto).
  assert (HS : forall L, (forall e, In e L -> 0 < dim e) -> 0 < size_of dim typ L).
  { intros L HL. unfold size_of. destruct typ as [d|]; [specialize (HT d eq_refl); pose proof (Nat.pow_nonzero d (List.length L)); lia|].
    unfold prodn. clear - HL. induction L as [|e L IH]; simpl in *; [lia|]. specialize (IH (fun z Hz => HL z (or_intror Hz))). specialize (HL e (or_introl eq_refl)). nia. }
  destruct (all_dg G1) eqn:D1, (all_dg G2) eqn:D2.
  - destruct typ as [d|]; [now apply HT|]. specialize (J D1 D2). destruct (common G1 G2) as [|e l] eqn:E; [congruence|]. assert (In e (common G1 G2)) as H by (rewrite E; simpl; auto).
    apply common_In in H. destruct H as (H & _). apply bnd_In in H. destruct (bnd verts G1) as [|e1 l1] eqn:EB; [destruct H|]. apply (HB G1); auto. rewrite EB. simpl. auto.
  - apply HS. intros e He. now apply (HB (G1 ++ G2)).
  - apply HS. intros e He. now apply (HB (G1 ++ G2)).
  - apply HS. intros e He. apply in_app_iff in He. destruct He as [He|He]; [now apply (HB (G1 ++ G2))|]. unfold SearchSpec.common in He. apply filter_In in He. now apply (HB G1).
Qed.
End Cap.
