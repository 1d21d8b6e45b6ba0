(** isIsometry and checkCanonical. *)
From Coq Require Import List Arith Bool Lia String ZArith Permutation.
From Verif Require Import Base Sums NdModel NdProofs HeapModel FuncsModel FuncsProofs TensorModel TensorSpec TensorProofs MatrixProofs
  ContractModel NetSpec ShareProofs SumpairsProofs ContractProofs NetProofs GroupSpec GroupProofs FtnNetSpec SvdModel SvdSpec SchmidtSpec MergeSvdProofs SchmidtProofs
  MpsModel MpsSpec MpsPairProofs MpsProofs MpsSwapProofs MpsMoveProofs CanonModel CanonSpec CanonProofs CanonStepProofs CanonChainProofs CanonRunProofs.
Import ListNotations.
Local Open Scope list_scope.
Local Open Scope nat_scope.

Section Ck.
Context {A : Type} {HA : SR A}.
Notation heap := (heap A).
Variable cj : A -> A.
Variable near : arr A -> bool.

Definition extn (f : assignment -> A) : Prop := forall s s', (forall l, s l = s' l) -> f s = f s'.
Lemma sumlegs_s d : forall L (f : assignment -> A), extn f -> extn (sumlegs d L f).
Proof.
  induction L as [|l L IH]; intros f EF s s' E; cbn [sumlegs]; auto. apply sumN_ext. intros i _. apply IH; auto. intros z. unfold upd. destruct (Nat.eqb z l); auto.
Qed.
Lemma upd_comm (s : assignment) x y p q z : x <> y -> upd (upd s x p) y q z = upd (upd s y q) x p z.
Proof. intros N. unfold upd. destruct (Nat.eqb_spec z y), (Nat.eqb_spec z x); subst; congruence. Qed.
Lemma sumlegs_perm d L L' : Permutation L L' -> forall (f : assignment -> A) s, NoDup L -> extn f -> sumlegs d L f s = sumlegs d L' f s.
Proof.
  induction 1 as [|l L L' P IH|l l' L|L1 L2 L3 P1 IH1 P2 IH2]; intros f s ND EF; cbn [sumlegs]; auto.
  - apply NoDup_cons_iff in ND. apply sumN_ext. intros i _. apply IH; auto; tauto.
  - unfold sumN at 1 2 3 4. rewrite sumL_swap. apply sumL_ext. intros i _. apply sumL_ext. intros j _. apply sumlegs_s; auto. intros z. apply upd_comm.
    intros ->. inversion ND. simpl in *. tauto.
  - rewrite IH1, IH2; auto. eapply Permutation_NoDup; eauto.
Qed.
Lemma sumlegs_upd d x p : forall L (f : assignment -> A) s, ~ In x L -> extn f -> sumlegs d L f (upd s x p) = sumlegs d L (fun a => f (upd a x p)) s.
Proof.
  induction L as [|l L IH]; intros f s N EF; cbn [sumlegs]; auto. apply sumN_ext. intros i _. rewrite <- IH; auto; [|simpl in N; tauto].
  apply sumlegs_s; auto. intros z. apply upd_comm. intros ->. apply N. simpl; auto.
Qed.

Lemma gram_ext (h : heap) t cl s' : extn (fun a => rmul (entry h t a) (cj (entry h t (overlay cl a s')))).
Proof. intros a b E. f_equal; [|f_equal]; apply entry_ext; intros l _; auto. unfold overlay. destruct (inb l cl); auto. Qed.

Lemma pair_ext (h : heap) t x p q : extn (fun a => rmul (entry h t (upd a x p)) (cj (entry h t (upd a x q)))).
Proof. intros a b E. f_equal; [|f_equal]; apply entry_ext; intros l _; unfold upd; destruct (Nat.eqb l x); auto. Qed.

Lemma isIsometry_split (h : heap) t labs rl cl : wf_tensor h t -> t_like (tens h t) = false -> labelsInTensor h t labs = true -> split_of h t None (Some (map RStr labs)) rl cl ->
  exists g, isIsometry cj near h t labs = Ok (near g) /\ gram cj h t rl cl g.
Proof.
  intros W NL LA Sp. destruct (toMatrix_split h t _ _ rl cl W NL Sp) as (m & EM & WM & SM & G).
  pose proof (split_perm _ _ _ _ _ _ (wt_nodup _ _ W) Sp) as P. assert (ND : NoDup (rl ++ cl)) by (eapply Permutation_NoDup; [symmetry; exact P|apply W]).
  set (dr := map (dim_of h) rl) in *. set (dc := map (dim_of h) cl) in *.
  pose (mc := tab [prodn dc; prodn dr] (fun idx => cj (aget m [nth 1 idx 0; nth 0 idx 0]))).
  destruct (matmul_spec m mc (prodn dr) (prodn dc) (prodn dr) SM eq_refl) as (g & EG & WG & SG & GG).
  exists g. split.
  - unfold isIsometry. rewrite LA, NL, EM. cbn [rbind]. unfold transposeConjugate. rewrite SM. cbn [rbind]. fold mc. now rewrite EG.
  - split; auto. split; auto. intros s s' IB IB'. fold dr. fold dr in IB, IB'.
    assert (IR : forall s, in_bounds h rl s -> inrange dr (map s rl)) by (intros s0 H; apply inrange_map; auto).
    rewrite GG by (apply ravel_lt, IR; auto). rewrite sumlegs_indices; [|apply NoDup_app_inv in ND; tauto|apply gram_ext].
    fold dc. rewrite sumN_indices. apply sumL_ext. intros idx Hidx. apply indices_In in Hidx.
    assert (LI : List.length idx = List.length cl) by (rewrite (inrange_length _ _ Hidx); unfold dc; apply map_length).
    assert (NDc : NoDup cl) by (apply NoDup_app_inv in ND; tauto).
    unfold mc. rewrite aget_tab; [|repeat constructor; apply ravel_lt; auto]. cbn [nth].
    assert (KEY : forall u v, (forall l, In l cl -> v l = put cl idx s l) -> (forall l, In l rl -> v l = u l) -> in_bounds h rl u -> aget m [ravel dr (map u rl); ravel dc idx] = entry h t v).
    { intros u v VC VR IU. assert (EC : map v cl = idx) by (rewrite <- (put_map cl idx s NDc LI); apply map_ext_in; auto).
      assert (ER : map v rl = map u rl) by (apply map_ext_in; auto). rewrite <- G.
      - fold dr dc. now rewrite EC, ER.
      - intros l Hl. apply (Permutation_in _ (Permutation_sym P)), in_app_iff in Hl. destruct Hl as [Hl|Hl]; [rewrite VR; auto|].
        apply (inrange_map_inv (dim_of h) v cl); auto. now rewrite EC. }
    f_equal; [|f_equal].
    + apply KEY; auto. intros l Hl. apply put_out. intros Hc. apply (NoDup_app_disj _ _ l ND Hl Hc).
    + apply KEY; auto.
      * intros l Hl. unfold overlay. apply inb_spec in Hl. now rewrite Hl.
      * intros l Hl. unfold overlay. destruct (inb l cl) eqn:E; auto. apply inb_spec in E. destruct (NoDup_app_disj _ _ l ND Hl E).
Qed.
Lemma isIsometry_missing (h : heap) t labs s : In s labs -> (forall l, In l (legs_of h t) -> l_name (legs h l) <> NStr s) -> isIsometry cj near h t labs = Err AssertionError.
Proof. intros Hs N. unfold isIsometry. now rewrite (label_gone h t labs s Hs N). Qed.
Lemma labels_in (h : heap) t labs : (forall s, In s labs -> exists l, In l (legs_of h t) /\ l_name (legs h l) = NStr s) -> labelsInTensor h t labs = true.
Proof.
  intros H. unfold labelsInTensor. apply forallb_forall. intros s Hs. apply inb_spec. destruct (H s Hs) as (l & Hl & E).
  rewrite <- E. unfold labels, legname, tlegs. apply in_map_iff. eauto.
Qed.
Lemma isIsometry_like (h : heap) t labs : (forall s, In s labs -> exists l, In l (legs_of h t) /\ l_name (legs h l) = NStr s) -> t_like (tens h t) = true -> isIsometry cj near h t labs = Ok true.
Proof. intros H L. unfold isIsometry. now rewrite (labels_in _ _ _ H), L. Qed.
Lemma split_labels (h : heap) t labs rl cl : split_of h t None (Some (map RStr labs)) rl cl -> forall s, In s labs -> exists l, In l (legs_of h t) /\ l_name (legs h l) = NStr s.
Proof.
  intros Sp. inversion Sp as [| |cs cl' RF ND IC]; subst. destruct RF as [NE [RF|(ss & RF & F2)]].
  - destruct labs; [now destruct NE|]. destruct cl; discriminate.
  - assert (ss = labs) as ->. { clear - RF. revert ss RF. induction labs as [|s labs IH]; intros [|s' ss] E; try discriminate; auto. simpl in E. injection E as E1 E2. f_equal; auto. }
    intros s Hs. clear - F2 Hs. induction F2 as [|s' l labs cl F F2 IH]; [destruct Hs|]. destruct Hs as [->|Hs]; auto.
    destruct F as (u & v & E & NM & _). exists l. split; auto. rewrite E. apply in_app_iff. simpl; auto.
Qed.
Lemma isIsometry_bad (h : heap) t labs : wf_tensor h t -> t_like (tens h t) = false -> (forall rl cl, ~ split_of h t None (Some (map RStr labs)) rl cl) ->
  exists e, isIsometry cj near h t labs = Err e.
Proof.
  intros W L N. unfold isIsometry. destruct (labelsInTensor h t labs); [|eauto]. rewrite L. pose proof (toMatrix_spec h t None (Some (map RStr labs)) W L) as T.
  destruct (toMatrix h t None (Some (map RStr labs))) as [m|e]; [|simpl; eauto]. destruct T as (rl & cl & Sp & _). destruct (N _ _ Sp).
Qed.

(** one row leg *)
Lemma gram_isometry (h : heap) t x cl g : Permutation (x :: cl) (legs_of h t) -> NoDup (legs_of h t) -> gram cj h t [x] cl g -> 
  identity_matrix g (dim_of h x) <-> isometry cj h t x.
Proof.
  intros P ND (WG & SG & G). assert (ND' : NoDup (x :: cl)) by (eapply Permutation_NoDup; [symmetry; exact P|auto]). apply NoDup_cons_iff in ND'. destruct ND' as [NI NDc].
  assert (PO : Permutation cl (others (legs_of h t) [x])).
  { unfold others. apply NoDup_Permutation; auto; [now apply NoDup_filter|]. intros l. rewrite filter_In, negb_true_iff. rewrite <- not_true_iff_false, inb_spec. simpl. split.
    - intros H. split; [apply (Permutation_in _ P); simpl; auto|]. intros [->|[]]. auto.
    - intros [H1 H2]. apply (Permutation_in _ (Permutation_sym P)) in H1. destruct H1 as [->|H1]; auto. destruct H2; auto. }
  assert (KEY : forall p q s, p < dim_of h x -> q < dim_of h x -> aget g [p; q] =
    sumlegs (dim_of h) (others (legs_of h t) [x]) (fun a => rmul (entry h t (upd a x p)) (cj (entry h t (upd a x q)))) s).
  { intros p q s Hp Hq. pose proof (G (upd s x p) (upd s x q)) as GG. cbn [map] in GG. rewrite !upd_same in GG.
    assert (RV : forall p, ravel [dim_of h x] [p] = p) by (intros; cbn; lia). rewrite !RV in GG. rewrite GG.
    - rewrite sumlegs_upd; [|auto|apply gram_ext]. rewrite <- (sumlegs_perm (dim_of h) cl _ PO) by (auto using pair_ext).
      apply sumlegs_ext; auto. intros a. f_equal. f_equal. apply entry_ext. intros l Hl. apply (Permutation_in _ (Permutation_sym P)) in Hl. unfold overlay. destruct Hl as [<-|Hl].
      + destruct (inb x cl) eqn:E; [apply inb_spec in E; tauto|]. now rewrite !upd_same.
      + assert (E := Hl). apply inb_spec in E. rewrite E, !upd_other; auto; intros ->; auto.
    - intros l [<-|[]]. now rewrite upd_same.
    - intros l [<-|[]]. now rewrite upd_same. }
  split.
  - intros I p q s Hp Hq. rewrite <- (KEY p q s Hp Hq). now apply I.
  - intros I p q Hp Hq. rewrite (KEY p q (fun _ => 0) Hp Hq). now apply I.
Qed.

Lemma first_unique (h : heap) t l n : NoDup (legs_of h t) -> In l (legs_of h t) -> l_name (legs h l) = n -> (forall l', In l' (legs_of h t) -> l_name (legs h l') = n -> l' = l) -> first_named h t n l.
Proof.
  intros ND Hl E U. destruct (in_split _ _ Hl) as (u & v & EL). exists u, v. split; auto. split; auto. intros l' Hu EN.
  assert (l' = l) as -> by (apply U; auto; rewrite EL; apply in_app_iff; auto). rewrite EL in ND. apply NoDup_remove_2 in ND. apply ND, in_app_iff. auto.
Qed.

Section Chain.
Variables (h : heap) (ts : list tid) (os : list lid) (env : list tid) (lf rt : nat -> lid).
Hypothesis CH : chain h ts os env lf rt.
Notation n := (List.length ts).

Lemma site_wf k : k < n -> wf_tensor h (nth k ts 0).
Proof. intros H. apply (wn_wf _ _ (wo_net _ _ (ch_wf _ _ _ _ _ _ CH))). apply in_app_iff. left. now apply nth_In. Qed.

Lemma site_split k labs cl x : k < n -> labs <> [] -> Permutation (legs_of h (nth k ts 0)) (x :: cl) -> Forall2 (fun s l => l_name (legs h l) = NStr s) labs cl -> NoDup (x :: cl) ->
  NoDup (l_name (legs h x) :: map (fun l => l_name (legs h l)) cl) -> split_of h (nth k ts 0) None (Some (map RStr labs)) [x] cl.
Proof.
  intros Hk NE P F2 ND NN. pose proof (site_wf k Hk) as W.
  assert (EO : others (legs_of h (nth k ts 0)) cl = [x]).
  { apply Permutation_length_1_inv. apply NoDup_Permutation; [repeat constructor; auto|apply NoDup_filter, W|]. intros l. unfold others. rewrite filter_In, negb_true_iff, <- not_true_iff_false, inb_spec.
    apply NoDup_cons_iff in ND. split.
    - intros [<-|[]]. split; [|tauto]. apply (Permutation_in _ (Permutation_sym P)). simpl; auto.
    - intros [H1 H2]. apply (Permutation_in _ P) in H1. destruct H1 as [->|H1]; [simpl; auto|tauto]. }
  rewrite <- EO at 1. apply split_cols.
  - split; [destruct labs; [congruence|discriminate]|]. right. exists labs. split; auto.
    assert (UQ : forall l l', In l (x :: cl) -> In l' (x :: cl) -> l_name (legs h l) = l_name (legs h l') -> l = l').
    { change (NoDup (map (fun l => l_name (legs h l)) (x :: cl))) in NN. clear - NN. induction (x :: cl) as [|a L IH]; intros l l' H1 H2 E; [destruct H1|].
      cbn [map] in NN. apply NoDup_cons_iff in NN. destruct NN as [N1 N2]. destruct H1 as [<-|H1], H2 as [<-|H2]; auto.
      - destruct N1. rewrite E. now apply (in_map (fun l => l_name (legs h l))).
      - destruct N1. rewrite <- E. now apply (in_map (fun l => l_name (legs h l))). }
    assert (IC : incl cl (x :: cl)) by (intros l Hl; simpl; auto). clear - F2 IC UQ W P. revert IC. generalize (x :: cl) as all, UQ, P. clear P UQ.
    intros all UQ P. induction F2 as [|s l labs cl E F2 IH]; intros IC; constructor; [|apply IH; intros z Hz; apply IC; simpl; auto].
    apply first_unique; auto; [apply W|apply (Permutation_in _ (Permutation_sym P)), IC; simpl; auto|]. intros l' Hl' E'. apply UQ; [apply (Permutation_in _ P); auto|apply IC; simpl; auto|congruence].
  - now apply NoDup_cons_iff in ND.
  - intros l Hl. apply (Permutation_in _ (Permutation_sym P)). simpl; auto.
Qed.

(** what is tested at position k *)
Lemma site_check k e chi act : k < n -> e < n -> k <> e -> exists g,
  let x := if Nat.ltb k e then rt k else lf k in
  isIsometry cj near h (site (mkMps ts chi act) (Z.of_nat k)) (sumLabels (mlen (mkMps ts chi act)) (Z.of_nat k) (Z.of_nat e)) = Ok (near g) /\
  wfa g /\ ashape g = [dim_of h x; dim_of h x] /\ (identity_matrix g (dim_of h x) <-> isometry cj h (nth k ts 0) x).
Proof.
  intros Hk He NE. unfold site, sumLabels, mlen. cbn [m_ts]. rewrite Nat2Z.id. pose proof (site_wf k Hk) as W.
  assert (KD : t_like (tens h (nth k ts 0)) = false) by (apply (ch_kind _ _ _ _ _ _ CH), nth_In; auto).
  assert (PL := ch_legs _ _ _ _ _ _ CH k Hk).
  assert (NO := ch_o _ _ _ _ _ _ CH k Hk).
  assert (MAIN : forall labs cl x, labs <> [] -> Permutation (legs_of h (nth k ts 0)) (x :: cl) -> Forall2 (fun s l => l_name (legs h l) = NStr s) labs cl ->
    NoDup (l_name (legs h x) :: map (fun l => l_name (legs h l)) cl) -> exists g, isIsometry cj near h (nth k ts 0) labs = Ok (near g) /\
    wfa g /\ ashape g = [dim_of h x; dim_of h x] /\ (identity_matrix g (dim_of h x) <-> isometry cj h (nth k ts 0) x)).
  { intros labs cl x NL P F2 NN. assert (ND : NoDup (x :: cl)) by (eapply Permutation_NoDup; [exact P|apply W]).
    pose proof (site_split k labs cl x Hk NL P F2 ND NN) as Sp.
    destruct (isIsometry_split h (nth k ts 0) labs [x] cl W KD) as (g & E & G); auto; [apply labels_in; eapply split_labels; eauto|].
    exists g. split; auto. pose proof (gram_isometry h (nth k ts 0) x cl g (Permutation_sym P) (wt_nodup _ _ W) G) as IFF.
    destruct G as (WG & SG & _). cbn in SG. rewrite Nat.mul_1_r in SG. auto. }
  destruct (Nat.ltb_spec k e) as [LT|GE]; cbv zeta.
  - destruct (Nat.ltb_spec (S k) n) as [_|]; [|lia]. pose proof (ch_r _ _ _ _ _ _ CH k ltac:(lia)) as NR. destruct k as [|k].
    + cbn [Nat.ltb Nat.leb opt app] in PL. change (Z.eqb (Z.of_nat 0) 0) with true. cbn [orb].
      apply (MAIN ["o"%string] [nth 0 os 0] (rt 0)); [discriminate|exact PL|repeat constructor; auto|]. cbn [map]. rewrite NO, NR. repeat constructor; simpl; intuition discriminate.
    + pose proof (ch_l _ _ _ _ _ _ CH k ltac:(lia)) as NLL. cbn [Nat.ltb Nat.leb opt app] in PL.
      destruct (Z.eqb_spec (Z.of_nat (S k)) 0) as [Q0|Q0]; [lia|]. destruct (Z.eqb_spec (Z.of_nat (S k)) (Z.of_nat n - 1)) as [Q1|Q1]; [lia|]. cbn [orb]. destruct (Z.ltb_spec (Z.of_nat (S k)) (Z.of_nat e)); [|lia].
      apply (MAIN ["l"; "o"]%string [lf (S k); nth (S k) os 0] (rt (S k))); [discriminate|rewrite PL; apply perm_swap|repeat constructor; auto|]. cbn [map]. rewrite NO, NR, NLL. repeat constructor; simpl; intuition discriminate.
  - destruct k as [|k]; [lia|]. pose proof (ch_l _ _ _ _ _ _ CH k ltac:(lia)) as NLL. change (Nat.ltb 0 (S k)) with true in PL.
    destruct (Z.eqb_spec (Z.of_nat (S k)) 0) as [Q0|Q0]; [lia|]. cbn [orb]. destruct (Z.eqb_spec (Z.of_nat (S k)) (Z.of_nat n - 1)) as [EQ|NQ].
    + destruct (Nat.ltb_spec (S (S k)) n); [lia|]. cbn [opt app] in PL.
      apply (MAIN ["o"%string] [nth (S k) os 0] (lf (S k))); [discriminate|exact PL|repeat constructor; auto|]. cbn [map]. rewrite NO, NLL. repeat constructor; simpl; intuition discriminate.
    + destruct (Nat.ltb_spec (S (S k)) n); [|lia]. cbn [opt app] in PL. pose proof (ch_r _ _ _ _ _ _ CH (S k) ltac:(lia)) as NR. destruct (Z.ltb_spec (Z.of_nat (S k)) (Z.of_nat e)); [lia|].
      apply (MAIN ["r"; "o"]%string [rt (S k); nth (S k) os 0] (lf (S k))); [discriminate|exact PL|repeat constructor; auto|]. cbn [map]. rewrite NO, NR, NLL. repeat constructor; simpl; intuition discriminate.
Qed.

Lemma checkSites_run e chi act : e < n -> forall ks, (forall k, In k ks -> k < n) -> exists b,
  checkSites cj near h (mkMps ts chi act) (Z.of_nat e) (map Z.of_nat ks) = Ok b /\
  (accepts_identity near -> (forall k, In k ks -> k <> e -> isometry cj h (nth k ts 0) (if Nat.ltb k e then rt k else lf k)) -> b = true) /\
  (exact_identity near -> b = true -> forall k, In k ks -> k <> e -> isometry cj h (nth k ts 0) (if Nat.ltb k e then rt k else lf k)).
Proof.
  intros He. induction ks as [|k ks IH]; intros IN.
  - exists true. split; [reflexivity|]. split; auto. intros _ _ k [].
  - destruct IH as (b & E & B1 & B2); [intros z Hz; apply IN; simpl; auto|]. cbn [map checkSites]. destruct (Z.eqb_spec (Z.of_nat k) (Z.of_nat e)) as [EQ|NQ].
    + exists b. split; auto. split; [intros AC H; apply B1; auto; intros z Hz; apply H; simpl; auto|]. intros EX EB z [->|Hz] NZ; [lia|auto].
    + destruct (site_check k e chi act) as (g & EG & WG & SG & IFF); [apply IN; simpl; auto|auto|lia|]. rewrite EG. cbn [rbind]. destruct (near g) eqn:NG.
      * exists b. split; auto. split; [intros AC H; apply B1; auto; intros z Hz; apply H; simpl; auto|]. intros EX EB z [<-|Hz] NZ; auto.
        apply IFF. now apply (EX g _ WG SG).
      * exists false. split; auto. split; [|discriminate]. intros AC H. rewrite <- NG. apply (AC g _ WG SG). apply IFF. apply H; [simpl; auto|lia].
Qed.
Lemma range_seq : rangeUp 0 (Z.of_nat n) = map Z.of_nat (seq 0 n).
Proof. unfold rangeUp. rewrite Z.sub_0_r, Nat2Z.id. apply map_ext. intros; lia. Qed.

Lemma checkCanonical_at e chi act : e < n -> exists b, checkSites cj near h (mkMps ts chi act) (Z.of_nat e) (rangeUp 0 (mlen (mkMps ts chi act))) = Ok b /\
  (accepts_identity near -> canonical cj h ts lf rt e -> b = true) /\ (exact_identity near -> b = true -> canonical cj h ts lf rt e).
Proof.
  intros He. unfold mlen. cbn [m_ts]. rewrite range_seq. destruct (checkSites_run e chi act He (seq 0 n)) as (b & E & B1 & B2); [intros k Hk; apply in_seq in Hk; lia|].
  exists b. split; auto. split.
  - intros AC [C1 C2]. apply B1; auto. intros k Hk NE. apply in_seq in Hk. destruct (Nat.ltb_spec k e); [apply C1; auto|apply C2; lia].
  - intros EX EB. split.
    + intros k Hk. specialize (B2 EX EB k). destruct (Nat.ltb_spec k e); [|lia]. apply B2; [apply in_seq|]; lia.
    + intros k Hk Hn. specialize (B2 EX EB k). destruct (Nat.ltb_spec k e); [lia|]. apply B2; [apply in_seq|]; lia.
Qed.
Lemma checkCanonical_ok e chi act arg : arg = Some (Z.of_nat e) \/ arg = None /\ act = Some (Z.of_nat e) -> e < n -> exists b, checkCanonical cj near h (mkMps ts chi act) arg = Ok b /\
  (accepts_identity near -> canonical cj h ts lf rt e -> b = true) /\ (exact_identity near -> b = true -> canonical cj h ts lf rt e).
Proof.
  intros HA' He. destruct (checkCanonical_at e chi act He) as (b & E & B). exists b. split; auto. unfold checkCanonical. cbn [m_active].
  assert (II : isIndex (mkMps ts chi act) (Z.of_nat e) = true) by (apply index_spec; lia).
  destruct HA' as [->|[-> ->]]; now rewrite II.
Qed.
End Chain.

Lemma checkCanonical_rejected (h : heap) ts chi act arg : match arg, act with
    | Some e, _ => ~ (0 <= e < Z.of_nat (List.length ts))%Z
    | None, Some e => ~ (0 <= e < Z.of_nat (List.length ts))%Z
    | None, None => True end ->
  checkCanonical cj near h (mkMps ts chi act) arg = Err AssertionError.
Proof.
  intros H. unfold checkCanonical. cbn [m_active].
  destruct arg as [e|]; [|destruct act as [e|]; auto]; (destruct (isIndex (mkMps ts chi act) e) eqn:E; auto; apply index_spec in E; tauto) || idtac.
  destruct (isIndex (mkMps ts chi (Some e)) e) eqn:E; auto. apply index_spec in E. tauto.
Qed.
End Ck.

Lemma check_after {A} {HA : SR A} (lib : linalg A) (cj : A -> A) near : svd_total lib -> svd_orthonormal cj lib -> accepts_identity near ->
  forall (h : heap A) ts os env i chi act, is_mps h ts os env -> i < List.length ts -> (0 <= chi)%Z ->
  exists h' m, canonicalize lib (Z.of_nat i) (mkMps ts chi act) h = (h', Ok m) /\ is_mps h' (m_ts m) os env /\
    checkCanonical cj near h' m None = Ok true /\ checkCanonical cj near h' m (Some (Z.of_nat i)) = Ok true.
Proof.
  intros ST OR AC h ts os env i chi act (lf & rt & CH) Hi HC. destruct (canonicalize_ok lib ST h ts os env lf rt i chi act CH Hi HC) as (h' & ts' & lf' & rt' & E & MV & _ & CN & _).
  exists h', (mkMps ts' chi (Some (Z.of_nat i))). split; auto. assert (CH' := mv_chain _ _ _ _ _ _ _ _ _ _ _ _ _ _ MV). split; [exists lf', rt'; exact CH'|].
  assert (Hi' : i < List.length ts') by (rewrite (mv_len _ _ _ _ _ _ _ _ _ _ _ _ _ _ MV); auto).
  destruct (checkCanonical_ok cj near h' ts' os env lf' rt' CH' i chi (Some (Z.of_nat i)) None) as (b & E1 & B1 & _); auto.
  destruct (checkCanonical_ok cj near h' ts' os env lf' rt' CH' i chi (Some (Z.of_nat i)) (Some (Z.of_nat i))) as (b2 & E2 & B2 & _); auto.
  rewrite E1, E2, B1, B2; auto.
Qed.
