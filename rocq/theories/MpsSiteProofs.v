(** A run of neighbouring sites of a chain replaced by one site. *)
From Coq Require Import List Arith Bool Lia String ZArith Permutation.
From Verif Require Import Base Sums NdModel NdProofs HeapModel FuncsModel FuncsProofs TensorModel TensorSpec MatrixProofs
  ContractModel NetSpec ShareProofs LinkProofs SumpairsProofs ContractProofs OuterProofs NetProofs MergeLinkProofs GroupSpec GroupProofs NetSameProofs
  SvdModel SvdSpec SchmidtProofs MpsModel MpsSpec MpsProofs MpsSwapProofs MpsMoveProofs MpsPreProofs MpsContractModel MpsContractSpec MpsOpenProofs MpsCommonProofs.
Import ListNotations.
Local Open Scope list_scope.
Local Open Scope nat_scope.

Section Bd.
Context {A : Type} {HA : SR A}.
Notation heap := (heap A).

Definition sh_l (p d : nat) (lf : nat -> lid) (i : nat) : lid := if Nat.leb i p then lf i else lf (i + d).
Definition sh_r (p d : nat) (rt : nat -> lid) (i : nat) : lid := if Nat.ltb i p then rt i else rt (i + d).

Section Build.
Variables (h h' : heap) (XA M YA : list tid) (XO MO YO : list lid) (env env' : list tid) (lf rt : nat -> lid) (d : nat) (t : tid) (x : lid).
Hypothesis C : chain h (XA ++ M ++ YA) (XO ++ MO ++ YO) env lf rt.
Hypothesis LM : List.length M = S d.
Hypothesis LMO : List.length MO = S d.
Hypothesis LX : List.length XO = List.length XA.
Notation p := (List.length XA).
Notation ts := (XA ++ M ++ YA).
Notation os := (XO ++ MO ++ YO).
Notation ts' := (XA ++ [t] ++ YA).
Notation os' := (XO ++ [x] ++ YO).
Hypothesis U : untouched h (XA ++ YA) h'.
Hypothesis WO : wf_open h' (ts' ++ env').
Hypothesis KD : t_diag (tens h' t) = false /\ t_like (tens h' t) = false.
Hypothesis LT : Permutation (legs_of h' t) (opt (Nat.ltb 0 p) (lf p) ++ opt (Nat.ltb 0 (List.length YA)) (rt (p + d)) ++ [x]).
Hypothesis NX : l_name (legs h' x) = NStr "o".
Hypothesis KB : forall l, In l (opt (Nat.ltb 0 p) (lf p) ++ opt (Nat.ltb 0 (List.length YA)) (rt (p + d))) ->
  l_name (legs h' l) = l_name (legs h l) /\ forall l', linked h' l l' <-> linked h l l'.
Hypothesis OX : forall l', In l' (all_legs h' ts') -> ~ linked h' x l'.

Lemma bd_len : List.length ts = p + S d + List.length YA /\ List.length ts' = p + 1 + List.length YA /\ List.length YO = List.length YA.
Proof. pose proof (ch_len _ _ _ _ _ _ C) as L. rewrite !app_length in *. cbn [List.length]. lia. Qed.
Lemma bd_lo i : i < p -> nth i ts' 0 = nth i ts 0 /\ nth i os' 0 = nth i os 0 /\ In (nth i ts 0) (XA ++ YA).
Proof. intros H. rewrite !(app_nth1 XA), !(app_nth1 XO) by lia. split; auto. split; auto. apply in_app_iff. left. now apply nth_In. Qed.
Lemma bd_hi j : j < List.length YA -> nth (p + 1 + j) ts' 0 = nth (p + S d + j) ts 0 /\ nth (p + 1 + j) os' 0 = nth (p + S d + j) os 0 /\ In (nth (p + S d + j) ts 0) (XA ++ YA).
Proof.
  intros H. destruct bd_len as (_ & _ & LY). rewrite !(app_nth2 XA), !(app_nth2 XO) by lia. rewrite LX.
  replace (p + 1 + j - p) with (1 + j) by lia. replace (p + S d + j - p) with (S d + j) by lia.
  rewrite (app_nth2 M), (app_nth2 MO) by lia. rewrite LM, LMO. replace (S d + j - S d) with j by lia. cbn [app nth Nat.add].
  split; auto. split; auto. apply in_app_iff. right. now apply nth_In.
Qed.
Lemma bd_mid : nth p ts' 0 = t /\ nth p os' 0 = x.
Proof. rewrite (app_nth2 XA), (app_nth2 XO) by lia. rewrite LX, Nat.sub_diag. auto. Qed.
Lemma bd_case i : i < List.length ts' -> i < p \/ i = p \/ exists j, j < List.length YA /\ i = p + 1 + j.
Proof. intros H. destruct bd_len as (_ & L & _). destruct (lt_eq_lt_dec i p) as [[G|G]|G]; auto. right; right. exists (i - p - 1). lia. Qed.
Lemma bd_site u l : In u (XA ++ YA) -> In l (legs_of h u) -> In l (all_legs h (XA ++ YA)) /\ In l (all_legs h ts).
Proof.
  intros Hu Hl. assert (In l (all_legs h (XA ++ YA))) by (apply in_flat_map; eauto). split; auto. eapply all_incl; [|exact H].
  intros w Hw. rewrite !in_app_iff in *. tauto.
Qed.
Lemma bd_legs u : In u (XA ++ YA) -> legs_of h' u = legs_of h u.
Proof. intros Hu. unfold legs_of. now rewrite (ut_tens _ _ _ U). Qed.
Lemma bd_keep u l : In u (XA ++ YA) -> In l (legs_of h u) -> l_name (legs h' l) = l_name (legs h l) /\ forall l', linked h' l l' <-> linked h l l'.
Proof. intros Hu Hl. destruct (bd_site u l Hu Hl) as [H _]. rewrite (ut_legs _ _ _ U l H). split; auto. intros l'. now apply (ut_links _ _ _ U). Qed.
(** every leg of the new chain except x is a leg of the old one *)
Lemma bd_all l : In l (all_legs h' ts') -> l = x \/ (In l (all_legs h ts) /\ l_name (legs h' l) = l_name (legs h l) /\ forall l', linked h' l l' <-> linked h l l').
Proof.
  intros H. apply in_flat_map in H. destruct H as (u & Hu & Hl). rewrite !in_app_iff in Hu. simpl in Hu. destruct bd_len as (LN & _ & _).
  assert (CS : u = t \/ In u (XA ++ YA)) by (rewrite in_app_iff; intuition). destruct CS as [->|HU].
  - change (In l (legs_of h' t)) in Hl. eapply Permutation_in in Hl; [|exact LT]. rewrite app_assoc in Hl. apply in_app_iff in Hl.
    destruct Hl as [Hl|[<-|[]]]; auto. right. split; [|now apply KB]. apply in_app_iff in Hl. destruct Hl as [Hl|Hl].
    + unfold opt in Hl. destruct (Nat.ltb_spec 0 p) as [G|G]; [|destruct Hl]. destruct Hl as [<-|[]]. assert (HP : p < List.length ts) by lia.
      apply (ch_all _ _ p _ HP). destruct p as [|p'] eqn:EP; [lia|]. now apply (ch_in_l _ _ _ _ _ _ C).
    + unfold opt in Hl. destruct (Nat.ltb_spec 0 (List.length YA)) as [G|G]; [|destruct Hl]. destruct Hl as [<-|[]].
      assert (HP : p + d < List.length ts) by lia. apply (ch_all _ _ _ _ HP). apply (ch_in_r _ _ _ _ _ _ C). lia.
  - change (In l (legs_of h' u)) in Hl. rewrite (bd_legs u HU) in Hl. right. split; [now apply (bd_site u l)|]. now apply (bd_keep u).
Qed.
Lemma bd_x_in : In x (all_legs h' ts').
Proof.
  apply in_flat_map. exists t. split; [rewrite !in_app_iff; simpl; auto|]. change (In x (legs_of h' t)). eapply Permutation_in; [symmetry; exact LT|].
  rewrite !in_app_iff. simpl; auto.
Qed.
Lemma bd_lf i : S i < List.length ts' -> l_name (legs h' (sh_l p d lf (S i))) = NStr "l".
Proof.
  intros Hi. destruct bd_len as (LN & LN' & LY). unfold sh_l. destruct (Nat.leb_spec (S i) p) as [G|G].
  - destruct (Nat.eq_dec (S i) p) as [E|E].
    + destruct (KB (lf (S i))) as [-> _]; [|apply (ch_l _ _ _ _ _ _ C); lia]. rewrite E. apply in_app_iff. left. destruct (Nat.ltb_spec 0 p); [simpl; auto|lia].
    + assert (G' : S i < p) by lia. destruct (bd_lo (S i) G') as (_ & _ & I). destruct (bd_keep _ (lf (S i)) I) as [-> _]; [apply (ch_in_l _ _ _ _ _ _ C); lia|apply (ch_l _ _ _ _ _ _ C); lia].
  - assert (HJ : S i - p - 1 < List.length YA) by lia. destruct (bd_hi _ HJ) as (_ & _ & I). replace (p + S d + (S i - p - 1)) with (S (i + d)) in I by lia. cbn [Nat.add].
    destruct (bd_keep _ (lf (S (i + d))) I) as [-> _]; [apply (ch_in_l _ _ _ _ _ _ C); lia|apply (ch_l _ _ _ _ _ _ C); lia].
Qed.
Lemma bd_rt_kept i : S i < List.length ts' -> l_name (legs h' (sh_r p d rt i)) = l_name (legs h (sh_r p d rt i)) /\ forall l', linked h' (sh_r p d rt i) l' <-> linked h (sh_r p d rt i) l'.
Proof.
  intros Hi. destruct bd_len as (LN & LN' & LY). unfold sh_r. destruct (Nat.ltb_spec i p) as [G|G].
  - destruct (bd_lo i G) as (_ & _ & I). apply (bd_keep _ _ I). apply (ch_in_r _ _ _ _ _ _ C). lia.
  - destruct (Nat.eq_dec i p) as [E|E].
    + subst i. apply KB. apply in_app_iff. right. destruct (Nat.ltb_spec 0 (List.length YA)); [simpl; auto|lia].
    + assert (HJ : i - p - 1 < List.length YA) by lia. destruct (bd_hi _ HJ) as (_ & _ & I). replace (p + S d + (i - p - 1)) with (i + d) in I by lia.
      apply (bd_keep _ _ I). apply (ch_in_r _ _ _ _ _ _ C). lia.
Qed.
Lemma bd_rl i : S i < List.length ts' -> l_name (legs h (sh_r p d rt i)) = NStr "r" /\ linked h (sh_r p d rt i) (sh_l p d lf (S i)).
Proof.
  intros Hi. destruct bd_len as (LN & LN' & LY). unfold sh_r, sh_l. destruct (Nat.ltb_spec i p) as [G|G]; destruct (Nat.leb_spec (S i) p) as [G'|G']; try lia.
  - split; [apply (ch_r _ _ _ _ _ _ C); lia|apply (ch_link _ _ _ _ _ _ C); lia].
  - cbn [Nat.add]. split; [apply (ch_r _ _ _ _ _ _ C); lia|apply (ch_link _ _ _ _ _ _ C); lia].
Qed.
Lemma build_chain : chain h' ts' os' env' (sh_l p d lf) (sh_r p d rt).
Proof.
  destruct bd_len as (LN & LN' & LY). constructor.
  - rewrite !app_length. cbn [List.length]. lia.
  - exact WO.
  - intros u Hu. rewrite !in_app_iff in Hu. simpl in Hu. assert (CS : u = t \/ In u (XA ++ YA)) by (rewrite in_app_iff; intuition). destruct CS as [->|HU]; auto.
    rewrite (ut_tens _ _ _ U u HU). apply (ch_kind _ _ _ _ _ _ C). rewrite !in_app_iff in *. tauto.
  - intros i Hi. destruct (bd_case i Hi) as [G|[->|(j & Hj & ->)]].
    + destruct (bd_lo i G) as (-> & -> & I). rewrite (bd_legs _ I). assert (Hi' : i < List.length ts) by lia. rewrite (ch_legs _ _ _ _ _ _ C i Hi').
      unfold sh_l, sh_r. destruct (Nat.leb_spec i p); [|lia]. destruct (Nat.ltb_spec i p); [|lia].
      destruct (Nat.ltb_spec (S i) (List.length ts)); [|lia]. destruct (Nat.ltb_spec (S i) (List.length ts')); [|lia]. reflexivity.
    + destruct bd_mid as (-> & ->). rewrite LT. unfold sh_l, sh_r. destruct (Nat.leb_spec p p); [|lia]. destruct (Nat.ltb_spec p p); [lia|].
      destruct (Nat.ltb_spec 0 (List.length YA)); destruct (Nat.ltb_spec (S p) (List.length ts')); try lia; reflexivity.
    + destruct (bd_hi j Hj) as (-> & -> & I). rewrite (bd_legs _ I). assert (Hi' : p + S d + j < List.length ts) by lia. rewrite (ch_legs _ _ _ _ _ _ C _ Hi').
      unfold sh_l, sh_r. destruct (Nat.leb_spec (p + 1 + j) p); [lia|]. destruct (Nat.ltb_spec (p + 1 + j) p); [lia|].
      replace (p + 1 + j + d) with (p + S d + j) by lia. destruct (Nat.ltb_spec 0 (p + S d + j)); [|lia]. destruct (Nat.ltb_spec 0 (p + 1 + j)); [|lia].
      destruct (Nat.ltb_spec (S (p + S d + j)) (List.length ts)); destruct (Nat.ltb_spec (S (p + 1 + j)) (List.length ts')); try lia; reflexivity.
  - intros i Hi. destruct (bd_case i Hi) as [G|[->|(j & Hj & ->)]].
    + destruct (bd_lo i G) as (_ & -> & I). assert (Hi' : i < List.length ts) by lia. destruct (bd_keep _ (nth i os 0) I) as [-> _]; [now apply (ch_in_o _ _ _ _ _ _ C)|now apply (ch_o _ _ _ _ _ _ C)].
    + destruct bd_mid as (_ & ->). exact NX.
    + destruct (bd_hi j Hj) as (_ & -> & I). assert (Hi' : p + S d + j < List.length ts) by lia. destruct (bd_keep _ (nth (p + S d + j) os 0) I) as [-> _]; [now apply (ch_in_o _ _ _ _ _ _ C)|now apply (ch_o _ _ _ _ _ _ C)].
  - apply bd_lf.
  - intros i Hi. destruct (bd_rt_kept i Hi) as [-> _]. now apply bd_rl.
  - intros i Hi. destruct (bd_rt_kept i Hi) as [_ K]. apply K. now apply bd_rl.
  - intros l l' Hl Hl' LK.
    assert (OO : l = x \/ (In l os /\ In l (all_legs h' ts'))).
    { rewrite !in_app_iff in Hl. simpl in Hl. assert (CS : l = x \/ In l (XO ++ YO)) by (rewrite in_app_iff; intuition). destruct CS as [->|HO]; auto. right.
      assert (IO : In l os) by (rewrite !in_app_iff in *; tauto). split; auto.
      assert (E : exists i, i < List.length ts /\ l = nth i os 0 /\ In (nth i ts 0) (XA ++ YA)).
      { apply in_app_iff in HO. destruct HO as [HO|HO]; apply (In_nth _ _ 0) in HO; destruct HO as (k & Hk & <-).
        - exists k. split; [lia|]. rewrite LX in Hk. destruct (bd_lo k Hk) as (_ & _ & I). split; auto. rewrite app_nth1 by lia. auto.
        - rewrite LY in Hk. exists (p + S d + k). split; [lia|]. destruct (bd_hi k Hk) as (_ & <- & I). split; auto.
          rewrite (app_nth2 XO) by lia. rewrite LX. replace (p + 1 + k - p) with (S k) by lia. reflexivity. }
      destruct E as (i & Hi & -> & I). apply in_flat_map. exists (nth i ts 0). split; [rewrite !in_app_iff in *; tauto|].
      change (In (nth i os 0) (legs_of h' (nth i ts 0))). rewrite (bd_legs _ I). now apply (ch_in_o _ _ _ _ _ _ C). }
    destruct OO as [->|[IO IA]]; [exact (OX l' Hl' LK)|].
    destruct (bd_all l' Hl') as [->|(I' & _ & K')].
    + apply (OX l IA). refine (link_back h' (all_legs h' (ts' ++ env')) l x _ _ _ LK); [apply (wn_links _ _ (wo_net _ _ WO))|..]; unfold all_legs in *; rewrite flat_map_app; apply in_app_iff; left; [exact IA|exact Hl'].
    + destruct (bd_all l IA) as [->|(I & _ & K)]; [exact (OX l' Hl' LK)|]. apply K in LK. exact (ch_out _ _ _ _ _ _ C l l' IO I' LK).
Qed.
(** the bonds keep their dimensions *)
Lemma bd_slim q q' : (forall l, In l (all_legs h ts) -> l <> x -> In l (all_legs h' ts') -> dim_of h' l = dim_of h l) -> (forall l, In l (XO ++ YO) -> q l <= q' l) ->
  prodn (map q MO) <= q' x -> (forall i, S i < List.length ts' -> sh_r p d rt i <> x) -> slim h q os rt -> slim h' q' os' (sh_r p d rt).
Proof.
  intros D Q QX NEX SL k Hk. destruct bd_len as (LN & LN' & LY). assert (Hk' : S k < List.length ts') by (rewrite !app_length in *; cbn [List.length] in *; lia).
  assert (IA : In (sh_r p d rt k) (all_legs h' ts')).
  { destruct (bd_case k ltac:(lia)) as [G|[->|(j & Hj & ->)]].
    - unfold sh_r. destruct (Nat.ltb_spec k p); [|lia]. destruct (bd_lo k G) as (_ & _ & I). apply in_flat_map. exists (nth k ts 0). split; [rewrite !in_app_iff in *; tauto|].
      change (In (rt k) (legs_of h' (nth k ts 0))). rewrite (bd_legs _ I). apply (ch_in_r _ _ _ _ _ _ C). lia.
    - apply in_flat_map. exists t. split; [rewrite !in_app_iff; simpl; auto|]. change (In (sh_r p d rt p) (legs_of h' t)). eapply Permutation_in; [symmetry; exact LT|].
      unfold sh_r. destruct (Nat.ltb_spec p p); [lia|]. destruct (Nat.ltb_spec 0 (List.length YA)); [|lia]. rewrite !in_app_iff. simpl. auto.
    - unfold sh_r. destruct (Nat.ltb_spec (p + 1 + j) p); [lia|]. destruct (bd_hi j Hj) as (_ & _ & I). replace (p + 1 + j + d) with (p + S d + j) by lia.
      apply in_flat_map. exists (nth (p + S d + j) ts 0). split; [rewrite !in_app_iff in *; tauto|].
      change (In (rt (p + S d + j)) (legs_of h' (nth (p + S d + j) ts 0))). rewrite (bd_legs _ I). apply (ch_in_r _ _ _ _ _ _ C). lia. }
  destruct (bd_all _ IA) as [E|(IA0 & _)]; [now destruct (NEX k Hk')|]. rewrite D by auto.
  assert (PM : forall L, incl L (XO ++ YO) -> prodn (map q L) <= prodn (map q' L)).
  { intros L. induction L as [|l L IH]; intros I; unfold prodn in *; cbn [map fold_right]; [lia|]. apply Nat.mul_le_mono; [apply Q, I; simpl; auto|apply IH; intros w Hw; apply I; simpl; auto]. }
  assert (PA : forall L1 L2 (f : lid -> nat), prodn (map f (L1 ++ L2)) = prodn (map f L1) * prodn (map f L2)) by (intros; now rewrite map_app, prodn_app).
  assert (IX : incl XO (XO ++ YO)) by (intros w Hw; apply in_app_iff; auto). assert (IY : incl YO (XO ++ YO)) by (intros w Hw; apply in_app_iff; auto).
  assert (FI : forall j, incl (firstn j XO) XO) by (intros j w Hw; rewrite <- (firstn_skipn j XO); apply in_app_iff; auto).
  assert (SI : forall j, incl (skipn j XO) XO) by (intros j w Hw; rewrite <- (firstn_skipn j XO); apply in_app_iff; auto).
  assert (FI' : forall j, incl (firstn j YO) YO) by (intros j w Hw; rewrite <- (firstn_skipn j YO); apply in_app_iff; auto).
  assert (SI' : forall j, incl (skipn j YO) YO) by (intros j w Hw; rewrite <- (firstn_skipn j YO); apply in_app_iff; auto).
  unfold sh_r. destruct (Nat.ltb_spec k p) as [G|G].
  - assert (HS : S k < List.length os) by (rewrite (ch_len _ _ _ _ _ _ C); lia). destruct (SL k HS) as [S1 S2]. rewrite (firstn_app (S k) XO) in *. rewrite (skipn_app (S k) XO) in *.
    replace (S k - List.length XO) with 0 in * by lia. rewrite !firstn_O, !skipn_O, ?app_nil_r in *. split.
    + etransitivity; [exact S1|]. apply PM. intros w Hw. apply IX, (FI _ _ Hw).
    + etransitivity; [exact S2|]. rewrite !PA. apply Nat.mul_le_mono; [apply PM; intros w Hw; apply IX, (SI _ _ Hw)|].
      apply Nat.mul_le_mono; [|now apply PM]. cbn [map]. unfold prodn at 2. cbn [fold_right]. lia.
  - assert (exists m, k = p + m) as (m & ->) by (exists (k - p); lia). replace (p + m + d) with (p + d + m) by lia.
    assert (HS : S (p + d + m) < List.length os) by (rewrite (ch_len _ _ _ _ _ _ C); lia). destruct (SL _ HS) as [S1 S2].
    rewrite (firstn_app (S (p + d + m)) XO) in S1. rewrite (skipn_app (S (p + d + m)) XO) in S2. rewrite (firstn_app (S (p + m)) XO), (skipn_app (S (p + m)) XO).
    rewrite (firstn_all2 XO) in S1 by lia. rewrite (skipn_all2 XO) in S2 by lia. rewrite (firstn_all2 XO), (skipn_all2 XO) by lia. rewrite !LX in *.
    replace (S (p + d + m) - p) with (S d + m) in * by lia. replace (S (p + m) - p) with (S m) in * by lia. cbn [app firstn skipn]. cbn [app] in S2.
    rewrite (firstn_app _ MO) in S1. rewrite (skipn_app _ MO) in S2. rewrite (firstn_all2 MO) in S1 by lia. rewrite (skipn_all2 MO) in S2 by lia. rewrite LMO in S1, S2.
    replace (S d + m - S d) with m in * by lia. cbn [app] in S2. split.
    + etransitivity; [exact S1|]. change (x :: firstn m YO) with ([x] ++ firstn m YO). rewrite !PA. apply Nat.mul_le_mono; [now apply PM|].
      apply Nat.mul_le_mono; [cbn [map]; unfold prodn at 2; cbn [fold_right]; lia|]. apply PM. intros w Hw. apply IY, (FI' _ _ Hw).
    + etransitivity; [exact S2|]. apply PM. intros w Hw. apply IY, (SI' _ _ Hw).
Qed.
End Build.
End Bd.
