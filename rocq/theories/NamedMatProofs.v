(** Matrices, traces and constructors of tensors whose legs are given by name. *)
From Coq Require Import List Arith Bool String Lia Permutation.
From Verif Require Import Base Sums NdModel NdProofs HeapModel FuncsModel TensorModel TensorSpec TensorProofs MatrixProofs CtorProofs CopyProofs ContractModel NetSpec FtnModel FtnNetSpec
  NamedSpec NetsSpec NamedProofs NetsProofs FrameProofs FtnFrameProofs.
Import ListNotations.
Local Open Scope nat_scope.

Lemma map_look_keys ks : forall idx, NoDup ks -> List.length idx = List.length ks -> map (look (combine ks idx) 0) ks = idx.
Proof.
  induction ks as [|k ks IH]; intros [|i idx] ND EL; try discriminate; auto. inversion ND as [|? ? Hk ND']; subst. cbn [combine map look]. f_equal.
  - destruct (dec k k); [auto|congruence].
  - etransitivity; [|apply (IH idx ND'); cbn in EL; lia]. apply map_ext_in. intros x Hx. destruct (dec x k) as [->|]; [contradiction|auto].
Qed.

Lemma inrange_len sh idx : inrange sh idx -> List.length idx = List.length sh.
Proof. unfold inrange. induction 1; cbn; congruence. Qed.
Lemma combine_map_same {X Y Z} (f : X -> Y) (g : X -> Z) l : combine (map f l) (map g l) = map (fun x => (f x, g x)) l.
Proof. induction l; cbn; congruence. Qed.

Section Nm.
Context {A : Type} {HA : SR A}.
Notation heap := (heap A).

Lemma first_of_name (h : heap) t l n : NoDup (names_of h t) -> In l (legs_of h t) -> l_name (legs h l) = n -> first_named h t n l.
Proof.
  unfold names_of. intros ND Hl En. destruct (in_split _ _ Hl) as (u & v & E). exists u, v. repeat split; auto. intros l' Hl' E'. rewrite E, map_app in ND. cbn in ND.
  apply NoDup_remove_2 in ND. apply ND. apply in_or_app. left. rewrite En, <- E'. now apply (in_map (fun l => l_name (legs h l))).
Qed.
Lemma named_split (h : heap) t R C : has_legs h t (R ++ C) -> NoDup (map fst (R ++ C)) -> R <> [] -> C <> [] ->
  exists rl cl, split_of h t (Some (map RStr (map fst R))) (Some (map RStr (map fst C))) rl cl /\
    map (fun l => l_name (legs h l)) rl = map NStr (map fst R) /\ map (fun l => l_name (legs h l)) cl = map NStr (map fst C) /\
    map (dim_of h) rl = map snd R /\ map (dim_of h) cl = map snd C.
Proof.
  intros HL ND HR HC. unfold has_legs, names_of, dims_of in HL. rewrite combine_map_same in HL.
  symmetry in HL. apply Permutation_map_inv in HL. destruct HL as (ls & E & P). rewrite map_app in E. symmetry in E. apply map_eq_app in E. destruct E as (rl & cl & -> & E1 & E2).
  assert (PN : forall Q ql, map (fun l => (l_name (legs h l), dim_of h l)) ql = map (fun p : string * nat => (NStr (fst p), snd p)) Q ->
    map (fun l => l_name (legs h l)) ql = map NStr (map fst Q) /\ map (dim_of h) ql = map snd Q).
  { intros Q ql E. split.
    - apply (f_equal (map fst)) in E. rewrite !map_map in E. rewrite map_map. exact E.
    - apply (f_equal (map snd)) in E. rewrite !map_map in E. exact E. }
  destruct (PN _ _ E1) as (N1 & D1). destruct (PN _ _ E2) as (N2 & D2).
  assert (NDn : NoDup (names_of h t)).
  { unfold names_of. eapply Permutation_NoDup; [apply Permutation_map; symmetry; exact P|]. rewrite map_app, N1, N2, <- !map_app. apply FinFun.Injective_map_NoDup; auto. intros x y Exy. congruence. }
  assert (RF : forall (Q : list (string * nat)) ql, Q <> [] -> incl ql (legs_of h t) -> map (fun l => l_name (legs h l)) ql = map NStr (map fst Q) -> refs_are h t (map RStr (map fst Q)) ql).
  { intros Q ql HQ I E. split; [destruct Q; [congruence|discriminate]|]. right. exists (map fst Q). split; auto. clear HQ. revert I E. revert Q. induction ql as [|l ql IH]; intros [|q Q] I E; try discriminate; constructor.
    - injection E as E _. apply first_of_name; auto. apply I. now left.
    - injection E as _ E. apply IH; auto. intros x Hx. apply I. now right. }
  exists rl, cl. repeat split; auto. apply split_both.
  - apply RF; auto. intros x Hx. eapply Permutation_in; [symmetry; exact P|]. apply in_or_app. now left.
  - apply RF; auto. intros x Hx. eapply Permutation_in; [symmetry; exact P|]. apply in_or_app. now right.
  - symmetry. exact P.
Qed.

(** toMatrix with labels, in terms of the labels *)
Lemma toMatrix_named (h : heap) t R C : dense_legs h t (R ++ C) -> NoDup (map fst (R ++ C)) -> R <> [] -> C <> [] ->
  exists m, toMatrix h t (Some (map RStr (map fst R))) (Some (map RStr (map fst C))) = Ok m /\ wfa m /\ ashape m = [prodn (map snd R); prodn (map snd C)] /\
    forall is js, inrange (map snd R) is -> inrange (map snd C) js ->
      aget m [ravel (map snd R) is; ravel (map snd C) js] = at_ h t (combine (map fst (R ++ C)) (is ++ js)).
Proof.
  intros ((WF & NL & _) & HL) ND HR HC. destruct (named_split _ _ _ _ HL ND HR HC) as (rl & cl & SP & N1 & N2 & D1 & D2).
  pose proof (toMatrix_spec h t (Some (map RStr (map fst R))) (Some (map RStr (map fst C))) WF NL) as S.
  destruct (toMatrix h t _ _) as [m|e]; [|exfalso; exact (S _ _ SP)]. destruct S as (rl' & cl' & SP' & Wm & Sm & Em).
  destruct (split_unique _ _ _ _ _ _ _ _ SP SP') as (<- & <-). exists m. repeat split; auto; [rewrite Sm, D1, D2; auto|]. intros is js I1 I2.
  assert (L1 : List.length is = List.length R) by (apply inrange_len in I1; rewrite map_length in I1; auto).
  assert (L2 : List.length js = List.length C) by (apply inrange_len in I2; rewrite map_length in I2; auto).
  set (s := fun l => index_in (combine (map fst (R ++ C)) (is ++ js)) (l_name (legs h l))).
  assert (E : map s rl ++ map s cl = is ++ js).
  { rewrite <- map_app. unfold s. rewrite <- (map_map (fun l => l_name (legs h l)) (index_in (combine (map fst (R ++ C)) (is ++ js)))).
    rewrite (map_app (fun l => l_name (legs h l)) rl cl), N1, N2, <- (map_app NStr), <- (map_app fst), (map_map NStr). apply (map_look_keys (map fst (R ++ C)) (is ++ js)); auto.
    rewrite app_length, map_length, app_length. lia. }
  assert (E' : map s rl = is /\ map s cl = js).
  { assert (LR : List.length rl = List.length R) by (apply (f_equal (@List.length _)) in D1; rewrite !map_length in D1; auto).
    assert (firstn (List.length R) (map s rl ++ map s cl) = map s rl) as F1 by (rewrite <- LR, <- (map_length s rl), firstn_app, Nat.sub_diag, firstn_all; apply app_nil_r).
    assert (skipn (List.length R) (map s rl ++ map s cl) = map s cl) as F2 by (rewrite <- LR, <- (map_length s rl), skipn_app, Nat.sub_diag, skipn_all; reflexivity).
    rewrite E, <- L1, firstn_app, Nat.sub_diag, firstn_all in F1. rewrite E, <- L1, skipn_app, Nat.sub_diag, skipn_all in F2. cbn in F1, F2. rewrite app_nil_r in F1. auto. }
  destruct E' as (E1 & E2).
  assert (P : Permutation (rl ++ cl) (legs_of h t)) by (now inversion SP).
  rewrite <- D1, <- D2, <- E1, <- E2. rewrite Em.
  - rewrite E1, E2. reflexivity.
  - intros l Hl. eapply Permutation_in in Hl; [|symmetry; exact P].
    assert (F : Forall2 lt (map s (rl ++ cl)) (map (dim_of h) (rl ++ cl))) by (rewrite !map_app, E1, E2, D1, D2; apply Forall2_app; auto).
    clear -Hl F. induction (rl ++ cl) as [|x xs IH]; [destruct Hl|]. cbn in F. inversion F; subst. destruct Hl as [<-|Hl]; auto.
Qed.

(** the constructor with a shape and labels: the data is read in row-major order *)
Lemma new_named0 (h : heap) sho sh labs (a : arr A) h' t : wfa a -> (sho = Some sh \/ sho = None /\ sh = ashape a) -> mkDense sho (Some (map NStr labs)) (Some a) None None false h = (h', Ok t) -> NoDup labs ->
  new_tensor h h' t None /\ dense_legs h' t (combine labs sh) /\ List.length labs = List.length sh /\ prodn (ashape a) = prodn sh /\
  forall idx, inrange sh idx -> at_ h' t (combine labs idx) = nth (ravel sh idx) (adata a) r0.
Proof.
  intros Wa SHO R ND. pose proof (mkDense_spec h sho (Some (map NStr labs)) (Some a) None None false) as S. rewrite R in S.
  destruct S as (OK & NT & WF & _ & FD & FL & _ & _ & EN & ED1 & ED2 & EA); [split; cbn; auto|].
  assert (ED : dims_of h' t = sh) by (destruct SHO as [->|(-> & ->)]; auto). clear ED1 ED2.
  assert (OK' : List.length (map NStr labs) = List.length sh /\ prodn (ashape a) = prodn sh) by (destruct SHO as [->|(-> & ->)]; [destruct OK; auto|cbn in OK; intuition]). clear OK. destruct OK' as (LL & SZ).
  rewrite map_length in LL. specialize (EN _ eq_refl). destruct (EA a eq_refl eq_refl) as (a' & Ea & Ea').
  assert (HL : has_legs h' t (combine labs sh)).
  { unfold has_legs. rewrite EN, ED. apply Permutation_refl'. clear. revert sh. induction labs as [|x labs IH]; intros [|d sh]; cbn; auto. f_equal. apply IH. }
  split; auto. split; [exact (conj (conj WF (conj FL FD)) HL)|]. split; auto. split; auto. intros idx I. assert (LI : List.length idx = List.length sh) by (now apply inrange_len).
  unfold at_, at_names, entry, entry_of. rewrite Ea, FD.
  pose proof (wt_data _ _ WF) as W. unfold data_ok in W. rewrite FL, Ea, FD in W. destruct W as (_ & Sa). unfold aget. rewrite Ea'. f_equal. rewrite Sa. f_equal.
  - exact ED.
  - rewrite <- (map_map (fun l => l_name (legs h' l)) (index_in (combine labs idx))). change (map (fun l => l_name (legs h' l)) (t_legs (tens h' t))) with (names_of h' t). rewrite EN, map_map.
    apply (map_look_keys labs idx); auto. lia.
Qed.
Lemma new_named (h : heap) sh labs (a : arr A) h' t : wfa a -> mkDense (Some sh) (Some (map NStr labs)) (Some a) None None false h = (h', Ok t) -> NoDup labs ->
  new_tensor h h' t None /\ dense_legs h' t (combine labs sh) /\ List.length labs = List.length sh /\ prodn (ashape a) = prodn sh /\
  forall idx, inrange sh idx -> at_ h' t (combine labs idx) = nth (ravel sh idx) (adata a) r0.
Proof. intros Wa R ND. eapply new_named0; eauto. Qed.
Lemma new_data (h : heap) labs (a : arr A) h' t : wfa a -> mkDense None (Some (map NStr labs)) (Some a) None None false h = (h', Ok t) -> NoDup labs ->
  new_tensor h h' t None /\ dense_legs h' t (combine labs (ashape a)) /\ forall idx, inrange (ashape a) idx -> at_ h' t (combine labs idx) = aget a idx.
Proof. intros Wa R ND. destruct (new_named0 h None (ashape a) labs a h' t Wa (or_intror (conj eq_refl eq_refl)) R ND) as (N & D & _ & _ & G). auto. Qed.

(** ** What stays when only new objects are made *)
Record grown (h h' : heap) : Prop := {
  gr_legs : forall l, l < nleg h -> legs h' l = legs h l;
  gr_tens : forall t, t < ntens h -> tens h' t = tens h t;
  gr_nleg : nleg h <= nleg h'; gr_ntens : ntens h <= ntens h' }.
Lemma grown_refl h : grown h h. Proof. split; auto. Qed.
Lemma grown_trans h1 h2 h3 : grown h1 h2 -> grown h2 h3 -> grown h1 h3.
Proof. intros [a b c d] [a' b' c' d']. split; try lia; intros; rewrite ?a', ?b' by lia; auto. Qed.
Lemma new_grown h h' t : new_tensor h h' t None -> grown h h'.
Proof. intros [i b nb rg ts nt nl ls]. split; auto; try lia. intros l Hl. apply ls; auto. Qed.
Lemma grown_dense h h' t m : grown h h' -> dense_legs h t m -> dense_legs h' t m /\ (forall g, at_ h' t g = at_ h t g) /\ tens h' t = tens h t.
Proof.
  intros [a b c d] (([i nd al da dg] & NL & ND) & HL). assert (Et : tens h' t = tens h t) by auto.
  assert (El : legs_of h' t = legs_of h t) by (unfold legs_of; now rewrite Et).
  assert (Eg : forall l, In l (legs_of h t) -> legs h' l = legs h l) by auto.
  split; [split; [split|]|split; auto].
  - split; rewrite ?El, ?Et; auto; try lia.
    + intros l Hl. apply al in Hl. lia.
    + unfold data_ok in *. destruct (t_like _), (t_arr _); auto. destruct da as (d1 & d2). split; auto. rewrite ND in d2 |- *. rewrite d2. apply map_ext_in. intros l Hl. unfold dim_of. now rewrite Eg.
    + rewrite ND. discriminate.
  - now rewrite Et.
  - unfold has_legs in *. replace (names_of h' t) with (names_of h t); [replace (dims_of h' t) with (dims_of h t); auto|].
    + unfold dims_of, dim_of. rewrite El. apply map_ext_in. intros l Hl. now rewrite Eg.
    + unfold names_of. rewrite El. apply map_ext_in. intros l Hl. now rewrite Eg.
  - intros g. unfold at_, at_names, entry, entry_of. rewrite Et, ND. destruct (t_arr _); auto. f_equal. apply map_ext_in. intros l Hl. change (In l (legs_of h t)) in Hl. now rewrite Eg.
Qed.
Lemma contract_grown symdiff fuel (w w' : world A) f d b r : contract symdiff fuel f d b w = (w', r) -> grown (w_heap w) (w_heap w').
Proof.
  intros E. pose proof (wsafe_contract (w_heap w) symdiff fuel w f d b (priv_refl (w_heap w))) as K. rewrite E in K. destruct K as ([p1 p2 p3 p4 p5 p6 p7 p8] & _ & R). split; auto.
Qed.
End Nm.
