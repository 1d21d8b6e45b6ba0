(** Out-of-place operations only touch what they allocated themselves: a private-region argument (C23, C24). *)
From Coq Require Import List Arith Bool Lia Permutation ZArith.
From Verif Require Import Base Sums NdModel HeapModel FuncsModel FuncsProofs TensorModel TensorSpec ContractModel NetSpec NdProofs TensorProofs
  CopyProofs ShareProofs.
Import ListNotations.
Local Open Scope nat_scope.

Section Fr.
Context {A : Type} {HA : SR A}.
Notation heap := (heap A).
Variable h0 : heap.

Record priv (h : heap) : Prop := {
  pv_nleg : nleg h0 <= nleg h; pv_nbond : nbond h0 <= nbond h; pv_ntens : ntens h0 <= ntens h;
  pv_legs : forall l, l < nleg h0 -> legs h l = legs h0 l;
  pv_bonds : forall b, b < nbond h0 -> bonds h b = bonds h0 b;
  pv_tens : forall t, t < ntens h0 -> tens h t = tens h0 t;
  pv_own : forall t l, ntens h0 <= t < ntens h -> In l (legs_of h t) -> nleg h0 <= l < nleg h;
  pv_link : forall l b, nleg h0 <= l < nleg h -> l_bond (legs h l) = Some b -> nbond h0 <= b }.
Definition grow (h h' : heap) : Prop := nleg h <= nleg h' /\ ntens h <= ntens h'.
Definition safe {X} (h : heap) (m : @M A X) (Q : heap -> X -> Prop) : Prop :=
  priv h -> let (h', r) := m h in priv h' /\ grow h h' /\ match r with Ok x => Q h' x | Err _ => True end.
Definition pt (h : heap) (t : tid) := ntens h0 <= t < ntens h.
Definition pl (h : heap) (l : lid) := nleg h0 <= l < nleg h.

Lemma priv_refl : priv h0.
Proof. constructor; auto; intros; lia. Qed.
Lemma grow_refl h : grow h h. Proof. split; lia. Qed.
Lemma grow_trans h1 h2 h3 : grow h1 h2 -> grow h2 h3 -> grow h1 h3.
Proof. unfold grow. lia. Qed.
Lemma pt_grow h h' t : grow h h' -> pt h t -> pt h' t. Proof. unfold grow, pt. lia. Qed.
Lemma pl_grow h h' l : grow h h' -> pl h l -> pl h' l. Proof. unfold grow, pl. lia. Qed.

Lemma safe_bind {X Y} h (m : @M A X) (k : X -> @M A Y) Q R : safe h m Q ->
  (forall h' x, grow h h' -> priv h' -> Q h' x -> safe h' (k x) R) -> safe h (bind m k) R.
Proof.
  intros Hm Hk P. specialize (Hm P). unfold bind. destruct (m h) as [h1 [x|e]]; [|exact Hm].
  destruct Hm as (P1 & G1 & Q1). specialize (Hk h1 x G1 P1 Q1 P1). destruct (k x h1) as [h2 r].
  destruct Hk as (P2 & G2 & R2). split; auto. split; auto. eapply grow_trans; eauto.
Qed.
Lemma safe_weaken {X} h (m : @M A X) (Q R : heap -> X -> Prop) : safe h m Q -> (forall h' x, priv h' -> grow h h' -> Q h' x -> R h' x) -> safe h m R.
Proof. intros S W P. specialize (S P). destruct (m h) as [h1 [x|e]]; auto. destruct S as (? & ? & ?). auto. Qed.
Lemma safe_ret {X} h (x : X) : safe h (ret x) (fun h' y => h' = h /\ y = x).
Proof. intros P. simpl. auto using grow_refl. Qed.
Lemma safe_raise {X} h e (Q : heap -> X -> Prop) : safe h (raise e) Q.
Proof. intros P. simpl. auto using grow_refl. Qed.
Lemma safe_reads {X} h (f : heap -> X) : safe h (reads f) (fun h' y => h' = h /\ y = f h).
Proof. intros P. simpl. auto using grow_refl. Qed.
Lemma safe_readsR {X} h (f : heap -> res X) : safe h (readsR f) (fun h' y => h' = h /\ f h = Ok y).
Proof. intros P. unfold readsR. destruct (f h); auto using grow_refl. Qed.
Lemma safe_liftR {X} h (r : res X) : safe h (liftR r) (fun h' y => h' = h /\ r = Ok y).
Proof. intros P. unfold liftR. destruct r; auto using grow_refl. Qed.
Lemma safe_assert h b : safe h (assert b) (fun h' _ => h' = h).
Proof. intros P. destruct b; simpl; auto using grow_refl. Qed.
Lemma safe_check h b e : safe h (check b e) (fun h' _ => h' = h).
Proof. intros P. destruct b; simpl; auto using grow_refl. Qed.
Lemma safe_mapM {X Y} (f : X -> @M A Y) (I : heap -> Prop) (R : heap -> Y -> Prop) : 
  (forall h h', grow h h' -> I h -> I h') -> (forall h h' y, grow h h' -> R h y -> R h' y) -> 
  forall l h, (forall h x, In x l -> I h -> safe h (f x) R) -> I h -> safe h (mapM f l) (fun h' ys => Forall (R h') ys).
Proof.
  intros IM RM l. induction l as [|x l IH]; intros h Hf Ih.
  - eapply safe_weaken; [apply safe_ret|]. intros h' y _ _ [-> ->]. constructor.
  - simpl. eapply safe_bind; [apply Hf; simpl; auto|]. intros h1 y G1 P1 Ry.
    eapply safe_bind; [apply IH; eauto|].
    + intros. apply Hf; simpl; auto.
    + intros h2 ys G2 P2 Rys. eapply safe_weaken; [apply safe_ret|]. intros h' z _ _ [-> ->]. constructor; eauto.
Qed.
Lemma safe_iterM {X} (f : X -> @M A unit) (I : heap -> Prop) : 
  (forall h h', grow h h' -> I h -> I h') ->
  forall l h, (forall h x, In x l -> I h -> safe h (f x) (fun _ _ => True)) -> I h -> safe h (iterM f l) (fun _ _ => True).
Proof.
  intros IM l. induction l as [|x l IH]; intros h Hf Ih.
  - eapply safe_weaken; [apply safe_ret|]. auto.
  - simpl. eapply safe_bind; [apply Hf; simpl; auto|]. intros h1 y G1 P1 Ry. apply IH; eauto. intros. apply Hf; simpl; auto.
Qed.
Lemma safe_foldM {X T} (f : T -> X -> @M A T) (I : heap -> T -> Prop) : 
  forall l h s, (forall h s x, In x l -> I h s -> safe h (f s x) I) -> I h s -> safe h (foldM f l s) I.
Proof.
  intros l. induction l as [|x l IH]; intros h s Hf Ih.
  - eapply safe_weaken; [apply safe_ret|]. now intros h' y _ _ [-> ->].
  - simpl. eapply safe_bind; [apply Hf; simpl; eauto|]. intros h1 y G1 P1 Ry. apply IH; eauto. intros. apply Hf; simpl; auto.
Qed.

(** ** primitive operations *)
Lemma safe_setLeg h l (f : leg -> leg) : pl h l -> (forall r b, l_bond (f r) = Some b -> l_bond r = Some b) ->
  safe h (modify (fun h => set_leg h l (f (legs h l)))) (fun _ _ => True).
Proof.
  intros Hl Hb P. simpl. split; [|split; [split; simpl; lia|auto]]. destruct P as [p1 p2 p3 p4 p5 p6 p7 p8]. unfold pl in Hl.
  constructor; simpl; auto; try exact p7.
  - intros l' Hl'. rewrite upd_other by lia. auto.
  - intros l' b Hl'. unfold upd. destruct (Nat.eqb_spec l' l) as [->|]; [|now apply p8]. intros E. apply Hb in E. exact (p8 l b Hl' E).
Qed.
Lemma safe_setLegBond h l b : pl h l -> nbond h0 <= b -> safe h (setLegBond l (Some b)) (fun _ _ => True).
Proof.
  intros Hl Hb P. simpl. split; [|split; [split; simpl; lia|auto]]. destruct P as [p1 p2 p3 p4 p5 p6 p7 p8]. unfold pl in Hl.
  constructor; simpl; auto; try exact p7.
  - intros l' Hl'. rewrite upd_other by lia. auto.
  - intros l' b' Hl'. unfold upd. destruct (Nat.eqb_spec l' l) as [->|]; [simpl; congruence|]. now apply p8.
Qed.
Lemma safe_setLegTensor h l t : pl h l -> safe h (setLegTensor l t) (fun _ _ => True).
Proof. intros Hl. apply (safe_setLeg h l (fun r => mkLeg t (l_dim r) (l_name r) (l_bond r)) Hl). simpl; auto. Qed.
Lemma safe_newLeg h t d n : safe h (newLeg t d n) (fun h' l => pl h' l).
Proof.
  intros P. unfold newLeg, allocs, alloc_leg. simpl. destruct P as [p1 p2 p3 p4 p5 p6 p7 p8].
  split; [|split; [split; simpl; lia|unfold pl; simpl; lia]]. constructor; simpl; auto; try exact p7.
  - intros l Hl. rewrite upd_other by lia. auto.
  - intros t' l Ht Hl. specialize (p7 t' l Ht Hl). lia.
  - intros l b Hl. unfold upd. destruct (Nat.eqb_spec l (nleg h)); [discriminate|]. apply p8. lia.
Qed.
Lemma safe_alloc_bond h l1 l2 : safe h (allocs (fun h => alloc_bond h (mkBond l1 l2))) (fun h' b => nbond h0 <= b).
Proof.
  intros P. unfold allocs, alloc_bond. simpl. destruct P as [p1 p2 p3 p4 p5 p6 p7 p8].
  split; [|split; [split; simpl; lia|simpl; lia]]. constructor; simpl; auto; try exact p7.
  intros b Hb. rewrite upd_other by lia. auto.
Qed.
Lemma safe_alloc_tens h r : Forall (pl h) (t_legs r) -> safe h (allocs (fun h => alloc_tens h r)) (fun h' t => pt h' t).
Proof.
  intros Hr P. unfold allocs, alloc_tens. simpl. pose proof P as [p1 p2 p3 p4 p5 p6 p7 p8].
  split; [|split; [split; simpl; lia|unfold pt; simpl; lia]]. constructor; simpl; auto; try exact p7.
  - intros t Ht. rewrite upd_other by lia. auto.
  - intros t l Ht. unfold legs_of. simpl. unfold upd. destruct (Nat.eqb_spec t (ntens h)) as [->|].
    + rewrite Forall_forall in Hr. intros Hl. apply (Hr l Hl).
    + apply p7. lia.
Qed.
Lemma safe_draw h n : safe h (allocs (fun h => draw h n)) (fun _ _ => True).
Proof.
  intros P. unfold allocs, draw. simpl. destruct P as [p1 p2 p3 p4 p5 p6 p7 p8].
  split; [|split; [split; simpl; lia|auto]]. constructor; simpl; auto; try exact p7.
Qed.
Lemma Forall_pl_grow h h' ls : grow h h' -> Forall (pl h) ls -> Forall (pl h') ls.
Proof. intros G. apply Forall_impl. intros l. now apply pl_grow. Qed.
Lemma Forall_pt_grow h h' ls : grow h h' -> Forall (pt h) ls -> Forall (pt h') ls.
Proof. intros G. apply Forall_impl. intros l. now apply pt_grow. Qed.
Lemma priv_legs h t : priv h -> pt h t -> Forall (pl h) (legs_of h t).
Proof. intros P Ht. apply Forall_forall. intros l Hl. eapply pv_own; eauto. Qed.

Lemma safe_true {X} h (m : @M A X) Q : safe h m Q -> safe h m (fun _ _ => True).
Proof. intros S. eapply safe_weaken; eauto. Qed.
Ltac sbind := eapply safe_bind; [|intros ? ? ? ? ?].
(** steps whose result does not matter *)
Lemma safe_makeLegs t : forall labs sh h, safe h (makeLegs t labs sh) (fun h' ls => Forall (pl h') ls).
Proof.
  induction labs as [|n labs IH]; intros [|d sh] h; simpl.
  1-3: eapply safe_weaken; [apply safe_ret|intros h' y _ _ [-> ->]; constructor].
  eapply safe_bind; [apply safe_newLeg|]. intros h1 l G1 P1 Hl. eapply safe_bind; [apply IH|]. intros h2 ls G2 P2 Hls.
  eapply safe_weaken; [apply safe_ret|intros h' y _ _ [-> ->]]. constructor; auto. eapply pl_grow; eauto.
Qed.
Lemma safe_takeLegs h ls t : Forall (pl h) ls -> 
  safe h (iterM (fun l => setLegTensor l (Some t)) ls ;;; ret ls) (fun h' ls' => Forall (pl h') ls').
Proof.
  intros Hl. eapply safe_bind.
  - apply (safe_iterM _ (fun h => Forall (pl h) ls)); auto.
    + intros a b G. now apply Forall_pl_grow.
    + intros h1 x Hx HF. apply safe_setLegTensor. rewrite Forall_forall in HF. auto.
  - intros h1 x G1 P1 _. eapply safe_weaken; [apply safe_ret|intros h' y _ _ [-> ->]]. eapply Forall_pl_grow; eauto.
Qed.
Ltac anyret := first [apply safe_raise | eapply safe_true; first [apply safe_ret|apply safe_reads|apply safe_readsR|apply safe_liftR|apply safe_assert|apply safe_check|apply safe_draw]].
Lemma safe_tail h labs sh data (diag : bool) like len name ls : match ls with Some l => Forall (pl h) l | None => True end -> 
  safe h (t <- reads ntens ;;
    ls' <- (match ls with
          | Some ls => iterM (fun l => setLegTensor l (Some t)) ls ;;; ret ls
          | None => makeLegs t labs sh
          end) ;;
    allocs (fun h => alloc_tens h (mkTensor ls' data diag like len name))) (fun h' t => pt h' t).
Proof.
  intros Hl. eapply safe_bind; [apply safe_reads|]. intros h1 t G1 P1 [-> ->].
  eapply safe_bind.
  - destruct ls as [ls|]; [apply safe_takeLegs; exact Hl|apply safe_makeLegs].
  - intros h2 ls' G2 P2 HF. now apply safe_alloc_tens.
Qed.
(** a computation that leaves the heap alone *)
Definition pure {X} (m : @M A X) : Prop := forall h, fst (m h) = h.
Lemma pure_safe {X} h (m : @M A X) : pure m -> safe h m (fun h' _ => h' = h).
Proof. intros H P. specialize (H h). destruct (m h) as [h' r]. simpl in H. subst. split; auto. split; [apply grow_refl|]. destruct r; auto. Qed.
Lemma pure_bind {X Y} (m : @M A X) (k : X -> @M A Y) : pure m -> (forall x, pure (k x)) -> pure (bind m k).
Proof. intros Hm Hk h. specialize (Hm h). unfold bind. destruct (m h) as [h' [x|e]]; simpl in *; subst; auto. apply Hk. Qed.
Lemma pure_ret {X} (x : X) : pure (ret x). Proof. now intros h. Qed.
Lemma pure_raise {X} e : pure (@raise A X e). Proof. now intros h. Qed.
Lemma pure_reads {X} (f : heap -> X) : pure (reads f). Proof. now intros h. Qed.
Lemma pure_readsR {X} (f : heap -> res X) : pure (readsR f). Proof. now intros h. Qed.
Lemma pure_liftR {X} (f : res X) : pure (@liftR A X f). Proof. now intros h. Qed.
Lemma pure_check b e : pure (@check A b e). Proof. now destruct b. Qed.
Lemma pure_assert b : pure (@assert A b). Proof. now destruct b. Qed.
Ltac pures := repeat first [apply pure_bind; [|intros ?] | apply pure_ret | apply pure_raise | apply pure_reads | apply pure_readsR | apply pure_liftR | apply pure_check | apply pure_assert
  | match goal with |- pure (match ?x with _ => _ end) => destruct x end | match goal with |- pure (let '(_, _) := ?x in _) => destruct x end ].

Lemma safe_mkDense h sh labs data name ls like : match ls with Some l => Forall (pl h) l | None => True end ->
  safe h (mkDense sh labs data name ls like) (fun h' t => pt h' t).
Proof.
  intros Hl. unfold mkDense. eapply safe_bind; [apply pure_safe; pures|]. intros h1 [sh' labs'] G1 P1 ->.
  eapply safe_bind with (Q := fun h' _ => True).
  - unfold generateData. destruct like; [anyret|]. destruct data as [a|].
    + destruct (dec _ _); [anyret|]. eapply safe_bind; [eapply safe_true, safe_liftR|]. intros. anyret.
    + eapply safe_bind; [apply safe_draw|]. intros. anyret.
  - intros h2 d G2 P2 _. apply safe_tail. destruct ls; auto. eapply Forall_pl_grow; eauto.
Qed.
Lemma safe_mkDiag h sh labs data name ls like : match ls with Some l => Forall (pl h) l | None => True end ->
  safe h (mkDiag sh labs data name ls like) (fun h' t => pt h' t).
Proof.
  intros Hl. unfold mkDiag. match goal with |- safe h (if ?c then _ else _) _ => destruct c end.
  - apply safe_alloc_tens. constructor.
  - eapply safe_bind; [apply pure_safe; pures|]. intros h1 [sh' labs'] G1 P1 ->.
    eapply safe_bind; [eapply safe_liftR|]. intros h2 d G2 P2 [-> _]. now apply safe_tail.
Qed.

Lemma safe_copy h t : safe h (copy t) (fun h' t => pt h' t).
Proof.
  unfold copy. eapply safe_bind; [apply safe_reads|]. intros h1 r G1 P1 [-> ->].
  eapply safe_bind; [apply safe_reads|]. intros h1 sh _ _ [-> ->]. eapply safe_bind; [apply safe_reads|]. intros h1 lb _ _ [-> ->].
  destruct (t_diag _); [now apply safe_mkDiag|now apply safe_mkDense].
Qed.
Lemma safe_toTensorLike h t : safe h (toTensorLike t) (fun h' t => pt h' t).
Proof.
  unfold toTensorLike. eapply safe_bind; [apply safe_reads|]. intros h1 r G1 P1 [-> ->].
  destruct (t_like _); [apply safe_copy|].
  eapply safe_bind; [apply safe_reads|]. intros h1 sh _ _ [-> ->]. eapply safe_bind; [apply safe_reads|]. intros h1 lb _ _ [-> ->].
  destruct (t_diag _); [now apply safe_mkDiag|now apply safe_mkDense].
Qed.
Lemma safe_newBond h l1 l2 : pl h l1 -> pl h l2 -> safe h (newBond l1 l2) (fun _ _ => True).
Proof.
  intros H1 H2. unfold newBond. eapply safe_bind; [apply safe_reads|]. intros h1 d1 _ _ [-> ->].
  eapply safe_bind; [apply safe_reads|]. intros h1 d2 _ _ [-> ->]. eapply safe_bind; [apply safe_assert|]. intros h1 u _ _ ->.
  eapply safe_bind; [apply safe_alloc_bond|]. intros h1 b G1 P1 Hb.
  eapply safe_bind; [apply safe_setLegBond; [eapply pl_grow; eauto|exact Hb]|]. intros h2 u2 G2 P2 _.
  eapply safe_bind; [apply safe_setLegBond; [eapply pl_grow; [|exact H2]; eapply grow_trans; eauto|exact Hb]|]. intros. anyret.
Qed.
Lemma safe_makeLink1 h l1 l2 : pl h l1 -> pl h l2 -> safe h (makeLink [RLeg l1] [RLeg l2] None None) (fun _ _ => True).
Proof.
  intros H1 H2. unfold makeLink. eapply safe_bind; [apply safe_readsR|]. intros h1 la _ _ [-> E1]. injection E1 as <-.
  eapply safe_bind; [apply safe_readsR|]. intros h1 lb _ _ [-> E1]. injection E1 as <-.
  eapply safe_bind; [apply safe_assert|]. intros h1 u _ _ ->. simpl.
  eapply safe_bind; [|intros; eapply safe_bind; [anyret|intros; anyret]].
  unfold linkPair. eapply safe_bind; [apply safe_reads|]. intros h1 d1 _ _ [-> ->].
  eapply safe_bind; [apply safe_reads|]. intros h1 d2 _ _ [-> ->]. eapply safe_bind; [apply safe_assert|]. intros h1 u1 _ _ ->.
  now apply safe_newBond.
Qed.

(** ** copyTensorList *)
Lemma dictGet_In {X Y} `{Dec X} (m : list (X * Y)) x y : dictGet m x = Some y -> In (x, y) m.
Proof.
  induction m as [|[a b] m IH]; simpl; [discriminate|]. destruct (dictGet m x) as [w|].
  - intros E. injection E as ->. auto.
  - destruct (dec x a) as [->|]; [|discriminate]. intros E. injection E as ->. auto.
Qed.
Lemma safe_copyLeg h ts tmap added l n1 : pl h n1 -> (forall a b, In (a, b) tmap -> pt h b) -> 
  safe h (copyLeg ts tmap added (l, n1)) (fun _ _ => True).
Proof.
  intros Hn HM. unfold copyLeg. eapply safe_bind; [apply safe_reads|]. intros h1 bo _ P [-> ->].
  destruct (legbond h l) as [b|]; [|anyret]. destruct (inb b added); [anyret|].
  eapply safe_bind; [apply safe_readsR|]. intros h1 l2 _ _ [-> _]. eapply safe_bind; [apply safe_reads|]. intros h1 t2 _ _ [-> ->].
  destruct (l_tensor _) as [t2|]; [|anyret]. destruct (negb _); [anyret|].
  destruct (dictGet tmap t2) as [nt2|] eqn:ED; [|apply safe_raise].
  eapply safe_bind; [apply safe_readsR|]. intros h1 k _ _ [-> _]. eapply safe_bind; [apply safe_readsR|]. intros h1 n2 _ _ [-> En].
  destruct (nth_error _ k) as [n2'|] eqn:E2; [|discriminate]. injection En as ->. apply nth_error_In in E2.
  apply dictGet_In in ED. eapply safe_bind; [apply safe_makeLink1; [exact Hn|exact (pv_own h P nt2 n2 (HM _ _ ED) E2)]|]. intros. anyret.
Qed.
Lemma safe_copyTensorLegs h ts tmap added t : (forall a b, In (a, b) tmap -> pt h b) ->
  safe h (copyTensorLegs ts tmap added t) (fun _ _ => True).
Proof.
  intros HM. unfold copyTensorLegs. destruct (dictGet tmap t) as [nt|] eqn:ED; [|apply safe_raise]. apply dictGet_In in ED.
  eapply safe_bind; [apply safe_reads|]. intros h1 ps _ P [-> ->].
  pose proof (priv_legs h nt P (HM _ _ ED)) as HF. rewrite Forall_forall in HF.
  eapply safe_true. apply (safe_foldM _ (fun h1 _ => grow h h1)); [|apply grow_refl].
  intros h1 s [l n1] Hx G1 P1. apply in_combine_r in Hx.
  assert (S1 : safe h1 (copyLeg ts tmap s (l, n1)) (fun _ _ => True)).
  { apply safe_copyLeg; [eapply pl_grow; eauto; now apply HF|]. intros a b Hab. eapply pt_grow; eauto. }
  specialize (S1 P1). destruct (copyLeg ts tmap s (l, n1) h1) as [h2 r]. destruct S1 as (Q1 & Q2 & _). split; auto. split; auto.
  destruct r; auto. eapply grow_trans; eauto.
Qed.
Lemma safe_copyTensorList h ts like : safe h (copyTensorList ts like) (fun h' cs => Forall (pt h') cs).
Proof.
  unfold copyTensorList. eapply safe_bind.
  - apply (safe_mapM _ (fun _ => True) pt); try exact I; [auto|intros a b y; apply pt_grow|].
    intros h1 x _ _. destruct like; [apply safe_toTensorLike|apply safe_copy].
  - intros h1 cs G1 P1 HF. eapply safe_bind with (Q := fun h2 _ => grow h1 h2).
    + apply (safe_foldM _ (fun h2 _ => grow h1 h2)); [|apply grow_refl]. intros h2 s x _ G2 P2.
      assert (S1 : safe h2 (copyTensorLegs ts (combine ts cs) s x) (fun _ _ => True)).
      { apply safe_copyTensorLegs. intros a b Hab. apply in_combine_r in Hab. rewrite Forall_forall in HF. eapply pt_grow; eauto. }
      specialize (S1 P2). destruct (copyTensorLegs _ _ s x h2) as [h3 r]. destruct S1 as (Q1 & Q2 & _). split; auto. split; auto.
      destruct r; auto. eapply grow_trans; eauto.
    + intros h2 u G2 P2 G12. eapply safe_weaken; [apply safe_ret|intros h' y _ _ [-> ->]]. eapply Forall_pt_grow; eauto.
Qed.

(** ** contraction *)
Lemma safe_shareLeg h tb l : pl h l -> safe h (shareLeg tb l) (fun _ _ => True).
Proof.
  intros Hl. unfold shareLeg. eapply safe_bind; [apply safe_readsR|]. intros h1 o _ P [-> _].
  eapply safe_bind; [apply safe_reads|]. intros h1 tbl _ _ [-> ->]. eapply safe_bind; [apply safe_reads|]. intros h1 bo _ _ [-> ->].
  destruct o as [l'|]; [|anyret]. destruct (legbond h l) as [b|] eqn:Eb; [|anyret]. destruct (inb _ _); [|anyret].
  eapply safe_bind; [apply safe_reads|]. intros h1 bd _ _ [-> ->].
  eapply safe_bind with (Q := fun _ _ => True); [|intros; anyret]. destruct (Nat.eqb _ _); [|anyret].
  intros _. simpl. assert (nbond h0 <= b) as Hb by (eapply pv_link; eauto).
  split; [|split; [split; simpl; lia|auto]]. destruct P as [p1 p2 p3 p4 p5 p6 p7 p8]. constructor; simpl; auto; try exact p7.
  intros b' Hb'. rewrite upd_other by lia. auto.
Qed.
Lemma safe_shareBonds h ta tb : pt h ta -> safe h (shareBonds ta tb) (fun _ _ => True).
Proof.
  intros Ha. unfold shareBonds. eapply safe_bind; [apply safe_reads|]. intros h1 ls _ P [-> ->].
  pose proof (priv_legs h ta P Ha) as HF. rewrite Forall_forall in HF.
  eapply safe_bind; [|intros; anyret].
  apply (safe_mapM _ (fun h' => grow h h') (fun _ _ => True)); auto using grow_refl.
  - intros a b G1 G2. eapply grow_trans; eauto.
  - intros h1 l Hl G1. apply safe_shareLeg. eapply pl_grow; [exact G1|]. apply HF, Hl.
Qed.
Definition keeps {X} (m : @M A X) : Prop := forall h, legs (fst (m h)) = legs h /\ nleg (fst (m h)) = nleg h.
Lemma keeps_bind {X Y} (m : @M A X) (k : X -> @M A Y) : keeps m -> (forall x, keeps (k x)) -> keeps (bind m k).
Proof.
  intros Hm Hk h. destruct (Hm h) as [E1 E2]. unfold bind. destruct (m h) as [h' [x|e]]; simpl in *; auto.
  destruct (Hk x h') as [E3 E4]. split; congruence.
Qed.
Lemma keeps_pure {X} (m : @M A X) : pure m -> keeps m.
Proof. intros H h. now rewrite (H h). Qed.
Lemma keeps_iterM {X} (f : X -> @M A unit) l : (forall x, keeps (f x)) -> keeps (iterM f l).
Proof. intros H. induction l; simpl; [now apply keeps_pure|]. apply keeps_bind; auto. Qed.
Lemma keeps_moveLegsToFront t ls : keeps (moveLegsToFront t ls).
Proof.
  unfold moveLegsToFront. apply keeps_bind; [now apply keeps_pure|]. intros mf. apply keeps_bind.
  - apply keeps_iterM. intros l. unfold removeLeg. apply keeps_bind; [now apply keeps_pure|]. intros cur.
    destruct (remove_one l cur); [now split|now apply keeps_pure].
  - intros _. apply keeps_bind; [now apply keeps_pure|]. intros rest. apply keeps_bind; [now split|]. intros _.
    apply keeps_bind; [now apply keeps_pure|]. intros r. destruct (t_diag r); [now apply keeps_pure|]. destruct (t_like r); [now apply keeps_pure|].
    destruct (t_arr r); [|now apply keeps_pure]. apply keeps_bind; [now apply keeps_pure|]. now split.
Qed.
Lemma safe_inplace h t (m : @M A unit) : pt h t -> framed t m -> keeps m -> safe h m (fun _ _ => True).
Proof.
  intros Ht F K P. destruct (K h) as [K1 K2]. destruct (m h) as [h' r] eqn:E. simpl in *. specialize (F _ _ _ E). destruct F as [i1 i2 i3 i4 i5 i6 i7].
  split; [|split; [split; simpl; lia|destruct r; auto]]. destruct P as [p1 p2 p3 p4 p5 p6 p7 p8]. unfold pt in Ht.
  assert (PL : forall l, In l (legs_of h t) -> nleg h0 <= l < nleg h) by (intros l; apply p7; lia).
  constructor; try lia.
  - intros l Hl. rewrite K1; auto.
  - intros b Hb. rewrite i3. auto.
  - intros t' Ht'. rewrite i1 by lia. auto.
  - intros t' l Ht' Hl. destruct (Nat.eq_dec t' t) as [->|N].
    + destruct (i7 l Hl) as [Hi|Hi]; [apply PL in Hi; lia|lia].
    + unfold legs_of in Hl. rewrite i1 in Hl by auto. specialize (p7 t' l). unfold legs_of in p7. assert (ntens h0 <= t' < ntens h) as B by lia. specialize (p7 B Hl). lia.
  - rewrite K1, K2. exact p8.
Qed.
Ltac rd := eapply safe_bind; [first [apply safe_reads|apply safe_readsR|apply safe_liftR]|]; intros ? ? _ _ [-> ?].
Lemma safe_getArr h t : safe h (getArr t) (fun h' _ => h' = h).
Proof. apply pure_safe. unfold getArr. pures. Qed.
Ltac ga := eapply safe_bind; [apply safe_getArr|]; intros ? ? _ _ ->.
Lemma safe_contractOuter h ta tb like : pt h ta -> pt h tb -> safe h (contractOuter ta tb like) (fun h' t => pt h' t).
Proof.
  intros Ha Hb P. revert P. intros P. 
  assert (HF : Forall (pl h) (tlegs h ta ++ tlegs h tb)) by (apply Forall_app; split; now apply priv_legs).
  revert P. unfold contractOuter. do 5 rd. subst.
  destruct (t_diag (tens h ta)) eqn:Da; destruct (t_diag (tens h tb)) eqn:Db; simpl; destruct like;
    try (apply safe_mkDiag; exact HF); try (apply safe_mkDense; exact HF); ga; ga; repeat rd; 
    try (apply safe_mkDiag; exact HF); try (apply safe_mkDense; exact HF).
Qed.
Lemma listDifference_incl {X} `{Dec X} (a b : list X) : forall r, listDifference a b = Ok r -> incl r a.
Proof.
  revert a. induction b as [|x b IH]; intros a r E; simpl in E.
  - injection E as <-. apply incl_refl.
  - destruct (remove_one x a) as [t|] eqn:ER; [|discriminate]. eapply incl_tran; [apply IH; exact E|]. eapply remove_one_incl; eauto.
Qed.
Lemma safe_contractBonds h ta tb like bs : pt h ta -> pt h tb -> safe h (contractBonds ta tb like bs) (fun h' t => pt h' t).
Proof.
  intros Ha Hb P. pose proof (priv_legs h ta P Ha) as Fa. pose proof (priv_legs h tb P Hb) as Fb.
  revert P. unfold contractBonds. do 7 rd. subst.
  match goal with E : complementLegs h ta _ = Ok ?r |- _ => pose proof (listDifference_incl _ _ _ E) as Ia; rename r into ra end.
  match goal with E : complementLegs h tb _ = Ok ?r |- _ => pose proof (listDifference_incl _ _ _ E) as Ib; rename r into rb end.
  assert (HF : Forall (pl h) ra /\ Forall (pl h) rb).
  { rewrite !Forall_forall in *. split; intros l Hl; [apply Fa, Ia, Hl|apply Fb, Ib, Hl]. }
  destruct HF as [Ra Rb]. assert (HF : Forall (pl h) (ra ++ rb)) by (apply Forall_app; auto).
  destruct (t_diag (tens h ta)) eqn:Da; destruct (t_diag (tens h tb)) eqn:Db; simpl; destruct like;
    try (apply safe_mkDiag; exact HF); try (apply safe_mkDense; exact HF).
  - ga. ga. rd. destruct (Nat.eqb _ 0); [now apply safe_mkDiag|apply safe_mkDiag; exact HF].
  - eapply safe_bind; [apply (safe_inplace h tb); auto using framed_moveLegsToFront, keeps_moveLegsToFront|]. intros h1 u G1 P1 _.
    ga. ga. rd. rd. rd. apply safe_mkDense. eapply Forall_pl_grow; [exact G1|]. apply Forall_app; auto.
  - do 4 rd. apply safe_mkDense. exact HF.
  - do 4 rd. apply safe_mkDense. exact HF.
Qed.
Lemma safe_contractOrdered h ta tb : pt h ta -> pt h tb -> safe h (contractOrdered ta tb) (fun h' t => pt h' t).
Proof.
  intros Ha Hb. unfold contractOrdered. eapply safe_bind; [now apply safe_shareBonds|]. intros h1 bs G1 P1 _.
  rd. rd. destruct (negb _); [apply safe_raise|]. pose proof (pt_grow _ _ _ G1 Ha). pose proof (pt_grow _ _ _ G1 Hb).
  destruct (Nat.eqb _ 0); [now apply safe_contractOuter|now apply safe_contractBonds].
Qed.
Lemma safe_contractTwoTensors h ta tb : pt h ta -> pt h tb -> safe h (contractTwoTensors ta tb) (fun h' t => pt h' t).
Proof.
  intros Ha Hb. unfold contractTwoTensors. rd. rd. subst. destruct (_ && _); now apply safe_contractOrdered.
Qed.
Lemma safe_contractCost h ta tb : pt h ta -> safe h (contractCost ta tb) (fun _ _ => True).
Proof.
  intros Ha. unfold contractCost. rd. rd. subst. destruct (_ && _).
  - rd. anyret.
  - eapply safe_bind; [now apply safe_shareBonds|]. intros h1 bs G1 P1 _. rd. rd. rd. subst. cbv zeta. 
    destruct (Nat.eqb _ 0); anyret.
Qed.
Lemma safe_seqStep h ts c p : Forall (pt h) ts -> safe h (seqStep (ts, c) p) (fun h' s => Forall (pt h') (fst s)).
Proof.
  intros HF. destruct p as [s t]. unfold seqStep. 
  destruct (nth_error ts s) as [ta|] eqn:Ea; [|apply safe_raise]. destruct (nth_error ts t) as [tb|] eqn:Eb; [|apply safe_raise].
  apply nth_error_In in Ea. apply nth_error_In in Eb. pose proof HF as HF'. rewrite Forall_forall in HF'.
  eapply safe_bind; [apply safe_contractCost; auto|]. intros h1 [c1 z] G1 P1 _.
  eapply safe_bind; [apply safe_contractTwoTensors; eapply pt_grow; eauto|]. intros h2 tc G2 P2 Hc.
  eapply safe_weaken; [apply safe_ret|intros h' y _ _ [-> ->]]. simpl.
  assert (HF2 : Forall (pt h2) ts) by (eapply Forall_pt_grow; [|exact HF]; eapply grow_trans; eauto).
  clear -HF2 Hc. generalize (Nat.min s t). intros k. revert k. induction HF2 as [|x l Hx HF IH]; intros [|k]; simpl; constructor; auto.
Qed.
Lemma safe_contractWithSeq h ts sq : safe h (contractWithSeq ts sq false) (fun h' r => pt h' (fst (fst r))).
Proof.
  unfold contractWithSeq. eapply safe_bind; [apply safe_copyTensorList|]. intros h1 cs G1 P1 HF.
  eapply safe_bind.
  - apply (safe_foldM _ (fun h' s => Forall (pt h') (fst s))); [|exact HF]. intros h2 [ts2 c2] p _ F2. now apply safe_seqStep.
  - intros h2 [ts' cost] G2 P2 F2. destruct ts' as [|t0 ts']; [apply safe_raise|]. 
    eapply safe_weaken; [apply safe_ret|intros h' y _ _ [-> ->]]. simpl. now inversion F2.
Qed.
End Fr.

Section Top.
Context {A : Type} {HA : SR A}.
Notation heap := (heap A).
(** nothing allocated before is changed *)
Lemma seq_frame (h h' : heap) ts sq r : contractWithSeq ts sq false h = (h', r) ->
  (forall l, l < nleg h -> legs h' l = legs h l) /\ (forall b, b < nbond h -> bonds h' b = bonds h b) /\
  (forall t, t < ntens h -> tens h' t = tens h t) /\ 
  match r with Ok (t0, _, _) => ntens h <= t0 | Err _ => True end.
Proof.
  intros E. pose proof (safe_contractWithSeq h h ts sq (priv_refl h)) as K. rewrite E in K. destruct K as ([p1 p2 p3 p4 p5 p6 p7 p8] & _ & R).
  repeat split; auto. destruct r as [[[t0 c] l]|]; auto. apply R.
Qed.
Lemma copyList_frame (h h' : heap) ts like r : copyTensorList ts like h = (h', r) ->
  (forall l, l < nleg h -> legs h' l = legs h l) /\ (forall b, b < nbond h -> bonds h' b = bonds h b) /\
  (forall t, t < ntens h -> tens h' t = tens h t) /\ 
  match r with Ok cs => forall c, In c cs -> ntens h <= c < ntens h' /\ forall l, In l (legs_of h' c) -> nleg h <= l | Err _ => True end.
Proof.
  intros E. pose proof (safe_copyTensorList h h ts like (priv_refl h)) as K. rewrite E in K. destruct K as ([p1 p2 p3 p4 p5 p6 p7 p8] & _ & R).
  repeat split; auto. destruct r as [cs|]; auto. intros c Hc. rewrite Forall_forall in R. pose proof (R c Hc) as B. split; [exact B|].
  intros l Hl. apply (p7 c l B Hl).
Qed.
End Top.
