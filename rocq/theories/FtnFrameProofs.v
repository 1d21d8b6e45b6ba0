(** contract works on copies: nothing that existed before is changed. *)
From Coq Require Import List Arith Bool String Lia Permutation.
From Verif Require Import Base NdModel HeapModel FuncsModel TensorModel TensorSpec ContractModel NetSpec SearchModel GraphModel NetGraphModel FtnModel FtnSpec
  FuncsProofs TensorProofs CopyProofs ShareProofs FrameProofs.
Import ListNotations.
Local Open Scope nat_scope.

Section Ff.
Context {A : Type} {HA : SR A}.
Notation heap := (heap A).
Variable h0 : heap.
Notation safe := (safe h0).
Notation priv := (priv h0).
Notation pt := (pt h0).
Notation pl := (pl h0).

(** operations that link no leg *)
Definition nolink {X} (m : @M A X) : Prop := forall h, nleg h <= nleg (fst (m h)) /\
  forall l b, l < nleg (fst (m h)) -> l_bond (legs (fst (m h)) l) = Some b -> l < nleg h /\ l_bond (legs h l) = Some b.
Lemma nolink_bind {X Y} (m : @M A X) (k : X -> @M A Y) : nolink m -> (forall x, nolink (k x)) -> nolink (bind m k).
Proof.
  intros Hm Hk h. unfold bind. specialize (Hm h). destruct (m h) as (h1 & [x|e]); simpl in *; auto. specialize (Hk x h1). destruct (k x h1) as (h2 & r). simpl in *.
  destruct Hm as (L1 & H1), Hk as (L2 & H2). split; [lia|]. intros l b Hl E. destruct (H2 l b Hl E) as (H3 & H4). auto.
Qed.
Lemma nolink_keeps {X} (m : @M A X) : keeps m -> nolink m.
Proof. intros K h. destruct (K h) as (E1 & E2). rewrite E1, E2. split; auto. Qed.
Lemma nolink_pure {X} (m : @M A X) : pure m -> nolink m.
Proof. intros P. apply nolink_keeps. now apply keeps_pure. Qed.
Lemma nolink_iterM {X} (f : X -> @M A unit) l : (forall x, nolink (f x)) -> nolink (iterM f l).
Proof. intros H. induction l as [|x l IH]; [apply nolink_pure; intros h; reflexivity|]. cbn [iterM]. apply nolink_bind; auto. Qed.
Lemma nolink_setLegName l n : nolink (@setLegName A l n).
Proof.
  intros h. unfold setLegName, modify. simpl. split; auto. intros x b Hx. unfold upd. destruct (Nat.eqb_spec x l) as [->|]; simpl; auto.
Qed.
Lemma nolink_newLeg t d n : nolink (@newLeg A t d n).
Proof.
  intros h. unfold newLeg, allocs, alloc_leg. simpl. split; [lia|]. intros x b Hx. unfold upd. destruct (Nat.eqb_spec x (nleg h)) as [->|]; simpl; [discriminate|]. intros. split; auto. lia.
Qed.
Lemma keeps_setArr t a : keeps (@setArr A t a). Proof. intros h. now split. Qed.
Lemma keeps_setLegs t ls : keeps (@setLegs A t ls). Proof. intros h. now split. Qed.

Lemma safe_framed {X} h t (m : @M A X) : pt h t -> framed t m -> nolink m -> safe h m (fun _ _ => True).
Proof.
  intros Ht F K P. destruct (K h) as [K1 K2]. destruct (m h) as [h' r] eqn:E. simpl in *. specialize (F _ _ _ E). destruct F as [i1 i2 i3 i4 i5 i6 i7].
  split; [|split; [split; simpl; lia|destruct r; auto]]. destruct P as [p1 p2 p3 p4 p5 p6 p7 p8]. unfold FrameProofs.pt in Ht.
  assert (PL : forall l, In l (legs_of h t) -> nleg h0 <= l < nleg h) by (intros l; apply p7; lia).
  constructor; try lia.
  - intros l Hl. rewrite i2; auto; [|lia]. intros X'. apply PL in X'. lia.
  - intros b Hb. rewrite i3. auto.
  - intros t' Ht'. rewrite i1 by lia. auto.
  - intros t' l Ht' Hl. destruct (Nat.eq_dec t' t) as [->|N].
    + destruct (i7 l Hl) as [Hi|Hi]; [apply PL in Hi; lia|lia].
    + unfold legs_of in Hl. rewrite i1 in Hl by auto. specialize (p7 t' l). unfold legs_of in p7. assert (ntens h0 <= t' < ntens h) as B by lia. specialize (p7 B Hl). lia.
  - intros l b Hl EB. destruct (K2 l b) as (H1 & H2); [lia|auto|]. apply (p8 l b); auto. lia.
Qed.

Ltac nl := repeat first [apply nolink_keeps, keeps_moveLegsToFront | apply nolink_bind; [|intros ?] | apply nolink_setLegName | apply nolink_newLeg
  | apply nolink_pure; first [apply pure_ret|apply pure_raise|apply pure_reads|apply pure_readsR|apply pure_liftR|apply pure_check|apply pure_assert]
  | apply nolink_keeps; first [apply keeps_setArr|apply keeps_setLegs|apply keeps_moveLegsToFront] ].
Lemma safe_renameLabel h t a b : pt h t -> safe h (renameLabel t a b) (fun _ _ => True).
Proof.
  intros Ht. apply (safe_framed h t); auto; [apply framed_renameLabel|]. unfold renameLabel. nl. destruct x; nl.
Qed.
Lemma safe_addTensorTag h t s : pt h t -> safe h (addTensorTag t s) (fun _ _ => True).
Proof.
  intros Ht. apply (safe_framed h t); auto; [apply framed_addTensorTag|]. unfold addTensorTag. nl. apply nolink_iterM. intros l. nl. destruct x0; nl. destruct (findDash s0); nl.
Qed.
Lemma safe_removeTensorTag h t : pt h t -> safe h (removeTensorTag t) (fun _ _ => True).
Proof.
  intros Ht. apply (safe_framed h t); auto; [apply framed_removeTensorTag|]. unfold removeTensorTag. nl. apply nolink_iterM. intros l. nl. destruct x0; nl. destruct (findDash s); nl.
Qed.
Lemma keeps_removeLeg t l : keeps (@removeLeg A t l).
Proof. unfold removeLeg. intros h. unfold bind, reads. destruct (remove_one l (tlegs h t)); [unfold setLegs, modify|unfold raise]; now split. Qed.
Lemma nolink_outProduct t ls lab : nolink (@outProduct A HA t ls lab).
Proof.
  unfold outProduct. nl. destruct (t_diag x); nl. all: match goal with |- nolink (if t_like ?r then _ else _) => destruct (t_like r); nl; destruct (t_arr r); nl | _ => idtac end.
Qed.
Lemma safe_outProductLabels h t labs lab : pt h t -> safe h (outProductLabels t labs lab) (fun _ _ => True).
Proof.
  intros Ht. apply (safe_framed h t); auto; [apply framed_outProductLabels|]. unfold outProductLabels. nl. destruct (t_diag x); nl.
  destruct (find _ _); [|apply nolink_outProduct]. nl. apply nolink_iterM. intros [l|]; [|nl]. apply nolink_keeps, keeps_removeLeg.
Qed.

Lemma safe_localCopies h (d : list (string * tid)) : safe h (localCopies d) (fun h' loc => Forall (fun p => pt h' (snd p)) loc).
Proof.
  apply (safe_mapM h0 _ (fun _ => True) (fun h' p => pt h' (snd p))); auto.
  - intros h1 h2 y G. now apply pt_grow.
  - intros h1 [n t] _ _. eapply safe_bind; [apply safe_copy|]. intros h2 c G2 P2 Hc. eapply safe_weaken; [apply safe_ret|]. intros h3 y _ _ [-> ->]. exact Hc.
Qed.
Definition Loc (loc : list (string * tid)) (h : heap) : Prop := forall n c, In (n, c) loc -> pt h c.
Lemma Loc_grow loc h h' : grow h h' -> Loc loc h -> Loc loc h'.
Proof. intros G L n c H. eapply pt_grow; eauto. Qed.
Lemma safe_localGet h loc n : Loc loc h -> safe h (localGet loc n) (fun h' c => h' = h /\ pt h c).
Proof.
  intros L. unfold localGet. destruct (dictGet loc n) as [c|] eqn:E; [|apply safe_raise]. eapply safe_weaken; [apply safe_ret|]. intros h' y _ _ [-> ->].
  apply dictGet_In in E. split; auto. eapply L; eauto.
Qed.
Lemma safe_preNames h loc l : Loc loc h -> safe h (preNames loc l) (fun _ _ => True).
Proof.
  intros L. apply (safe_iterM h0 _ (Loc loc)); auto; [intros; eapply Loc_grow; eauto|]. intros h1 [[t a] b] _ L1.
  eapply safe_bind; [now apply safe_localGet|]. intros h2 c G P [-> Hc]. now apply safe_renameLabel.
Qed.
Lemma safe_tagAll h loc : Loc loc h -> safe h (tagAll loc) (fun _ _ => True).
Proof.
  intros L. apply (safe_iterM h0 _ (Loc loc)); auto; [intros; eapply Loc_grow; eauto|]. intros h1 [n c] Hi L1. apply safe_addTensorTag. eapply L1; eauto.
Qed.
Lemma safe_makeLinkStr h la lb ca cb : pt h ca -> pt h cb -> safe h (makeLink [RStr la] [RStr lb] (Some ca) (Some cb)) (fun _ _ => True).
Proof.
  intros Ha Hb P. pose proof (priv_legs h0 h ca P Ha) as Fa. pose proof (priv_legs h0 h cb P Hb) as Fb. rewrite Forall_forall in Fa, Fb. revert P.
  unfold makeLink. eapply safe_bind; [apply safe_readsR|]. intros h1 x1 _ _ [-> E1]. eapply safe_bind; [apply safe_readsR|]. intros h1 x2 _ _ [-> E2].
  cbn [rmapM linkLeg rbind] in E1, E2. injection E1 as <-. injection E2 as <-. cbn [List.length Nat.eqb combine].
  eapply safe_bind; [eapply safe_weaken; [apply safe_assert|intros h' x _ _ X; exact X]|]. intros h1 _ _ _ ->. cbn [mapM].
  assert (SP : safe h (linkPair (getLeg h ca (NStr la) false, getLeg h cb (NStr lb) false)) (fun _ _ => True)).
  { unfold linkPair. destruct (getLeg h ca (NStr la) false) as [l1|] eqn:G1; [|apply safe_raise]. destruct (getLeg h cb (NStr lb) false) as [l2|] eqn:G2; [|apply safe_raise].
    apply getLeg_In in G1. apply getLeg_In in G2.
    eapply safe_bind; [apply safe_reads|]. intros h1 d1 _ _ [-> _]. eapply safe_bind; [apply safe_reads|]. intros h1 d2 _ _ [-> _].
    eapply safe_bind; [apply safe_assert|]. intros h1 _ _ _ ->. apply safe_newBond; auto. }
  eapply safe_bind; [exact SP|]. intros h1 b _ _ _. eapply safe_bind; [apply safe_ret|]. intros h2 y _ _ [-> ->]. eapply safe_weaken; [apply safe_ret|auto].
Qed.
Lemma safe_linkAll h loc l : Loc loc h -> safe h (linkAll loc l) (fun _ _ => True).
Proof.
  intros L. apply (safe_iterM h0 _ (Loc loc)); auto; [intros; eapply Loc_grow; eauto|]. intros h1 [[ta la] [tb lb]] _ L1.
  eapply safe_bind; [now apply safe_localGet|]. intros h2 ca G P [-> Ha]. eapply safe_bind; [now apply safe_localGet|]. intros h2 cb G2 P2 [-> Hb].
  eapply safe_bind; [now apply safe_makeLinkStr|]. intros h2 y _ _ _. eapply safe_weaken; [apply safe_ret|auto].
Qed.
Lemma safe_contractInplace h ts sq : Forall (pt h) ts -> safe h (contractWithSeq ts sq true) (fun h' r => pt h' (fst (fst r))).
Proof.
  intros HF. unfold contractWithSeq. eapply safe_bind; [apply safe_ret|]. intros h1 cs G1 P1 [-> ->].
  eapply safe_bind.
  - apply (safe_foldM h0 _ (fun h' s => Forall (pt h') (fst s))); [|exact HF]. intros h2 [ts2 c2] p _ F2. now apply safe_seqStep.
  - intros h2 [ts' cost] G2 P2 F2. destruct ts' as [|t0 ts']; [apply safe_raise|]. 
    eapply safe_weaken; [apply safe_ret|intros h' y _ _ [-> ->]]. simpl. now inversion F2.
Qed.
Lemma safe_contractWithSequence h symdiff fuel ts sq typ : Forall (pt h) ts -> 
  safe h (contractWithSequence symdiff fuel ts (Some sq) false typ true) (fun h' t => pt h' t).
Proof.
  intros HF. unfold contractWithSequence, contractAndCost. eapply safe_bind.
  - eapply safe_bind; [apply safe_ret|]. intros h1 s _ _ [-> ->]. now apply safe_contractInplace.
  - intros h1 [[t0 c] l] _ _ H. eapply safe_weaken; [apply safe_ret|]. intros h2 y _ _ [-> ->]. exact H.
Qed.
Lemma safe_postOut h t out : pt h t -> safe h (postOut t out) (fun _ _ => True).
Proof.
  intros Ht. apply (safe_iterM h0 _ (fun h => pt h t)); auto; [intros; eapply pt_grow; eauto|]. intros h1 [labs n] _ H1.
  eapply safe_bind; [now apply safe_outProductLabels|]. intros h2 y _ _ _. eapply safe_weaken; [apply safe_ret|auto].
Qed.
Lemma safe_postNames h t l : pt h t -> safe h (postNames t l) (fun _ _ => True).
Proof.
  intros Ht. apply (safe_iterM h0 _ (fun h => pt h t)); auto; [intros; eapply pt_grow; eauto|]. intros h1 [[n a] b] _ H1. now apply safe_renameLabel.
Qed.

(** ** Worlds *)
Notation world := (world A).
Definition wsafe {X} (w : world) (m : @WM A X) (Q : world -> X -> Prop) : Prop :=
  priv (w_heap w) -> let (w', r) := m w in priv (w_heap w') /\ grow (w_heap w) (w_heap w') /\ match r with Ok x => Q w' x | Err _ => True end.
Lemma wsafe_bind {X Y} w (m : @WM A X) (k : X -> @WM A Y) Q R : wsafe w m Q ->
  (forall w' x, grow (w_heap w) (w_heap w') -> priv (w_heap w') -> Q w' x -> wsafe w' (k x) R) -> wsafe w (wbind m k) R.
Proof.
  intros Hm Hk P. unfold wbind. specialize (Hm P). destruct (m w) as (w1 & [x|e]); auto. destruct Hm as (P1 & G1 & H1).
  specialize (Hk w1 x G1 P1 H1 P1). destruct (k x w1) as (w2 & r). destruct Hk as (P2 & G2 & H2). split; auto. split; auto. eapply grow_trans; eauto.
Qed.
Lemma wsafe_weaken {X} w (m : @WM A X) (Q R : world -> X -> Prop) : wsafe w m Q -> (forall w' x, Q w' x -> R w' x) -> wsafe w m R.
Proof. intros H HQ P. specialize (H P). destruct (m w) as (w' & [x|e]); auto. destruct H as (H1 & H2 & H3). auto. Qed.
Lemma wsafe_lift {X} (w : world) (m : @M A X) Q : safe (w_heap w) m Q -> wsafe w (lift m) (fun w' x => Q (w_heap w') x).
Proof. intros H P. specialize (H P). unfold lift. destruct (m (w_heap w)) as (h & r). exact H. Qed.
Lemma wsafe_reads {X} (w : world) (g : world -> X) : wsafe w (wreads g) (fun w' x => w' = w /\ x = g w).
Proof. intros P. simpl. split; auto. split; auto. apply grow_refl. Qed.
Lemma wsafe_ret {X} (w : world) (x : X) : wsafe w (wret x) (fun w' y => w' = w /\ y = x).
Proof. intros P. simpl. split; auto. split; auto. apply grow_refl. Qed.
Lemma wsafe_assert (w : world) b : wsafe w (wassert b) (fun w' _ => w' = w).
Proof. intros P. destruct b; simpl; (split; [auto|]); (split; [apply grow_refl|auto]). Qed.
Lemma wsafe_setF (w : world) f g : wsafe w (setF f g) (fun w' _ => w_heap w' = w_heap w).
Proof. intros P. simpl. split; auto. split; auto. apply grow_refl. Qed.

Variable symdiff : list nat -> list nat -> list nat.
Variable fuel : nat.
Ltac wb := eapply wsafe_bind.
Lemma wsafe_contract (w : world) f d b : wsafe w (contract symdiff fuel f d b) (fun w' t => pt (w_heap w') t).
Proof.
  unfold contract. wb; [apply wsafe_setF|]. intros w1 _ _ _ _. wb; [apply wsafe_reads|]. intros w1' names _ _ [-> ->].
  wb; [apply wsafe_assert|]. intros w1' _ _ _ ->. wb; [apply wsafe_reads|]. intros w1' r _ _ [-> Er].
  wb; [apply wsafe_lift, safe_localCopies|]. intros w2 loc _ _ HF.
  assert (L2 : Loc loc (w_heap w2)) by (rewrite Forall_forall in HF; intros n c Hc; apply (HF (n, c) Hc)). clear HF.
  wb; [apply wsafe_lift; now apply safe_preNames|]. intros w3 _ G3 _ _. pose proof (Loc_grow _ _ _ G3 L2) as L3.
  wb; [apply wsafe_lift; now apply safe_tagAll|]. intros w4 _ G4 _ _. pose proof (Loc_grow _ _ _ G4 L3) as L4.
  wb; [apply wsafe_lift; now apply safe_linkAll|]. intros w5 _ G5 _ _. pose proof (Loc_grow _ _ _ G5 L4) as L5.
  wb; [apply wsafe_reads|]. intros w5' h _ _ [-> _]. wb; [apply wsafe_setF|]. intros w6 u6 _ _ E6. cbv beta in E6. rewrite <- E6 in L5.
  wb; [apply wsafe_lift; apply (safe_mapM h0 _ (Loc loc) pt); [intros; eapply Loc_grow; eauto|intros h1 h2 y G; now apply pt_grow|
       intros h1 n _ L1; eapply safe_weaken; [apply safe_localGet; exact L1|intros h2 x _ _ [-> H]; exact H]|exact L5]|].
  intros w7 ts _ _ F7. cbv beta in F7. wb; [apply wsafe_reads|]. intros w7' r' _ _ [-> _].
  assert (SQ : forall w8 : world, wsafe w8 (wbind (lift (readsR (fun h => generateOptimalSequence symdiff fuel h ts false (f_typ r')))) (fun p =>
                       wbind (setF f (set_seq (Some (fst p)))) (fun _ => wret (fst p)))) (fun w' _ => w_heap w' = w_heap w8)).
  { intros w8. wb; [apply wsafe_lift, safe_readsR|]. intros w9 p _ _ [E9 _]. wb; [apply wsafe_setF|]. intros w10 u10 _ _ E10. cbv beta in E10. 
    eapply wsafe_weaken; [apply wsafe_ret|]. intros w11 x [-> _]. congruence. }
  wb.
  { instantiate (1 := fun w' _ => w_heap w' = w_heap w7). destruct (f_seq r') as [sq|]; [destruct (f_real r' && f_changed r')|]; [apply SQ| |apply SQ].
    eapply wsafe_weaken; [apply wsafe_ret|]. intros w11 x [-> _]. reflexivity. }
  intros w8 sq _ _ E8. wb; [apply wsafe_lift; apply safe_contractWithSequence; rewrite E8; exact F7|]. intros w9 res _ _ H9. cbv beta in H9.
  wb; [apply wsafe_lift; now apply safe_postOut|]. intros w10 _ G10 _ _. assert (H10 := pt_grow h0 _ _ _ G10 H9).
  wb; [apply wsafe_lift; now apply safe_postNames|]. intros w11 _ G11 _ _. assert (H11 := pt_grow h0 _ _ _ G11 H10).
  wb; [instantiate (1 := fun w' _ => pt (w_heap w') res)|intros w12 u12 _ _ H12; eapply wsafe_weaken; [apply wsafe_ret|]; intros w13 y [-> ->]; exact H12].
  destruct b.
  - intros P. pose proof (wsafe_lift w11 _ _ (safe_removeTensorTag (w_heap w11) res H11) P) as K. destruct (lift (removeTensorTag res) w11) as (w12 & r12).
    destruct K as (K1 & K2 & _). split; auto. split; auto. destruct r12; auto. eapply pt_grow; eauto.
  - eapply wsafe_weaken; [apply wsafe_ret|]. intros w12 y [-> _]. exact H11.
Qed.
End Ff.

Section Top.
Context {A : Type} {HA : SR A}.
Theorem contract_frame symdiff fuel (w w' : world A) f d b r : contract symdiff fuel f d b w = (w', r) ->
  (forall l, l < nleg (w_heap w) -> legs (w_heap w') l = legs (w_heap w) l) /\
  (forall b, b < nbond (w_heap w) -> bonds (w_heap w') b = bonds (w_heap w) b) /\
  (forall t, t < ntens (w_heap w) -> tens (w_heap w') t = tens (w_heap w) t) /\
  match r with Ok t => ntens (w_heap w) <= t < ntens (w_heap w') /\ forall l, In l (legs_of (w_heap w') t) -> nleg (w_heap w) <= l | Err _ => True end.
Proof.
  intros E. pose proof (wsafe_contract (w_heap w) symdiff fuel w f d b (priv_refl (w_heap w))) as K. rewrite E in K. destruct K as ([p1 p2 p3 p4 p5 p6 p7 p8] & _ & R).
  split; auto. split; auto. split; auto. destruct r as [t|]; auto. split; [exact R|]. intros l Hl. apply (p7 t l R Hl).
Qed.
End Top.
