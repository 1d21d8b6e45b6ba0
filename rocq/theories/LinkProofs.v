(** Proofs about makeLink. *)
From Coq Require Import List Arith Bool Lia Permutation.
From Coq Require Import Relations.
From Verif Require Import Base Sums NdModel HeapModel FuncsModel TensorModel TensorSpec ContractModel NetSpec
  FuncsProofs NdProofs TensorProofs LabelProofs ShareProofs SumpairsProofs.
Import ListNotations.
Local Open Scope nat_scope.

Lemma Forall2_length {X Y} (R : X -> Y -> Prop) l1 l2 : Forall2 R l1 l2 -> List.length l1 = List.length l2.
Proof. induction 1; simpl; auto. Qed.

Section Li.
Context {A : Type} {HA : SR A}.
Notation heap := (heap A).

Definition with_bond (g : leg) (b : bid) : leg := mkLeg (l_tensor g) (l_dim g) (l_name g) (Some b).
Definition linked_heap (h : heap) (l l' : lid) : heap :=
  mkHeap (upd (upd (legs h) l (with_bond (legs h l) (nbond h))) l' (with_bond (upd (legs h) l (with_bond (legs h l) (nbond h)) l') (nbond h)))
   (upd (bonds h) (nbond h) (mkBond l l')) (tens h) (nleg h) (S (nbond h)) (ntens h) (rng h) (rpos h).

Lemma linkPair_ok (h : heap) l l' : dim_of h l = dim_of h l' -> 
  linkPair (Some l, Some l') h = (linked_heap h l l', Ok (nbond h)).
Proof.
  intros E. unfold linkPair, bind, reads, newBond. change (legdim h) with (dim_of h). rewrite E, Nat.eqb_refl.
  unfold assert, ret, bind, reads. change (legdim h) with (dim_of h). rewrite E, Nat.eqb_refl. reflexivity.
Qed.
Lemma linkPair_dim (h : heap) l l' : dim_of h l <> dim_of h l' -> linkPair (Some l, Some l') h = (h, Err AssertionError).
Proof.
  intros E. unfold linkPair, bind, reads. change (legdim h) with (dim_of h).
  destruct (Nat.eqb_spec (dim_of h l) (dim_of h l')); [congruence|]. reflexivity.
Qed.

Lemma linked_heap_added (h : heap) l l' : l <> l' -> links_added h (linked_heap h l l') [(l, l')].
Proof.
  intros N. constructor; try reflexivity.
  - intros x x' [E|[]]. injection E as <- <-.
    assert (F1 : legs (linked_heap h l l') l = with_bond (legs h l) (nbond h)).
    { simpl. rewrite upd_other by auto. now rewrite upd_same. }
    assert (F2 : legs (linked_heap h l l') l' = with_bond (legs h l') (nbond h)).
    { simpl. rewrite upd_same. now rewrite upd_other by auto. }
    assert (FB : bonds (linked_heap h l l') (nbond h) = mkBond l l') by (simpl; now rewrite upd_same).
    split; [|split].
    + exists (nbond h). rewrite F1. split; auto. now left.
    + exists (nbond h). rewrite F2. split; auto. now right.
    + now rewrite F1, F2.
  - intros x. simpl. unfold upd. destruct (Nat.eqb_spec x l') as [->|]; simpl; [|destruct (Nat.eqb_spec x l) as [->|]; simpl; auto].
    destruct (Nat.eqb_spec l' l); simpl; subst; auto.
  - intros x Hx. simpl in Hx |- *. rewrite !upd_other by auto. auto.
  - intros b Hb. simpl. rewrite upd_other by lia. auto.
  - simpl. lia.
Qed.

Lemma links_added_refl (h : heap) : links_added h h [].
Proof. constructor; simpl; auto; try lia; try tauto. Qed.

Lemma linked_out (h h' : heap) ps l l' b : links_added h h' ps -> l_bond (legs h l) = Some b -> b < nbond h -> 
  ends h b l l' -> ~ In l (map fst ps ++ map snd ps) -> l_bond (legs h' l) = Some b /\ ends h' b l l'.
Proof.
  intros LA E Hb En Ho. rewrite (la_out _ _ _ LA) by auto. split; auto. unfold ends. rewrite (la_bonds _ _ _ LA) by auto. auto.
Qed.

(** links made first survive when later pairs are disjoint and the bonds are allocated *)
Record links_made (h h' : heap) (ps : list (lid * lid)) : Prop := {
  lm_added : links_added h h' ps;
  lm_alloc : forall l, In l (map fst ps ++ map snd ps) -> exists b, l_bond (legs h' l) = Some b /\ nbond h <= b < nbond h' }.

Lemma links_made_cons (h h1 h' : heap) l l' ps : l <> l' -> ~ In l (map fst ps ++ map snd ps) -> ~ In l' (map fst ps ++ map snd ps) ->
  h1 = linked_heap h l l' -> links_made h1 h' ps -> links_made h h' ((l, l') :: ps).
Proof.
  intros N N1 N2 -> [LA LM]. pose proof (linked_heap_added h l l' N) as L1. split.
  - constructor.
    + intros x x' [E|Hi]; [|now apply LA]. injection E as <- <-.
      assert (F1 : legs h' l = with_bond (legs h l) (nbond h)).
      { rewrite (la_out _ _ _ LA) by auto. simpl. rewrite upd_other by auto. now rewrite upd_same. }
      assert (F2 : legs h' l' = with_bond (legs h l') (nbond h)).
      { rewrite (la_out _ _ _ LA) by auto. simpl. rewrite upd_same. now rewrite upd_other by auto. }
      assert (FB : bonds h' (nbond h) = mkBond l l').
      { rewrite (la_bonds _ _ _ LA) by (simpl; lia). simpl. now rewrite upd_same. }
      split; [|split].
      * exists (nbond h). rewrite F1. split; auto. now left.
      * exists (nbond h). rewrite F2. split; auto. now right.
      * now rewrite F1, F2.
    + intros x. destruct (la_fields _ _ _ LA x) as (H1 & H2 & H3), (la_fields _ _ _ L1 x) as (H4 & H5 & H6). repeat split; congruence.
    + intros x Hx. simpl in Hx. assert (x <> l /\ x <> l' /\ ~ In x (map fst ps ++ map snd ps)) as (X1 & X2 & X3).
      { repeat split; intros C; apply Hx; auto.
        - right. apply in_app_iff. simpl. auto.
        - right. apply in_app_iff. apply in_app_iff in C. simpl. tauto. }
      rewrite (la_out _ _ _ LA) by auto. apply (la_out _ _ _ L1). simpl. intuition congruence.
    + intros b Hb. rewrite (la_bonds _ _ _ LA) by (simpl; lia). apply (la_bonds _ _ _ L1). auto.
    + rewrite (la_nbond _ _ _ LA). simpl. lia.
    + rewrite (la_tens _ _ _ LA). apply L1.
    + rewrite (la_nleg _ _ _ LA). apply L1.
    + rewrite (la_ntens _ _ _ LA). apply L1.
    + rewrite (la_rng _ _ _ LA). apply L1.
    + rewrite (la_rpos _ _ _ LA). apply L1.
  - intros x Hx. assert (In x (map fst ps ++ map snd ps) \/ x = l \/ x = l') as [C|C].
    { simpl in Hx. destruct Hx as [->|Hx]; auto. apply in_app_iff in Hx. rewrite in_app_iff. simpl in Hx. intuition. }
    + destruct (LM x C) as (b & E & R). exists b. split; auto. simpl in R. lia.
    + exists (nbond h). split; [|rewrite (la_nbond _ _ _ LA); simpl; lia].
      rewrite (la_out _ _ _ LA) by (destruct C; subst; auto). simpl. destruct C as [->| ->].
      * rewrite upd_other by auto. now rewrite upd_same.
      * now rewrite upd_same.
Qed.

Lemma linkable_cons (h : heap) l l' ps : linkable h ((l, l') :: ps) -> 
  l <> l' /\ ~ In l (map fst ps ++ map snd ps) /\ ~ In l' (map fst ps ++ map snd ps) /\ dim_of h l = dim_of h l' /\
  linkable (linked_heap h l l') ps.
Proof.
  intros (ND & Fr & Di). simpl in ND. inversion ND as [|? ? N1 N2]; subst.
  assert (Permutation (map fst ps ++ l' :: map snd ps) (l' :: map fst ps ++ map snd ps)) as PP by (symmetry; apply Permutation_middle).
  pose proof (Permutation_NoDup PP N2) as N3. inversion N3 as [|? ? N4 N5]; subst.
  assert (l <> l') as Nl. { intros ->. apply N1. apply in_app_iff. simpl. auto. }
  assert (~ In l (map fst ps ++ map snd ps)) as NI. { intros C. apply N1. apply in_app_iff in C. apply in_app_iff. simpl. tauto. }
  split; auto. split; auto. split; auto. split; [apply (Di (l, l')); simpl; auto|].
  pose proof (linked_heap_added h l l' Nl) as L1.
  split; [auto|]. split.
  - intros x Hx. rewrite (la_nleg _ _ _ L1), (la_out _ _ _ L1).
    + apply Fr. simpl. right. apply in_app_iff in Hx. apply in_app_iff. simpl. tauto.
    + simpl. intros [<-|[<-|[]]]; auto.
  - intros p Hp. unfold dim_of. destruct (la_fields _ _ _ L1 (fst p)) as (_ & -> & _), (la_fields _ _ _ L1 (snd p)) as (_ & -> & _).
    apply Di. simpl. auto.
Qed.

Definition somes (ps : list (lid * lid)) : list (option lid * option lid) := map (fun p => (Some (fst p), Some (snd p))) ps.

Lemma mapM_linkPair (ps : list (lid * lid)) : forall (h : heap), linkable h ps -> 
  exists h' bs, mapM linkPair (somes ps) h = (h', Ok bs) /\ links_made h h' ps.
Proof.
  induction ps as [|[l l'] ps IH]; intros h L.
  - exists h, []. split; auto. split; [apply links_added_refl|]. intros x [].
  - destruct (linkable_cons _ _ _ _ L) as (N & N1 & N2 & D & L').
    destruct (IH _ L') as (h' & bs & E & LM). exists h', (nbond h :: bs). split.
    + cbn [somes map mapM fst snd]. unfold bind at 1. rewrite linkPair_ok by auto. unfold bind at 1.
      fold (somes ps). rewrite E. reflexivity.
    + eapply links_made_cons; eauto.
Qed.

Lemma mapM_linkPair_fail (ps : list (lid * lid)) x rest : forall (h : heap), linkable h ps ->
  exists h' bs, mapM linkPair (somes ps) h = (h', Ok bs) /\ links_made h h' ps /\
    forall e h'', linkPair x h' = (h'', Err e) -> mapM linkPair (somes ps ++ x :: rest) h = (h'', Err e).
Proof.
  induction ps as [|[l l'] ps IH]; intros h L.
  - exists h, []. split; auto. split; [split; [apply links_added_refl|intros ? []]|].
    intros e h'' E. cbn [somes map app mapM]. unfold bind at 1. now rewrite E.
  - destruct (linkable_cons _ _ _ _ L) as (N & N1 & N2 & D & L').
    destruct (IH _ L') as (h' & bs & E & LM & F). exists h', (nbond h :: bs). split; [|split].
    + cbn [somes map mapM fst snd]. unfold bind at 1. rewrite linkPair_ok by auto. unfold bind at 1.
      fold (somes ps). rewrite E. reflexivity.
    + eapply links_made_cons; eauto.
    + intros e h'' Hx. cbn [somes map app mapM fst snd]. unfold bind at 1. rewrite linkPair_ok by auto. unfold bind at 1.
      fold (somes ps). now rewrite (F e h'' Hx).
Qed.

Lemma denotes_ok (h : heap) t r o : denotes h t r o -> linkLeg h t r = Ok o.
Proof.
  destruct 1 as [t l|t s l H|t s H]; simpl; auto.
  - f_equal. pose proof (getLeg_first h t (NStr s)) as G. destruct (getLeg h t (NStr s) false) as [l0|].
    + destruct G as (u & v & Eu & Nu & Fu). destruct H as (u' & v' & Eu' & Nu' & Fu'). f_equal.
      rewrite Eu in Eu'. clear - Eu' Nu Fu Nu' Fu'. revert u' Eu' Fu'. induction u as [|a u IH]; intros [|a' u'] E F; simpl in E; injection E; intros; subst; auto.
      * exfalso. eapply F; simpl; eauto.
      * exfalso. eapply Fu; simpl; eauto.
      * apply (IH) with (u' := u'); auto; intros; [apply Fu|apply F]; simpl; auto.
    + exfalso. apply G. destruct H as (u & v & Eu & Nu & _). unfold names_of. rewrite <- Nu.
      apply (in_map (fun l => l_name (legs h l))). rewrite Eu. apply in_app_iff. simpl. auto.
  - f_equal. pose proof (getLeg_first h t (NStr s)) as G. destruct (getLeg h t (NStr s) false) as [l0|]; auto.
    exfalso. apply H. destruct G as (u & v & Eu & Nu & _). unfold names_of. rewrite <- Nu.
    apply (in_map (fun l => l_name (legs h l))). rewrite Eu. apply in_app_iff. simpl. auto.
Qed.
Lemma denotes_list (h : heap) t rs os : Forall2 (denotes h t) rs os -> rmapM (linkLeg h t) rs = Ok os.
Proof.
  induction 1; simpl; auto. rewrite (denotes_ok _ _ _ _ H). simpl. rewrite IHForall2. reflexivity.
Qed.

Lemma makeLink_read (h : heap) ra rb ta tb oa ob : Forall2 (denotes h ta) ra oa -> Forall2 (denotes h tb) rb ob -> 
  List.length ra = List.length rb -> makeLink ra rb ta tb h = mapM linkPair (combine oa ob) h.
Proof.
  intros Ha Hb EL. unfold makeLink, bind at 1, readsR at 1. rewrite (denotes_list _ _ _ _ Ha).
  unfold bind at 1, readsR at 1. rewrite (denotes_list _ _ _ _ Hb).
  rewrite <- (Forall2_length _ _ _ Ha), <- (Forall2_length _ _ _ Hb), EL, Nat.eqb_refl. reflexivity.
Qed.

Lemma combine_somes (ps : list (lid * lid)) : combine (map Some (map fst ps)) (map Some (map snd ps)) = somes ps.
Proof. induction ps as [|[a b] ps IH]; simpl; auto. now f_equal. Qed.
Lemma combine_somes_app (ps : list (lid * lid)) x y ra rb : 
  combine (map Some (map fst ps) ++ x :: ra) (map Some (map snd ps) ++ y :: rb) = somes ps ++ (x, y) :: combine ra rb.
Proof. induction ps as [|[a b] ps IH]; simpl; auto. now f_equal. Qed.

Lemma makeLink_ok (h : heap) ra rb ta tb ps :
  Forall2 (denotes h ta) ra (map Some (map fst ps)) -> Forall2 (denotes h tb) rb (map Some (map snd ps)) -> linkable h ps ->
  exists h' bs, makeLink ra rb ta tb h = (h', Ok bs) /\ links_added h h' ps.
Proof.
  intros Ha Hb L. erewrite makeLink_read; eauto.
  - rewrite combine_somes. destruct (mapM_linkPair ps h L) as (h' & bs & E & LM). exists h', bs. split; auto. apply LM.
  - rewrite (Forall2_length _ _ _ Ha), (Forall2_length _ _ _ Hb). now rewrite !map_length.
Qed.
Lemma makeLink_len (h : heap) ra rb ta tb oa ob : Forall2 (denotes h ta) ra oa -> Forall2 (denotes h tb) rb ob -> 
  List.length ra <> List.length rb -> makeLink ra rb ta tb h = (h, Err AssertionError).
Proof.
  intros Ha Hb EL. unfold makeLink, bind at 1, readsR at 1. rewrite (denotes_list _ _ _ _ Ha).
  unfold bind at 1, readsR at 1. rewrite (denotes_list _ _ _ _ Hb).
  rewrite <- (Forall2_length _ _ _ Ha), <- (Forall2_length _ _ _ Hb). destruct (Nat.eqb_spec (List.length ra) (List.length rb)); [congruence|]. reflexivity.
Qed.
Lemma makeLink_fail (h : heap) ra rb ta tb ps x y oa ob :
  Forall2 (denotes h ta) ra (map Some (map fst ps) ++ x :: oa) -> Forall2 (denotes h tb) rb (map Some (map snd ps) ++ y :: ob) -> 
  List.length ra = List.length rb -> linkable h ps ->
  (match x, y with Some l, Some l' => dim_of h l <> dim_of h l' | _, _ => True end) ->
  exists h', makeLink ra rb ta tb h = (h', Err (match x, y with Some _, Some _ => AssertionError | _, _ => AttributeError end)) /\
    links_added h h' ps.
Proof.
  intros Ha Hb EL L Bad. erewrite makeLink_read; eauto. rewrite combine_somes_app.
  destruct (mapM_linkPair_fail ps (x, y) (combine oa ob) h L) as (h' & bs & E & LM & F).
  exists h'. split; [|apply LM]. apply F.
  destruct x as [l|], y as [l'|]; auto. apply linkPair_dim. unfold dim_of.
  destruct (la_fields _ _ _ (lm_added _ _ _ LM) l) as (_ & -> & _), (la_fields _ _ _ (lm_added _ _ _ LM) l') as (_ & -> & _). auto.
Qed.
Lemma makeLink_unresolved (h : heap) s ra rb tb : makeLink (RStr s :: ra) rb None tb h = (h, Err AssertionError).
Proof. reflexivity. Qed.

(** symmetric links stay symmetric *)
Lemma sym_links_linked (h : heap) l l' : l <> l' -> l < nleg h -> l' < nleg h -> l_bond (legs h l) = None -> l_bond (legs h l') = None -> 
  dim_of h l = dim_of h l' -> sym_links h -> sym_links (linked_heap h l l').
Proof.
  intros N A1 A2 B1 B2 D SY x b Hx Eb. pose proof (linked_heap_added h l l' N) as L1.
  assert (F1 : legs (linked_heap h l l') l = with_bond (legs h l) (nbond h)).
  { simpl. rewrite upd_other by auto. now rewrite upd_same. }
  assert (F2 : legs (linked_heap h l l') l' = with_bond (legs h l') (nbond h)).
  { simpl. rewrite upd_same. now rewrite upd_other by auto. }
  assert (FB : bonds (linked_heap h l l') (nbond h) = mkBond l l') by (simpl; now rewrite upd_same).
  rewrite (la_nleg _ _ _ L1) in *. change (nbond (linked_heap h l l')) with (S (nbond h)).
  destruct (Nat.eq_dec x l) as [->|Nx]; [|destruct (Nat.eq_dec x l') as [->|Nx']].
  - rewrite F1 in Eb. simpl in Eb. injection Eb as <-. split; [lia|]. exists l'. split; auto. split; [now left|].
    rewrite F2. split; auto. unfold dim_of. rewrite F1, F2. exact D.
  - rewrite F2 in Eb. simpl in Eb. injection Eb as <-. split; [lia|]. exists l. split; auto. split; [now right|].
    rewrite F1. split; auto. unfold dim_of. rewrite F1, F2. symmetry. exact D.
  - rewrite (la_out _ _ _ L1) in Eb by (simpl; intuition). destruct (SY x b Hx Eb) as (Hb & y & Hy & En & Ey & Dy).
    split; [lia|]. exists y. split; auto. split; [unfold ends; rewrite (la_bonds _ _ _ L1) by auto; exact En|].
    assert (y <> l) by congruence. assert (y <> l') by congruence.
    rewrite (la_out _ _ _ L1) by (simpl; intuition). split; auto. unfold dim_of.
    now rewrite !(la_out _ _ _ L1) by (simpl; intuition).
Qed.
Lemma sym_links_mapM (ps : list (option lid * option lid)) : forall (h : heap) h' r, sym_links h ->
  (forall x y, In (Some x, y) ps \/ In (y, Some x) ps -> x < nleg h /\ l_bond (legs h x) = None) ->
  NoDup (List.concat (map (fun p => match fst p with Some l => [l] | None => [] end ++ match snd p with Some l => [l] | None => [] end) ps)) ->
  mapM linkPair ps h = (h', r) -> sym_links h'.
Proof.
  induction ps as [|[[l|] [l'|]] ps IH]; intros h h' r S Fr ND E; cbn [mapM] in E; try (unfold bind at 1 in E); try (injection E as <- <-; auto; fail).
  destruct (Nat.eq_dec (dim_of h l) (dim_of h l')) as [D|D].
  - rewrite linkPair_ok in E by auto. unfold bind at 1 in E. destruct (mapM linkPair ps (linked_heap h l l')) as [h2 r2] eqn:E2.
    simpl in ND. inversion ND as [|? ? N1 N2]; subst. inversion N2 as [|? ? N3 N4]; subst.
    assert (N : l <> l') by (intros ->; apply N1; simpl; auto).
    pose proof (linked_heap_added h l l' N) as L1.
    assert (h' = h2) as -> by (destruct r2; now injection E). eapply IH; [| | |exact E2]; auto.
    + apply sym_links_linked; auto; try (eapply (Fr l); simpl; eauto; fail); try (eapply (Fr l'); simpl; eauto; fail).
    + intros x y Hx. assert (In x (List.concat (map (fun p : option lid * option lid => match fst p with Some l => [l] | None => [] end ++ match snd p with Some l => [l] | None => [] end) ps))) as Hin.
      { apply in_concat. destruct Hx as [Hx|Hx].
        - exists ([x] ++ match y with Some l => [l] | None => [] end). split; [|simpl; auto]. apply in_map_iff. eexists. split; [|exact Hx]. reflexivity.
        - exists (match y with Some l => [l] | None => [] end ++ [x]). split; [|apply in_app_iff; simpl; auto]. apply in_map_iff. eexists. split; [|exact Hx]. reflexivity. }
      rewrite (la_nleg _ _ _ L1), (la_out _ _ _ L1).
      * apply (Fr x y). simpl. tauto.
      * simpl. intros [<-|[<-|[]]]; auto. apply N1. simpl. auto.
  - rewrite linkPair_dim in E by auto. now injection E as <- <-.
Qed.

Lemma makeLink_sym (h h' : heap) ra rb ta tb oa ob r : sym_links h ->
  Forall2 (denotes h ta) ra oa -> Forall2 (denotes h tb) rb ob -> 
  (forall x, In (Some x) (oa ++ ob) -> x < nleg h /\ l_bond (legs h x) = None) ->
  NoDup (filter (fun o => match o with Some _ => true | None => false end) (oa ++ ob)) ->
  makeLink ra rb ta tb h = (h', r) -> sym_links h'.
Proof.
  intros S Ha Hb Fr ND E. destruct (Nat.eq_dec (List.length ra) (List.length rb)) as [EL|EL].
  2:{ rewrite (makeLink_len h ra rb ta tb oa ob) in E by auto. now injection E as <- <-. }
  rewrite (makeLink_read h ra rb ta tb oa ob) in E by auto.
  assert (EL' : List.length oa = List.length ob) by (rewrite <- (Forall2_length _ _ _ Ha), <- (Forall2_length _ _ _ Hb); auto).
  eapply sym_links_mapM; [exact S| | |exact E].
  - intros x y [H|H]; apply Fr; apply in_app_iff; [left; eapply in_combine_l; eauto|right; eapply in_combine_r; eauto].
  - clear - ND EL'.
    assert (NoDup (List.concat (map (fun o : option lid => match o with Some l => [l] | None => [] end) (oa ++ ob)))) as N2.
    { clear - ND. induction (oa ++ ob) as [|[l|] os IH]; simpl in *; auto; [constructor|].
      inversion ND; subst. constructor; auto. rewrite in_concat. intros (x & Hx & Hl). apply H1.
      apply filter_In. split; auto. apply in_map_iff in Hx. destruct Hx as ([y|] & <- & Hy); simpl in Hl; [destruct Hl as [->|[]]; auto|contradiction]. }
    eapply Permutation_NoDup; [|exact N2]. rewrite map_app, concat_app. clear - EL'. revert ob EL'.
    induction oa as [|a oa IH]; intros [|b ob] E; simpl in *; try discriminate; auto.
    injection E as E. rewrite <- (IH ob E). rewrite <- !app_assoc. apply Permutation_app_head.
    rewrite !app_assoc. apply Permutation_app_tail. apply Permutation_app_comm.
Qed.

(** relinking *)
Lemma AS (h : heap) l l' : partner h l = Some l' -> anotherSide h l = Ok (Some l').
Proof. intros P. rewrite anotherSide_partner, P. destruct (l_bond (legs h l)) eqn:EE; auto. unfold partner in P. rewrite EE in P. discriminate. Qed.
Lemma relink (h : heap) l1 l2 l3 b : l1 <> l2 -> l3 <> l1 -> l3 <> l2 -> b < nbond h ->
  l_bond (legs h l1) = Some b -> l_bond (legs h l2) = Some b -> ends h b l1 l2 -> dim_of h l1 = dim_of h l3 ->
  exists h' b', makeLink [RLeg l1] [RLeg l3] None None h = (h', Ok [b']) /\
    anotherSide h' l1 = Ok (Some l3) /\ anotherSide h' l3 = Ok (Some l1) /\ anotherSide h' l2 = Ok (Some l1).
Proof.
  intros N12 N31 N32 Hb E1 E2 En D. exists (linked_heap h l1 l3), (nbond h). 
  assert (L1 := linked_heap_added h l1 l3 (not_eq_sym N31)).
  assert (P2 : partner (linked_heap h l1 l3) l2 = Some l1).
  { unfold partner. rewrite (la_out _ _ _ L1) by (simpl; intuition). rewrite E2, (la_bonds _ _ _ L1) by auto.
    destruct En as [->| ->]; cbn [b0 b1]; [destruct (Nat.eqb_spec l1 l2); [congruence|]|]; now rewrite Nat.eqb_refl. }
  split.
  - unfold makeLink, bind, readsR. cbn [rmapM linkLeg rbind]. unfold bind, readsR, assert. cbn [rmapM linkLeg rbind List.length Nat.eqb].
    unfold ret at 1. cbn [combine mapM]. unfold bind at 1. rewrite linkPair_ok by auto. reflexivity.
  - destruct (la_in _ _ _ L1 l1 l3 (or_introl eq_refl)) as (K1 & K2 & _).
    apply partner_Some in K1. apply partner_Some in K2. repeat split.
    + now apply AS.
    + now apply AS.
    + now apply AS.
Qed.

Lemma links_added_sides (h h' : heap) ps l l' : links_added h h' ps -> In (l, l') ps -> 
  anotherSide h' l = Ok (Some l') /\ anotherSide h' l' = Ok (Some l).
Proof.
  intros LA Hi. destruct (la_in _ _ _ LA l l' Hi) as (K1 & K2 & _). apply partner_Some in K1. apply partner_Some in K2. split; now apply AS.
Qed.
Lemma links_added_other (h h' : heap) ps l l' : links_added h h' ps -> sym_links h -> l < nleg h -> linked h l l' -> 
  ~ In l (map fst ps ++ map snd ps) -> anotherSide h l = Ok (Some l') /\ anotherSide h' l = Ok (Some l').
Proof.
  intros LA SY Hl (b & Eb & En) NI. destruct (SY l b Hl Eb) as (Hb & _). split; apply AS, partner_Some.
  - exists b. auto.
  - exists b. eapply linked_out; eauto.
Qed.

Lemma makeLink_calls (h h' : heap) : clos_refl_trans heap (fun h1 h2 => exists ra rb ta tb oa ob r,
     Forall2 (denotes h1 ta) ra oa /\ Forall2 (denotes h1 tb) rb ob /\
     (forall x, In (Some x) (oa ++ ob) -> x < nleg h1 /\ l_bond (legs h1 x) = None) /\
     NoDup (filter (fun o => match o with Some _ => true | None => false end) (oa ++ ob)) /\
     makeLink ra rb ta tb h1 = (h2, r)) h h' -> sym_links h -> sym_links h'.
Proof.
  induction 1 as [h1 h2 (ra & rb & ta & tb & oa & ob & r & D1 & D2 & F & N & E)| |]; auto.
  intros HS. exact (makeLink_sym h1 h2 ra rb ta tb oa ob r HS D1 D2 F N E).
Qed.
End Li.
