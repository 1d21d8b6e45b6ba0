(** Proofs about links: partner, pairs_between, shareBonds, makeLink. *)
From Coq Require Import List Arith Bool Lia Permutation.
From Verif Require Import Base Sums NdModel HeapModel FuncsModel TensorModel TensorSpec ContractModel NetSpec
  FuncsProofs NdProofs TensorProofs LabelProofs MatrixProofs.
Import ListNotations.
Local Open Scope nat_scope.

Section Sh.
Context {A : Type} {HA : SR A}.
Notation heap := (heap A).

Lemma inb_true {X} `{Dec X} (x : X) l : inb x l = true <-> In x l.
Proof.
  unfold inb. rewrite existsb_exists. split.
  - intros (y & Hy & E). destruct (dec x y); [now subst|discriminate].
  - intros Hx. exists x. split; auto. destruct (dec x x); congruence.
Qed.
Lemma inb_false {X} `{Dec X} (x : X) l : inb x l = false <-> ~ In x l.
Proof. rewrite <- inb_true. destruct (inb x l); split; congruence. Qed.

Lemma partner_ends (h : heap) l b l' : l_bond (legs h l) = Some b -> ends h b l l' -> partner h l = Some l'.
Proof.
  intros E [B|B]; unfold partner; rewrite E, B; simpl.
  - now rewrite Nat.eqb_refl.
  - destruct (Nat.eqb_spec l' l); [congruence|]. now rewrite Nat.eqb_refl.
Qed.
Lemma partner_Some (h : heap) l l' : partner h l = Some l' <-> linked h l l'.
Proof.
  split.
  - unfold partner. destruct (l_bond (legs h l)) as [b|] eqn:E; [|discriminate]. intros H. exists b. split; auto.
    unfold ends. destruct (bonds h b) as [x y] eqn:B. simpl in H.
    destruct (Nat.eqb_spec x l).
    + injection H as <-. subst. auto.
    + destruct (Nat.eqb_spec y l); [|discriminate]. injection H as <-. subst. auto.
  - intros (b & E & B). eapply partner_ends; eauto.
Qed.
Lemma linked_fun (h : heap) l x y : linked h l x -> linked h l y -> x = y.
Proof. intros H1 H2. apply partner_Some in H1. apply partner_Some in H2. congruence. Qed.

Lemma bonds_kept_refl (h : heap) : bonds_kept h h.
Proof. intros b. auto. Qed.
Lemma bonds_kept_trans (h1 h2 h3 : heap) : bonds_kept h1 h2 -> bonds_kept h2 h3 -> bonds_kept h1 h3.
Proof.
  intros H1 H2 b. destruct (H1 b) as [E1|E1], (H2 b) as [E2|E2]; rewrite E2, ?E1; auto. simpl.
  left. now destruct (bonds h1 b).
Qed.
Lemma bonds_kept_eq (h h' : heap) : bonds h' = bonds h -> bonds_kept h h'.
Proof. intros E b. rewrite E. auto. Qed.
Lemma ends_kept (h h' : heap) b l l' : bonds_kept h h' -> ends h b l l' -> ends h' b l l'.
Proof.
  intros K [E|E]; unfold ends; destruct (K b) as [K'|K']; rewrite K', E; simpl; auto.
Qed.
Lemma partner_kept (h h' : heap) l : bonds_kept h h' -> l_bond (legs h' l) = l_bond (legs h l) -> partner h' l = partner h l.
Proof.
  intros K E. unfold partner. rewrite E. destruct (l_bond (legs h l)) as [b|]; auto.
  destruct (K b) as [->| ->]; auto. simpl. destruct (bonds h b) as [x y]. simpl.
  destruct (Nat.eqb_spec x l), (Nat.eqb_spec y l); congruence.
Qed.
Lemma bonds_kept_sym (h h' : heap) : bonds_kept h h' -> bonds_kept h' h.
Proof. intros K b. destruct (K b) as [->| ->]; auto. simpl. right. now destruct (bonds h b). Qed.
Lemma links_ok_kept (h h' : heap) L : bonds_kept h h' -> 
  (forall l, In l L -> l_bond (legs h' l) = l_bond (legs h l) /\ dim_of h' l = dim_of h l) -> links_ok h L -> links_ok h' L.
Proof.
  intros K E H l b Hl Hb. destruct (E l Hl) as [Eb Ed]. rewrite Eb in Hb. destruct (H l b Hl Hb) as (l' & He & Hi).
  exists l'. split; [eapply ends_kept; eauto|]. intros Hl'. destruct (Hi Hl') as [H1 H2]. destruct (E l' Hl') as [Eb' Ed'].
  split; congruence.
Qed.
Lemma links_ok_incl (h : heap) L L' : incl L' L -> links_ok h L -> links_ok h L'.
Proof.
  intros Hi H l b Hl Hb. destruct (H l b (Hi l Hl) Hb) as (l' & He & H'). exists l'. split; auto.
Qed.

(** ** pairs_between *)
Lemma pairs_In (h : heap) L1 L2 l l' : In (l, l') (pairs_between h L1 L2) <-> In l L1 /\ In l' L2 /\ linked h l l'.
Proof.
  unfold pairs_between. rewrite in_flat_map. split.
  - intros (x & Hx & Hp). destruct (partner h x) as [y|] eqn:E; [|contradiction].
    destruct (inb y L2) eqn:Ey; [|contradiction]. destruct Hp as [Hp|[]]. injection Hp as <- <-.
    apply inb_true in Ey. apply partner_Some in E. auto.
  - intros (H1 & H2 & H3). exists l. split; auto. apply partner_Some in H3. rewrite H3.
    apply inb_true in H2. rewrite H2. simpl. auto.
Qed.
Lemma pairs_fst_NoDup (h : heap) L1 L2 : NoDup L1 -> NoDup (map fst (pairs_between h L1 L2)).
Proof.
  unfold pairs_between. induction 1 as [|l L1 Hl HN IH]; simpl; [constructor|].
  rewrite map_app. destruct (partner h l) as [y|]; simpl; auto. destruct (inb y L2); simpl; auto.
  constructor; auto. intros C. apply in_map_iff in C. destruct C as ([u v] & E & C). simpl in E. subst u.
  fold (pairs_between h L1 L2) in C. apply pairs_In in C. tauto.
Qed.
Lemma pairs_fst_incl (h : heap) L1 L2 : incl (map fst (pairs_between h L1 L2)) L1.
Proof.
  intros l Hl. apply in_map_iff in Hl. destruct Hl as ([u v] & E & C). simpl in E. subst. apply pairs_In in C. tauto.
Qed.
Lemma pairs_snd_incl (h : heap) L1 L2 : incl (map snd (pairs_between h L1 L2)) L2.
Proof.
  intros l Hl. apply in_map_iff in Hl. destruct Hl as ([u v] & E & C). simpl in E. subst. apply pairs_In in C. tauto.
Qed.
Lemma links_sym (h : heap) L l l' : links_ok h L -> In l L -> In l' L -> linked h l l' -> linked h l' l.
Proof.
  intros H Hl Hl' (b & E & B). destruct (H l b Hl E) as (x & Hx & Hi).
  assert (x = l') by (eapply linked_fun; [exists b; eauto|exists b; eauto]). subst x.
  destruct (Hi Hl') as [Eb _]. exists b. split; auto. destruct B; [right|left]; auto.
Qed.
Lemma links_dim (h : heap) L l l' : links_ok h L -> In l L -> In l' L -> linked h l l' -> dim_of h l = dim_of h l'.
Proof.
  intros H Hl Hl' (b & E & B). destruct (H l b Hl E) as (x & Hx & Hi).
  assert (x = l') by (eapply linked_fun; [exists b; eauto|exists b; eauto]). subst x. now apply Hi.
Qed.
Lemma pairs_snd_NoDup (h : heap) L1 L2 : NoDup L1 -> links_ok h (L1 ++ L2) -> NoDup (map snd (pairs_between h L1 L2)).
Proof.
  intros HN HL. unfold pairs_between. revert HN HL.
  induction L1 as [|l L1 IH]; simpl; intros HN HL; [constructor|].
  inversion HN as [|? ? Hl HN']; subst.
  assert (HL' : links_ok h (L1 ++ L2)) by (eapply links_ok_incl; [|exact HL]; apply incl_tl, incl_refl).
  rewrite map_app. destruct (partner h l) as [y|] eqn:Ep; simpl; auto. destruct (inb y L2) eqn:Ey; simpl; auto.
  constructor; auto. intros C. apply in_map_iff in C. destruct C as ([u v] & E & C). simpl in E. subst v.
  fold (pairs_between h L1 L2) in C. apply pairs_In in C. destruct C as (Hu & Hy & Hlk).
  apply partner_Some in Ep. apply inb_true in Ey.
  assert (linked h y l) by (eapply links_sym; [exact HL| | |exact Ep]; simpl; auto; right; apply in_app_iff; auto).
  assert (linked h y u) by (eapply links_sym; [exact HL| | |exact Hlk]; simpl; auto; right; apply in_app_iff; auto).
  assert (l = u) by (eapply linked_fun; eauto). congruence.
Qed.
Lemma pairs_dim (h : heap) L1 L2 p : links_ok h (L1 ++ L2) -> In p (pairs_between h L1 L2) -> dim_of h (fst p) = dim_of h (snd p).
Proof.
  intros HL. destruct p as [l l']. intros Hp. apply pairs_In in Hp. destruct Hp as (H1 & H2 & H3).
  eapply links_dim; eauto; apply in_app_iff; auto.
Qed.
Lemma pairs_kept (h h' : heap) L1 L2 : (forall l, In l L1 -> partner h' l = partner h l) ->
  pairs_between h' L1 L2 = pairs_between h L1 L2.
Proof.
  intros E. unfold pairs_between. induction L1 as [|x L1 IH]; simpl; auto.
  rewrite E by (simpl; auto). rewrite IH by (intros; apply E; simpl; auto). reflexivity.
Qed.

(** ** shareBonds *)
Lemma only_bonds_refl (h : heap) : only_bonds h h.
Proof. constructor; auto using bonds_kept_refl. Qed.
Lemma only_bonds_trans (h1 h2 h3 : heap) : only_bonds h1 h2 -> only_bonds h2 h3 -> only_bonds h1 h3.
Proof.
  intros [a1 a2 a3 a4 a5 a6 a7 a8] [b1 b2 b3 b4 b5 b6 b7 b8]. constructor; try congruence.
  eapply bonds_kept_trans; eauto.
Qed.

Lemma bondAnotherSide_partner (h : heap) l b : l_bond (legs h l) = Some b ->
  bondAnotherSide h b l = match partner h l with Some l' => Ok l' | None => Err AssertionError end.
Proof.
  intros E. unfold bondAnotherSide, partner. rewrite E. destruct (Nat.eqb (b0 (bonds h b)) l); auto.
  destruct (Nat.eqb (b1 (bonds h b)) l); auto.
Qed.
Lemma anotherSide_partner (h : heap) l : 
  anotherSide h l = match l_bond (legs h l) with
                    | None => Ok None
                    | Some _ => match partner h l with Some l' => Ok (Some l') | None => Err AssertionError end end.
Proof.
  unfold anotherSide, legbond. destruct (l_bond (legs h l)) as [b|] eqn:E; auto.
  rewrite (bondAnotherSide_partner h l b E). now destruct (partner h l).
Qed.

Definition share1 (h : heap) (tb : tid) (l : lid) : option bid :=
  match partner h l with Some l' => if inb l' (legs_of h tb) then l_bond (legs h l) else None | None => None end.

Lemma shareLeg_ok (h : heap) tb l : (l_bond (legs h l) <> None -> partner h l <> None) ->
  exists h1, shareLeg tb l h = (h1, Ok (match share1 h tb l with Some b => [b] | None => [] end)) /\ only_bonds h h1 /\
   (forall b, share1 h tb l <> Some b -> bonds h1 b = bonds h b) /\
   (forall b l', share1 h tb l = Some b -> partner h l = Some l' -> bonds h1 b = mkBond l l').
Proof.
  intros HP. unfold shareLeg. unfold bind at 1, readsR. rewrite anotherSide_partner. unfold share1.
  destruct (l_bond (legs h l)) as [b|] eqn:Eb.
  - destruct (partner h l) as [l'|] eqn:Ep; [|exfalso; apply HP; congruence].
    cbv beta iota. unfold bind, reads. unfold legbond. rewrite Eb.
    change (tlegs h tb) with (legs_of h tb). destruct (inb l' (legs_of h tb)).
    + 
      apply partner_Some in Ep. destruct Ep as (b' & Eb' & He). rewrite Eb in Eb'. injection Eb' as <-.
      destruct (bonds h b) as [x y] eqn:B. cbn [b0 b1].
      destruct (Nat.eqb_spec l y).
      * subst y. exists (set_bond h b (mkBond l x)). split; [reflexivity|]. split; [|split].
        -- constructor; auto. intros b'. simpl. unfold upd. destruct (Nat.eqb_spec b' b); auto. subst. rewrite B. auto.
        -- intros b' Hb'. simpl. apply upd_other. congruence.
        -- intros b' l0 Hb' Hl0. injection Hb' as <-. injection Hl0 as <-. simpl. rewrite upd_same.
           destruct He as [He|He]; rewrite B in He; injection He; intros; congruence.
      * exists h. split; [reflexivity|]. split; [apply only_bonds_refl|]. split; auto.
        intros b' l0 Hb' Hl0. injection Hb' as <-. injection Hl0 as <-. rewrite B.
        destruct He as [He|He]; rewrite B in He; injection He; intros; congruence.
    + exists h. split; [reflexivity|]. split; [apply only_bonds_refl|]. split; auto. discriminate.
  - unfold bind, reads, ret. exists h. split.
    { unfold legbond. destruct (partner h l) as [l'|]; auto. destruct (inb l' (legs_of h tb)); auto. }
    split; [apply only_bonds_refl|]. split; auto. intros b l' C.
    destruct (partner h l); [|discriminate]. destruct (inb _ _); discriminate.
Qed.

Lemma partner_ob (h h' : heap) l : only_bonds h h' -> partner h' l = partner h l.
Proof. intros O. apply partner_kept; [apply O|]. now rewrite (ob_legs _ _ O). Qed.
Lemma share1_ob (h h' : heap) tb l : only_bonds h h' -> share1 h' tb l = share1 h tb l.
Proof.
  intros O. unfold share1. rewrite (partner_ob _ _ _ O). unfold legs_of. now rewrite (ob_tens _ _ O), (ob_legs _ _ O).
Qed.
Definition share_list (h : heap) tb ls : list bid :=
  flat_map (fun l => match share1 h tb l with Some b => [b] | None => [] end) ls.

Lemma shareLegs_loop tb : forall ls (h : heap), NoDup ls ->
  (forall l, In l ls -> ~ In l (legs_of h tb)) ->
  (forall l, In l ls -> l_bond (legs h l) <> None -> partner h l <> None) ->
  exists h1 bss, mapM (shareLeg tb) ls h = (h1, Ok bss) /\ only_bonds h h1 /\
    List.concat bss = share_list h tb ls /\
    (forall b, ~ In b (share_list h tb ls) -> bonds h1 b = bonds h b) /\
    map (fun b => bonds h1 b) (List.concat bss) = map (fun p => mkBond (fst p) (snd p)) (pairs_between h ls (legs_of h tb)).
Proof.
  induction ls as [|l ls IH]; intros h HN HD HP; simpl.
  - exists h, []. split; [reflexivity|]. split; [apply only_bonds_refl|]. auto.
  - inversion HN as [|? ? Hl HN']; subst.
    destruct (shareLeg_ok h tb l (HP l (or_introl eq_refl))) as (h1 & E1 & O1 & F1 & G1).
    destruct (IH h1) as (h2 & bss & E2 & O2 & C2 & F2 & G2); auto.
    { intros x Hx. unfold legs_of. rewrite (ob_tens _ _ O1). apply HD. simpl; auto. }
    { intros x Hx. rewrite (ob_legs _ _ O1), (partner_ob _ _ _ O1). apply HP. simpl; auto. }
    assert (ES : share_list h1 tb ls = share_list h tb ls).
    { unfold share_list. apply flat_map_ext. intros x. now rewrite (share1_ob _ _ _ _ O1). }
    rewrite ES in *.
    assert (EP : pairs_between h1 ls (legs_of h1 tb) = pairs_between h ls (legs_of h tb)).
    { unfold legs_of. rewrite (ob_tens _ _ O1). apply pairs_kept. intros. now apply partner_ob. }
    rewrite EP in *.
    unfold bind at 1. rewrite E1. unfold bind. rewrite E2. unfold ret.
    exists h2. eexists. split; [reflexivity|]. split; [eapply only_bonds_trans; eauto|].
    unfold share_list, pairs_between. simpl. fold (share_list h tb ls). fold (pairs_between h ls (legs_of h tb)).
    rewrite C2. split; auto. split.
    + intros b Hb. rewrite F2, F1; auto.
      * intros C. apply Hb. apply in_app_iff. left. rewrite C. simpl. auto.
      * intros C. apply Hb. apply in_app_iff. auto.
    + rewrite C2 in G2. rewrite !map_app, G2. f_equal. unfold share1 in *.
      destruct (partner h l) as [l'|] eqn:Ep; auto.
      destruct (inb l' (legs_of h tb)) eqn:Ei; auto.
      destruct (l_bond (legs h l)) as [b|] eqn:Eb; [|unfold partner in Ep; rewrite Eb in Ep; discriminate].
      simpl. f_equal. rewrite F2, (G1 b l'); auto.
      (* the bond of l is not among the later ones *)
      intros C. unfold share_list in C. apply in_flat_map in C. destruct C as (x & Hx & C).
      unfold share1 in C. destruct (partner h x) as [y|] eqn:Ex; [|contradiction].
      destruct (inb y (legs_of h tb)) eqn:Ey; [|contradiction].
      destruct (l_bond (legs h x)) as [b'|] eqn:Ebx; [|contradiction]. destruct C as [->|[]].
      apply partner_Some in Ep. destruct Ep as (b1 & Q1 & Q2). apply partner_Some in Ex. destruct Ex as (b2 & R1 & R2).
      assert (b1 = b) by congruence. assert (b2 = b) by congruence. subst.
      apply inb_true in Ei. apply inb_true in Ey.
      assert (x = l \/ x = l') as [->| ->].
      { destruct Q2 as [Q2|Q2], R2 as [R2|R2]; rewrite Q2 in R2; injection R2; intros; subst; auto. }
      * auto.
      * apply (HD l'); simpl; auto.
Qed.

Lemma links_ok_partner (h : heap) L l : links_ok h L -> In l L -> l_bond (legs h l) <> None -> partner h l <> None.
Proof.
  intros H Hl Hb. destruct (l_bond (legs h l)) as [b|] eqn:E; [|congruence].
  destruct (H l b Hl E) as (l' & He & _). rewrite (partner_ends h l b l' E He). discriminate.
Qed.

Lemma shareBonds_ok (h : heap) ta tb : NoDup (legs_of h ta) ->
  (forall l, In l (legs_of h ta) -> ~ In l (legs_of h tb)) -> links_ok h (legs_of h ta) ->
  exists h1 bs, shareBonds ta tb h = (h1, Ok bs) /\ only_bonds h h1 /\
    map (fun b => b0 (bonds h1 b)) bs = map fst (shared h ta tb) /\
    map (fun b => b1 (bonds h1 b)) bs = map snd (shared h ta tb) /\ 
    List.length bs = List.length (shared h ta tb).
Proof.
  intros HN HD HL. unfold shareBonds, bind at 1, reads. unfold bind.
  destruct (shareLegs_loop tb (tlegs h ta) h HN HD) as (h1 & bss & E & O & C & F & G).
  { intros l Hl. eapply links_ok_partner; eauto. }
  rewrite E. unfold ret. exists h1. eexists. split; [reflexivity|]. split; auto.
  change (pairs_between h (tlegs h ta) (legs_of h tb)) with (shared h ta tb) in G.
  split; [|split].
  - rewrite <- (map_map (fun b => bonds h1 b) b0), G, map_map. reflexivity.
  - rewrite <- (map_map (fun b => bonds h1 b) b1), G, map_map. reflexivity.
  - apply (f_equal (@List.length _)) in G. now rewrite !map_length in G.
Qed.
End Sh.
