(** Algebra of Einstein sums over pairs of legs. *)
From Coq Require Import List Arith Bool Lia Permutation.
From Verif Require Import Base Sums NdModel HeapModel TensorSpec NdProofs MatrixProofs.
Import ListNotations.
Local Open Scope sr_scope.

Section Sp.
Context {A : Type} {HA : SR A}.
Add Ring SpRing : (SR_theory (A := A)).

(** depends on the values of the assignment only *)
Definition respects (f : assignment -> A) : Prop := forall s s', (forall l, s l = s' l) -> f s = f s'.
(** does not depend on the legs [L] *)
Definition indep (L : list nat) (f : assignment -> A) : Prop :=
  forall s s', (forall l, ~ In l L -> s l = s' l) -> f s = f s'.

Lemma indep_respects L f : indep L f -> respects f.
Proof. intros H s s' E. apply H. auto. Qed.

Lemma upd_comm {X} (s : nat -> X) a b x y l : a <> b -> upd (upd s a x) b y l = upd (upd s b y) a x l.
Proof. intros N. unfold upd. destruct (Nat.eqb_spec l b), (Nat.eqb_spec l a); subst; congruence. Qed.

Lemma sumpairs_ext_s d P (f : assignment -> A) : respects f -> forall s s', (forall l, s l = s' l) -> 
  sumpairs d P f s = sumpairs d P f s'.
Proof.
  intros Hf. induction P as [|[l l'] P IH]; intros s s' E; cbn [sumpairs]; auto.
  apply sumN_ext. intros i _. apply IH. intros x. unfold upd. destruct (Nat.eqb x l'), (Nat.eqb x l); auto.
Qed.
Lemma sumpairs_respects d P (f : assignment -> A) : respects f -> respects (sumpairs d P f).
Proof. intros Hf s s' E. now apply sumpairs_ext_s. Qed.
Lemma sumpairs_ext d P (f g : assignment -> A) : (forall s, f s = g s) -> forall s, sumpairs d P f s = sumpairs d P g s.
Proof.
  intros E. induction P as [|[l l'] P IH]; intros s; cbn [sumpairs]; auto. apply sumN_ext. intros. apply IH.
Qed.
Lemma sumpairs_ext_d d d' P (f : assignment -> A) : (forall p, In p P -> d (fst p) = d' (fst p)) -> 
  forall s, sumpairs d P f s = sumpairs d' P f s.
Proof.
  induction P as [|[l l'] P IH]; intros E s; cbn [sumpairs]; auto.
  pose proof (E (l, l') (or_introl eq_refl)) as El. simpl in El. rewrite El. apply sumN_ext. intros i _.
  apply IH. intros p Hp. apply E. simpl; auto.
Qed.
Lemma sumpairs_app d P Q (f : assignment -> A) : forall s, sumpairs d (P ++ Q) f s = sumpairs d P (sumpairs d Q f) s.
Proof. induction P as [|[l l'] P IH]; intros s; simpl; auto. apply sumN_ext. intros. apply IH. Qed.

Lemma sumpairs_swap d p q P (f : assignment -> A) s : respects f -> 
  NoDup (map fst [p; q] ++ map snd [p; q]) ->
  sumpairs d (p :: q :: P) f s = sumpairs d (q :: p :: P) f s.
Proof.
  destruct p as [a a'], q as [b b']. intros Hf HN. simpl in HN.
  assert (a <> b /\ a <> b' /\ a' <> b /\ a' <> b') as (N1 & N2 & N3 & N4).
  { inversion HN as [|? ? H1 H2]; subst. inversion H2 as [|? ? H3 H4]; subst. inversion H4 as [|? ? H5 H6]; subst.
    simpl in *. repeat split; intros ->; tauto. }
  cbn [sumpairs]. unfold sumN at 1 2. unfold sumN. rewrite sumL_swap.
  apply sumL_ext. intros j _. apply sumL_ext. intros i _. apply sumpairs_ext_s; auto.
  intros x. unfold upd.
  destruct (Nat.eqb_spec x b'), (Nat.eqb_spec x b), (Nat.eqb_spec x a'), (Nat.eqb_spec x a); subst; congruence.
Qed.
Lemma NoDup_pairs_perm (P Q : list (nat * nat)) : Permutation P Q -> 
  NoDup (map fst P ++ map snd P) -> NoDup (map fst Q ++ map snd Q).
Proof.
  intros HP. apply Permutation_NoDup. apply Permutation_app; now apply Permutation_map.
Qed.
Lemma NoDup_app_l {X} (l l' : list X) : NoDup (l ++ l') -> NoDup l.
Proof. induction l; simpl; intros H; [constructor|]. inversion H; subst. constructor; auto. rewrite in_app_iff in *. tauto. Qed.
Lemma NoDup_app_r {X} (l l' : list X) : NoDup (l ++ l') -> NoDup l'.
Proof. induction l; simpl; auto. intros H. inversion H; subst. auto. Qed.
Lemma NoDup_app_disj {X} (l l' : list X) x : NoDup (l ++ l') -> In x l -> In x l' -> False.
Proof.
  induction l; simpl; intros H Hx Hx'; auto. inversion H; subst. destruct Hx as [->|Hx]; auto.
  apply H2. apply in_app_iff. auto.
Qed.
Lemma NoDup_app_intro {X} (l l' : list X) : NoDup l -> NoDup l' -> (forall x, In x l -> In x l' -> False) -> NoDup (l ++ l').
Proof.
  induction 1; simpl; auto. intros H1 H2. constructor.
  - rewrite in_app_iff. intros [C|C]; auto. eapply H2; eauto.
  - apply IHNoDup; auto. intros. eapply H2; eauto.
Qed.
Lemma NoDup_pairs_cons p (P : list (nat * nat)) : NoDup (map fst (p :: P) ++ map snd (p :: P)) -> NoDup (map fst P ++ map snd P).
Proof.
  simpl. intros H. inversion H as [|? ? _ H1]; subst. 
  apply NoDup_app_intro.
  - now apply NoDup_app_l in H1.
  - apply NoDup_app_r in H1. now inversion H1.
  - intros x H2 H3. apply (NoDup_app_disj _ _ x H1); simpl; auto.
Qed.

Lemma sumpairs_perm d P Q (f : assignment -> A) : respects f -> Permutation P Q -> 
  NoDup (map fst P ++ map snd P) -> forall s, sumpairs d P f s = sumpairs d Q f s.
Proof.
  intros Hf HP. induction HP as [|p P Q HP IH|p q P|P Q R H1 IH1 H2 IH2]; intros HN s; auto.
  - destruct p as [l l']. cbn [sumpairs]. apply sumN_ext. intros i _. apply IH. now apply NoDup_pairs_cons in HN.
  - apply sumpairs_swap; auto. 
    simpl in *. inversion HN as [|? ? A1 A2]; subst. inversion A2 as [|? ? A3 A4]; subst.
    apply NoDup_app_r in A4. inversion A4 as [|? ? A5 A6]; subst. inversion A6 as [|? ? A7 A8]; subst.
    rewrite !in_app_iff in *. simpl in *. rewrite !in_app_iff in *. simpl in *.
    repeat constructor; simpl; tauto.
  - rewrite IH1 by auto. apply IH2. eapply NoDup_pairs_perm; eauto.
Qed.
Lemma sumpairs_flip1 d a b P (f : assignment -> A) s : respects f -> a <> b -> d a = d b ->
  sumpairs d ((a, b) :: P) f s = sumpairs d ((b, a) :: P) f s.
Proof.
  intros Hf N E. cbn [sumpairs]. rewrite E. apply sumN_ext. intros i _. apply sumpairs_ext_s; auto.
  intros l. now apply upd_comm.
Qed.

(** the same unordered pairs *)
Definition same_pairs (P Q : list (nat * nat)) : Prop :=
  forall x y, In (x, y) P -> In (x, y) Q \/ In (y, x) Q.
Lemma pair_legs_ne (P : list (nat * nat)) x y : NoDup (map fst P ++ map snd P) -> In (x, y) P -> x <> y.
Proof.
  intros HN Hi E. subst y. apply (NoDup_app_disj _ _ x HN).
  - now apply (in_map fst) in Hi.
  - now apply (in_map snd) in Hi.
Qed.
Lemma sumpairs_same d (f : assignment -> A) : respects f -> forall P Q, 
  NoDup (map fst P ++ map snd P) -> NoDup (map fst Q ++ map snd Q) ->
  same_pairs P Q -> same_pairs Q P -> (forall x y, In (x, y) P -> d x = d y) ->
  forall s, sumpairs d P f s = sumpairs d Q f s.
Proof.
  intros Hf. induction P as [|[x y] P IH]; intros Q HP HQ S1 S2 Hd s.
  - destruct Q as [|[a b] Q]; auto. destruct (S2 a b) as [[]|[]]. simpl; auto.
  - assert (Nxy : x <> y) by (eapply pair_legs_ne; [exact HP|simpl; auto]).
    (* bring the pair to the front of Q *)
    assert (exists u v Q', Permutation Q ((u, v) :: Q') /\ ((u, v) = (x, y) \/ (u, v) = (y, x))) as (u & v & Q' & Pm & Huv).
    { destruct (S1 x y (or_introl eq_refl)) as [Hi|Hi]; apply in_split in Hi; destruct Hi as (Q1 & Q2 & ->).
      - exists x, y, (Q1 ++ Q2). split; auto. apply Permutation_sym, Permutation_middle.
      - exists y, x, (Q1 ++ Q2). split; auto. apply Permutation_sym, Permutation_middle. }
    rewrite (sumpairs_perm d Q ((u, v) :: Q')) by auto.
    pose proof (NoDup_pairs_perm _ _ Pm HQ) as HQ'.
    transitivity (sumpairs d ((x, y) :: Q') f s).
    + cbn [sumpairs]. apply sumN_ext. intros i _.
      assert (DP : forall z, (z = x \/ z = y) -> ~ In z (map fst P) /\ ~ In z (map snd P)).
      { simpl in HP. inversion HP as [|? ? A1 A2]; subst. rewrite in_app_iff in A1. simpl in A1.
        pose proof (NoDup_app_r _ _ A2) as A3. inversion A3 as [|? ? A4 A5]; subst.
        intros z [->| ->]; split; auto.
        intros C. apply (NoDup_app_disj _ _ y A2); simpl; auto. }
      assert (DQ : forall z, (z = x \/ z = y) -> ~ In z (map fst Q') /\ ~ In z (map snd Q')).
      { simpl in HQ'. inversion HQ' as [|? ? A1 A2]; subst. rewrite in_app_iff in A1. simpl in A1.
        pose proof (NoDup_app_r _ _ A2) as A3. inversion A3 as [|? ? A4 A5]; subst.
        assert (forall z, (z = u \/ z = v) -> ~ In z (map fst Q') /\ ~ In z (map snd Q')) as HH.
        { intros z [->| ->]; split; auto. intros C. apply (NoDup_app_disj _ _ v A2); simpl; auto. }
        intros z Hz. apply HH. destruct Huv as [E|E]; injection E as -> ->; tauto. }
      apply IH.
      * now apply NoDup_pairs_cons in HP.
      * now apply NoDup_pairs_cons in HQ'.
      * intros a b Hab. assert (Ha : a <> x /\ a <> y /\ b <> x /\ b <> y).
        { repeat split; intros ->.
          - apply (proj1 (DP x (or_introl eq_refl))). now apply (in_map fst) in Hab.
          - apply (proj1 (DP y (or_intror eq_refl))). now apply (in_map fst) in Hab.
          - apply (proj2 (DP x (or_introl eq_refl))). now apply (in_map snd) in Hab.
          - apply (proj2 (DP y (or_intror eq_refl))). now apply (in_map snd) in Hab. }
        destruct (S1 a b (or_intror Hab)) as [C|C]; apply (Permutation_in _ Pm) in C; destruct C as [C|C]; auto;
          destruct Huv as [E|E]; rewrite E in C; injection C as -> ->; tauto.
      * intros a b Hab. assert (Ha : a <> x /\ a <> y /\ b <> x /\ b <> y).
        { repeat split; intros ->.
          - apply (proj1 (DQ x (or_introl eq_refl))). now apply (in_map fst) in Hab.
          - apply (proj1 (DQ y (or_intror eq_refl))). now apply (in_map fst) in Hab.
          - apply (proj2 (DQ x (or_introl eq_refl))). now apply (in_map snd) in Hab.
          - apply (proj2 (DQ y (or_intror eq_refl))). now apply (in_map snd) in Hab. }
        assert (In (a, b) Q) as HQi by (apply (Permutation_in _ (Permutation_sym Pm)); simpl; auto).
        destruct (S2 a b HQi) as [[C|C]|[C|C]]; auto; injection C as -> ->; tauto.
      * intros a b Hab. apply Hd. simpl; auto.
    + destruct Huv as [E|E]; injection E as -> ->; auto.
      apply sumpairs_flip1; auto. apply Hd. simpl; auto.
Qed.

Lemma sumpairs_mul_l d P (f g : assignment -> A) : indep (map fst P ++ map snd P) g -> forall s,
  sumpairs d P (fun s => g s * f s) s = g s * sumpairs d P f s.
Proof.
  intros Hg s. rewrite !sumpairs_indices. rewrite <- sumL_mul_l. apply sumL_ext. intros idx _. f_equal.
  apply Hg. intros l Hl. rewrite in_app_iff in Hl. apply assign_notin; tauto.
Qed.
Lemma sumpairs_mul_r d P (f g : assignment -> A) : indep (map fst P ++ map snd P) g -> forall s,
  sumpairs d P (fun s => f s * g s) s = sumpairs d P f s * g s.
Proof.
  intros Hg s. rewrite (sumpairs_ext _ _ _ (fun s => g s * f s)) by (intros; ring).
  rewrite sumpairs_mul_l by auto. ring.
Qed.

Lemma indices_NoDup sh : NoDup (indices sh).
Proof.
  induction sh as [|n sh IH]; simpl; [repeat constructor; auto|].
  generalize (seq_NoDup n 0). generalize (seq 0 n). intros L HL. induction HL as [|x L Hx HL IHL]; simpl; [constructor|].
  apply NoDup_app_intro; auto.
  - apply FinFun.Injective_map_NoDup; auto. intros a b E. now injection E.
  - intros y H1 H2. apply in_map_iff in H1. destruct H1 as (r & <- & _).
    apply in_flat_map in H2. destruct H2 as (z & Hz & Hr). apply in_map_iff in Hr. destruct Hr as (r' & E & _).
    injection E as -> ->. contradiction.
Qed.
Lemma inrange_repeat n k j : (j < n)%nat -> inrange (repeat n k) (repeat j k).
Proof. intros H. induction k; simpl; constructor; auto. Qed.
(** a sum over several indices of a function that vanishes off the diagonal *)
Lemma sum_diag n k (f : list nat -> A) :
  (forall idx, inrange (repeat n (S k)) idx -> all_eqb idx = false -> f idx = 0) ->
  sumL (indices (repeat n (S k))) f = sumN n (fun j => f (repeat j (S k))).
Proof.
  intros H0. cbn [repeat indices]. rewrite sumL_flat_map. unfold sumN. apply sumL_ext. intros j Hj. apply in_seq in Hj.
  rewrite sumL_map. apply sumL_single with (x0 := repeat j k).
  - apply indices_NoDup.
  - apply indices_In. apply inrange_repeat. lia.
  - intros r Hr Nr. apply indices_In in Hr. apply H0.
    + simpl. constructor; [lia|auto].
    + simpl. destruct (forallb (Nat.eqb j) r) eqn:E; auto. exfalso. apply Nr.
      pose proof (inrange_length _ _ Hr) as Hl. rewrite repeat_length in Hl. clear Nr Hr H0. subst k.
      induction r as [|x r IH]; simpl in *; auto. apply andb_true_iff in E. destruct E as [E1 E2].
      apply Nat.eqb_eq in E1. subst. f_equal. auto.
Qed.
End Sp.
