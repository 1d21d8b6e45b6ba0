(** The network of the linked local copies is the declared one: links, free legs, value and sequences. *)
From Coq Require Import List Arith Bool String Ascii Lia Permutation.
From Verif Require Import Base Sums NdModel HeapModel FuncsModel TensorModel TensorSpec ContractModel NetSpec SearchModel SearchSpec GraphModel NetGraphModel NetGraphSpec FtnModel FtnSpec FtnNetSpec
  FuncsProofs NdProofs TensorProofs LabelProofs CopyProofs LinkProofs NetProofs SumpairsProofs SeqProofs RetProofs NetRunProofs FrameProofs FtnCopyProofs FtnLinkProofs.
Import ListNotations.
Local Open Scope nat_scope.

Lemma complete_cost (ok : list nat -> list nat -> Prop) cost (cost' : list nat -> list nat -> nat) gs sq n : complete ok cost gs sq n -> exists n', complete ok cost' gs sq n'.
Proof.
  induction 1 as [G|gs rest s t G1 G2 sq n N P O C (n' & IH)]; [eexists; constructor|]. eexists. econstructor; eauto.
Qed.
Lemma NoDup_flat_nodup {X Y} (f : X -> list Y) L : NoDup (flat_map f L) -> forall x, In x L -> NoDup (f x).
Proof. induction L as [|y L IH]; simpl; [tauto|]. intros ND x [->|H]; [eapply NoDup_app_l; eauto|]. apply IH; auto. eapply NoDup_app_r; eauto. Qed.

Section Fn.
Context {A : Type} {HA : SR A}.
Notation heap := (heap A).
Variable h0 hT hL : heap.
Variable d loc : list (string * tid).
Variable pre : string * tid -> list pname.
Variable ps : list rlink.
Notation cp := (FtnLinkProofs.cp h0 hT d loc).
Notation cp2 := (FtnLinkProofs.cp2 h0 hT d loc).
Notation Cof := (FtnLinkProofs.Cof loc).
Hypothesis Wd : forall p, In p d -> wf_tensor h0 (snd p).
Hypothesis Lo : locals h0 hT (fun p => map (tag_name (fst p)) (pre p)) d loc.
Hypothesis LM : links_made hT hL (map cp2 ps).
Hypothesis IR : incl (role_plegs ps) (roles h0 d).
Hypothesis DM : forall p, In p (map cp2 ps) -> dim_of hT (fst p) = dim_of hT (snd p).
Hypothesis PR : proper ps.
Let LA := lm_added _ _ _ LM.
Definition cs (us : list (string * tid)) : list tid := map (fun p => Cof (fst p)) us.

Lemma L_legs t : legs_of hL t = legs_of hT t. Proof. unfold legs_of. now rewrite (la_tens _ _ _ LA). Qed.
Lemma L_dim l : dim_of hL l = dim_of hT l. Proof. unfold dim_of. apply (la_fields _ _ _ LA). Qed.
Lemma L_name l : l_name (legs hL l) = l_name (legs hT l). Proof. apply (la_fields _ _ _ LA). Qed.
Lemma L_entry t s : entry hL t s = entry hT t s. Proof. unfold entry. now rewrite (la_tens _ _ _ LA). Qed.
Lemma cs_all us : incl us d -> all_legs hL (cs us) = map cp (roles h0 us).
Proof.
  intros I. unfold all_legs, cs, roles. induction us as [|[n t] us IH]; auto. cbn [map flat_map fst]. rewrite map_app, L_legs, (cp_legs h0 hT d loc pre Wd Lo n t) by (apply I; simpl; auto). f_equal.
  apply IH. intros x Hx. apply I. simpl; auto.
Qed.
Lemma roles_incl us : incl us d -> incl (roles h0 us) (roles h0 d).
Proof. intros I r Hr. apply role_In in Hr as (t & H1 & H2). apply role_In. eauto. Qed.
Lemma roles_NoDup us : incl us d -> NoDup (map fst us) -> NoDup (roles h0 us).
Proof.
  unfold roles. induction us as [|[n t] us IH]; intros I ND; [constructor|]. cbn [flat_map map fst] in *. inversion ND as [|? ? K1 K2]; subst. apply NoDup_app_intro.
  - unfold roles1. cbn [fst snd]. apply FinFun.Injective_map_NoDup; [intros x y E; now injection E|]. apply (Wd (n, t)). apply I. simpl; auto.
  - apply IH; auto. intros x Hx. apply I. simpl; auto.
  - intros [n' l] H1 H2. unfold roles1 in H1. apply in_map_iff in H1 as (l1 & E & _). injection E as <- <-. apply (role_In h0 us) in H2 as (t' & H2 & _). apply K1. apply (in_map fst) in H2. exact H2.
Qed.
Lemma bond_free r : In r (roles h0 d) -> l_bond (legs hT (cp r)) = None.
Proof.
  intros H. apply (lo_bond _ _ _ _ _ Lo). apply role_In in H as (t & Ht & Hl). apply all_legs_In. exists (Cof (fst r)). destruct (Cof_mir h0 hT d loc pre Lo (fst r) t Ht) as (I & _).
  split; [now apply (in_map snd) in I|]. destruct r as [n l]. eapply (cp_In h0 hT d loc pre); eauto.
Qed.
Lemma ends_one (h : heap) b l x y : ends h b l x -> ends h b l y -> x = y.
Proof. intros [E|E] [E'|E']; rewrite E in E'; injection E'; intros; subst; auto; congruence. Qed.
Lemma linked_iff r l' : In r (roles h0 d) -> linked hL (cp r) l' <-> exists r', (In (r, r') ps \/ In (r', r) ps) /\ l' = cp r'.
Proof.
  intros Hr. split.
  - intros (b & Eb & En). destruct (in_dec Nat.eq_dec (cp r) (map fst (map cp2 ps) ++ map snd (map cp2 ps))) as [I|I].
    + change (In (cp r) (plegs (map cp2 ps))) in I. rewrite plegs_cp2 in I. apply in_map_iff in I as (r1 & E & I). assert (r1 = r) as -> by (apply (cp_inj h0 hT d loc pre Wd Lo); auto).
      assert (exists r', In (r, r') ps \/ In (r', r) ps) as (r' & Hr').
      { unfold role_plegs in I. apply in_app_iff in I as [I|I]; apply in_map_iff in I as ([x y] & <- & I); simpl; eauto. }
      exists r'. split; auto. assert (linked hL (cp r) (cp r')) as (b' & Eb' & En').
      { destruct Hr' as [H|H]; apply (in_map cp2) in H; apply (la_in _ _ _ LA) in H; tauto. }
      assert (b' = b) as -> by congruence. eapply ends_one; eauto.
    + rewrite (la_out _ _ _ LA) in Eb by exact I. rewrite bond_free in Eb; [discriminate|auto].
  - intros (r' & Hr' & ->). destruct Hr' as [H|H]; apply (in_map cp2) in H; apply (la_in _ _ _ LA) in H; tauto.
Qed.
Lemma link_roles r r' : In (r, r') ps -> In r (roles h0 d) /\ In r' (roles h0 d).
Proof. intros H. split; apply IR; unfold role_plegs; apply in_app_iff; [left|right]; apply in_map_iff; eexists; (split; [|exact H]); reflexivity. Qed.
Lemma link_dim r r' : In (r, r') ps -> rdim h0 r = rdim h0 r'.
Proof.
  intros H. destruct (link_roles _ _ H). rewrite <- (cp_dim h0 hT d loc pre Wd Lo r), <- (cp_dim h0 hT d loc pre Wd Lo r') by auto. apply (in_map cp2) in H. apply (DM _ H).
Qed.
Lemma cs_NoDup us : incl us d -> NoDup (map fst us) -> NoDup (cs us).
Proof.
  intros I ND. unfold cs. rewrite <- (map_map fst Cof). assert (I' : incl (map fst us) (map fst d)) by (intros x Hx; apply in_map_iff in Hx as (p & <- & Hp); apply in_map; auto).
  revert I' ND. generalize (map fst us). induction l as [|n l IH]; intros I' ND; simpl; constructor; inversion ND as [|? ? K1 K2]; subst.
  - intros X. apply in_map_iff in X as (n' & E & Hn'). apply K1. assert (n' = n) as <-; auto.
    assert (exists t, In (n, t) d) as (t & Ht) by (specialize (I' n (or_introl eq_refl)); apply in_map_iff in I' as ([a t] & <- & H); simpl; eauto).
    assert (exists t, In (n', t) d) as (t' & Ht') by (specialize (I' n' (or_intror Hn')); apply in_map_iff in I' as ([a t'] & <- & H); simpl; eauto).
    destruct (Cof_mir h0 hT d loc pre Lo n t Ht) as (L1 & _), (Cof_mir h0 hT d loc pre Lo n' t' Ht') as (L2 & _).
    eapply NoDup_snd_eq; [apply Lo|exact L2|rewrite E; exact L1].
  - apply IH; auto. intros x Hx. apply I'. simpl; auto.
Qed.
Lemma cs_In us c : In c (cs us) -> exists n t, In (n, t) us /\ c = Cof n.
Proof. intros H. apply in_map_iff in H as ([n t] & <- & H). eauto. Qed.
Lemma mir_L n t : In (n, t) d -> mir h0 hL (map (tag_name n) (pre (n, t))) t (Cof n).
Proof.
  intros H. destruct (Cof_mir h0 hT d loc pre Lo n t H) as (_ & [m1 m2 m3 m4 m5 m6 m7]). constructor.
  - apply (wf_same hT hL); auto; [now rewrite (la_tens _ _ _ LA)|intros l _; apply L_dim|rewrite (la_nleg _ _ _ LA); lia|rewrite (la_ntens _ _ _ LA); lia].
  - intros l Hl. rewrite L_legs in Hl. destruct (la_fields _ _ _ LA l) as (-> & _). now apply m2.
  - rewrite <- m3. unfold names_of. rewrite L_legs. apply map_ext. intros l. apply L_name.
  - rewrite <- m4. unfold dims_of. rewrite L_legs. apply map_ext. intros l. apply L_dim.
  - now rewrite (la_tens _ _ _ LA).
  - now rewrite (la_tens _ _ _ LA).
  - intros s s' Hs. rewrite L_legs in Hs. rewrite L_entry. auto.
Qed.
Lemma cs_wf us : incl us d -> NoDup (map fst us) -> wf_net hL (cs us).
Proof.
  intros I ND. apply Build_wf_net.
  - intros t Ht. apply cs_In in Ht as (n & t' & H & ->). apply (mir_L n t' (I _ H)).
  - intros t Ht. apply cs_In in Ht as (n & t' & H & ->). apply (mir_L n t' (I _ H)).
  - now apply cs_NoDup.
  - rewrite cs_all by auto. apply (NoDup_cp h0 hT d loc pre Wd Lo); [now apply roles_incl|now apply roles_NoDup].
  - rewrite cs_all by auto. intros l b Hl Eb. apply in_map_iff in Hl as (r & <- & Hr). apply roles_incl in Hr; auto.
    destruct (in_dec Nat.eq_dec (cp r) (map fst (map cp2 ps) ++ map snd (map cp2 ps))) as [J|J]; [|rewrite (la_out _ _ _ LA) in Eb by exact J; rewrite bond_free in Eb; [discriminate|auto]].
    change (In (cp r) (plegs (map cp2 ps))) in J. rewrite plegs_cp2 in J. apply in_map_iff in J as (r1 & E & J). assert (r1 = r) as -> by (apply (cp_inj h0 hT d loc pre Wd Lo); auto).
    assert (exists r', In (r, r') ps \/ In (r', r) ps) as (r' & Hr').
    { unfold role_plegs in J. apply in_app_iff in J as [J|J]; apply in_map_iff in J as ([x y] & <- & J); simpl; eauto. }
    assert (LL : linked hL (cp r) (cp r') /\ l_bond (legs hL (cp r)) = l_bond (legs hL (cp r')) /\ dim_of hL (cp r) = dim_of hL (cp r')).
    { rewrite !L_dim. destruct Hr' as [H|H]; apply (in_map cp2) in H; pose proof (la_in _ _ _ LA _ _ H) as K; pose proof (DM _ H) as K'; unfold FtnLinkProofs.cp2 in K'; cbn [fst snd] in K, K'; (split; [tauto|split; [destruct K as (_ & _ & K); congruence|congruence]]). }
    destruct LL as ((b' & Eb' & En') & E1 & E2). assert (b' = b) as -> by congruence. exists (cp r'). split; auto. intros _. split; congruence.
Qed.
Lemma cs_closed us : Permutation us d -> closed_net hL (cs us).
Proof.
  intros P t l l' Ht Hl LL. assert (I : incl us d) by (intros x Hx; eapply Permutation_in; eauto). apply cs_In in Ht as (n & t' & H & ->).
  rewrite L_legs, (cp_legs h0 hT d loc pre Wd Lo n t' (I _ H)) in Hl. apply in_map_iff in Hl as (r & <- & Hr). unfold roles1 in Hr. apply in_map_iff in Hr as (x & <- & Hx). cbn [fst snd] in *.
  assert (Rr : In (n, x) (roles h0 d)) by (apply role_In; exists t'; auto). apply (proj1 (linked_iff _ _ Rr)) in LL as (r' & Hr' & ->).
  assert (In r' (roles h0 d)) as Rr' by (destruct Hr' as [K|K]; apply link_roles in K; tauto). apply role_In in Rr' as (t2 & Ht2 & Hl2).
  exists (Cof (fst r')). split; [|split].
  - unfold cs. apply in_map_iff. exists (fst r', t2). split; auto. eapply Permutation_in; [symmetry; exact P|exact Ht2].
  - intros E. destruct (Cof_mir h0 hT d loc pre Lo n t' (I _ H)) as (L1 & _), (Cof_mir h0 hT d loc pre Lo (fst r') t2 Ht2) as (L2 & _).
    assert (fst r' = n) as EN by (eapply NoDup_snd_eq; [apply Lo|exact L2|rewrite E; exact L1]).
    destruct PR as (_ & NS). destruct Hr' as [K|K]; specialize (NS _ K); simpl in NS; congruence.
  - rewrite L_legs. destruct r' as [n2 l2]. eapply (cp_In h0 hT d loc pre); eauto.
Qed.

(** ** Links inside a part of the network *)
Variable us : list (string * tid).
Hypothesis Iu : incl us d.
Hypothesis Nu : NoDup (map fst us).
Let W := cs_wf us Iu Nu.
Notation ws := (within us ps).
Lemma within_In a b : In (a, b) ws <-> In (a, b) ps /\ In a (roles h0 us) /\ In b (roles h0 us).
Proof.
  unfold within. rewrite filter_In. cbn [fst snd]. rewrite andb_true_iff, !inb_spec. split.
  - intros (H & H1 & H2). split; auto. destruct (link_roles _ _ H) as (R1 & R2). split; [apply role_In in R1 as (t & K1 & K2)|apply role_In in R2 as (t & K1 & K2)]; apply role_In; exists t; split; auto.
    + apply in_map_iff in H1 as ([n t'] & E & H1). cbn [fst] in E. subst n. assert (t' = t) as <- by (eapply NoDup_fst_eq; [apply Lo|apply Iu; exact H1|exact K1]). auto.
    + apply in_map_iff in H2 as ([n t'] & E & H2). cbn [fst] in E. subst n. assert (t' = t) as <- by (eapply NoDup_fst_eq; [apply Lo|apply Iu; exact H2|exact K1]). auto.
  - intros (H & R1 & R2). split; auto. apply role_In in R1 as (t & K1 & _), R2 as (t2 & K2 & _). split; [apply (in_map fst) in K1|apply (in_map fst) in K2]; auto.
Qed.
Lemma role_of_leg l : In l (all_legs hL (cs us)) <-> exists r, In r (roles h0 us) /\ l = cp r.
Proof. rewrite cs_all by auto. rewrite in_map_iff. split; intros (r & H1 & H2); eauto. Qed.
Lemma inner_iff l l' : inner_link hL (cs us) l l' <-> exists r r', (In (r, r') ws \/ In (r', r) ws) /\ l = cp r /\ l' = cp r'.
Proof.
  split.
  - intros (t & t' & Ht & Ht' & N & Hl & Hl' & LL). assert (In l (all_legs hL (cs us))) as H1 by (apply all_legs_In; eauto). assert (In l' (all_legs hL (cs us))) as H2 by (apply all_legs_In; eauto).
    apply role_of_leg in H1 as (r & Hr & ->), H2 as (r2 & Hr2 & ->). pose proof (roles_incl us Iu) as RI.
    apply linked_iff in LL as (r' & Hr' & E); auto. assert (In r' (roles h0 d)) as R' by (destruct Hr' as [K|K]; apply link_roles in K; tauto).
    apply (cp_inj h0 hT d loc pre Wd Lo) in E; auto. subst r2. exists r, r'. split; auto. rewrite !within_In. tauto.
  - intros (r & r' & H & -> & ->). rewrite !within_In in H. assert (In r (roles h0 us) /\ In r' (roles h0 us)) as (R1 & R2) by tauto.
    assert (HP : In (r, r') ps \/ In (r', r) ps) by tauto. clear H. assert (In r (roles h0 d)) as Rd by now apply (roles_incl us Iu).
    apply role_In in R1 as (t1 & K1 & K1'), R2 as (t2 & K2 & K2'). destruct r as [n l], r' as [n' l']. cbn [fst snd] in *.
    exists (Cof n), (Cof n'). split; [unfold cs; apply in_map_iff; exists (n, t1); auto|]. split; [unfold cs; apply in_map_iff; exists (n', t2); auto|]. split.
    + intros E. destruct (Cof_mir h0 hT d loc pre Lo n t1 (Iu _ K1)) as (L1 & _), (Cof_mir h0 hT d loc pre Lo n' t2 (Iu _ K2)) as (L2 & _).
      assert (n = n') as EN by (eapply NoDup_snd_eq; [apply Lo|exact L1|rewrite E; exact L2]).
      destruct PR as (_ & NS). destruct HP as [K|K]; specialize (NS _ K); simpl in NS; congruence.
    + rewrite !L_legs. split; [eapply (cp_In h0 hT d loc pre); eauto|]. split; [eapply (cp_In h0 hT d loc pre); eauto|]. apply linked_iff; eauto.
Qed.
Lemma within_NoDup : NoDup (role_plegs ws).
Proof.
  destruct PR as (ND & _). unfold role_plegs, within. revert ND. match goal with |- context [filter ?x ps] => generalize x as g end. intros g.
  assert (K : forall P, NoDup (map fst P ++ map snd P) -> NoDup (map fst (filter g P) ++ map snd (filter g P)) /\ incl (map fst (filter g P) ++ map snd (filter g P)) (map (@fst role role) P ++ map snd P)).
  { induction P as [|[a b] P IH]; cbn [map fst snd filter app]; [split; [constructor|intros x []]|]. intros ND. inversion ND as [|? ? K1 K2]; subst. assert (K3 := K2). apply NoDup_remove_1 in K2. apply NoDup_remove_2 in K3.
    destruct (IH K2) as (H1 & H2). destruct (g (a, b)); cbn [map fst snd app].
    - split.
      + constructor; [|apply NoDup_Add with (a := b) (l := map fst (filter g P) ++ map snd (filter g P)); [apply Add_app|split; [exact H1|intros X; apply K3, H2, X]]].
        intros X. apply K1. apply in_app_iff in X. apply in_app_iff. simpl in *. destruct X as [X|[X|X]]; [|auto|]; (assert (In a (map fst P ++ map snd P)) as Y by (apply H2, in_app_iff; auto); apply in_app_iff in Y; tauto).
      + intros x [<-|Hx]; [simpl; auto|]. right. apply in_app_iff in Hx. apply in_app_iff. simpl in *. destruct Hx as [X|[X|X]]; [|auto|]; (assert (In x (map fst P ++ map snd P)) as Y by (apply H2, in_app_iff; auto); apply in_app_iff in Y; tauto).
    - split; auto. intros x Hx. apply H2 in Hx. right. apply in_app_iff in Hx. apply in_app_iff. simpl. tauto. }
  intros ND. apply (K ps ND).
Qed.
Lemma within_incl : incl (role_plegs ws) (roles h0 us).
Proof.
  intros r Hr. unfold role_plegs in Hr. apply in_app_iff in Hr as [H|H]; apply in_map_iff in H as ([a b] & <- & H); apply within_In in H; tauto.
Qed.
Lemma same1 : same_pairs (inner hL (cs us)) (map cp2 ws).
Proof.
  intros x y H. apply (inner_sound hL (cs us)) in H; [|apply W]. apply inner_iff in H as (r & r' & H & -> & ->). destruct H as [H|H]; apply (in_map cp2) in H; auto.
Qed.
Lemma same2 : same_pairs (map cp2 ws) (inner hL (cs us)).
Proof.
  intros x y H. apply in_map_iff in H as ([a b] & E & H). injection E as <- <-. apply inner_complete; [apply W|]. apply inner_iff. eauto 6.
Qed.
Lemma free_is : Permutation (free_legs hL (cs us)) (map cp (filter (free_role ws) (roles h0 us))).
Proof.
  apply NoDup_Permutation; [apply free_NoDup, W|apply (NoDup_cp h0 hT d loc pre Wd Lo); [intros x Hx; apply filter_In in Hx; apply (roles_incl us Iu); tauto|apply NoDup_filter, roles_NoDup; auto]|].
  intros l. rewrite (free_In hL (cs us) l) by apply W. rewrite role_of_leg, in_map_iff. split.
  - intros ((r & Hr & ->) & H). exists r. split; auto. apply filter_In. split; auto. unfold free_role. apply negb_true_iff, inb_false. intros X. apply in_app_iff in X.
    destruct X as [X|X]; apply in_map_iff in X as ([a b] & E & X); simpl in E; subst r; [apply (H (cp b))|apply (H (cp a))]; apply inner_iff; eauto 6.
  - intros (r & <- & Hr). apply filter_In in Hr as (Hr & Hf). split; eauto. intros l' X. apply inner_iff in X as (r1 & r2 & X & E & _).
    apply negb_true_iff, inb_false in Hf. apply Hf. assert (In r1 (roles h0 us)) as R1 by (rewrite !within_In in X; tauto). apply (cp_inj h0 hT d loc pre Wd Lo) in E; [|now apply (roles_incl us Iu)..]. subst r1.
    apply in_app_iff. destruct X as [X|X]; [left|right]; apply in_map_iff; eexists; (split; [|exact X]); reflexivity.
Qed.

(** ** The value *)
Definition onR (R : list role) (s s' : rassign) : Prop := forall r, In r R -> s r = s' r.
Lemma rsum_on R (f : rassign -> A) : (forall s s', onR R s s' -> f s = f s') -> forall qs s s',
  (forall r, In r R -> ~ In r (role_plegs qs) -> s r = s' r) -> rsum h0 qs f s = rsum h0 qs f s'.
Proof.
  intros Hf. induction qs as [|[a b] qs IH]; intros s s' H; cbn [rsum].
  - apply Hf. intros r Hr. apply H; auto.
  - apply sumN_ext. intros i Hi. apply IH. intros r Hr Hn. unfold rupd. destruct (dec r b); auto. destruct (dec r a); auto. apply H; auto.
    unfold role_plegs in *. cbn [map fst snd]. intros X. apply Hn. apply in_app_iff in X. apply in_app_iff. simpl in X. intuition congruence.
Qed.
Lemma rprod_on R s s' : incl (roles h0 us) R -> onR R s s' -> rprod h0 us s = rprod h0 us s'.
Proof.
  intros I H. clear Iu Nu W. induction us as [|[n t] l IH]; auto. cbn [rprod]. f_equal.
  - unfold entry. rewrite !entry_of_idx. f_equal. apply map_ext_in. intros x Hx. apply H, I. apply role_In. exists t. simpl. auto.
  - apply IH. intros r Hr. apply I. unfold roles in *. cbn [flat_map]. apply in_app_iff. auto.
Qed.
Lemma prod_is s : prod_entries hL (cs us) s = rprod h0 us (fun r => s (cp r)).
Proof.
  clear Nu W. induction us as [|[n t] l IH]; auto. cbn [cs map prod_entries rprod fst]. f_equal; [|apply IH; intros x Hx; apply Iu; simpl; auto].
  assert (H : In (n, t) d) by (apply Iu; simpl; auto). apply (mi_entry _ _ _ _ _ (mir_L n t H)). rewrite L_legs, (cp_legs h0 hT d loc pre Wd Lo n t H). unfold roles1. now rewrite !map_map.
Qed.
Lemma sum_is (F : assignment -> A) f : (forall s, F s = f (fun r => s (cp r))) -> (forall s s', onR (roles h0 d) s s' -> f s = f s') ->
  forall qs, incl (role_plegs qs) (roles h0 d) -> forall s, sumpairs (dim_of hL) (map cp2 qs) F s = rsum h0 qs f (fun r => s (cp r)).
Proof.
  intros HF Hf. induction qs as [|[a b] qs IH]; intros I s; cbn [map sumpairs rsum]; auto. unfold cp2 at 1. cbn [fst snd].
  assert (In a (roles h0 d) /\ In b (roles h0 d)) as (Ra & Rb) by (split; apply I; unfold role_plegs; apply in_app_iff; simpl; auto).
  rewrite L_dim, (cp_dim h0 hT d loc pre Wd Lo a Ra). apply sumN_ext. intros i Hi. rewrite IH.
  - apply (rsum_on (roles h0 d) f Hf). intros r Hr _. unfold rupd, upd. destruct (dec r b) as [->|Nb]; [now rewrite Nat.eqb_refl|].
    destruct (Nat.eqb_spec (cp r) (cp b)) as [E|_]; [apply (cp_inj h0 hT d loc pre Wd Lo) in E; auto; contradiction|].
    destruct (dec r a) as [->|Na]; [now rewrite Nat.eqb_refl|]. destruct (Nat.eqb_spec (cp r) (cp a)) as [E|_]; auto. apply (cp_inj h0 hT d loc pre Wd Lo) in E; auto. contradiction.
  - intros x Hx. apply I. unfold role_plegs in *. cbn [map fst snd]. apply in_app_iff in Hx. apply in_app_iff. simpl. tauto.
Qed.
Lemma netval_is s : netval hL (cs us) s = rval h0 us ws (fun r => s (cp r)).
Proof.
  unfold netval, rval. rewrite (sumpairs_same (dim_of hL) _ (prod_respects hL (cs us)) _ (map cp2 ws)).
  - apply sum_is; [apply prod_is| |].
    + intros s1 s2 H. apply (rprod_on (roles h0 d)); auto. now apply roles_incl.
    + intros r Hr. apply within_incl in Hr. now apply (roles_incl us Iu).
  - apply inner_NoDup; apply W.
  - change (NoDup (plegs (map cp2 ws))). rewrite plegs_cp2. apply (NoDup_cp h0 hT d loc pre Wd Lo); [|apply within_NoDup]. intros r Hr. apply within_incl in Hr. now apply (roles_incl us Iu).
  - apply same1.
  - apply same2.
  - intros x y H. apply (inner_dim hL (cs us)); auto; apply W.
Qed.

(** ** Sequences *)
Lemma cs_nth i : nth i (cs us) 0 = match nth_error us i with Some p => Cof (fst p) | None => 0 end.
Proof.
  unfold cs. clear Iu Nu W. revert i. induction us as [|p l IH]; intros [|i]; simpl; auto.
Qed.
Definition pos (c : tid) : nat := match index_of c (cs us) with Some k => k | None => 0 end.
Lemma diag_is I : incl I (seq 0 (List.length us)) -> all_diag hL (map (fun i => nth i (cs us) 0) I) = diag_at h0 us I.
Proof.
  intros H. unfold all_diag, diag_at. induction I as [|i I IH]; auto. cbn [map forallb]. rewrite IH by (intros x Hx; apply H; simpl; auto). f_equal. rewrite cs_nth.
  assert (i < List.length us) as Hi by (specialize (H i (or_introl eq_refl)); apply in_seq in H; lia).
  destruct (nth_error us i) as [[n t]|] eqn:E; [|apply nth_error_None in E; lia]. cbn [fst snd]. apply nth_error_In in E. apply (mi_diag _ _ _ _ _ (mir_L n t (Iu _ E))).
Qed.
Definition okI (I J : list nat) : Prop := diag_at h0 us I = true -> diag_at h0 us J = true ->
  exists a b, (In (a, b) ps \/ In (b, a) ps) /\ used_at us I (fst a) /\ used_at us J (fst b).
Lemma used_leg I r : used_at us I (fst r) -> In r (roles h0 d) -> In (cp r) (all_legs hL (map (fun i => nth i (cs us) 0) I)).
Proof.
  intros (i & t & Hi & E) Hr. apply all_legs_In. exists (Cof (fst r)). split.
  - apply in_map_iff. exists i. split; auto. now rewrite cs_nth, E.
  - apply role_In in Hr as (t' & K1 & K2). rewrite L_legs. destruct r as [n l]. eapply (cp_In h0 hT d loc pre); eauto.
Qed.
Lemma part_perm I J : incl (I ++ J) (seq 0 (List.length us)) -> NoDup (I ++ J) -> exists R, Permutation (map (fun i => nth i (cs us) 0) I ++ map (fun i => nth i (cs us) 0) J ++ R) (cs us).
Proof.
  intros Ic ND. exists (map (fun i => nth i (cs us) 0) (filter (fun i => negb (inb i (I ++ J))) (seq 0 (List.length us)))).
  assert (E : cs us = map (fun i => nth i (cs us) 0) (seq 0 (List.length us))).
  { rewrite <- (map_length (fun p => Cof (fst p)) us). fold (cs us). clear. induction (cs us) as [|x l IH] using rev_ind; auto. rewrite app_length, seq_app, map_app. simpl. f_equal.
    - rewrite IH at 1. apply map_ext_in. intros i Hi. apply in_seq in Hi. rewrite app_nth1 by lia. reflexivity.
    - rewrite app_nth2 by lia. now rewrite Nat.sub_diag. }
  eapply Permutation_trans; [|apply Permutation_refl'; symmetry; exact E]. rewrite app_assoc, <- !map_app. apply Permutation_map. apply NoDup_Permutation.
  - apply NoDup_app_intro; auto; [apply NoDup_filter, seq_NoDup|]. intros x H1 H2. apply filter_In in H2 as (_ & H2). apply negb_true_iff, inb_false in H2. auto.
  - apply seq_NoDup.
  - intros x. rewrite in_app_iff, filter_In. split; [intros [H|[H _]]; auto|]. intros H. destruct (inb x (I ++ J)) eqn:Eb; [left; now apply inb_spec|right; auto].
Qed.
Lemma fits_to sq : seq_fits h0 us ps sq -> exists n, ret_ok True hL (cs us) sq n.
Proof.
  intros (n & C). unfold ret_ok. set (f := fun i => nth i (cs us) 0).
  assert (S1 : singles (cs us) = map (fun g => (fst g, map f (snd g))) (singles (seq 0 (List.length us)))).
  { unfold singles. rewrite seq_length. assert (E : List.length (cs us) = List.length us) by (unfold cs; now rewrite map_length). rewrite E. clear C.
    assert (K : forall k m, k + m <= List.length (cs us) -> combine (seq k m) (map (fun t => [t]) (firstn m (skipn k (cs us)))) =
      map (fun g => (fst g, map f (snd g))) (combine (seq k m) (map (fun t => [t]) (seq k m)))).
    { intros k m. revert k. induction m as [|m IH]; intros k H; auto. cbn [seq map combine fst snd]. assert (exists x l, skipn k (cs us) = x :: l /\ f k = x /\ skipn (S k) (cs us) = l) as (x & l & Ex & Ef & El).
      { unfold f. clear -H. revert k H. induction (cs us) as [|y l IH]; intros [|k] H; simpl in *; try lia; [eauto|]. apply IH. lia. }
      rewrite Ex. cbn [firstn map combine]. rewrite Ef, <- El. f_equal. apply IH. lia. }
    specialize (K 0 (List.length us)). rewrite E in K. specialize (K (le_n _)). cbn [skipn] in K. rewrite <- E in K at 2. rewrite firstn_all in K. exact K. }
  rewrite S1. destruct (complete_cost _ _ (fun I J => group_cost hL (map f I) (map f J)) _ _ _ C) as (n' & C'). exists n'.
  eapply (complete_gmap (seq 0 (List.length us)) f okI (fun I J => group_cost hL (map f I) (map f J))); [|exact C'| | |].
  - intros I J Ic ND _ _ O. split; auto.
    assert (IcI : incl I (seq 0 (List.length us))) by (intros x Hx; apply Ic, in_app_iff; auto). assert (IcJ : incl J (seq 0 (List.length us))) by (intros x Hx; apply Ic, in_app_iff; auto).
    destruct (part_perm I J Ic ND) as (R & PP). 
    assert (LK : all_diag hL (map f I) = true -> all_diag hL (map f J) = true -> exists l l', In l (all_legs hL (map f I)) /\ In l' (all_legs hL (map f J)) /\ linked hL l l').
    { unfold f. rewrite !diag_is by auto. intros D1 D2. destruct (O D1 D2) as (a & b & H & U1 & U2).
      assert (In a (roles h0 d) /\ In b (roles h0 d)) as (Ra & Rb) by (destruct H as [H|H]; apply link_roles in H; tauto).
      exists (cp a), (cp b). split; [now apply used_leg|]. split; [now apply used_leg|]. apply linked_iff; eauto. }
    split; [|intros _; exact LK]. intros D1 D2. destruct (LK D1 D2) as (l & l' & H1 & H2 & H3). split; intros X.
    + pose proof (link_free1 hL (cs us) (map f I) (map f J) R W PP l l' H1 H2 H3) as Y. rewrite X in Y. destruct Y.
    + pose proof (link_free2 hL (cs us) (map f I) (map f J) R W PP l l' H1 H2 H3) as Y. rewrite X in Y. destruct Y.
  - rewrite flat_map_concat_map, singles_concat. apply incl_refl.
  - rewrite flat_map_concat_map, singles_concat. apply seq_NoDup.
  - intros [k g] Hg. unfold singles in Hg. apply in_combine_r in Hg. apply in_map_iff in Hg as (x & E & _). cbn [snd]. rewrite <- E. discriminate.
Qed.
Lemma fits_from sq n : ret_ok True hL (cs us) sq n -> seq_fits h0 us ps sq.
Proof.
  intros C. unfold ret_ok in C. assert (Len : List.length (cs us) = List.length us) by (unfold cs; now rewrite map_length). assert (ND := cs_NoDup us Iu Nu).
  assert (PN : forall i, i < List.length us -> pos (nth i (cs us) 0) = i) by (intros i Hi; unfold pos; rewrite index_of_NoDup_nth; auto; lia).
  assert (NP : forall c, In c (cs us) -> nth (pos c) (cs us) 0 = c /\ pos c < List.length us).
  { intros c Hc. unfold pos. destruct (index_of_In _ _ Hc) as (k & E). rewrite E. apply index_of_nth in E. rewrite <- Len. auto. }
  assert (S1 : singles (seq 0 (List.length us)) = map (fun g => (fst g, map pos (snd g))) (singles (cs us))).
  { unfold singles. rewrite seq_length, Len. assert (E : seq 0 (List.length us) = map pos (cs us)).
    { apply nth_ext with (d := 0) (d' := pos 0); [rewrite map_length, seq_length; auto|]. intros i Hi. rewrite seq_length in Hi. rewrite seq_nth by auto. rewrite map_nth. rewrite PN; auto. }
    rewrite E at 2. rewrite map_map. generalize (seq 0 (List.length us)) as k. generalize (cs us) as cc. induction cc as [|c l IH]; intros [|k0 k]; simpl; auto. f_equal. apply IH. }
  unfold seq_fits. rewrite S1. destruct (complete_cost _ _ (fun _ _ => 0) _ _ _ C) as (n' & C'). exists n'.
  eapply (complete_gmap (cs us) pos (fun G1 G2 => ok_ret hL G1 G2 /\ (True -> ok_val hL G1 G2)) (fun _ _ => 0)); [|exact C'| | |].
  - intros G1 G2 Ic ND12 _ _ (_ & O). split; auto. intros D1 D2.
    assert (PI : forall G, incl G (cs us) -> map (fun i => nth i (cs us) 0) (map pos G) = G).
    { intros G HG. rewrite map_map. rewrite <- (map_id G) at 2. apply map_ext_in. intros c Hc. apply NP. auto. }
    assert (I1 : incl G1 (cs us)) by (intros x Hx; apply Ic, in_app_iff; auto). assert (I2 : incl G2 (cs us)) by (intros x Hx; apply Ic, in_app_iff; auto).
    assert (SI : forall G, incl G (cs us) -> incl (map pos G) (seq 0 (List.length us))) by (intros G HG x Hx; apply in_map_iff in Hx as (c & <- & Hc); apply in_seq; destruct (NP c (HG c Hc)); lia).
    rewrite <- (diag_is (map pos G1)), PI in D1 by auto. rewrite <- (diag_is (map pos G2)), PI in D2 by auto.
    destruct (O I D1 D2) as (l & l' & H1 & H2 & LL).
    assert (SUB : forall G x, incl G (cs us) -> In x (all_legs hL G) -> exists r, In r (roles h0 us) /\ x = cp r /\ used_at us (map pos G) (fst r)).
    { intros G x HG Hx. apply all_legs_In in Hx as (c & Hc & Hx). destruct (cs_In us c (HG c Hc)) as (nm & t & Hn & ->).
      rewrite L_legs, (cp_legs h0 hT d loc pre Wd Lo nm t (Iu _ Hn)) in Hx. apply in_map_iff in Hx as (r & <- & Hr). unfold roles1 in Hr. apply in_map_iff in Hr as (y & <- & Hy). cbn [fst snd] in *.
      exists (nm, y). split; [apply role_In; exists t; auto|]. split; auto. cbn [fst].
      destruct (NP _ (HG _ Hc)) as (E & Lt). rewrite cs_nth in E. destruct (nth_error us (pos (Cof nm))) as [[n2 t2]|] eqn:E2; [|apply nth_error_None in E2; lia]. cbn [fst] in E.
      exists (pos (Cof nm)), t2. split; [now apply in_map|]. rewrite E2. apply nth_error_In in E2.
      destruct (Cof_mir h0 hT d loc pre Lo n2 t2 (Iu _ E2)) as (L2 & _), (Cof_mir h0 hT d loc pre Lo nm t (Iu _ Hn)) as (L1 & _).
      assert (n2 = nm) as -> by (eapply NoDup_snd_eq; [apply Lo|exact L2|rewrite E; exact L1]). reflexivity. }
    destruct (SUB G1 l I1 H1) as (a & Ra & -> & U1), (SUB G2 l' I2 H2) as (b & Rb & -> & U2). pose proof (roles_incl us Iu) as RI.
    apply linked_iff in LL as (r' & H & E); auto. assert (In r' (roles h0 d)) as R' by (destruct H as [K|K]; apply link_roles in K; tauto).
    apply (cp_inj h0 hT d loc pre Wd Lo) in E; auto. subst r'. exists a, b. auto.
  - rewrite flat_map_concat_map, singles_concat. apply incl_refl.
  - rewrite flat_map_concat_map, singles_concat. exact ND.
  - intros [k g] Hg. unfold singles in Hg. apply in_combine_r in Hg. apply in_map_iff in Hg as (x & E & _). cbn [snd]. rewrite <- E. discriminate.
Qed.
End Fn.
