(** The linked local copies form the network of the declared roles. *)
From Coq Require Import List Arith Bool String Ascii Lia Permutation.
From Verif Require Import Base Sums NdModel HeapModel FuncsModel TensorModel TensorSpec ContractModel NetSpec SearchModel GraphModel NetGraphModel NetGraphSpec FtnModel FtnSpec FtnNetSpec
  FuncsProofs NdProofs TensorProofs LabelProofs CopyProofs LinkProofs NetProofs SumpairsProofs SeqProofs FrameProofs FtnCopyProofs.
Import ListNotations.
Local Open Scope nat_scope.

Lemma combine_map_self {X Y} (g : X -> Y) (L : list X) : combine L (map g L) = map (fun x => (x, g x)) L.
Proof. induction L; simpl; congruence. Qed.
Lemma map_nth_index (L : list nat) : forall L' : list nat, NoDup L -> List.length L' = List.length L ->
  map (fun l => match index_of l L with Some k => nth k L' 0 | None => 0 end) L = L'.
Proof.
  intros L' ND E. apply nth_ext with (d := 0) (d' := 0); [now rewrite map_length|]. intros n Hn. rewrite map_length in Hn.
  set (g := fun l => _). rewrite (nth_indep _ 0 (g 0)) by now rewrite map_length. rewrite map_nth. unfold g. now rewrite index_of_NoDup_nth.
Qed.
Lemma tag_inj a s n : tag_name a n = NStr (a ++ "-" ++ s) -> n = NStr s.
Proof.
  destruct n as [|x|]; simpl; try discriminate. intros E. injection E as E. f_equal. induction a as [|c a IH]; simpl in *; [now injection E|]. injection E. auto.
Qed.
Lemma app_combine_split {X Y} (L : list X) (g : X -> Y) u x y v : map (fun l => (l, g l)) L = u ++ (x, y) :: v ->
  L = map fst u ++ x :: map fst v /\ g x = y /\ forall l, In l (map fst u) -> In (g l) (map snd u).
Proof.
  intros E. split; [|split].
  - apply (f_equal (map fst)) in E. rewrite map_map, map_app in E. simpl in E. now rewrite map_id in E.
  - assert (In (x, y) (map (fun l => (l, g l)) L)) as H by (rewrite E; apply in_app_iff; simpl; auto). apply in_map_iff in H as (l & H & _). injection H as <- <-. reflexivity.
  - intros l Hl. apply in_map_iff in Hl as ([l' y'] & <- & Hl). assert (In (l', y') (map (fun l => (l, g l)) L)) as H by (rewrite E; apply in_app_iff; auto).
    apply in_map_iff in H as (l2 & H & _). injection H as <- <-. simpl. now apply (in_map snd) in Hl.
Qed.

Section Fl.
Context {A : Type} {HA : SR A}.
Notation heap := (heap A).
Variable h0 hT : heap.
Variable d loc : list (string * tid).
Variable pre : string * tid -> list pname.
Hypothesis Wd : forall p, In p d -> wf_tensor h0 (snd p).
Hypothesis Lo : locals h0 hT (fun p => map (tag_name (fst p)) (pre p)) d loc.

Definition Cof (nm : string) : tid := match dictGet loc nm with Some c => c | None => 0 end.
Definition Tof (nm : string) : tid := match dictGet d nm with Some c => c | None => 0 end.
Definition cp (r : role) : lid := match index_of (snd r) (legs_of h0 (Tof (fst r))) with Some k => nth k (legs_of hT (Cof (fst r))) 0 | None => 0 end.
Definition cp2 (p : rlink) : lid * lid := (cp (fst p), cp (snd p)).

Lemma dictGet_some {Y} (m : list (string * Y)) x y : NoDup (map fst m) -> In (x, y) m -> dictGet m x = Some y.
Proof.
  intros ND H. induction m as [|[a b] m IH]; [destruct H|]. simpl in *. inversion ND as [|? ? K1 K2]; subst. destruct H as [H|H].
  - injection H as -> ->. destruct (dictGet m x) eqn:E; [exfalso; apply K1; apply dictGet_In in E; apply (in_map fst) in E; exact E|]. destruct (dec x x); congruence.
  - now rewrite (IH K2 H).
Qed.
Lemma Tof_In nm t : In (nm, t) d -> Tof nm = t.
Proof. intros H. unfold Tof. rewrite (dictGet_some d nm t); auto. apply Lo. Qed.
Lemma loc_keys : map fst loc = map fst d. Proof. eapply mirrors_fst. apply Lo. Qed.
Lemma Cof_In nm c : In (nm, c) loc -> Cof nm = c.
Proof. intros H. unfold Cof. rewrite (dictGet_some loc nm c); auto. rewrite loc_keys. apply Lo. Qed.
Lemma Cof_mir nm t : In (nm, t) d -> In (nm, Cof nm) loc /\ mir h0 hT (map (tag_name nm) (pre (nm, t))) t (Cof nm).
Proof.
  intros H. assert (exists c, In (nm, c) loc) as (c & Hc).
  { assert (In nm (map fst loc)) as X by (rewrite loc_keys; now apply (in_map fst) in H). apply in_map_iff in X as ([n c] & E & X). simpl in E. subst. eauto. }
  rewrite (Cof_In _ _ Hc). split; auto. destruct (locals_In _ _ _ _ _ _ _ Lo Hc) as (t' & Ht & M).
  assert (t' = t) as -> by (eapply NoDup_fst_eq; [apply Lo|exact Ht|exact H]). exact M.
Qed.
Lemma loc_is : map snd loc = map (fun p => Cof (fst p)) d.
Proof.
  assert (E : map snd loc = map (fun q => Cof (fst q)) loc).
  { apply map_ext_in. intros [n c] H. simpl. symmetry. now apply Cof_In. }
  rewrite E. rewrite <- (map_map fst Cof loc), <- (map_map fst Cof d). now rewrite loc_keys.
Qed.
Lemma len_legs nm t : In (nm, t) d -> List.length (legs_of hT (Cof nm)) = List.length (legs_of h0 t).
Proof. intros H. destruct (Cof_mir nm t H) as (_ & M). pose proof (mi_dims _ _ _ _ _ M) as E. apply (f_equal (@List.length nat)) in E. unfold dims_of in E. now rewrite !map_length in E. Qed.
Lemma cp_legs nm t : In (nm, t) d -> legs_of hT (Cof nm) = map cp (roles1 h0 (nm, t)).
Proof.
  intros H. unfold roles1. cbn [fst snd]. rewrite map_map. unfold cp. cbn [fst snd]. rewrite (Tof_In _ _ H). symmetry.
  apply map_nth_index; [apply (Wd (nm, t) H)|now apply len_legs].
Qed.
Lemma cp_In nm t l : In (nm, t) d -> In l (legs_of h0 t) -> In (cp (nm, l)) (legs_of hT (Cof nm)).
Proof. intros H Hl. rewrite (cp_legs nm t H). apply in_map. unfold roles1. now apply in_map. Qed.
Lemma role_In us r : In r (roles h0 us) <-> exists t, In (fst r, t) us /\ In (snd r) (legs_of h0 t).
Proof.
  unfold roles. rewrite in_flat_map. split.
  - intros ([nm t] & H & H'). unfold roles1 in H'. apply in_map_iff in H' as (l & <- & Hl). simpl. eauto.
  - intros (t & H & Hl). exists (fst r, t). split; auto. unfold roles1. apply in_map_iff. exists (snd r). destruct r; auto.
Qed.
Lemma cp_inj r r' : In r (roles h0 d) -> In r' (roles h0 d) -> cp r = cp r' -> r = r'.
Proof.
  intros H H' E. apply role_In in H as (t & Ht & Hl), H' as (t' & Ht' & Hl'). destruct r as [n l], r' as [n' l']. simpl in *.
  pose proof (cp_In n t l Ht Hl) as I. pose proof (cp_In n' t' l' Ht' Hl') as I'.
  destruct (Cof_mir n t Ht) as (L1 & _), (Cof_mir n' t' Ht') as (L2 & _).
  assert (Cof n = Cof n') as EC.
  { apply (one_owner hT (map snd loc) _ _ (cp (n, l))); [apply Lo|apply (in_map snd) in L1; exact L1|apply (in_map snd) in L2; exact L2|exact I|rewrite E; exact I']. }
  assert (n = n') as <-.
  { apply (NoDup_snd_eq loc n n' (Cof n)); [apply Lo|exact L1|rewrite EC; exact L2]. }
  assert (t' = t) as -> by (eapply NoDup_fst_eq; [apply Lo|exact Ht'|exact Ht]). f_equal.
  unfold cp in E. cbn [fst snd] in E. rewrite (Tof_In _ _ Ht) in E.
  destruct (index_of_In _ _ Hl) as (k & Ek), (index_of_In _ _ Hl') as (k' & Ek'). rewrite Ek, Ek' in E.
  assert (Lk := index_of_lt _ _ _ Ek). assert (Lk' := index_of_lt _ _ _ Ek'). rewrite <- (len_legs n t Ht) in Lk, Lk'.
  assert (k = k') as <-; [|eapply index_of_inj; eauto].
  apply (proj1 (NoDup_nth (legs_of hT (Cof n)) 0)); auto. destruct (Cof_mir n t Ht) as (_ & M). apply M.
Qed.
Lemma cp_dim r : In r (roles h0 d) -> dim_of hT (cp r) = rdim h0 r.
Proof.
  intros H. apply role_In in H as (t & Ht & Hl). destruct r as [n l]. simpl in *. destruct (Cof_mir n t Ht) as (_ & M). pose proof (mi_dims _ _ _ _ _ M) as E.
  unfold dims_of in E. rewrite (cp_legs n t Ht) in E. unfold roles1 in E. rewrite !map_map in E. cbn [fst snd] in E.
  unfold rdim. cbn [snd]. clear -E Hl. induction (legs_of h0 t) as [|x L IH]; [destruct Hl|]. simpl in E. injection E as E1 E2. destruct Hl as [->|Hl]; auto.
Qed.
Lemma role_names_is us : incl us d -> flat_map (fun p => combine (roles1 h0 p) (map (tag_name (fst p)) (pre p))) us =
  map (fun r => (r, l_name (legs hT (cp r)))) (roles h0 us).
Proof.
  intros H. unfold roles. induction us as [|[n t] us IH]; auto. cbn [flat_map]. rewrite map_app, IH by (intros x Hx; apply H; simpl; auto). f_equal.
  assert (Ht : In (n, t) d) by (apply H; simpl; auto). destruct (Cof_mir n t Ht) as (_ & M). cbn [fst snd]. rewrite <- (mi_names _ _ _ _ _ M). unfold names_of.
  rewrite (cp_legs n t Ht), map_map. apply combine_map_self.
Qed.

(** declared legs are found *)
Lemma role_found (before : list (string * string * string)) a la r (h : heap) : (forall p, pre p = pre_names h0 before p) -> role_named h0 before d a la r ->
  tens h = tens hT -> (forall l, l_name (legs h l) = l_name (legs hT l)) ->
  first_named h (Cof a) (NStr (tagged a la)) (cp r) /\ In r (roles h0 d) /\ fst r = a.
Proof.
  intros Ep (t & u & v & Ht & E & Nu & Er) ET EN. destruct (Cof_mir a t Ht) as (_ & M).
  assert (Hl : In (snd r) (legs_of h0 t)).
  { assert (In (snd r, NStr la) (combine (legs_of h0 t) (pre_names h0 before (a, t)))) as X by (rewrite E; apply in_app_iff; simpl; auto). now apply in_combine_l in X. }
  split; [|split; auto; apply role_In; exists t; rewrite Er; auto].
  assert (EC : map (fun l => (l, l_name (legs hT l))) (legs_of hT (Cof a)) = map (fun p => (cp (a, fst p), tag_name a (snd p))) (combine (legs_of h0 t) (pre (a, t)))).
  { rewrite <- combine_map_self. fold (names_of hT (Cof a)). rewrite (mi_names _ _ _ _ _ M), (cp_legs a t Ht). unfold roles1. cbn [fst snd]. rewrite map_map.
    generalize (pre (a, t)) as N. generalize (legs_of h0 t) as L. clear. induction L as [|x L IH]; intros [|y N]; cbn [map combine fst snd]; try reflexivity. f_equal. apply IH. }
  rewrite Ep, E, map_app in EC. cbn [map fst snd] in EC. apply app_combine_split in EC as (EL & En & Hu).
  unfold first_named, legs_of in *. rewrite ET. replace (a, snd r) with r in * by (destruct r; simpl in *; congruence).
  eexists _, _. split; [exact EL|]. rewrite EN, En. split; [reflexivity|]. intros l' Hl'. rewrite EN. specialize (Hu l' Hl').
  intros X. apply Nu. rewrite map_map in Hu. apply in_map_iff in Hu as (q & Eq & Hq). cbn [snd] in Eq. rewrite X in Eq. apply tag_inj in Eq. rewrite <- Eq. now apply in_map.
Qed.

Definition role_plegs (ps : list rlink) : list role := map fst ps ++ map snd ps.
Lemma plegs_cp2 ps : plegs (map cp2 ps) = map cp (role_plegs ps).
Proof. unfold plegs, role_plegs. rewrite map_app, !map_map. reflexivity. Qed.
Lemma NoDup_cp rs : incl rs (roles h0 d) -> NoDup rs -> NoDup (map cp rs).
Proof.
  intros I ND. induction rs as [|r rs IH]; simpl; constructor; inversion ND as [|? ? K1 K2]; subst.
  - intros X. apply in_map_iff in X as (r' & E & H). apply K1. rewrite <- (cp_inj r' r); auto; apply I; simpl; auto.
  - apply IH; auto. intros x Hx. apply I. simpl; auto.
Qed.

Lemma linkAll_ok before links : (forall p, pre p = pre_names h0 before p) -> forall ps (h h' : heap), tens h = tens hT -> (forall l, l_name (legs h l) = l_name (legs hT l)) ->
  Forall2 (declares h0 before d) links ps -> NoDup (role_plegs ps) -> linkAll loc (map stored links) h = (h', Ok tt) ->
  links_made h h' (map cp2 ps) /\ incl (role_plegs ps) (roles h0 d) /\ forall p, In p (map cp2 ps) -> dim_of h (fst p) = dim_of h (snd p).
Proof.
  intros Ep. induction links as [|[[a la] [b lb]] links IH]; intros ps h h' ET EN F ND R; inversion F as [|e [ra rb] links' ps' D F']; subst.
  - injection R as <-. split; [|split]; [split; [apply links_added_refl|intros l []]|intros x []|intros p []].
  - unfold linkAll in R. cbn [map iterM stored] in R. unfold bind at 1 in R.
    destruct D as (Da & Db). cbn [fst snd] in Da, Db.
    destruct (role_found before a la ra h Ep Da ET EN) as (F1 & I1 & _). destruct (role_found before b lb rb h Ep Db ET EN) as (F2 & I2 & _).
    unfold bind at 1, localGet in R. destruct (dictGet loc a) as [ca|] eqn:Ea; [|discriminate]. cbn [ret] in R.
    unfold bind at 1 in R. destruct (dictGet loc b) as [cb|] eqn:Eb; [|discriminate]. cbn [ret] in R.
    assert (Cof a = ca) as <- by (unfold Cof; now rewrite Ea). assert (Cof b = cb) as <- by (unfold Cof; now rewrite Eb).
    unfold bind at 1 in R. rewrite (makeLink_read h _ _ _ _ [Some (cp ra)] [Some (cp rb)]) in R; [|repeat constructor; exact F1|repeat constructor; exact F2|reflexivity].
    cbn [combine mapM] in R. unfold bind at 1 in R.
    destruct (Nat.eq_dec (dim_of h (cp ra)) (dim_of h (cp rb))) as [Ed|Nd]; [|rewrite (linkPair_dim h _ _ Nd) in R; discriminate].
    rewrite (linkPair_ok h _ _ Ed) in R. unfold bind, ret in R.
    unfold role_plegs in ND. cbn [map fst snd] in ND. assert (ND' : NoDup (role_plegs ((ra, rb) :: ps'))) by exact ND.
    simpl in ND. inversion ND as [|? ? K1 K2]; subst. assert (K2' := K2). apply NoDup_remove_1 in K2. apply NoDup_remove_2 in K2'.
    set (h1 := linked_heap h (cp ra) (cp rb)) in *.
    assert (A1 : links_added h h1 [(cp ra, cp rb)]).
    { apply linked_heap_added. intros X. apply cp_inj in X; auto. subst. apply K1. apply in_app_iff. simpl; auto. }
    destruct (IH ps' h1 h') as (LM & I & DM); auto.
    { intros l. rewrite <- EN. apply (la_fields _ _ _ A1). }
    assert (IA : incl (role_plegs ((ra, rb) :: ps')) (roles h0 d)).
    { intros x Hx. unfold role_plegs in Hx. cbn [map fst snd] in Hx. apply in_app_iff in Hx. simpl in Hx. destruct Hx as [[<-|Hx]|[<-|Hx]]; auto; apply I, in_app_iff; auto. }
    pose proof (NoDup_cp _ IA ND') as NC. rewrite <- plegs_cp2 in NC. unfold plegs in NC. cbn [map cp2 fst snd] in NC. simpl in NC. inversion NC as [|? ? C1 C2]; subst. assert (C2' := C2). apply NoDup_remove_2 in C2'. cbn [fst snd] in C1, C2'.
    split; [|split; auto].
    + cbn [map cp2 fst snd]. eapply links_made_cons; [| | |reflexivity|exact LM].
      * intros X. cbn [fst snd] in X. apply C1. rewrite X. apply in_app_iff. simpl; auto.
      * intros X. apply C1. apply in_app_iff in X. apply in_app_iff. simpl. tauto.
      * exact C2'.
    + intros p [<-|Hp]; [exact Ed|]. specialize (DM p Hp). destruct (la_fields _ _ _ A1 (fst p)) as (_ & D1 & _), (la_fields _ _ _ A1 (snd p)) as (_ & D2 & _).
      unfold dim_of in *. congruence.
Qed.
End Fl.
