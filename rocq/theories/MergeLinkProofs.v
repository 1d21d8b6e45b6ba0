(** mergeLink: one bond instead of several, same network value. *)
From Coq Require Import List Arith Bool Lia Permutation ZArith String.
From Verif Require Import Base Sums NdModel HeapModel FuncsModel TensorModel TensorSpec ContractModel NetSpec MergeLinkSpec
  FuncsProofs NdProofs TensorProofs MatrixProofs MergeProofs ShareProofs SumpairsProofs ContractProofs DiagContractProofs LinkProofs NetProofs SeqProofs.
Import ListNotations.
Local Open Scope nat_scope.

Section Ml.
Context {A : Type} {HA : SR A}.
Notation heap := (heap A).

Lemma rmapM_app_flat {X Y} (f : X -> res (list Y)) (g : X -> list Y) l : (forall x, In x l -> f x = Ok (g x)) -> 
  exists ys, rmapM f l = Ok ys /\ List.concat ys = flat_map g l.
Proof.
  induction l as [|x l IH]; intros H; [exists []; auto|]. cbn [rmapM]. rewrite (H x) by (simpl; auto).
  destruct IH as (ys & E & C); [intros; apply H; simpl; auto|]. rewrite E. exists (g x :: ys). split; auto. simpl. now rewrite C.
Qed.

(** partners that claim to belong to [tb] are legs of [tb], and the other way round *)
Definition owner_ok (h : heap) (ta tb : tid) : Prop :=
  forall l l', In l (legs_of h ta) -> linked h l l' -> l_tensor (legs h l') = Some tb <-> In l' (legs_of h tb).

Lemma mergePairs_ok (h : heap) ta tb : links_ok h (legs_of h ta) -> owner_ok h ta tb -> mergePairs h ta tb = Ok (shared h ta tb).
Proof.
  intros LO OK. unfold mergePairs.
  destruct (rmapM_app_flat (fun l => match legbond h l with
    | None => Ok []
    | Some b => letr l' := bondAnotherSide h b l in
                Ok (match l_tensor (legs h l') with
                    | Some t' => if Nat.eqb t' tb then [(l, l')] else []
                    | None => [] end) end) (fun l => match partner h l with
                     | Some l' => if inb l' (legs_of h tb) then [(l, l')] else []
                     | None => [] end) (tlegs h ta)) as (ys & E & C).
  - intros l Hl. unfold legbond. destruct (l_bond (legs h l)) as [b|] eqn:EB; [|unfold partner; now rewrite EB].
    rewrite (bondAnotherSide_partner h l b EB). destruct (partner h l) as [l'|] eqn:EP.
    + cbn [rbind]. pose proof EP as EL. apply partner_Some in EL. pose proof (OK l l' Hl EL) as OO.
      destruct (inb l' (legs_of h tb)) eqn:EI.
      * apply inb_true in EI. apply OO in EI. rewrite EI, Nat.eqb_refl. reflexivity.
      * apply inb_false in EI. destruct (l_tensor (legs h l')) as [t'|] eqn:ET; auto. destruct (Nat.eqb_spec t' tb) as [->|]; auto. exfalso. tauto.
    + exfalso. apply (links_ok_partner h (legs_of h ta) l LO Hl); congruence.
  - rewrite E. cbn [rbind]. now rewrite C.
Qed.

Lemma joinNames_ok ns ss : ns = map NStr ss -> joinNames ns = Ok (String.concat "|" ss).
Proof.
  intros ->. unfold joinNames. assert (strNames (map NStr ss) = Ok ss) as ->; [|reflexivity].
  induction ss as [|s ss IH]; auto. cbn [map strNames]. now rewrite IH.
Qed.

(** ** The state after merging *)
Section After.
Variables (h h1 h2 h3 : heap) (ta tb : tid) (na nb : pname) (rest : list tid).
Hypothesis (WL : wf_list h (ta :: tb :: rest)).
Notation P := (shared h ta tb).
Notation n := (nleg h).
Notation m := (S (nleg h)).
Hypothesis (M1 : merged h h1 ta (map fst P) n na).
Hypothesis (W1 : wf_tensor h1 ta).
Hypothesis (V1 : forall s s', in_bounds h (legs_of h ta) s ->
      (forall l, In l (legs_of h ta) -> ~ In l (map fst P) -> s' l = s l) ->
      s' n = ravel (map (dim_of h) (map fst P)) (map s (map fst P)) ->
      entry h1 ta s' = entry h ta s).
Hypothesis (M2 : merged h1 h2 tb (map snd P) m nb).
Hypothesis (W2 : wf_tensor h2 tb).
Hypothesis (V2 : forall s s', in_bounds h1 (legs_of h1 tb) s ->
      (forall l, In l (legs_of h1 tb) -> ~ In l (map snd P) -> s' l = s l) ->
      s' m = ravel (map (dim_of h1) (map snd P)) (map s (map snd P)) ->
      entry h2 tb s' = entry h1 tb s).
Hypothesis (LM3 : links_made h2 h3 [(n, m)]).
Let M3 : links_added h2 h3 [(n, m)] := lm_added _ _ _ LM3.

Let W : wf_net h (ta :: tb :: rest) := wl_net _ _ WL.
Let WP : wf_pair h ta tb := wf_net_pair _ _ _ _ W.
Let AL := all_legs h (ta :: tb :: rest).

Lemma ab : ta <> tb. Proof. apply WP. Qed.
Lemma al_lt l : In l AL -> l < n.
Proof. intros Hl. unfold AL in Hl. apply all_legs_In in Hl. destruct Hl as (t & Ht & Hl). eapply wt_alloc; [apply W; exact Ht|exact Hl]. Qed.
Lemma nleg1 : nleg h1 = m. Proof. apply M1. Qed.
Lemma old1 l : l < n -> legs h1 l = legs h l. Proof. apply M1. Qed.
Lemma old2 l : l < m -> legs h2 l = legs h1 l. Proof. intros H. apply M2. rewrite nleg1. auto. Qed.
Lemma old3 l : l < n -> legs h3 l = legs h l.
Proof. intros H. rewrite (la_out _ _ _ M3) by (simpl; lia). rewrite old2 by lia. now apply old1. Qed.
Lemma oldb b : b < nbond h -> bonds h3 b = bonds h b.
Proof.
  intros H. rewrite (la_bonds _ _ _ M3).
  - now rewrite (mg_bonds _ _ _ _ _ _ M2), (mg_bonds _ _ _ _ _ _ M1).
  - now rewrite (mg_nbond _ _ _ _ _ _ M2), (mg_nbond _ _ _ _ _ _ M1).
Qed.
Lemma tens3 t : t <> ta -> t <> tb -> tens h3 t = tens h t.
Proof. intros H1 H2. now rewrite (la_tens _ _ _ M3), (mg_tens _ _ _ _ _ _ M2), (mg_tens _ _ _ _ _ _ M1) by auto. Qed.
Lemma tensA : tens h3 ta = tens h1 ta.
Proof. rewrite (la_tens _ _ _ M3), (mg_tens _ _ _ _ _ _ M2); auto using ab. Qed.
Lemma tensB1 : tens h1 tb = tens h tb.
Proof. apply (mg_tens _ _ _ _ _ _ M1). apply not_eq_sym, ab. Qed.
Lemma tensB : tens h3 tb = tens h2 tb.
Proof. now rewrite (la_tens _ _ _ M3). Qed.
Lemma legsA : legs_of h3 ta = n :: restA h ta tb.
Proof. unfold legs_of. rewrite tensA. exact (mg_tlegs _ _ _ _ _ _ M1). Qed.
Lemma legsB : legs_of h3 tb = m :: restB h ta tb.
Proof. unfold legs_of. rewrite tensB. change (t_legs (tens h2 tb)) with (legs_of h2 tb). rewrite (mg_tlegs _ _ _ _ _ _ M2). unfold restB, others. unfold legs_of. now rewrite tensB1. Qed.
Lemma rest_ne t : In t rest -> t <> ta /\ t <> tb.
Proof.
  intros Ht. pose proof (wn_ids _ _ W) as N. inversion N as [|? ? X1 X2]; subst. inversion X2 as [|? ? X3 X4]; subst. simpl in X1.
  split; intros ->; tauto.
Qed.
Lemma legsR t : In t rest -> legs_of h3 t = legs_of h t.
Proof. intros Ht. destruct (rest_ne t Ht). unfold legs_of. now rewrite tens3. Qed.
Lemma allR : all_legs h3 rest = all_legs h rest.
Proof. unfold all_legs. assert (forall r, incl r rest -> flat_map (legs_of h3) r = flat_map (legs_of h) r) as X; [|apply X, incl_refl].
  induction r as [|t r IH]; intros HI; auto. simpl. rewrite legsR by (apply HI; simpl; auto). f_equal. apply IH. intros x Hx. apply HI. simpl; auto. Qed.
Lemma rA l : In l (restA h ta tb) -> In l (legs_of h ta) /\ ~ In l (map fst P).
Proof. unfold restA, others. rewrite filter_In, negb_true_iff, inb_false. auto. Qed.
Lemma rB l : In l (restB h ta tb) -> In l (legs_of h tb) /\ ~ In l (map snd P).
Proof. unfold restB, others. rewrite filter_In, negb_true_iff, inb_false. auto. Qed.
Lemma alA l : In l (legs_of h ta) -> In l AL. Proof. intros. unfold AL. apply all_legs_In. exists ta. simpl; auto. Qed.
Lemma alB l : In l (legs_of h tb) -> In l AL. Proof. intros. unfold AL. apply all_legs_In. exists tb. simpl; auto. Qed.
Lemma alR l : In l (all_legs h rest) -> In l AL.
Proof. intros H. apply all_legs_In in H. destruct H as (t & Ht & Hl). unfold AL. apply all_legs_In. exists t. simpl; auto. Qed.
Lemma partner3 l : In l AL -> partner h3 l = partner h l.
Proof.
  intros Hl. unfold partner. rewrite old3 by now apply al_lt. destruct (l_bond (legs h l)) as [b|] eqn:EB; auto.
  rewrite oldb; auto. eapply (wl_bonds _ _ WL); eauto.
Qed.
Lemma link3 : linked h3 n m /\ linked h3 m n /\ l_bond (legs h3 n) = l_bond (legs h3 m).
Proof. apply (la_in _ _ _ M3). simpl; auto. Qed.
Lemma partner_n : partner h3 n = Some m. Proof. apply partner_Some, link3. Qed.
Lemma partner_m : partner h3 m = Some n. Proof. apply partner_Some, link3. Qed.
Lemma dim_old l : l < n -> dim_of h3 l = dim_of h l. Proof. intros. unfold dim_of. now rewrite old3. Qed.
Lemma dim_n : dim_of h3 n = prodn (map (dim_of h) (map fst P)).
Proof. unfold dim_of at 1. destruct (la_fields _ _ _ M3 n) as (_ & -> & _). rewrite old2 by lia. now rewrite (mg_new _ _ _ _ _ _ M1). Qed.
Lemma dims1 L : (forall l, In l L -> l < n) -> map (dim_of h1) L = map (dim_of h) L.
Proof. intros H. apply map_ext_in. intros l Hl. unfold dim_of. now rewrite old1 by auto. Qed.
Lemma sndlt l : In l (map snd P) -> l < n.
Proof. intros Hl. apply al_lt, alB. now apply shared_snd in Hl. Qed.
Lemma dim_m : dim_of h3 m = dim_of h3 n.
Proof.
  rewrite dim_n. unfold dim_of at 1. destruct (la_fields _ _ _ M3 m) as (_ & -> & _). rewrite (mg_new _ _ _ _ _ _ M2). simpl.
  rewrite dims1 by apply sndlt. now rewrite (shared_dims h ta tb WP).
Qed.
Lemma name_n : l_name (legs h3 n) = na /\ l_name (legs h3 m) = nb.
Proof.
  destruct (la_fields _ _ _ M3 n) as (_ & _ & ->). destruct (la_fields _ _ _ M3 m) as (_ & _ & ->).
  rewrite old2 by lia. now rewrite (mg_new _ _ _ _ _ _ M1), (mg_new _ _ _ _ _ _ M2).
Qed.

Lemma part_lt l l' : In l AL -> partner h l = Some l' -> l' < n.
Proof. intros Hl E. apply partner_Some in E. eapply (wl_alloc _ _ WL); eauto. Qed.
Lemma inb_cons x a L : x <> a -> inb x (a :: L) = inb x L.
Proof. intros N. destruct (inb x L) eqn:E; [apply inb_true in E; apply inb_true; simpl; auto|apply inb_false in E; apply inb_false; simpl; intuition]. Qed.

(** links to the rest of the network are as before *)
Lemma pairs_old L L2 : incl L AL -> pairs_between h3 L L2 = pairs_between h L L2.
Proof. intros HL. apply pairs_kept. intros l Hl. apply partner3. auto. Qed.

(** legs of [ta] linked to [tb] are not linked to the rest *)
Lemma pairs_drop L0 S L2 : (forall l l', In l S -> partner h l = Some l' -> ~ In l' L2) ->
  pairs_between h L0 L2 = pairs_between h (others L0 S) L2.
Proof.
  intros H. unfold pairs_between, others. induction L0 as [|l L0 IH]; auto. cbn [flat_map filter].
  destruct (inb l S) eqn:EI; cbn [negb flat_map].
  - rewrite IH. apply inb_true in EI. destruct (partner h l) as [l'|] eqn:EP; auto.
    assert (inb l' L2 = false) as -> by (apply inb_false; eapply H; eauto). reflexivity.
  - now rewrite IH.
Qed.

Lemma disj_ab l : In l (legs_of h ta) -> In l (legs_of h tb) -> False. Proof. apply (wp_disj _ _ _ l WP). Qed.
Lemma all_split : AL = legs_of h ta ++ legs_of h tb ++ all_legs h rest.
Proof. unfold AL, all_legs. cbn [flat_map]. reflexivity. Qed.
Lemma disj_rest l : In l (legs_of h ta ++ legs_of h tb) -> In l (all_legs h rest) -> False.
Proof. pose proof (wn_nodup _ _ W) as N. fold AL in N. rewrite all_split, app_assoc in N. apply (NoDup_app_disj _ _ l N). Qed.
Lemma shared_partner l l' : In (l, l') P -> partner h l = Some l' /\ partner h l' = Some l.
Proof.
  intros Hp. apply pairs_In in Hp. destruct Hp as (Hl & Hl' & LL). split; apply partner_Some; auto.
  apply (links_sym h (legs_of h ta ++ legs_of h tb)); auto; [apply WP|apply in_app_iff; auto|apply in_app_iff; auto].
Qed.

Definition Qp : list (lid * lid) := pairs_between h (legs_of h ta) (all_legs h rest) ++ pairs_between h (legs_of h tb) (all_legs h rest) ++ inner h rest.

Lemma pairs_app_perm (hh : heap) L L2 L3 : (forall x, In x L2 -> In x L3 -> False) ->
  Permutation (pairs_between hh L (L2 ++ L3)) (pairs_between hh L L2 ++ pairs_between hh L L3).
Proof.
  intros D. unfold pairs_between. induction L as [|l L IH]; auto. cbn [flat_map].
  rewrite IH. destruct (partner hh l) as [l'|]; auto.
  destruct (inb l' L2) eqn:E2, (inb l' L3) eqn:E3.
  - exfalso. apply inb_true in E2. apply inb_true in E3. eauto.
  - assert (inb l' (L2 ++ L3) = true) as -> by (apply inb_true; apply inb_true in E2; apply in_app_iff; auto). simpl. reflexivity.
  - assert (inb l' (L2 ++ L3) = true) as -> by (apply inb_true; apply inb_true in E3; apply in_app_iff; auto). simpl. apply Permutation_middle.
  - assert (inb l' (L2 ++ L3) = false) as -> by (apply inb_false; apply inb_false in E2; apply inb_false in E3; rewrite in_app_iff; tauto). reflexivity.
Qed.

Lemma inner_h : Permutation (inner h (ta :: tb :: rest)) (P ++ Qp).
Proof.
  cbn [inner]. change (all_legs h (tb :: rest)) with (legs_of h tb ++ all_legs h rest).
  rewrite pairs_app_perm; [|intros x H1 H2; apply (disj_rest x); auto; apply in_app_iff; auto]. unfold Qp. rewrite <- app_assoc. reflexivity.
Qed.

Lemma inner_rest : inner h3 rest = inner h rest.
Proof.
  assert (forall r, incl r rest -> inner h3 r = inner h r) as X; [|apply X, incl_refl].
  induction r as [|t r IH]; intros HI; auto. cbn [inner]. assert (HI' : incl r rest) by (intros x Hx; apply HI; simpl; auto).
  rewrite IH by auto. f_equal. rewrite legsR by (apply HI; simpl; auto).
  assert (all_legs h3 r = all_legs h r) as ->.
  { clear IH. unfold all_legs. induction r as [|u r IH2]; auto. simpl. rewrite legsR by (apply HI'; simpl; auto). f_equal. apply IH2; [intros x Hx; apply HI; simpl in *; tauto|intros x Hx; apply HI'; simpl; auto]. }
  apply pairs_old. intros l Hl. apply alR. apply all_legs_In. exists t. split; auto. apply HI. simpl; auto.
Qed.
Lemma new_notin x L : In x L -> incl L AL -> x < n.
Proof. intros Hx HL. apply al_lt. auto. Qed.
Lemma inclR : incl (all_legs h rest) AL. Proof. intros l. apply alR. Qed.
Lemma shared3 : shared h3 ta tb = [(n, m)].
Proof.
  unfold shared at 1. rewrite legsA, legsB. unfold pairs_between. cbn [flat_map]. rewrite partner_n.
  assert (inb m (m :: restB h ta tb) = true) as -> by (apply inb_true; simpl; auto). cbn [app]. f_equal.
  assert (forall L, incl L (restA h ta tb) -> flat_map (fun l => match partner h3 l with Some l' => if inb l' (m :: restB h ta tb) then [(l, l')] else [] | None => [] end) L = []) as X; [|apply X, incl_refl].
  induction L as [|l L IH]; intros HL; auto. cbn [flat_map]. rewrite IH by (intros x Hx; apply HL; simpl; auto). rewrite app_nil_r.
  assert (Hl := HL l (or_introl eq_refl)). apply rA in Hl. destruct Hl as (Hl & NP). rewrite partner3 by now apply alA.
  destruct (partner h l) as [l'|] eqn:EP; auto. destruct (inb l' (m :: restB h ta tb)) eqn:EI; auto. exfalso. apply inb_true in EI. destruct EI as [EI|EI].
  - pose proof (part_lt l l' (alA l Hl) EP). lia.
  - apply rB in EI. destruct EI as (EI & _). apply NP. apply in_map_iff. exists (l, l'). split; auto. apply pairs_In. split; auto. split; auto. now apply partner_Some.
Qed.
Lemma inner_h3 : Permutation (inner h3 (ta :: tb :: rest)) ([(n, m)] ++ Qp).
Proof.
  cbn [inner]. change (all_legs h3 (tb :: rest)) with (legs_of h3 tb ++ all_legs h3 rest). rewrite allR.
  rewrite pairs_app_perm.
  2:{ rewrite legsB. intros x [<-|Hx] H2.
      - apply alR, al_lt in H2. lia.
      - apply rB in Hx. apply (disj_rest x); auto. apply in_app_iff. tauto. }
  change (pairs_between h3 (legs_of h3 ta) (legs_of h3 tb)) with (shared h3 ta tb). rewrite shared3, inner_rest. unfold Qp.
  assert (E1 : pairs_between h3 (legs_of h3 ta) (all_legs h rest) = pairs_between h (legs_of h ta) (all_legs h rest)).
  { rewrite legsA. unfold pairs_between at 1. cbn [flat_map]. rewrite partner_n.
    assert (inb m (all_legs h rest) = false) as -> by (apply inb_false; intros X; apply alR, al_lt in X; lia). cbn [app].
    change (pairs_between h3 (restA h ta tb) (all_legs h rest) = pairs_between h (legs_of h ta) (all_legs h rest)).
    rewrite pairs_old by (intros l Hl; apply alA; now apply rA). symmetry. apply pairs_drop.
    intros l l' Hl EP. apply in_map_iff in Hl. destruct Hl as ((x & y) & Ex & Hp). simpl in Ex. subst x. destruct (shared_partner _ _ Hp) as (E & _). rewrite EP in E. injection E as <-.
    intros Hr. apply (disj_rest l'); auto. apply in_app_iff. right. apply (shared_snd h ta tb). apply in_map_iff. exists (l, l'). auto. }
  assert (E2 : pairs_between h3 (legs_of h3 tb) (all_legs h rest) = pairs_between h (legs_of h tb) (all_legs h rest)).
  { rewrite legsB. unfold pairs_between at 1. cbn [flat_map]. rewrite partner_m.
    assert (inb n (all_legs h rest) = false) as -> by (apply inb_false; intros X; apply alR, al_lt in X; lia). cbn [app].
    change (pairs_between h3 (restB h ta tb) (all_legs h rest) = pairs_between h (legs_of h tb) (all_legs h rest)).
    rewrite pairs_old by (intros l Hl; apply alB; now apply rB). symmetry. apply pairs_drop.
    intros l l' Hl EP. apply in_map_iff in Hl. destruct Hl as ((x & y) & Ex & Hp). simpl in Ex. subst y. destruct (shared_partner _ _ Hp) as (_ & E). rewrite EP in E. injection E as <-.
    intros Hr. apply (disj_rest l'); auto. apply in_app_iff. left. apply (shared_fst h ta tb). apply in_map_iff. exists (l', l). auto. }
  rewrite E1, E2. rewrite <- app_assoc. reflexivity.
Qed.

Lemma all3 : all_legs h3 (ta :: tb :: rest) = (n :: restA h ta tb) ++ (m :: restB h ta tb) ++ all_legs h rest.
Proof. unfold all_legs at 1. cbn [flat_map]. fold (all_legs h3 rest). now rewrite allR, legsA, legsB. Qed.

Lemma wfA : wf_tensor h3 ta.
Proof.
  apply (wf_same h1 h3); auto using tensA.
  - intros l Hl. pose proof (wt_alloc _ _ W1 l Hl) as X. rewrite nleg1 in X. unfold dim_of. destruct (la_fields _ _ _ M3 l) as (_ & -> & _). now rewrite old2.
  - rewrite (la_nleg _ _ _ M3). destruct (mg_nleg _ _ _ _ _ _ M2) as (-> & _). lia.
  - rewrite (la_ntens _ _ _ M3), (mg_ntens _ _ _ _ _ _ M2). auto.
Qed.
Lemma wfB : wf_tensor h3 tb.
Proof.
  apply (wf_same h2 h3); auto using tensB.
  - intros l Hl. unfold dim_of. destruct (la_fields _ _ _ M3 l) as (_ & -> & _). auto.
  - rewrite (la_nleg _ _ _ M3). auto.
  - rewrite (la_ntens _ _ _ M3). auto.
Qed.
Lemma wfR t : In t rest -> wf_tensor h3 t.
Proof.
  intros Ht. destruct (rest_ne t Ht). apply (wf_same h h3); auto using tens3.
  - intros l Hl. apply dim_old. apply al_lt. unfold AL. apply all_legs_In. exists t. simpl; auto.
  - rewrite (la_nleg _ _ _ M3). destruct (mg_nleg _ _ _ _ _ _ M2) as (-> & _). rewrite nleg1. lia.
  - rewrite (la_ntens _ _ _ M3), (mg_ntens _ _ _ _ _ _ M2), (mg_ntens _ _ _ _ _ _ M1). auto.
  - apply W. simpl; auto.
Qed.
Lemma new_incl l : In l (all_legs h3 (ta :: tb :: rest)) -> l = n \/ l = m \/ In l AL.
Proof.
  rewrite all3. rewrite !in_app_iff. simpl. intros [[<-|H]|[[<-|H]|H]]; auto.
  - right. right. apply alA. now apply rA.
  - right. right. apply alB. now apply rB.
  - right. right. now apply alR.
Qed.
Lemma wf3 : wf_net h3 (ta :: tb :: rest).
Proof.
  constructor.
  - intros t [<-|[<-|Ht]]; [apply wfA|apply wfB|now apply wfR].
  - intros t [<-|[<-|Ht]] l Hl.
    + rewrite legsA in Hl. destruct Hl as [<-|Hl].
      * destruct (la_fields _ _ _ M3 n) as (-> & _). rewrite old2 by lia. now rewrite (mg_new _ _ _ _ _ _ M1).
      * apply rA in Hl. rewrite old3 by (apply al_lt, alA; tauto). apply (wn_owned _ _ W ta); simpl; tauto.
    + rewrite legsB in Hl. destruct Hl as [<-|Hl].
      * destruct (la_fields _ _ _ M3 m) as (-> & _). now rewrite (mg_new _ _ _ _ _ _ M2).
      * apply rB in Hl. rewrite old3 by (apply al_lt, alB; tauto). apply (wn_owned _ _ W tb); simpl; tauto.
    + rewrite legsR in Hl by auto. rewrite old3; [apply (wn_owned _ _ W t); simpl; auto|]. apply al_lt. unfold AL. apply all_legs_In. exists t. simpl; auto.
  - apply W.
  - rewrite all3. destruct (rest_alloc h ta tb WP) as (ND & _).
    assert (ND2 : NoDup ((restA h ta tb ++ restB h ta tb) ++ all_legs h rest)).
    { apply NoDup_app_intro; auto.
      - pose proof (wn_nodup _ _ W) as N. fold AL in N. rewrite all_split, app_assoc in N. now apply NoDup_app_r in N.
      - intros x Hx Hr. apply (disj_rest x); auto. apply in_app_iff. apply in_app_iff in Hx. destruct Hx as [Hx|Hx]; [apply rA in Hx|apply rB in Hx]; tauto. }
    assert (BD : forall x, In x ((restA h ta tb ++ restB h ta tb) ++ all_legs h rest) -> x < n).
    { intros x Hx. apply al_lt. rewrite !in_app_iff in Hx. destruct Hx as [[Hx|Hx]|Hx]; [apply alA; now apply rA|apply alB; now apply rB|now apply alR]. }
    apply (Permutation_NoDup (l := n :: m :: (restA h ta tb ++ restB h ta tb) ++ all_legs h rest)).
    { simpl. constructor. rewrite <- app_assoc. apply Permutation_middle. }
    constructor; [|constructor; auto].
    + intros [X|X]; [lia|]. apply BD in X. lia.
    + intros X. apply BD in X. lia.
  - intros l b Hl EB. destruct (link3) as ((b1 & E1 & N1) & (b2 & E2 & N2) & E12). apply new_incl in Hl. destruct Hl as [->|[->|Hl]].
    + exists m. rewrite E1 in EB. injection EB as ->. split; auto. intros _. split; [now rewrite <- E12|]. now rewrite dim_m.
    + exists n. rewrite E2 in EB. injection EB as ->. split; auto. intros _. split; [now rewrite E12|]. now rewrite dim_m.
    + rewrite old3 in EB by now apply al_lt. destruct (wn_links _ _ W l b Hl EB) as (l' & EN & OK).
      assert (l' < n) as L' by (apply (wl_alloc _ _ WL l l' Hl); exists b; auto).
      exists l'. split; [unfold ends; rewrite oldb by (eapply (wl_bonds _ _ WL); eauto); exact EN|].
      intros Hl'. apply new_incl in Hl'. destruct Hl' as [->|[->|Hl']]; try lia. rewrite old3 by auto. rewrite !dim_old by (auto using al_lt). apply OK. exact Hl'.
Qed.

Lemma free3 l : In l (free_legs h3 (ta :: tb :: rest)) <-> In l (free_legs h (ta :: tb :: rest)).
Proof.
  unfold free_legs, others. rewrite !filter_In, !negb_true_iff, !inb_false, !in_app_iff.
  assert (X1 : forall f : lid * lid -> lid, In l (map f (inner h3 (ta :: tb :: rest))) <-> l = f (n, m) \/ In l (map f Qp)).
  { intros f. split; intros H.
    - apply (Permutation_in _ (Permutation_map f inner_h3)) in H. simpl in H. destruct H; auto.
    - apply (Permutation_in _ (Permutation_sym (Permutation_map f inner_h3))). simpl. destruct H; auto. }
  assert (X2 : forall f : lid * lid -> lid, In l (map f (inner h (ta :: tb :: rest))) <-> In l (map f P) \/ In l (map f Qp)).
  { intros f. split; intros H.
    - apply (Permutation_in _ (Permutation_map f inner_h)) in H. rewrite map_app, in_app_iff in H. auto.
    - apply (Permutation_in _ (Permutation_sym (Permutation_map f inner_h))). rewrite map_app, in_app_iff. auto. }
  rewrite !X1, !X2, all3. fold AL. rewrite all_split. rewrite !in_app_iff. simpl.
  unfold restA, restB, others. rewrite !filter_In, !negb_true_iff, !inb_false.
  split.
  - intros [H1 H2]. assert (LN : l <> n /\ l <> m) by (split; intros ->; tauto). 
    assert (D1 : In l (legs_of h ta) -> In l (map snd P) -> False) by (intros Ha Hb; apply (disj_ab l); auto; now apply (shared_snd h ta tb)).
    assert (D2 : In l (legs_of h tb) -> In l (map fst P) -> False) by (intros Ha Hb; apply (disj_ab l); auto; now apply (shared_fst h ta tb)).
    assert (D3 : In l (all_legs h rest) -> In l (map fst P) \/ In l (map snd P) -> False).
    { intros Hr [Hp|Hp]; apply (disj_rest l); auto; apply in_app_iff; [left; now apply (shared_fst h ta tb)|right; now apply (shared_snd h ta tb)]. }
    destruct H1 as [[E|H1]|[[E|H1]|H1]]; try (exfalso; subst; tauto); split; try tauto.
  - intros [H1 H2]. assert (In l AL) as HA'. { rewrite all_split, !in_app_iff. tauto. } apply al_lt in HA'. split; [tauto|]. intros [[->|H]|[->|H]]; try lia; tauto.
Qed.
Lemma free3_perm : Permutation (free_legs h3 (ta :: tb :: rest)) (free_legs h (ta :: tb :: rest)).
Proof. apply NoDup_Permutation; [apply free_NoDup, wf3|apply free_NoDup, W|apply free3]. Qed.

Lemma einsum3 s : in_bounds h (restA h ta tb ++ restB h ta tb) s -> einsum h3 ta tb s = einsum h ta tb s.
Proof.
  intros B. unfold einsum. rewrite shared3, (sumpairs_indices (dim_of h) P). cbn [sumpairs]. rewrite dim_n.
  rewrite map_map. rewrite sumN_indices. apply sumL_ext. intros idx Hi.
  assert (HR : inrange (map (fun p => dim_of h (fst p)) P) idx) by (apply indices_In; exact Hi).
  set (dims := map (fun p => dim_of h (fst p)) P) in *. set (k := ravel dims idx). set (s' := upd (upd s n k) m k).
  destruct (shared_bounds h ta tb idx s WP B HR) as (BA & BB). destruct (assign_rest h ta tb idx s WP) as (RA & RB).
  assert (LI : List.length idx = List.length P) by (apply inrange_length in HR; unfold dims in HR; now rewrite map_length in HR).
  destruct (assign_fst P idx s (shared_NoDup h ta tb WP) LI) as (F1 & F2).
  assert (SO : forall l, In l AL -> s' l = s l). { intros l Hl. apply al_lt in Hl. unfold s'. rewrite !upd_other by lia. auto. }
  assert (DD : map (dim_of h) (map fst P) = dims) by (unfold dims; now rewrite map_map).
  f_equal.
  - assert (entry h3 ta s' = entry h1 ta s') as -> by (unfold entry; now rewrite tensA).
    apply V1; auto.
    + intros l Hl NP. rewrite SO by now apply alA. symmetry. apply assign_notin; auto. intros X. apply (disj_ab l); auto. now apply shared_snd in X.
    + rewrite F1, DD. unfold s'. rewrite upd_other by lia. apply upd_same.
  - assert (entry h3 tb s' = entry h2 tb s') as -> by (unfold entry; now rewrite tensB).
    assert (entry h tb (assign P idx s) = entry h1 tb (assign P idx s)) as -> by (unfold entry; now rewrite tensB1).
    assert (LB : legs_of h1 tb = legs_of h tb) by (unfold legs_of; now rewrite tensB1).
    apply V2.
    + intros l Hl. rewrite LB in Hl. unfold dim_of. rewrite old1 by (apply al_lt, alB, Hl). now apply BB.
    + intros l Hl NP. rewrite LB in Hl. rewrite SO by now apply alB. symmetry. apply assign_notin; auto. intros X. apply (disj_ab l); auto. now apply shared_fst in X.
    + rewrite F2, dims1 by apply sndlt. rewrite <- (shared_dims h ta tb WP), DD. unfold s'. apply upd_same.
Qed.

Lemma plegs_perm (R R' : list (lid * lid)) : Permutation R R' -> Permutation (plegs R) (plegs R').
Proof. intros HP. unfold plegs. now rewrite HP. Qed.

Lemma net_by_pair (hh : heap) PP : wf_net hh (ta :: tb :: rest) -> shared hh ta tb = PP -> 
  Permutation (inner hh (ta :: tb :: rest)) (PP ++ Qp) -> forall s,
  netval hh (ta :: tb :: rest) s = sumpairs (dim_of hh) Qp (fun s => rmul (einsum hh ta tb s) (prod_entries hh rest s)) s.
Proof.
  intros Wh EP HI s. unfold netval.
  assert (ND : NoDup (plegs (inner hh (ta :: tb :: rest)))) by (apply inner_NoDup; apply Wh).
  rewrite (sumpairs_perm (dim_of hh) _ (Qp ++ PP)); [|apply prod_respects|rewrite HI; apply Permutation_app_comm|exact ND].
  rewrite sumpairs_app. apply sumpairs_ext. clear s. intros s. unfold einsum. rewrite EP.
  rewrite <- (sumpairs_mul_r (dim_of hh) PP (fun s => rmul (entry hh ta s) (entry hh tb s)) (prod_entries hh rest)).
  - apply sumpairs_ext. intros u. cbn [prod_entries]. apply rmul_assoc.
  - apply prod_indep. intros l Hl Hp. rewrite <- EP in Hp.
    pose proof (wn_nodup _ _ Wh) as N. change (all_legs hh (ta :: tb :: rest)) with (legs_of hh ta ++ legs_of hh tb ++ all_legs hh rest) in N. rewrite app_assoc in N.
    apply (NoDup_app_disj _ _ l N); auto. apply in_app_iff in Hp. apply in_app_iff. destruct Hp as [Hp|Hp]; [left; now apply (shared_fst hh ta tb)|right; now apply (shared_snd hh ta tb)].
Qed.

Lemma value3 s : in_bounds h (free_legs h (ta :: tb :: rest)) s -> netval h3 (ta :: tb :: rest) s = netval h (ta :: tb :: rest) s.
Proof.
  intros B. rewrite (net_by_pair h3 _ wf3 shared3 inner_h3), (net_by_pair h _ W eq_refl inner_h).
  assert (QL : forall l, In l (plegs Qp) -> In l AL).
  { intros l Hl. apply (inner_legs h (ta :: tb :: rest) (wn_ids _ _ W)). apply (Permutation_in _ (Permutation_sym (plegs_perm _ _ inner_h))).
    unfold plegs in *. rewrite !map_app, !in_app_iff. apply in_app_iff in Hl. tauto. }
  rewrite (sumpairs_ext_d (dim_of h3) (dim_of h)).
  2:{ intros p Hp. apply dim_old, al_lt, QL. unfold plegs. apply in_app_iff. left. now apply in_map. }
  apply sumpairs_ext_in.
  - intros [x y] Hp. simpl. apply (inner_dim h (ta :: tb :: rest)); [apply W|apply W|]. apply (Permutation_in _ (Permutation_sym inner_h)). apply in_app_iff; auto.
  - intros s' B1 B2. f_equal.
    + apply einsum3. intros l Hl.
      assert (HAL : In l AL). { apply in_app_iff in Hl. destruct Hl as [Hl|Hl]; [apply alA; now apply rA|apply alB; now apply rB]. }
      destruct (in_dec Nat.eq_dec l (plegs Qp)) as [Hq|Hq]; [now apply B1|]. rewrite B2 by auto. apply B.
      destruct (all_free_or_inner h (ta :: tb :: rest) l HAL) as [X|X]; auto. exfalso. apply (Permutation_in _ (plegs_perm _ _ inner_h)) in X.
      unfold plegs in X, Hq. rewrite !map_app, !in_app_iff in X. rewrite in_app_iff in Hq.
      assert (In l (map fst P) \/ In l (map snd P)) as Y by tauto. apply in_app_iff in Hl. destruct Hl as [Hl|Hl].
      * apply rA in Hl. destruct Y as [Y|Y]; [tauto|]. apply (disj_ab l); [tauto|]. now apply (shared_snd h ta tb).
      * apply rB in Hl. destruct Y as [Y|Y]; [|tauto]. apply (disj_ab l); [|tauto]. now apply (shared_fst h ta tb).
    + assert (forall r, incl r rest -> prod_entries h3 r s' = prod_entries h r s') as X; [|apply X, incl_refl].
      induction r as [|t r IH]; intros HI; auto. cbn [prod_entries]. rewrite IH by (intros x Hx; apply HI; simpl; auto). f_equal.
      destruct (rest_ne t (HI t (or_introl eq_refl))). unfold entry. now rewrite tens3.
Qed.

Lemma merged3 : link_merged h h3 ta tb n m na nb.
Proof.
  constructor.
  - apply shared3.
  - lia.
  - rewrite dim_m, dim_n, map_map. auto.
  - apply name_n.
  - split; [apply legsA|apply legsB].
  - intros l Hl. now apply old3.
  - apply oldb.
  - apply tens3.
  - intros t. rewrite (la_tens _ _ _ M3). destruct (Nat.eq_dec t tb) as [->|N1].
    + destruct (mg_flags _ _ _ _ _ _ M2) as (-> & -> & _). now rewrite tensB1.
    + rewrite (mg_tens _ _ _ _ _ _ M2) by auto. destruct (Nat.eq_dec t ta) as [->|N2].
      * destruct (mg_flags _ _ _ _ _ _ M1) as (-> & -> & _). auto.
      * now rewrite (mg_tens _ _ _ _ _ _ M1).
Qed.
Lemma list3 : wf_list h3 (ta :: tb :: rest).
Proof.
  assert (NB : nbond h3 = S (nbond h)) by (rewrite (la_nbond _ _ _ M3), (mg_nbond _ _ _ _ _ _ M2), (mg_nbond _ _ _ _ _ _ M1); simpl; lia).
  assert (NL : nleg h3 = S m) by (rewrite (la_nleg _ _ _ M3); destruct (mg_nleg _ _ _ _ _ _ M2) as (-> & _); now rewrite nleg1).
  constructor; [apply wf3| | |].
  - intros l b Hl EB. apply new_incl in Hl. destruct Hl as [->|[->|Hl]].
    + destruct (lm_alloc _ _ _ LM3 n) as (b' & E & R); [simpl; auto|]. rewrite E in EB. injection EB as <-. lia.
    + destruct (lm_alloc _ _ _ LM3 m) as (b' & E & R); [simpl; auto|]. rewrite E in EB. injection EB as <-. lia.
    + rewrite old3 in EB by now apply al_lt. pose proof (wl_bonds _ _ WL l b Hl EB). lia.
  - intros l l' Hl LL. rewrite NL. apply partner_Some in LL. apply new_incl in Hl. destruct Hl as [->|[->|Hl]].
    + rewrite partner_n in LL. injection LL as <-. lia.
    + rewrite partner_m in LL. injection LL as <-. lia.
    + rewrite partner3 in LL by auto. pose proof (part_lt l l' Hl LL). lia.
  - intros l l' t' Hl LL ET Ht. apply partner_Some in LL. pose proof Hl as Hl3. apply new_incl in Hl. destruct Hl as [->|[->|Hl]].
    + rewrite partner_n in LL. injection LL as <-. assert (tb = t') as <-.
      { destruct (la_fields _ _ _ M3 m) as (X & _). rewrite X, (mg_new _ _ _ _ _ _ M2) in ET. simpl in ET. congruence. }
      rewrite legsB. simpl; auto.
    + rewrite partner_m in LL. injection LL as <-. assert (ta = t') as <-.
      { destruct (la_fields _ _ _ M3 n) as (X & _). rewrite X, old2, (mg_new _ _ _ _ _ _ M1) in ET by lia. simpl in ET. congruence. }
      rewrite legsA. simpl; auto.
    + rewrite partner3 in LL by auto. pose proof (part_lt l l' Hl LL) as Lt. rewrite old3 in ET by auto. pose proof LL as LL'. apply partner_Some in LL'.
      pose proof (wl_owner _ _ WL l l' t' Hl LL' ET Ht) as IN.
      assert (SY : In l' AL -> partner h l' = Some l).
      { intros X. apply partner_Some. apply (links_sym h AL); auto. apply W. }
      destruct Ht as [<-|[<-|Ht]].
      * rewrite legsA. right. unfold restA, others. rewrite filter_In, negb_true_iff, inb_false. split; auto. intros X.
        apply in_map_iff in X. destruct X as ((x & y) & Ex & Hp). simpl in Ex. subst x. destruct (shared_partner _ _ Hp) as (E & _).
        rewrite SY in E by now apply alA. injection E as <-. apply (in_map snd) in Hp. simpl in Hp.
        rewrite all3, !in_app_iff in Hl3. simpl in Hl3. apply al_lt in Hl. destruct Hl3 as [[X|X]|[[X|X]|X]]; try lia.
        -- apply rA in X. apply (disj_ab l); [tauto|]. now apply (shared_snd h ta tb).
        -- apply rB in X. tauto.
        -- apply (disj_rest l); auto. apply in_app_iff. right. now apply (shared_snd h ta tb).
      * rewrite legsB. right. unfold restB, others. rewrite filter_In, negb_true_iff, inb_false. split; auto. intros X.
        apply in_map_iff in X. destruct X as ((x & y) & Ex & Hp). simpl in Ex. subst y. destruct (shared_partner _ _ Hp) as (_ & E).
        rewrite SY in E by now apply alB. injection E as <-. apply (in_map fst) in Hp. simpl in Hp.
        rewrite all3, !in_app_iff in Hl3. simpl in Hl3. apply al_lt in Hl. destruct Hl3 as [[X|X]|[[X|X]|X]]; try lia.
        -- apply rA in X. tauto.
        -- apply rB in X. apply (disj_ab l); [|tauto]. now apply (shared_fst h ta tb).
        -- apply (disj_rest l); auto. apply in_app_iff. left. now apply (shared_fst h ta tb).
      * now rewrite legsR.
Qed.
End After.

Lemma wf_list_perm (h : heap) ts ts' : Permutation ts ts' -> wf_list h ts -> wf_list h ts'.
Proof.
  intros HP [H1 H2 H3 H4]. assert (X : forall l, In l (all_legs h ts') -> In l (all_legs h ts)).
  { intros l Hl. apply all_legs_In in Hl. destruct Hl as (t & Ht & Hl). apply all_legs_In. exists t. split; auto. eapply Permutation_in; [symmetry; exact HP|auto]. }
  constructor; eauto.
  - eapply wf_net_perm; eauto.
  - intros l l' t' Hl LL ET Ht. eapply H4; eauto. eapply Permutation_in; [symmetry; exact HP|auto].
Qed.

Lemma shared_owner (h : heap) ts ta tb : wf_list h ts -> In ta ts -> In tb ts -> owner_ok h ta tb.
Proof.
  intros WL Ha Hb l l' Hl LL. assert (In l (all_legs h ts)) as HL by (apply all_legs_In; eauto). split.
  - intros E. eapply (wl_owner _ _ WL); eauto.
  - intros Hl'. apply (wn_owned _ _ (wl_net _ _ WL) tb Hb). auto.
Qed.

Lemma mergeLink_pairs (h : heap) ts ta tb : wf_list h ts -> In ta ts -> In tb ts -> mergePairs h ta tb = Ok (shared h ta tb).
Proof.
  intros WL Ha Hb. apply mergePairs_ok; [|eapply shared_owner; eauto].
  intros l b Hl EB. assert (X : forall l, In l (legs_of h ta) -> In l (all_legs h ts)) by (intros; apply all_legs_In; eauto).
  destruct (wn_links _ _ (wl_net _ _ WL) l b (X l Hl) EB) as (l' & E & OK). exists l'. split; auto.
Qed.

Definition mergeNames (P : list (lid * lid)) (bn : option pname) : @M A (pname * pname)%type :=
  match bn with
  | None => a <- readsR (fun h => joinNames (map (fun p => legname h (fst p)) P)) ;;
            b <- readsR (fun h => joinNames (map (fun p => legname h (snd p)) P)) ;;
            ret (NStr a, NStr b)
  | Some (NPair a b) => ret (NStr a, NStr b)
  | Some n => ret (n, n)
  end.
Lemma mergeNames_ok (h : heap) P bn na nb : bond_names h P bn na nb -> mergeNames P bn h = (h, Ok (na, nb)).
Proof.
  intros B. destruct B as [s|a b|sa sb E1 E2]; try reflexivity. unfold mergeNames, bind, readsR.
  change (map (fun p => legname h (fst p)) P) with (map (fun p => l_name (legs h (fst p))) P).
  change (map (fun p => legname h (snd p)) P) with (map (fun p => l_name (legs h (snd p))) P).
  rewrite (joinNames_ok _ _ E1), (joinNames_ok _ _ E2). reflexivity.
Qed.

Lemma mergeLink_many (h : heap) ta tb bn P na nb : mergePairs h ta tb = Ok P -> 2 <= List.length P -> bond_names h P bn na nb ->
  mergeLink ta tb bn h = (la <- outProduct ta (map fst P) na ;; lb <- outProduct tb (map snd P) nb ;;
                          makeLink [RLeg la] [RLeg lb] None None ;;; ret tt) h.
Proof.
  intros E L B. unfold mergeLink. unfold bind at 1, readsR at 1. rewrite E. destruct P as [|[x y] [|p P]]; simpl in L; try lia.
  set (PP := (x, y) :: p :: P) in *. change ((z <- mergeNames PP bn ;; (let '(na, nb) := z in la <- outProduct ta (map fst PP) na ;; lb <- outProduct tb (map snd PP) nb ;;
                          makeLink [RLeg la] [RLeg lb] None None ;;; ret tt)) h = (la <- outProduct ta (map fst PP) na ;; lb <- outProduct tb (map snd PP) nb ;;
                          makeLink [RLeg la] [RLeg lb] None None ;;; ret tt) h).
  unfold bind at 1. rewrite (mergeNames_ok _ _ _ _ _ B). reflexivity.
Qed.

Theorem mergeLink_ok (h : heap) ts ta tb rest bn na nb : wf_list h ts -> Permutation ts (ta :: tb :: rest) ->
  t_diag (tens h ta) = false -> t_diag (tens h tb) = false ->
  (t_like (tens h ta) = false -> forall l, In l (restA h ta tb) -> 0 < dim_of h l) ->
  (t_like (tens h tb) = false -> forall l, In l (restB h ta tb) -> 0 < dim_of h l) ->
  2 <= List.length (shared h ta tb) -> bond_names h (shared h ta tb) bn na nb ->
  exists h' la lb, mergeLink ta tb bn h = (h', Ok tt) /\ link_merged h h' ta tb la lb na nb /\ wf_list h' ts /\
    Permutation (free_legs h' ts) (free_legs h ts) /\
    forall s, in_bounds h (free_legs h ts) s -> netval h' ts s = netval h ts s.
Proof.
  intros WL0 HP Da Db Za Zb L2 BN. pose proof (wf_list_perm _ _ _ HP WL0) as WL.
  pose proof (wl_net _ _ WL) as W. pose proof (wf_net_pair _ _ _ _ W) as WP. set (P := shared h ta tb) in *.
  assert (MP : mergePairs h ta tb = Ok P) by (apply (mergeLink_pairs h (ta :: tb :: rest)); simpl; auto).
  rewrite (mergeLink_many h ta tb bn P na nb MP L2 BN).
  pose proof (shared_NoDup h ta tb WP) as ND. fold P in ND.
  assert (NE : P <> []) by (intros E; rewrite E in L2; simpl in L2; lia).
  destruct (outProduct_ok h ta (map fst P) na) as (h1 & E1 & M1 & W1 & V1); auto.
  { apply W. simpl; auto. }
  { intros X. apply map_eq_nil in X. auto. }
  { now apply NoDup_app_inv in ND. }
  { intros l Hl. now apply (shared_fst h ta tb) in Hl. }
  { intros Lk l Hl N. apply Za; auto. unfold restA, others. rewrite filter_In, negb_true_iff, inb_false. auto. }
  assert (TB : tens h1 tb = tens h tb) by (apply (mg_tens _ _ _ _ _ _ M1); intros X; apply (wp_ne _ _ _ WP); auto).
  assert (LB : legs_of h1 tb = legs_of h tb) by (unfold legs_of; now rewrite TB).
  assert (WB : wf_tensor h tb) by (apply W; simpl; auto).
  assert (O1 : forall l, l < nleg h -> legs h1 l = legs h l) by apply M1.
  destruct (outProduct_ok h1 tb (map snd P) nb) as (h2 & E2 & M2 & W2 & V2); auto.
  { apply (wf_same h h1); auto.
    - intros l Hl. unfold dim_of. rewrite O1; auto. now apply (wt_alloc _ _ WB).
    - destruct (mg_nleg _ _ _ _ _ _ M1) as (-> & _). lia.
    - rewrite (mg_ntens _ _ _ _ _ _ M1). auto. }
  { now rewrite TB. }
  { intros X. apply map_eq_nil in X. auto. }
  { now apply NoDup_app_inv in ND. }
  { intros l Hl. rewrite LB. now apply (shared_snd h ta tb) in Hl. }
  { rewrite TB, LB. intros Lk l Hl N. unfold dim_of. rewrite O1 by now apply (wt_alloc _ _ WB). apply Zb; auto. unfold restB, others. rewrite filter_In, negb_true_iff, inb_false. auto. }
  assert (NL1 : nleg h1 = S (nleg h)) by apply M1. rewrite NL1 in *.
  assert (NL2 : nleg h2 = S (S (nleg h))) by (destruct (mg_nleg _ _ _ _ _ _ M2) as (-> & _); now rewrite NL1).
  assert (N1 : legs h2 (nleg h) = legs h1 (nleg h)) by (apply M2; lia).
  assert (LK : linkable h2 [(nleg h, S (nleg h))]).
  { split; [|split].
    - repeat constructor; simpl; intuition; lia.
    - intros l Hl. simpl in Hl. destruct Hl as [<-|[<-|[]]]; (split; [lia|]).
      + rewrite N1, (mg_new _ _ _ _ _ _ M1). reflexivity.
      + rewrite (mg_new _ _ _ _ _ _ M2). reflexivity.
    - intros p [<-|[]]. unfold dim_of. simpl. rewrite N1, (mg_new _ _ _ _ _ _ M1), (mg_new _ _ _ _ _ _ M2). simpl.
      rewrite (map_ext_in (dim_of h1) (dim_of h) (map snd P)).
      + pose proof (shared_dims h ta tb WP) as X. fold P in X. now rewrite X.
      + intros l Hl. unfold dim_of. rewrite O1; auto. apply (wt_alloc _ _ WB). now apply (shared_snd h ta tb). }
  destruct (mapM_linkPair _ _ LK) as (h3 & bs & E3 & LM).
  assert (E3' : makeLink [RLeg (nleg h)] [RLeg (S (nleg h))] None None h2 = (h3, Ok bs)).
  { erewrite (makeLink_read h2 _ _ None None [Some (nleg h)] [Some (S (nleg h))]); auto.
    - repeat constructor.
    - repeat constructor. }
  exists h3, (nleg h), (S (nleg h)). split.
  { unfold bind at 1. rewrite E1. unfold bind at 1. rewrite E2. unfold bind at 1. rewrite E3'. reflexivity. }
  split; [eapply merged3; eauto|]. split; [eapply wf_list_perm; [symmetry; exact HP|]; eapply list3; eauto|].
  assert (W3 : wf_net h3 (ta :: tb :: rest)) by (eapply wf3; eauto).
  assert (W3' : wf_net h3 ts) by (eapply wf_net_perm; [symmetry; exact HP|auto]).
  assert (F3 : Permutation (free_legs h3 ts) (free_legs h3 (ta :: tb :: rest))) by (apply free_perm; auto).
  assert (F0 : Permutation (free_legs h ts) (free_legs h (ta :: tb :: rest))) by (apply free_perm; auto; apply WL0).
  split.
  - rewrite F3, F0. eapply free3_perm; eauto.
  - intros s B. rewrite (netval_perm h3 ts _ s HP), (netval_perm h ts _ s HP); auto; try apply WL0.
    eapply value3; eauto. intros l Hl. apply B. apply (Permutation_in _ (Permutation_sym F0)). auto.
Qed.

(** no link: nothing; one link: at most a renaming *)
Theorem mergeLink_none (h : heap) ts ta tb bn : wf_list h ts -> In ta ts -> In tb ts -> shared h ta tb = [] -> mergeLink ta tb bn h = (h, Ok tt).
Proof. intros WL Ha Hb E. unfold mergeLink, bind, readsR. rewrite (mergeLink_pairs h ts), E by auto. reflexivity. Qed.

Theorem mergeLink_one (h : heap) ts ta tb la lb : wf_list h ts -> In ta ts -> In tb ts -> ta <> tb -> shared h ta tb = [(la, lb)] ->
  mergeLink ta tb None h = (h, Ok tt) /\
  forall n, exists h', mergeLink ta tb (Some n) h = (h', Ok tt) /\ only_names h h' [la; lb] (fun _ => n).
Proof.
  intros WL Ha Hb N E. split; [|intros n].
  - unfold mergeLink, bind, readsR. rewrite (mergeLink_pairs h ts), E by auto. reflexivity.
  - eexists. split; [unfold mergeLink, bind, readsR; rewrite (mergeLink_pairs h ts), E by auto; unfold setLegName, modify; reflexivity|].
    assert (la <> lb) as NL.
    { assert (In la (map fst (shared h ta tb))) as X by (rewrite E; simpl; auto). assert (In lb (map snd (shared h ta tb))) as Y by (rewrite E; simpl; auto).
      apply shared_fst in X. apply shared_snd in Y. intros <-. pose proof (wn_owned _ _ (wl_net _ _ WL) ta Ha la X) as O1. pose proof (wn_owned _ _ (wl_net _ _ WL) tb Hb la Y) as O2. congruence. }
    constructor; try reflexivity.
    + intros l [<-|[<-|[]]]; simpl.
      * rewrite upd_other by auto. now rewrite upd_same.
      * rewrite upd_same. rewrite !upd_other by auto. reflexivity.
    + intros l Hl. simpl in Hl. simpl. rewrite !upd_other; auto.
Qed.

(** a diagonal tensor cannot have its legs merged; a dense first tensor is left with merged legs that nothing is linked to *)
Theorem mergeLink_diagA (h : heap) ts ta tb bn na nb : wf_list h ts -> In ta ts -> In tb ts ->
  t_diag (tens h ta) = true -> 2 <= List.length (shared h ta tb) -> bond_names h (shared h ta tb) bn na nb ->
  mergeLink ta tb bn h = (h, Err TypeError).
Proof.
  intros WL Ha Hb D L2 BN. rewrite (mergeLink_many h ta tb bn _ na nb (mergeLink_pairs h ts ta tb WL Ha Hb) L2 BN).
  unfold bind at 1. rewrite outProduct_diag by auto. reflexivity.
Qed.

Theorem mergeLink_diagB (h : heap) ts ta tb rest bn na nb : wf_list h ts -> Permutation ts (ta :: tb :: rest) ->
  t_diag (tens h ta) = false -> t_diag (tens h tb) = true -> (t_like (tens h ta) = false -> forall l, In l (restA h ta tb) -> 0 < dim_of h l) ->
  2 <= List.length (shared h ta tb) -> bond_names h (shared h ta tb) bn na nb ->
  exists h', mergeLink ta tb bn h = (h', Err TypeError) /\ legs_of h' ta = nleg h :: restA h ta tb /\ legs_of h' tb = legs_of h tb /\ shared h' ta tb = [].
Proof.
  intros WL0 HP Da Db Za L2 BN. pose proof (wf_list_perm _ _ _ HP WL0) as WL.
  pose proof (wl_net _ _ WL) as W. pose proof (wf_net_pair _ _ _ _ W) as WP. set (P := shared h ta tb) in *.
  assert (MP : mergePairs h ta tb = Ok P) by (apply (mergeLink_pairs h (ta :: tb :: rest)); simpl; auto).
  rewrite (mergeLink_many h ta tb bn P na nb MP L2 BN).
  pose proof (shared_NoDup h ta tb WP) as ND. fold P in ND.
  assert (NE : P <> []) by (intros E; rewrite E in L2; simpl in L2; lia).
  destruct (outProduct_ok h ta (map fst P) na) as (h1 & E1 & M1 & W1 & V1); auto.
  { apply W. simpl; auto. }
  { intros X. apply map_eq_nil in X. auto. }
  { now apply NoDup_app_inv in ND. }
  { intros l Hl. now apply (shared_fst h ta tb) in Hl. }
  { intros Lk l Hl N. apply Za; auto. unfold restA, others. rewrite filter_In, negb_true_iff, inb_false. auto. }
  assert (TB : tens h1 tb = tens h tb) by (apply (mg_tens _ _ _ _ _ _ M1); intros X; apply (wp_ne _ _ _ WP); auto).
  assert (LA : legs_of h1 ta = nleg h :: restA h ta tb) by exact (mg_tlegs _ _ _ _ _ _ M1).
  assert (LB : legs_of h1 tb = legs_of h tb) by (unfold legs_of; now rewrite TB).
  exists h1. split; [unfold bind at 1; rewrite E1; unfold bind at 1; rewrite outProduct_diag by (now rewrite TB); reflexivity|].
  split; auto. split; auto. destruct (shared h1 ta tb) as [|[x y] r] eqn:ES; auto. exfalso.
  assert (Hp : In (x, y) (shared h1 ta tb)) by (rewrite ES; simpl; auto). apply pairs_In in Hp. rewrite LA, LB in Hp. destruct Hp as (Hx & Hy & (b & EB & EN)).
  destruct Hx as [<-|Hx].
  - rewrite (mg_new _ _ _ _ _ _ M1) in EB. discriminate.
  - unfold restA, others in Hx. rewrite filter_In, negb_true_iff, inb_false in Hx. destruct Hx as (Hx & NX). apply NX.
    apply in_map_iff. exists (x, y). split; auto. apply pairs_In. split; auto. split; auto. exists b.
    rewrite (mg_legs _ _ _ _ _ _ M1) in EB by (apply (wt_alloc _ _ (wn_wf _ _ W ta (or_introl eq_refl))); auto). split; auto.
    unfold ends in *. now rewrite (mg_bonds _ _ _ _ _ _ M1) in EN.
Qed.
End Ml.
