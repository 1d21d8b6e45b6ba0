(** Proofs about toMatrix and trace. *)
From Coq Require Import List Arith Bool Lia String Permutation.
From Verif Require Import Base Sums NdModel HeapModel FuncsModel FuncsSpec TensorModel TensorSpec
  FuncsProofs NdProofs TensorProofs LabelProofs.
Import ListNotations.
Local Open Scope nat_scope.

(** ** digits *)
Lemma digits_inrange sh k : k < prodn sh -> inrange sh (digits sh k).
Proof.
  revert k. induction sh as [|d sh IH]; intros k Hk; simpl in *; constructor.
  - change (fold_right Nat.mul 1 sh) with (prodn sh) in *. apply Nat.div_lt_upper_bound; [nia|]. lia.
  - change (fold_right Nat.mul 1 sh) with (prodn sh) in *. apply IH. apply Nat.mod_upper_bound. nia.
Qed.
Lemma ravel_digits sh k : k < prodn sh -> ravel sh (digits sh k) = k.
Proof.
  revert k. induction sh as [|d sh IH]; intros k Hk; simpl in *; [lia|].
  change (fold_right Nat.mul 1 sh) with (prodn sh) in *.
  rewrite IH by (apply Nat.mod_upper_bound; nia).
  rewrite Nat.mul_comm. symmetry. apply Nat.div_mod. nia.
Qed.
Lemma digits_ravel sh idx : inrange sh idx -> digits sh (ravel sh idx) = idx.
Proof.
  intros H. eapply ravel_inj; eauto.
  - apply digits_inrange. now apply ravel_lt.
  - apply ravel_digits. now apply ravel_lt.
Qed.

Lemma put_notin ls idx s l : ~ In l ls -> put ls idx s l = s l.
Proof.
  revert idx. induction ls as [|x ls IH]; intros [|i idx] H; simpl; auto.
  rewrite upd_other; [apply IH|]; simpl in H; intuition.
Qed.
Lemma put_map ls idx s : NoDup ls -> List.length idx = List.length ls -> map (put ls idx s) ls = idx.
Proof.
  intros ND. revert idx. induction ND as [|x ls Hx ND IH]; intros [|i idx] L; simpl in *; try discriminate; auto.
  rewrite upd_same. f_equal. rewrite <- (IH idx) at 2 by lia. apply map_ext_in.
  intros l Hl. rewrite upd_other; auto. intros ->. auto.
Qed.
Lemma put_self ls s : forall l, put ls (map s ls) s l = s l.
Proof.
  induction ls as [|x ls IH]; intros l; simpl; auto. unfold upd.
  destruct (Nat.eqb_spec l x); subst; auto.
Qed.

Section Mx.
Context {A : Type} {HA : SR A}.
Add Ring Aring4 : (@SR_theory A HA).
Notation heap := (heap A).

(** ** sums over pairs as sums over multi-indices *)
Fixpoint assign (P : list (nat * nat)) (idx : list nat) (s : assignment) : assignment :=
  match P, idx with
  | (l, l') :: P', i :: idx' => assign P' idx' (upd (upd s l i) l' i)
  | _, _ => s
  end.

Lemma sumpairs_indices d P (f : assignment -> A) : forall s,
  sumpairs d P f s = sumL (indices (map (fun p => d (fst p)) P)) (fun idx => f (assign P idx s)).
Proof.
  induction P as [|(l, l') P IH]; intros s; cbn [sumpairs map indices assign fst].
  - simpl. ring.
  - rewrite sumL_flat_map. unfold sumN. apply sumL_ext. intros i _. rewrite sumL_map, IH. reflexivity.
Qed.

Lemma assign_notin P : forall idx s l, ~ In l (map fst P) -> ~ In l (map snd P) -> assign P idx s l = s l.
Proof.
  induction P as [|(a, b) P IH]; intros [|i idx] s l H1 H2; simpl in *; auto.
  rewrite IH by intuition. rewrite !upd_other; auto.
Qed.
Lemma assign_fst P : forall idx s, NoDup (map fst P ++ map snd P) -> List.length idx = List.length P ->
  map (assign P idx s) (map fst P) = idx /\ map (assign P idx s) (map snd P) = idx.
Proof.
  induction P as [|(a, b) P IH]; intros [|i idx] s ND L; simpl in *; try discriminate; auto.
  inversion ND as [|? ? Ha ND1]; subst. rewrite in_app_iff in Ha. simpl in Ha.
  assert (Hb : ~ In b (map fst P ++ map snd P)) by (now apply NoDup_remove_2 in ND1).
  apply NoDup_remove_1 in ND1. rewrite in_app_iff in Hb.
  destruct (IH idx (upd (upd s a i) b i) ND1) as [E1 E2]; [lia|].
  rewrite E1, E2. rewrite !assign_notin by intuition.
  rewrite upd_same. rewrite (upd_other _ b) by intuition. rewrite upd_same. auto.
Qed.

Lemma assign_in_bounds P idx s (d : nat -> nat) (L : list nat) :
  NoDup (map fst P ++ map snd P) -> (forall p, In p P -> d (fst p) = d (snd p)) ->
  inrange (map (fun p => d (fst p)) P) idx ->
  (forall l, In l L -> ~ In l (map fst P) -> ~ In l (map snd P) -> s l < d l) ->
  forall l, In l L -> assign P idx s l < d l.
Proof.
  intros ND Hd Hi Hs l Hl.
  assert (List.length idx = List.length P) as Li by (apply inrange_length in Hi; now rewrite map_length in Hi).
  destruct (assign_fst P idx s ND Li) as [E1 E2].
  destruct (in_dec Nat.eq_dec l (map fst P)) as [i1|i1]; [|destruct (in_dec Nat.eq_dec l (map snd P)) as [i2|i2]].
  - apply (inrange_map_inv d (assign P idx s) (map fst P)); auto. rewrite E1, map_map. exact Hi.
  - apply (inrange_map_inv d (assign P idx s) (map snd P)); auto. rewrite E2, map_map.
    replace (map (fun x => d (snd x)) P) with (map (fun p => d (fst p)) P); auto.
    apply map_ext_in. auto.
  - rewrite assign_notin by auto. auto.
Qed.

Lemma sumpairs_ext_gen d P (f g : assignment -> A) s :
  (forall idx, inrange (map (fun p => d (fst p)) P) idx -> f (assign P idx s) = g (assign P idx s)) ->
  sumpairs d P f s = sumpairs d P g s.
Proof.
  intros H. rewrite !sumpairs_indices. apply sumL_ext. intros idx Hi. apply H. now apply indices_In.
Qed.

(** ** references *)
Lemma getLeg_first_named (h : heap) t n l : getLeg h t n false = Some l <-> first_named h t n l.
Proof.
  pose proof (getLeg_first h t n) as G. unfold first_named. split.
  - intros E. rewrite E in G. exact G.
  - intros (u & v & E & En & Hu). destruct (getLeg h t n false) as [l'|].
    + destruct G as (u' & v' & E' & En' & Hu'). f_equal. rewrite E in E'.
      clear E. revert u' E' Hu'. induction u as [|x u IH]; intros [|x' u'] E' Hu'; simpl in *.
      * now injection E'.
      * injection E' as -> E'. exfalso. apply (Hu' x'); auto.
      * injection E' as -> E'. exfalso. apply (Hu l'); auto.
      * injection E' as -> E'. eapply IH; eauto.
    + exfalso. apply G. unfold names_of. rewrite E, map_app. apply in_app_iff. right. simpl. auto.
Qed.

Lemma resolveRefs_iff (h : heap) t rs ls : resolveRefs h t rs = Ok (map Some ls) <-> refs_are h t rs ls.
Proof.
  unfold resolveRefs, refs_are. destruct rs as [|[l|s] rs].
  - split; [discriminate|]. intros [H _]. congruence.
  - split.
    + intros E. split; [discriminate|]. left.
      assert (map (fun r => match r with RLeg l => Some l | RStr _ => None end) (RLeg l :: rs) = map Some ls) as E' by congruence.
      clear E. revert ls E'. generalize (RLeg l :: rs). intros L. clear l rs.
      induction L as [|[x|x] L IH]; intros [|y ls] E; simpl in *; try discriminate; auto.
      injection E as -> E. f_equal. auto.
    + intros [_ [E|(ss & E & _)]].
      * rewrite E. f_equal. rewrite map_map. reflexivity.
      * destruct ss; discriminate.
  - split.
    + intros E. split; [discriminate|]. right.
      assert (map (fun r => match r with RStr s => getLeg h t (NStr s) false | RLeg _ => None end) (RStr s :: rs) = map Some ls) as E' by congruence.
      clear E. revert ls E'. generalize (RStr s :: rs). intros L. clear s rs.
      induction L as [|[x|x] L IH]; intros [|y ls] E; cbn [map] in E; try discriminate; auto.
      * exists []. auto.
      * injection E as E1 E. destruct (IH ls E) as (ss & -> & F). exists (x :: ss). split; auto.
        constructor; auto. now apply getLeg_first_named.
    + intros [_ [E|(ss & E & F)]].
      * destruct ls; discriminate.
      * rewrite E. f_equal. clear E. induction F as [|s0 l ss ls F1 F IH]; cbn [map]; auto.
        f_equal; auto. now apply getLeg_first_named.
Qed.

Lemma resolveRefs_err (h : heap) t rs x : resolveRefs h t rs = Ok x ->
  (forall o, In o x -> o <> None) -> exists ls, x = map Some ls /\ refs_are h t rs ls.
Proof.
  intros E H. assert (exists ls, x = map Some ls) as (ls & Ex).
  { clear E. induction x as [|[l|] x IH].
    - exists []. auto.
    - destruct IH as (ls & ->); [intros; apply H; simpl; auto|]. exists (l :: ls). auto.
    - exfalso. apply (H None); simpl; auto. }
  exists ls. split; auto. apply resolveRefs_iff. now rewrite <- Ex.
Qed.

Lemma inb_map_Some (l : nat) ls : inb (Some l) (map Some ls) = inb l ls.
Proof.
  destruct (inb l ls) eqn:E.
  - apply inb_spec. apply in_map. now apply inb_spec.
  - apply inb_false. rewrite in_map_iff. intros (x & Ex & Hx). injection Ex as ->.
    apply inb_false in E. contradiction.
Qed.
Lemma filter_map_Some (cur ls : list nat) :
  filter (fun o => negb (inb o (map Some ls))) (map Some cur) = map Some (filter (fun l => negb (inb l ls)) cur).
Proof.
  induction cur as [|c cur IH]; cbn [map filter]; auto. rewrite inb_map_Some.
  destruct (inb c ls); simpl; rewrite IH; auto.
Qed.
Lemma NoDup_map_Some (l : list nat) : NoDup l <-> NoDup (map Some l).
Proof.
  split.
  - apply NoDup_map_inj. congruence.
  - apply NoDup_map_inv.
Qed.

Lemma listDifference_Some (cur : list nat) (x r : list (option nat)) : NoDup cur ->
  listDifference (map Some cur) x = Ok r ->
  exists ls, x = map Some ls /\ NoDup ls /\ incl ls cur /\ r = map Some (others cur ls).
Proof.
  intros ND E.
  assert (NoDup x /\ incl x (map Some cur)) as [H1 H2].
  { pose proof (listDifference_cases (map Some cur) x) as C. rewrite E in C. destruct C as (_ & _ & P). split.
    - apply -> NoDup_map_Some in ND. apply (Permutation_NoDup (Permutation_sym P)) in ND. now apply NoDup_app_inv in ND.
    - intros y Hy. apply (Permutation_in _ P). apply in_app_iff; auto. }
  assert (exists ls, x = map Some ls) as (ls & ->).
  { clear -H2. induction x as [|o x IH].
    - exists []; auto.
    - destruct IH as (ls & ->); [intros y Hy; apply H2; simpl; auto|].
      assert (In o (map Some cur)) as Ho by (apply H2; simpl; auto). apply in_map_iff in Ho as (l & <- & _).
      exists (l :: ls). auto. }
  rewrite listDifference_NoDup in E; auto.
  2:{ now apply -> NoDup_map_Some. }
  rewrite filter_map_Some in E. injection E as <-. apply NoDup_map_Some in H1.
  exists ls. split; auto. split; auto. split; auto.
  intros y Hy. apply (in_map Some) in Hy. apply H2 in Hy. apply in_map_iff in Hy as (z & Ez & Hz). congruence.
Qed.

Lemma Permutation_map_Some (l l' : list nat) : Permutation (map Some l) (map Some l') -> Permutation l l'.
Proof.
  intros P. apply (Permutation_map (fun o => match o with Some x => x | None => 0 end)) in P.
  rewrite !map_map, !map_id in P. exact P.
Qed.

Lemma indexOfLeg_positions (h : heap) t ls : incl ls (legs_of h t) ->
  rmapM (indexOfLeg h t) (map Some ls) = Ok (positions (legs_of h t) ls).
Proof.
  induction ls as [|l ls IH]; intros Hi; cbn [map rmapM]; auto.
  assert (forall cur, index_of (Some l) (map Some cur) = index_of l cur) as E.
  { induction cur as [|c cur IHc]; cbn [map index_of]; auto. rewrite IHc.
    destruct (dec (Some l) (Some c)), (dec l c); congruence. }
  unfold indexOfLeg at 1. change (tlegs h t) with (legs_of h t). rewrite E.
  destruct (index_of_In (legs_of h t) l) as (k & Ek); [apply Hi; simpl; auto|].
  rewrite Ek. cbn [rbind]. rewrite IH by (intros x Hx; apply Hi; simpl; auto).
  cbn [rbind]. unfold positions. simpl. rewrite Ek. reflexivity.
Qed.

Lemma split_perm (h : heap) t rows cols rl cl : NoDup (legs_of h t) ->
  split_of h t rows cols rl cl -> Permutation (rl ++ cl) (legs_of h t).
Proof.
  intros ND H. destruct H; auto.
  - now apply rest_perm.
  - eapply Permutation_trans; [apply Permutation_app_comm|]. now apply rest_perm.
Qed.

Lemma matrixIndices_iff (h : heap) t rows cols : NoDup (legs_of h t) -> t_like (tens h t) = false ->
  match matrixIndices h t rows cols with
  | Ok (ri, ci) => exists rl cl, split_of h t rows cols rl cl /\
       ri = positions (legs_of h t) rl /\ ci = positions (legs_of h t) cl
  | Err _ => forall rl cl, ~ split_of h t rows cols rl cl
  end.
Proof.
  intros ND NL. unfold matrixIndices. rewrite NL.
  change (tlegs h t) with (legs_of h t).
  destruct rows as [rs|], cols as [cs|].
  - cbn [resolveOpt]. destruct (resolveRefs h t rs) as [xr|] eqn:Er; cbn [rbind].
    2:{ intros rl cl H. inversion H; subst. match goal with R : refs_are _ _ rs _ |- _ => apply resolveRefs_iff in R; congruence end. }
    destruct (resolveRefs h t cs) as [xc|] eqn:Ec; cbn [rbind].
    2:{ intros rl cl H. inversion H; subst. match goal with R : refs_are _ _ cs _ |- _ => apply resolveRefs_iff in R; congruence end. }
    destruct (compareLists (xr ++ xc) (map Some (legs_of h t))) eqn:C; cbn [negb].
    + apply compareLists_perm in C.
      assert (forall o, In o (xr ++ xc) -> o <> None) as Hn.
      { intros o Ho. apply (Permutation_in _ C) in Ho. apply in_map_iff in Ho as (l & <- & _). discriminate. }
      apply resolveRefs_err in Er as (rl & -> & Rr); [|intros; apply Hn; apply in_app_iff; auto].
      apply resolveRefs_err in Ec as (cl & -> & Rc); [|intros; apply Hn; apply in_app_iff; auto].
      rewrite <- map_app in C. apply Permutation_map_Some in C.
      rewrite !indexOfLeg_positions.
      2,3: intros x Hx; apply (Permutation_in _ C); apply in_app_iff; auto.
      cbn [rbind]. exists rl, cl. split; auto. now constructor.
    + intros rl cl H. inversion H as [? ? ? ? H3 H5 PP| | ]; subst. apply resolveRefs_iff in H3. apply resolveRefs_iff in H5.
      rewrite H3 in Er. rewrite H5 in Ec. injection Er as <-. injection Ec as <-.
      assert (compareLists (map Some rl ++ map Some cl) (map Some (legs_of h t)) = true); [|congruence].
      apply compareLists_perm. rewrite <- map_app. now apply Permutation_map.
  - cbn [resolveOpt]. destruct (resolveRefs h t rs) as [xr|] eqn:Er; cbn [rbind].
    2:{ intros rl cl H. inversion H; subst. match goal with R : refs_are _ _ _ _ |- _ => apply resolveRefs_iff in R; congruence end. }
    destruct (listDifference (map Some (legs_of h t)) xr) as [r|] eqn:Ed; cbn [rbind].
    + apply listDifference_Some in Ed as (ls & -> & N1 & N2 & ->); auto.
      assert (compareLists (map Some ls ++ map Some (others (legs_of h t) ls)) (map Some (legs_of h t)) = true) as ->.
      { apply compareLists_perm. rewrite <- map_app. apply Permutation_map. now apply rest_perm. }
      cbn [negb]. rewrite !indexOfLeg_positions; auto.
      2:{ intros x Hx. apply filter_In in Hx. tauto. }
      cbn [rbind]. eexists _, _. split; [|split; reflexivity]. constructor; auto. now apply resolveRefs_iff.
    + intros rl cl H. inversion H as [|? ? H2|? ? H2]; subst; apply resolveRefs_iff in H2. rewrite H2 in Er. injection Er as <-.
      rewrite listDifference_NoDup in Ed; [discriminate| | |].
      * now apply -> NoDup_map_Some.
      * now apply -> NoDup_map_Some.
      * intros o Ho. apply in_map_iff in Ho as (l & <- & Hl). apply in_map. auto.
  - cbn [resolveOpt]. destruct (resolveRefs h t cs) as [xr|] eqn:Er; cbn [rbind].
    2:{ intros rl cl H. inversion H; subst. match goal with R : refs_are _ _ _ _ |- _ => apply resolveRefs_iff in R; congruence end. }
    destruct (listDifference (map Some (legs_of h t)) xr) as [r|] eqn:Ed; cbn [rbind].
    + apply listDifference_Some in Ed as (ls & -> & N1 & N2 & ->); auto.
      assert (compareLists (map Some (others (legs_of h t) ls) ++ map Some ls) (map Some (legs_of h t)) = true) as ->.
      { apply compareLists_perm. rewrite <- map_app. apply Permutation_map.
        eapply Permutation_trans; [apply Permutation_app_comm|]. now apply rest_perm. }
      cbn [negb]. rewrite !indexOfLeg_positions; auto.
      2:{ intros x Hx. apply filter_In in Hx. tauto. }
      cbn [rbind]. eexists _, _. split; [|split; reflexivity]. constructor; auto. now apply resolveRefs_iff.
    + intros rl cl H. inversion H as [|? ? H2|? ? H2]; subst; apply resolveRefs_iff in H2. rewrite H2 in Er. injection Er as <-.
      rewrite listDifference_NoDup in Ed; [discriminate| | |].
      * now apply -> NoDup_map_Some.
      * now apply -> NoDup_map_Some.
      * intros o Ho. apply in_map_iff in Ho as (l & <- & Hl). apply in_map. auto.
  - intros rl cl H. inversion H.
Qed.

(** ** toMatrix *)
Lemma wf_arr (h : heap) t : wf_tensor h t -> t_like (tens h t) = false ->
  exists a, t_arr (tens h t) = Some a /\ wfa a /\
   ashape a = (if t_diag (tens h t) then match legs_of h t with [] => [] | _ => [t_len (tens h t)] end else dims_of h t).
Proof.
  intros W L. pose proof (wt_data _ _ W) as D. unfold data_ok in D. rewrite L in D.
  destruct (t_arr (tens h t)) as [a|]; [|contradiction]. exists a. tauto.
Qed.

Lemma wf_like (h : heap) t : wf_tensor h t -> t_like (tens h t) = true -> t_arr (tens h t) = None.
Proof.
  intros W L. pose proof (wt_data _ _ W) as D. unfold data_ok in D. rewrite L in D.
  now destruct (t_arr (tens h t)).
Qed.

Lemma wf_shape (h : heap) t : wf_tensor h t -> shape h t = dims_of h t.
Proof.
  intros W. unfold shape, dims_of, legs_of. destruct (t_diag (tens h t)) eqn:D.
  - destruct (wt_diag _ _ W D) as [_ H]. unfold legs_of in H.
    induction (t_legs (tens h t)) as [|l ls IH]; simpl; auto. f_equal.
    + symmetry. apply H. simpl; auto.
    + apply IH. intros; apply H; simpl; auto.
  - destruct (t_like (tens h t)) eqn:L.
    + rewrite (wf_like _ _ W L). reflexivity.
    + destruct (wf_arr _ _ W L) as (a & Ea & _ & Es). rewrite Ea, Es, D. reflexivity.
Qed.

Lemma sizesAt_positions (h : heap) t ls : wf_tensor h t -> incl ls (legs_of h t) ->
  sizesAt (shape h t) (positions (legs_of h t) ls) = map (dim_of h) ls.
Proof.
  intros W Hi. rewrite wf_shape by auto. unfold sizesAt, dims_of.
  destruct (positions_spec _ _ Hi) as [E _]. rewrite <- E at 2. rewrite map_map.
  apply map_ext_in. intros k Hk. apply positions_lt in Hk.
  rewrite nth_indep with (d' := dim_of h 0) by (now rewrite map_length). apply map_nth.
Qed.

Lemma filter_none {X} (f : X -> bool) l : (forall x, In x l -> f x = false) -> filter f l = [].
Proof.
  induction l as [|x l IH]; simpl; intros H; auto. rewrite H by auto. apply IH. auto.
Qed.

Lemma others_none (cur ls : list nat) : incl cur ls -> filter (fun l => negb (inb l ls)) cur = [].
Proof.
  intros H. apply filter_none. intros x Hx. apply negb_false_iff. apply inb_spec. auto.
Qed.

Lemma all_eqb_map (s : assignment) l ls : all_eqb (map s (l :: ls)) = forallb (fun l' => Nat.eqb (s l') (s l)) ls.
Proof.
  simpl. induction ls as [|x ls IH]; simpl; auto. rewrite IH. f_equal. apply Nat.eqb_sym.
Qed.

Lemma positions_app cur l1 l2 : positions cur (l1 ++ l2) = positions cur l1 ++ positions cur l2.
Proof. unfold positions. apply flat_map_app. Qed.

Lemma reshape2 (a : arr A) sh1 sh2 : wfa a -> ashape a = sh1 ++ sh2 ->
  exists m, np_reshape a [prodn sh1; prodn sh2] = Ok m /\ wfa m /\ ashape m = [prodn sh1; prodn sh2] /\
    forall i1 i2, List.length i1 = List.length sh1 ->
      aget m [ravel sh1 i1; ravel sh2 i2] = aget a (i1 ++ i2).
Proof.
  intros W E. unfold np_reshape. simpl prodn.
  assert ((prodn sh1 * (prodn sh2 * 1)) = List.length (adata a)) as El.
  { rewrite W, E, prodn_app. lia. }
  change (fold_right Nat.mul 1 sh1) with (prodn sh1). change (fold_right Nat.mul 1 sh2) with (prodn sh2).
  rewrite El, Nat.eqb_refl. eexists. split; [reflexivity|].
  split; [|split; [reflexivity|]].
  - unfold wfa. simpl. change (fold_right Nat.mul 1 sh1) with (prodn sh1). change (fold_right Nat.mul 1 sh2) with (prodn sh2). auto.
  - intros i1 i2 L. apply aget_ravel; auto. simpl ashape. rewrite E, ravel_app by auto.
    cbn [ravel]. change (prodn [prodn sh2]) with (prodn sh2 * 1). change (prodn []) with 1. lia.
Qed.

Lemma toMatrix_core (h : heap) t rl cl : wf_tensor h t -> t_like (tens h t) = false -> legs_of h t <> [] ->
  Permutation (rl ++ cl) (legs_of h t) ->
  exists m,
   (let ri := positions (legs_of h t) rl in let ci := positions (legs_of h t) cl in
    let sh := shape h t in
    let rt := prodn (sizesAt sh ri) in let ct := prodn (sizesAt sh ci) in
    match t_arr (tens h t) with
    | None => Err AttributeError
    | Some a =>
      if t_diag (tens h t)
      then letr d := diagonalNDTensor a (List.length (t_legs (tens h t))) in np_reshape d [rt; ct]
      else letr a' := np_moveaxis a (ri ++ ci) (seq 0 (List.length (ri ++ ci))) in
           np_reshape a' [rt; ct]
    end) = Ok m /\ wfa m /\
    ashape m = [prodn (map (dim_of h) rl); prodn (map (dim_of h) cl)] /\
    forall s, in_bounds h (legs_of h t) s ->
      aget m [ravel (map (dim_of h) rl) (map s rl); ravel (map (dim_of h) cl) (map s cl)] = entry h t s.
Proof.
  intros W NL NE P.
  assert (incl rl (legs_of h t) /\ incl cl (legs_of h t)) as [Ir Ic].
  { split; intros x Hx; apply (Permutation_in _ P); apply in_app_iff; auto. }
  cbv zeta. rewrite !sizesAt_positions by auto.
  destruct (wf_arr _ _ W NL) as (a & Ea & Wa & Es). rewrite Ea.
  assert (NoDup (rl ++ cl)) as ND by (eapply Permutation_NoDup; [apply Permutation_sym, P | apply W]).
  destruct (t_diag (tens h t)) eqn:D.
  - unfold diagonalNDTensor. change (t_legs (tens h t)) with (legs_of h t).
    destruct (legs_of h t) as [|l0 L0] eqn:EL; [congruence|]. rewrite Es. cbn [List.length].
    rewrite <- EL in *. simpl Nat.eqb. cbn [rbind].
    set (len := t_len (tens h t)) in *.
    destruct (wt_diag _ _ W D) as [_ Hd].
    set (f := fun idx => if all_eqb idx then aget a [nth 0 idx 0] else r0).
    assert (repeat len (S (List.length L0)) = map (dim_of h) (rl ++ cl)) as Er.
    { assert (List.length (rl ++ cl) = S (List.length L0)) as <- by (apply Permutation_length in P; rewrite P, EL; reflexivity).
      assert (forall l, In l (rl ++ cl) -> dim_of h l = len) as Hd'.
      { intros l Hl. apply Hd. now apply (Permutation_in _ P). }
      clear -Hd'. induction (rl ++ cl) as [|x l IH]; simpl; auto. f_equal; [symmetry; apply Hd'; simpl; auto|].
      apply IH. intros; apply Hd'; simpl; auto. }
    destruct (reshape2 (tab (repeat len (S (List.length L0))) f) (map (dim_of h) rl) (map (dim_of h) cl)) as (m & Em & Wm & Sm & Gm).
    { apply tab_wfa. }
    { simpl ashape. rewrite <- map_app. exact Er. }
    exists m. split; [exact Em|]. split; auto. split; auto. intros s Hs.
    rewrite Gm by (now rewrite !map_length). rewrite <- map_app, aget_tab.
    2:{ rewrite Er. apply inrange_map. intros l Hl. apply Hs. now apply (Permutation_in _ P). }
    unfold f, entry.
    transitivity (entry_of (mkTensor (rl ++ cl) (t_arr (tens h t)) (t_diag (tens h t)) (t_like (tens h t)) (t_len (tens h t)) (t_name (tens h t))) s).
    + unfold entry_of. simpl. rewrite Ea, D. destruct (rl ++ cl) as [|x l]; [apply Permutation_nil in P; congruence|].
      rewrite all_eqb_map. reflexivity.
    + apply diag_entry_perm; auto.
  - destruct (moveaxis_named a (legs_of h t) (rl ++ cl) (dim_of h) Wa Es (wt_nodup _ _ W) ND) as (a' & Em & Wa' & Ws' & Hent).
    { intros x Hx. now apply (Permutation_in _ P). }
    rewrite positions_app in Em. rewrite Em. cbn [rbind].
    rewrite others_none, app_nil_r, map_app in Ws'.
    2:{ intros x Hx. now apply (Permutation_in _ (Permutation_sym P)). }
    destruct (reshape2 a' _ _ Wa' Ws') as (m & Em' & Wm & Sm & Gm).
    exists m. split; auto. split; auto. split; auto. intros s Hs.
    rewrite Gm by (now rewrite !map_length). rewrite <- map_app.
    specialize (Hent s Hs). rewrite others_none, app_nil_r in Hent.
    2:{ intros x Hx. now apply (Permutation_in _ (Permutation_sym P)). }
    rewrite Hent. unfold entry, entry_of. rewrite Ea, D. reflexivity.
Qed.

Lemma split_nonempty (h : heap) t rows cols rl cl : split_of h t rows cols rl cl -> NoDup (legs_of h t) -> legs_of h t <> [].
Proof.
  intros H ND E. pose proof (split_perm _ _ _ _ _ _ ND H) as P. rewrite E in P.
  apply Permutation_sym, Permutation_nil in P. apply app_eq_nil in P as [-> ->].
  assert (forall rs, ~ refs_are h t rs []) as N.
  { intros rs [Hr [->|(ss & -> & F)]]; [now apply Hr|]. inversion F. subst. now apply Hr. }
  inversion H as [? ? ? ? R|? ? R|? ? R]; subst; rewrite ?E in R; exact (N _ R).
Qed.

Lemma toMatrix_spec (h : heap) t rows cols : wf_tensor h t -> t_like (tens h t) = false ->
  match toMatrix h t rows cols with
  | Ok m => exists rl cl, split_of h t rows cols rl cl /\ wfa m /\
      ashape m = [prodn (map (dim_of h) rl); prodn (map (dim_of h) cl)] /\
      forall s, in_bounds h (legs_of h t) s ->
        aget m [ravel (map (dim_of h) rl) (map s rl); ravel (map (dim_of h) cl) (map s cl)] = entry h t s
  | Err _ => forall rl cl, ~ split_of h t rows cols rl cl
  end.
Proof.
  intros W NL. pose proof (matrixIndices_iff h t rows cols (wt_nodup _ _ W) NL) as MI.
  unfold toMatrix. destruct (matrixIndices h t rows cols) as [(ri, ci)|e]; cbn [rbind]; auto.
  destruct MI as (rl & cl & Sp & -> & ->).
  pose proof (split_perm _ _ _ _ _ _ (wt_nodup _ _ W) Sp) as P.
  destruct (toMatrix_core h t rl cl W NL (split_nonempty _ _ _ _ _ _ Sp (wt_nodup _ _ W)) P) as (m & Em & Wm & Sm & Gm).
  cbv zeta in Em. rewrite Em. exists rl, cl. auto.
Qed.

Lemma split_unique (h : heap) t rows cols rl cl rl' cl' : 
  split_of h t rows cols rl cl -> split_of h t rows cols rl' cl' -> rl = rl' /\ cl = cl'.
Proof.
  assert (forall rs l l', refs_are h t rs l -> refs_are h t rs l' -> l = l') as U.
  { intros rs l l' H H'. apply resolveRefs_iff in H. apply resolveRefs_iff in H'.
    rewrite H in H'. injection H' as E. clear -E. revert l' E. induction l; intros [|]; simpl; intros E; try discriminate; auto.
    injection E as -> E. f_equal. auto. }
  intros H H'. inversion H; subst; inversion H'; subst.
  - split; eapply U; eauto.
  - assert (rl = rl') as -> by (eapply U; eauto). auto.
  - assert (cl = cl') as -> by (eapply U; eauto). auto.
Qed.

Lemma toMatrix_like (h : heap) t rows cols : t_like (tens h t) = true ->
  toMatrix h t rows cols = Err AssertionError.
Proof. intros L. unfold toMatrix, matrixIndices. rewrite L. reflexivity. Qed.

(** ** trace *)

Lemma trace_dense (h : heap) t rows cols rl cl : wf_tensor h t -> t_like (tens h t) = false ->
  t_diag (tens h t) = false -> split_of h t rows cols rl cl ->
  let dr := map (dim_of h) rl in let dc := map (dim_of h) cl in
  trace h t rows cols =
    if Nat.eqb (prodn dr) (prodn dc)
    then Ok (sumN (prodn dr) (fun k => entry h t (put2 rl cl (digits dr k) (digits dc k) (fun _ => 0))))
    else Err AssertionError.
Proof.
  intros W NL D Sp dr dc. unfold trace. rewrite NL, D.
  pose proof (toMatrix_spec h t rows cols W NL) as T.
  destruct (toMatrix h t rows cols) as [m|e]; [|exfalso; eapply T; eauto].
  destruct T as (rl' & cl' & Sp' & Wm & Sm & G).
  destruct (split_unique _ _ _ _ _ _ _ _ Sp Sp') as [<- <-]. cbn [rbind]. rewrite Sm.
  fold dr dc in G, Sm. fold dr dc. destruct (Nat.eqb_spec (prodn dr) (prodn dc)) as [E|E]; auto. f_equal.
  unfold np_trace. rewrite Sm. cbn [nth]. apply sumN_ext. intros k Hk.
  pose proof (split_perm _ _ _ _ _ _ (wt_nodup _ _ W) Sp) as P.
  assert (NoDup (rl ++ cl)) as ND by (eapply Permutation_NoDup; [apply Permutation_sym, P | apply W]).
  apply NoDup_app_inv in ND as (NDr & NDc & Hd).
  set (s := put2 rl cl (digits dr k) (digits dc k) (fun _ => 0)).
  assert (inrange dr (digits dr k)) as Ir by (now apply digits_inrange).
  assert (inrange dc (digits dc k)) as Ic by (apply digits_inrange; lia).
  assert (map s rl = digits dr k) as Er.
  { unfold s, put2. transitivity (map (put rl (digits dr k) (fun _ => 0)) rl).
    - apply map_ext_in. intros l Hl. apply put_notin. intros Hc. eapply Hd; eauto.
    - apply put_map; auto. apply inrange_length in Ir. rewrite Ir. unfold dr. apply map_length. }
  assert (map s cl = digits dc k) as Ec.
  { unfold s, put2. apply put_map; auto. apply inrange_length in Ic. rewrite Ic. unfold dc. apply map_length. }
  rewrite <- (G s).
  - fold dr dc. rewrite Er, Ec, !ravel_digits by lia. reflexivity.
  - intros l Hl. apply (Permutation_in _ (Permutation_sym P)) in Hl. apply in_app_iff in Hl as [Hl|Hl].
    + apply (inrange_map_inv (dim_of h) s rl); auto. rewrite Er. exact Ir.
    + apply (inrange_map_inv (dim_of h) s cl); auto. rewrite Ec. exact Ic.
Qed.

Lemma trace_nosplit (h : heap) t rows cols : wf_tensor h t -> t_diag (tens h t) = false ->
  (forall rl cl, ~ split_of h t rows cols rl cl) -> exists e, trace h t rows cols = Err e.
Proof.
  intros W D N. unfold trace. destruct (t_like (tens h t)) eqn:L; [eauto|]. rewrite D.
  pose proof (toMatrix_spec h t rows cols W L) as T.
  destruct (toMatrix h t rows cols) as [m|e]; [|simpl; eauto].
  destruct T as (rl' & cl' & Sp' & _). exfalso. eapply N; eauto.
Qed.

(** equal dimensions on both sides: the Einstein sum over pairs *)
Lemma map_fst_combine {X Y} (l : list X) (l' : list Y) : List.length l = List.length l' -> map fst (combine l l') = l.
Proof. revert l'. induction l; intros [|]; simpl; intros E; try discriminate; auto. f_equal. auto. Qed.
Lemma map_snd_combine {X Y} (l : list X) (l' : list Y) : List.length l = List.length l' -> map snd (combine l l') = l'.
Proof. revert l'. induction l; intros [|]; simpl; intros E; try discriminate; auto. f_equal. auto. Qed.

Lemma trace_pairs (h : heap) t rows cols rl cl s : wf_tensor h t -> t_like (tens h t) = false ->
  t_diag (tens h t) = false -> split_of h t rows cols rl cl ->
  map (dim_of h) rl = map (dim_of h) cl ->
  trace h t rows cols = Ok (sumpairs (dim_of h) (combine rl cl) (entry h t) s).
Proof.
  intros W NL D Sp Ed. rewrite (trace_dense h t rows cols rl cl) by auto. cbv zeta.
  rewrite Ed, Nat.eqb_refl. f_equal.
  rewrite sumN_indices, sumpairs_indices.
  assert (List.length rl = List.length cl) as EL.
  { apply (f_equal (@List.length nat)) in Ed. rewrite !map_length in Ed. auto. }
  replace (map (fun p => dim_of h (fst p)) (combine rl cl)) with (map (dim_of h) cl).
  2:{ rewrite <- (map_map fst (dim_of h)), map_fst_combine; auto. }
  apply sumL_ext. intros idx Hi. apply indices_In in Hi. rewrite digits_ravel by auto.
  pose proof (split_perm _ _ _ _ _ _ (wt_nodup _ _ W) Sp) as P.
  assert (NoDup (rl ++ cl)) as ND by (eapply Permutation_NoDup; [apply Permutation_sym, P | apply W]).
  assert (List.length idx = List.length rl) as Li.
  { apply inrange_length in Hi. rewrite map_length in Hi. lia. }
  destruct (assign_fst (combine rl cl) idx s) as [E1 E2].
  { rewrite map_fst_combine, map_snd_combine; auto. }
  { rewrite combine_length. lia. }
  rewrite map_fst_combine in E1 by auto. rewrite map_snd_combine in E2 by auto.
  apply NoDup_app_inv in ND as (NDr & NDc & Hd).
  apply entry_ext. intros l Hl. apply (Permutation_in _ (Permutation_sym P)) in Hl.
  assert (map (put2 rl cl idx idx (fun _ => 0)) rl = idx) as F1.
  { unfold put2. rewrite <- (put_map rl idx (fun _ => 0) NDr Li) at 3.
    apply map_ext_in. intros x Hx. apply put_notin. intros Hc. eapply Hd; eauto. }
  assert (map (put2 rl cl idx idx (fun _ => 0)) cl = idx) as F2.
  { unfold put2. apply put_map; auto. lia. }
  assert (forall L (f g : nat -> nat), map f L = map g L -> In l L -> f l = g l) as G.
  { clear. induction L; simpl; intros f g E []; injection E; intros; subst; auto. }
  apply in_app_iff in Hl as [Hl|Hl].
  - apply (G rl); auto. congruence.
  - apply (G cl); auto. congruence.
Qed.

Lemma trace_diag (h : heap) t rows cols : wf_tensor h t -> t_like (tens h t) = false ->
  t_diag (tens h t) = true ->
  trace h t rows cols = Ok (sumN (t_len (tens h t)) (fun i => entry h t (fun _ => i))).
Proof.
  intros W NL D. unfold trace. rewrite NL, D.
  destruct (wf_arr _ _ W NL) as (a & Ea & Wa & Es). rewrite Ea. f_equal.
  rewrite D in Es. unfold np_sum.
  assert (List.length (adata a) = t_len (tens h t)) as EL.
  { rewrite Wa, Es. destruct (legs_of h t) eqn:E; simpl; [|lia]. destruct (wt_diag _ _ W D) as [H _]. symmetry. auto. }
  rewrite <- (map_nth_seq (adata a) r0) at 1. rewrite sumL_map, EL. apply sumL_ext.
  intros i Hi. apply in_seq in Hi. unfold entry, entry_of. rewrite Ea, D. change (t_legs (tens h t)) with (legs_of h t).
  destruct (legs_of h t) as [|l ls] eqn:EL0.
  - destruct (wt_diag _ _ W D) as [H _]. unfold aget. rewrite Es. simpl ravel. f_equal.
    assert (t_len (tens h t) = 1) by (now apply H). lia.
  - assert (forallb (fun _ : nat => Nat.eqb i i) ls = true) as ->.
    { apply forallb_forall. intros. apply Nat.eqb_refl. }
    unfold aget. rewrite Es. f_equal. simpl. lia.
Qed.

Lemma trace_diag_pair (h : heap) t rows cols l1 l2 s : wf_tensor h t -> t_like (tens h t) = false ->
  t_diag (tens h t) = true -> legs_of h t = [l1; l2] ->
  trace h t rows cols = Ok (sumpairs (dim_of h) [(l1, l2)] (entry h t) s).
Proof.
  intros W NL D EL. rewrite trace_diag by auto. f_equal. cbn [sumpairs].
  destruct (wt_diag _ _ W D) as [_ H]. rewrite (H l1) by (rewrite EL; simpl; auto).
  apply sumN_ext. intros i _. apply entry_ext. rewrite EL.
  assert (l1 <> l2) as N.
  { pose proof (wt_nodup _ _ W) as ND. rewrite EL in ND. inversion ND; subst. simpl in *. intuition. }
  intros l [<-|[<-|[]]].
  - rewrite upd_other, upd_same; auto.
  - now rewrite upd_same.
Qed.

Lemma trace_like (h : heap) t rows cols : t_like (tens h t) = true -> trace h t rows cols = Err AssertionError.
Proof. intros L. unfold trace. now rewrite L. Qed.
End Mx.
