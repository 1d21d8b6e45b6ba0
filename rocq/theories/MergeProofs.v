(** Proofs about outProduct and sumOutLeg. *)
From Coq Require Import List Arith Bool Lia String Permutation.
From Verif Require Import Base Sums NdModel HeapModel FuncsModel FuncsSpec TensorModel TensorSpec
  FuncsProofs NdProofs TensorProofs LabelProofs MatrixProofs.
Import ListNotations.
Local Open Scope nat_scope.

Lemma forallb_ext_in' {X} (f g : X -> bool) l : (forall x, In x l -> f x = g x) -> forallb f l = forallb g l.
Proof. induction l; simpl; intros H; auto. rewrite H by auto. f_equal. auto. Qed.

Section Mg.
Context {A : Type} {HA : SR A}.
Add Ring Aring5 : (@SR_theory A HA).
Notation heap := (heap A).

Lemma fold_left_prodn l : fold_left Nat.mul l 1 = prodn l.
Proof.
  rewrite <- fold_left_rev_right. unfold prodn.
  assert (forall l acc, fold_right (fun x y => y * x) acc l = acc * fold_right Nat.mul 1 l) as E.
  { clear. induction l; intros; simpl; [lia|]. rewrite IHl. lia. }
  rewrite E, Nat.mul_1_l. change (prodn (rev l) = prodn l).
  induction l; simpl; auto. rewrite prodn_app, IHl. simpl. lia.
Qed.

Lemma prodn_pos l : (forall x, In x l -> 0 < x) -> 0 < prodn l.
Proof.
  induction l as [|x l IH]; simpl; intros H; [lia|].
  assert (0 < x) by auto. assert (0 < prodn l) by auto. change (fold_right Nat.mul 1 l) with (prodn l). nia.
Qed.

Lemma outProduct_ok (h : heap) t ls lab : wf_tensor h t -> t_diag (tens h t) = false ->
  ls <> [] -> NoDup ls -> incl ls (legs_of h t) ->
  (t_like (tens h t) = false -> forall l, In l (legs_of h t) -> ~ In l ls -> 0 < dim_of h l) ->
  exists h', outProduct t ls lab h = (h', Ok (nleg h)) /\ merged h h' t ls (nleg h) lab /\ wf_tensor h' t /\
    (forall s s', in_bounds h (legs_of h t) s ->
      (forall l, In l (legs_of h t) -> ~ In l ls -> s' l = s l) ->
      s' (nleg h) = ravel (map (dim_of h) ls) (map s ls) ->
      entry h' t s' = entry h t s).
Proof.
  intros W D NE ND Hi Pos. unfold outProduct. unfold bind at 1, reads at 1. rewrite D.
  assert (Nat.ltb 0 (List.length ls) = true) as E0 by (destruct ls; [congruence|reflexivity]).
  unfold bind at 1, assert. rewrite E0. unfold ret at 1.
  destruct (moveLegsToFront_ok h t ls W ND Hi) as (h1 & Em & OT & W1 & EL1 & D1 & L1 & Ln1 & Nm1 & En1).
  unfold bind at 1. rewrite Em.
  set (rest := filter (fun l => negb (inb l ls)) (legs_of h t)) in *.
  unfold bind at 1, reads at 1. unfold bind at 1, reads at 1.
  assert (ELt : t_legs (tens h1 t) = ls ++ rest) by exact EL1.
  assert (Hrest : forall l, In l rest <-> In l (legs_of h t) /\ ~ In l ls).
  { intros l. unfold rest. rewrite filter_In, negb_true_iff, inb_false. tauto. }
  assert (Hnew : ~ In (nleg h) (legs_of h t)).
  { intros H. apply (wt_alloc _ _ W) in H. lia. }
  rewrite ELt. rewrite firstn_app, skipn_app, firstn_all, skipn_all, Nat.sub_diag. simpl firstn. simpl skipn.
  rewrite app_nil_r, app_nil_l.
  rewrite L1. destruct (t_like (tens h t)) eqn:L.
  - unfold bind, reads. unfold newLeg, allocs, alloc_leg. unfold setLegs, modify, ret.
    eexists. rewrite (ot_nleg _ _ _ OT). split; [reflexivity|].
    assert (t_arr (tens h1 t) = None) as Ea by (apply wf_like; auto).
    split; [|split].
    + constructor; simpl.
      * intros l Hl. rewrite upd_other by lia. now rewrite (ot_legs _ _ _ OT).
      * now rewrite (ot_bonds _ _ _ OT).
      * intros t' Ht'. rewrite upd_other by auto. now rewrite (ot_tens _ _ _ OT).
      * rewrite upd_same. f_equal. rewrite fold_left_prodn. unfold legdim, dim_of. now rewrite (ot_legs _ _ _ OT).
      * rewrite upd_same. simpl. repeat split; auto; congruence.
      * unfold legs_of at 1. simpl. rewrite upd_same. reflexivity.
      * auto.
      * now rewrite (ot_nbond _ _ _ OT).
      * now rewrite (ot_ntens _ _ _ OT).
      * now rewrite (ot_rng _ _ _ OT).
      * now rewrite (ot_rpos _ _ _ OT).
    + constructor.
      * simpl. rewrite (ot_ntens _ _ _ OT). apply W.
      * unfold legs_of. simpl. rewrite upd_same. simpl. constructor.
        -- intros H. apply Hrest in H. tauto.
        -- apply NoDup_filter. apply W.
      * unfold legs_of. simpl. rewrite upd_same. simpl. intros l [<-|Hl]; [lia|].
        apply Hrest in Hl as [Hl _]. apply (wt_alloc _ _ W) in Hl. lia.
      * unfold data_ok. simpl. rewrite upd_same. simpl. rewrite L1, Ea. exact I.
      * simpl. rewrite upd_same. simpl. rewrite D1, D. discriminate.
    + intros s s' Hs H1 H2. unfold entry, entry_of. simpl. rewrite upd_same. simpl. rewrite Ea.
      rewrite (wf_like _ _ W L). reflexivity.
  - destruct (wf_arr h1 t W1) as (a & Ea & Wa & Es); [congruence|]. rewrite D1, D in Es. rewrite Ea.
    unfold dims_of in Es. rewrite EL1 in Es.
    rewrite (wf_shape _ _ W1). unfold dims_of. rewrite EL1, map_app.
    assert (skipn (List.length ls) (map (dim_of h1) ls ++ map (dim_of h1) rest) = map (dim_of h1) rest) as ->.
    { rewrite skipn_app. rewrite skipn_all2 by (rewrite map_length; lia). rewrite map_length, Nat.sub_diag. reflexivity. }
    assert (Ed : forall l, dim_of h1 l = dim_of h l) by (apply dim_of_legs; apply OT).
    assert (Emap : forall L0, map (dim_of h1) L0 = map (dim_of h) L0) by (intros; apply map_ext; auto).
    assert (Ppos : 0 < prodn (map (dim_of h1) rest)).
    { apply prodn_pos. intros x Hx. apply in_map_iff in Hx as (l & <- & Hl). apply Hrest in Hl as [? ?].
      rewrite Ed. apply Pos; auto. }
    unfold np_reshape_front. destruct (Nat.eqb_spec (prodn (map (dim_of h1) rest)) 0) as [|_]; [lia|].
    assert (List.length (adata a) = prodn (map (dim_of h1) ls) * prodn (map (dim_of h1) rest)) as Elen.
    { rewrite Wa, Es, map_app, prodn_app. reflexivity. }
    rewrite Elen, Nat.mod_mul by lia. rewrite Nat.eqb_refl. rewrite Nat.div_mul by lia.
    unfold bind, liftR, setArr, modify, ret, newLeg, allocs, alloc_leg, setLegs, modify, ret. simpl nth.
    eexists. simpl nleg. rewrite (ot_nleg _ _ _ OT). split; [reflexivity|].
    split; [|split].
    + constructor; simpl.
      * intros l Hl. rewrite upd_other by lia. now rewrite (ot_legs _ _ _ OT).
      * now rewrite (ot_bonds _ _ _ OT).
      * intros t' Ht'. rewrite !upd_other by auto. now rewrite (ot_tens _ _ _ OT).
      * rewrite upd_same. simpl. now rewrite Emap.
      * rewrite !upd_same. simpl. repeat split; auto; congruence.
      * unfold legs_of at 1. simpl. rewrite !upd_same. reflexivity.
      * auto.
      * now rewrite (ot_nbond _ _ _ OT).
      * now rewrite (ot_ntens _ _ _ OT).
      * now rewrite (ot_rng _ _ _ OT).
      * now rewrite (ot_rpos _ _ _ OT).
    + constructor.
      * simpl. rewrite (ot_ntens _ _ _ OT). apply W.
      * unfold legs_of. simpl. rewrite !upd_same. simpl. constructor.
        -- intros H. apply Hrest in H. tauto.
        -- apply NoDup_filter. apply W.
      * unfold legs_of. simpl. rewrite !upd_same. simpl. intros l [<-|Hl]; [lia|].
        apply Hrest in Hl as [Hl _]. apply (wt_alloc _ _ W) in Hl. lia.
      * unfold data_ok. simpl. rewrite !upd_same. simpl. rewrite L1. split.
        -- rewrite Elen. reflexivity.
        -- rewrite D1, D. unfold dim_of at 3. simpl. rewrite upd_same. simpl. f_equal.
           apply map_ext_in. intros l Hl. unfold dim_of. simpl. rewrite upd_other; auto.
           intros ->. apply Hrest in Hl. tauto.
      * simpl. rewrite !upd_same. simpl. rewrite D1, D. discriminate.
    + intros s s' Hs H1 H2. rewrite <- (En1 s Hs). unfold entry, entry_of. simpl. rewrite !upd_same. simpl.
      rewrite Ea, D1, D. rewrite ELt.
      apply aget_ravel; auto. simpl ashape. rewrite Es, map_app, map_app, ravel_app by (now rewrite !map_length).
      cbn [map ravel]. rewrite H2, !Emap. f_equal. f_equal. apply map_ext_in.
      intros l Hl. apply Hrest in Hl as [? ?]. auto.
Qed.

Lemma outProduct_zero (h : heap) t ls lab l : wf_tensor h t -> t_diag (tens h t) = false -> t_like (tens h t) = false ->
  ls <> [] -> NoDup ls -> incl ls (legs_of h t) -> In l (legs_of h t) -> ~ In l ls -> dim_of h l = 0 ->
  exists h', outProduct t ls lab h = (h', Err ValueError).
Proof.
  intros W D L NE ND Hi Hl Hn Hz. unfold outProduct. unfold bind at 1, reads at 1. rewrite D.
  assert (Nat.ltb 0 (List.length ls) = true) as E0 by (destruct ls; [congruence|reflexivity]).
  unfold bind at 1, assert. rewrite E0. unfold ret at 1.
  destruct (moveLegsToFront_ok h t ls W ND Hi) as (h1 & Em & OT & W1 & EL1 & D1 & L1 & Ln1 & Nm1 & En1).
  unfold bind at 1. rewrite Em. unfold bind at 1, reads at 1. unfold bind at 1, reads at 1.
  rewrite L1, L. destruct (wf_arr h1 t W1) as (a & Ea & Wa & Es); [congruence|]. rewrite Ea.
  rewrite (wf_shape _ _ W1). unfold dims_of. rewrite EL1, map_app.
  rewrite skipn_app. rewrite skipn_all2 by (rewrite map_length; lia). rewrite map_length, Nat.sub_diag. simpl skipn. simpl app.
  assert (prodn (map (dim_of h1) (filter (fun l0 => negb (inb l0 ls)) (legs_of h t))) = 0) as Z.
  { assert (In l (filter (fun l0 => negb (inb l0 ls)) (legs_of h t))) as Hf.
    { apply filter_In. split; auto. now apply negb_true_iff, inb_false. }
    apply in_split in Hf as (u & v & ->). rewrite map_app, prodn_app. simpl.
    rewrite (dim_of_legs _ _ (ot_legs _ _ _ OT)), Hz. lia. }
  unfold bind, liftR, np_reshape_front. rewrite Z. simpl. eauto.
Qed.

Lemma outProduct_diag (h : heap) t ls lab : t_diag (tens h t) = true ->
  outProduct t ls lab h = (h, Err TypeError).
Proof. intros D. unfold outProduct, bind, reads. now rewrite D. Qed.

Lemma outProduct_empty (h : heap) t lab : t_diag (tens h t) = false ->
  outProduct t [] lab h = (h, Err AssertionError).
Proof. intros D. unfold outProduct, bind, reads. now rewrite D. Qed.

Lemma outProduct_bad (h : heap) t ls lab : NoDup (legs_of h t) -> t_diag (tens h t) = false -> ls <> [] ->
  ~ (NoDup ls /\ incl ls (legs_of h t)) ->
  exists h', outProduct t ls lab h = (h', Err ValueError) /\ only_tensor h h' t.
Proof.
  intros W D NE H. destruct (moveLegsToFront_err h t ls W H) as (h' & E & O).
  exists h'. split; auto. unfold outProduct. unfold bind at 1, reads at 1. rewrite D.
  assert (Nat.ltb 0 (List.length ls) = true) as E0 by (destruct ls; [congruence|reflexivity]).
  unfold bind at 1, assert. rewrite E0. unfold ret at 1. unfold bind at 1. rewrite E. reflexivity.
Qed.

(** ** sumOutLeg *)
Lemma index_of_split (l : nat) L : NoDup L -> In l L ->
  exists u v, L = u ++ l :: v /\ index_of l L = Some (List.length u) /\ ~ In l u /\ ~ In l v /\
    firstn (List.length u) L ++ skipn (S (List.length u)) L = u ++ v.
Proof.
  intros ND Hl. destruct (split_first l L Hl) as (u & v & -> & Hu). exists u, v. split; auto.
  assert (index_of l (u ++ l :: v) = Some (List.length u)) as Ei.
  { clear -Hu. induction u as [|x u IH]; simpl.
    - destruct (dec l l); congruence.
    - destruct (dec l x) as [->|e]; [exfalso; apply Hu; simpl; auto|]. rewrite IH; auto. simpl in Hu. tauto. }
  split; auto. split; auto. split.
  - apply NoDup_remove_2 in ND. rewrite in_app_iff in ND. tauto.
  - rewrite firstn_app, Nat.sub_diag, firstn_all. simpl firstn. rewrite app_nil_r. f_equal.
    rewrite skipn_app, skipn_all2 by lia. replace (S (List.length u) - List.length u) with 1 by lia. reflexivity.
Qed.

(** the weight of index i *)

Lemma sumN_pick n (f : nat -> A) k : k < n -> sumN n (fun i => if Nat.eqb k i then f i else r0) = f k.
Proof.
  intros H. rewrite (sumN_single n _ k); auto.
  - now rewrite Nat.eqb_refl.
  - intros i _ Hi. destruct (Nat.eqb_spec k i); congruence.
Qed.

Lemma sumOutLeg_ok (h : heap) t l w : wf_tensor h t -> t_like (tens h t) = false -> In l (legs_of h t) ->
  match w with None => True | Some v => ashape v = [dim_of h l] /\ List.length (legs_of h t) <= 25 end ->
  exists h', sumOutLeg t l w h = (h', Ok tt) /\ only_tensor h h' t /\ wf_tensor h' t /\
    legs_of h' t = others (legs_of h t) [l] /\
    t_diag (tens h' t) = t_diag (tens h t) /\ t_like (tens h' t) = false /\
    forall s, in_bounds h (others (legs_of h t) [l]) s ->
      entry h' t s = sumN (dim_of h l) (fun i => rmul (weight w i) (entry h t (upd s l i))).
Proof.
  intros W NL Hl Hw. unfold sumOutLeg. unfold bind at 1, reads at 1. change (t_legs (tens h t)) with (legs_of h t).
  destruct (index_of_split l (legs_of h t) (wt_nodup _ _ W) Hl) as (u & v & EL & Ei & Hu & Hv & Ef).
  rewrite Ei, Ef.
  assert (others (legs_of h t) [l] = u ++ v) as Eo.
  { rewrite EL. unfold others.
    assert (forall L, ~ In l L -> filter (fun l0 => negb (inb l0 [l])) L = L) as Q.
    { clear. induction L as [|x L IH]; simpl; intros H; auto. destruct (dec x l) as [->|]; simpl; [exfalso; auto|].
      f_equal. apply IH. auto. }
    rewrite filter_app. simpl filter. destruct (dec l l); [|congruence]. simpl. now rewrite !Q. }
  rewrite Eo.
  assert (ND' : NoDup (u ++ v)).
  { pose proof (wt_nodup _ _ W) as ND. rewrite EL in ND. now apply NoDup_remove_1 in ND. }
  assert (Hin : forall x, In x (u ++ v) -> In x (legs_of h t)).
  { intros x Hx. rewrite EL. apply in_app_iff in Hx. apply in_app_iff. simpl. tauto. }
  destruct (wf_arr _ _ W NL) as (a & Ea & Wa & Es). rewrite Ea.
  destruct (t_diag (tens h t)) eqn:D.
  - destruct (wt_diag _ _ W D) as [_ Hd]. pose proof (Hd l Hl) as Edl.
    assert (ashape a = [t_len (tens h t)]) as Es'.
    { destruct (legs_of h t); [contradiction|]. exact Es. }
    assert (Hmul : forall vv, w = Some vv -> np_mul_small a vv = Ok (tab [t_len (tens h t)] (fun idx => rmul (aget a idx) (aget vv idx)))).
    { intros vv ->. unfold np_mul_small. rewrite Es'. destruct Hw as [-> _]. rewrite Edl, Nat.eqb_refl. reflexivity. }
    destruct (u ++ v) as [|x xs] eqn:Euv.
    + (* a single leg *)
      assert (u = [] /\ v = []) as [-> ->] by (now apply app_eq_nil in Euv). simpl in EL.
      set (a1 := match w with None => a | Some vv => tab [t_len (tens h t)] (fun idx => rmul (aget a idx) (aget vv idx)) end).
      assert (Ha1 : (match w with None => ret a | Some v0 => liftR (np_mul_small a v0) end) (put_legs h t []) = (put_legs h t [], Ok a1)).
      { unfold a1, ret, liftR. destruct w as [vv|]; auto. now rewrite (Hmul vv). }
      unfold bind at 1, setLegs, modify. fold (put_legs h t []). unfold bind at 1. rewrite Ha1.
      unfold bind, setArr, setLen, modify.
      eexists. split; [reflexivity|]. split; [|split; [|split; [|split; [|split]]]].
      * constructor; simpl; auto. intros t' Ht'. rewrite !upd_other; auto.
      * constructor; simpl.
        -- apply W.
        -- unfold legs_of. simpl. rewrite !upd_same. simpl. constructor.
        -- unfold legs_of. simpl. rewrite !upd_same. simpl. tauto.
        -- unfold data_ok. rewrite !upd_same. simpl. rewrite NL, D. auto.
        -- rewrite !upd_same. unfold legs_of. simpl. rewrite !upd_same. simpl. split; auto. tauto.
      * unfold legs_of. simpl. rewrite !upd_same. reflexivity.
      * simpl. rewrite !upd_same. exact D.
      * simpl. rewrite !upd_same. exact NL.
      * intros s _. unfold entry at 1, entry_of. simpl. rewrite !upd_same. simpl. rewrite D.
        unfold aget. simpl. unfold np_sum.
        rewrite Edl. unfold a1.
        destruct w as [vv|]; simpl weight.
        -- unfold tab. simpl. rewrite app_nil_r || idtac.
           rewrite sumL_map. change (flat_map (fun i : nat => [[i]]) (seq 0 (t_len (tens h t)))) with (indices [t_len (tens h t)]).
           transitivity (sumL (seq 0 (t_len (tens h t))) (fun i => rmul (aget a [i]) (aget vv [i]))).
           { simpl indices. rewrite sumL_flat_map. apply sumL_ext. intros i _. simpl. ring. }
           unfold sumN. apply sumL_ext. intros i _. unfold entry, entry_of. rewrite Ea, D.
           change (t_legs (tens h t)) with (legs_of h t). rewrite EL. simpl. rewrite upd_same. ring.
        -- rewrite <- (map_nth_seq (adata a) r0) at 1. rewrite sumL_map. rewrite Wa, Es'. simpl prodn. rewrite Nat.mul_1_r.
           unfold sumN. apply sumL_ext. intros i _. unfold entry, entry_of. rewrite Ea, D.
           change (t_legs (tens h t)) with (legs_of h t). rewrite EL. simpl. rewrite upd_same. unfold aget. rewrite Es'. simpl.
           rewrite Nat.mul_1_r, Nat.add_0_r. ring.
    + (* further legs remain *)
      set (a1 := match w with None => a | Some vv => tab [t_len (tens h t)] (fun idx => rmul (aget a idx) (aget vv idx)) end).
      assert (Wa1 : wfa a1 /\ ashape a1 = [t_len (tens h t)]).
      { unfold a1. destruct w; auto. split; [apply tab_wfa|reflexivity]. }
      assert (exists h', (setLegs t (x :: xs) ;;;
         match w with
         | None => ret tt
         | Some v0 => a' <- liftR (np_mul_small a v0) ;; setArr t (Some a')
         end) h = (h', Ok tt) /\ only_tensor h h' t /\
         tens h' t = mkTensor (x :: xs) (Some a1) true false (t_len (tens h t)) (t_name (tens h t))) as (h' & E & OT & Et).
      { unfold bind at 1, setLegs, modify. destruct w as [vv|].
        - unfold bind, liftR. rewrite (Hmul vv eq_refl). unfold setArr, modify. eexists. split; [reflexivity|]. split.
          + constructor; simpl; auto. intros t' Ht'. rewrite !upd_other; auto.
          + simpl. rewrite !upd_same. simpl. rewrite D, NL. reflexivity.
        - eexists. split; [reflexivity|]. split.
          + constructor; simpl; auto. intros t' Ht'. rewrite !upd_other; auto.
          + simpl. rewrite !upd_same. simpl. rewrite Ea, D, NL. reflexivity. }
      exists h'. split; [exact E|]. split; auto.
      assert (Ed : forall l, dim_of h' l = dim_of h l) by (apply dim_of_legs; apply OT).
      split; [|split; [|split; [|split]]].
      * constructor.
        -- rewrite (ot_ntens _ _ _ OT). apply W.
        -- unfold legs_of. rewrite Et. exact ND'.
        -- unfold legs_of. rewrite Et. simpl t_legs. intros y Hy. rewrite (ot_nleg _ _ _ OT). apply W. now apply Hin.
        -- unfold data_ok. rewrite Et. simpl. exact Wa1.
        -- unfold legs_of. rewrite Et. simpl t_legs. simpl t_len. intros _. split; [discriminate|].
           intros y Hy. rewrite Ed. apply Hd. now apply Hin.
      * unfold legs_of. rewrite Et. reflexivity.
      * rewrite Et. auto.
      * rewrite Et. auto.
      * intros s Hs. unfold entry at 1, entry_of. rewrite Et. simpl t_arr. simpl t_diag. simpl t_legs. cbn iota.
        assert (Hsx : s x < dim_of h l).
        { rewrite Edl. rewrite <- (Hd x) by (apply Hin; simpl; auto). apply Hs. simpl; auto. }
        transitivity (sumN (dim_of h l) (fun i => if Nat.eqb (s x) i then (if forallb (fun l' => Nat.eqb (s l') (s x)) xs then aget a1 [i] else r0) else r0)).
        { now rewrite sumN_pick. }
        apply sumN_ext. intros i Hi'.
        (* the old entry, with l moved to the front *)
        assert (entry h t (upd s l i) = if forallb (fun l' => Nat.eqb (upd s l i l') (upd s l i l)) (x :: xs) then aget a [i] else r0) as Eo'.
        { unfold entry. transitivity (entry_of (mkTensor (l :: x :: xs) (t_arr (tens h t)) (t_diag (tens h t)) (t_like (tens h t)) (t_len (tens h t)) (t_name (tens h t))) (upd s l i)).
          - symmetry. apply diag_entry_perm; auto. change (t_legs (tens h t)) with (legs_of h t).
            rewrite EL, <- Euv. apply Permutation_middle.
          - unfold entry_of. cbn [t_arr t_diag t_legs]. rewrite Ea, D. rewrite upd_same. reflexivity. }
        rewrite Eo'. clear Eo'. rewrite upd_same.
        assert (forallb (fun l' => Nat.eqb (upd s l i l') i) (x :: xs) = forallb (fun l' => Nat.eqb (s l') i) (x :: xs)) as ->.
        { apply forallb_ext_in'. intros y Hy. rewrite upd_other; auto. intros ->.
          assert (In l (u ++ v)) as Hbad by (rewrite Euv; exact Hy). apply in_app_iff in Hbad. tauto. }
        cbn [forallb]. destruct (Nat.eqb_spec (s x) i) as [e|e]; cbn [andb].
        -- rewrite e. destruct (forallb (fun l' => Nat.eqb (s l') i) xs); [|ring].
           unfold a1. destruct w as [vv|]; simpl weight; [|ring].
           rewrite aget_tab; [ring|]. constructor; [lia|constructor].
        -- ring.
  - (* dense *)
    set (w' := match w with None => (fun _ x => x) | Some vv => (fun i x => rmul x (aget vv [i])) end).
    assert (sumOnAxis a (List.length u) w = Ok (np_sum_axis a (List.length u) w')) as Es1.
    { unfold sumOnAxis, w'. destruct w as [vv|]; auto. destruct Hw as [Hw1 Hw2].
      assert (ndim a = List.length (legs_of h t)) as En by (unfold ndim; rewrite Es; unfold dims_of; apply map_length).
      rewrite En. destruct (Nat.ltb_spec 25 (List.length (legs_of h t))); [lia|]. rewrite Hw1, Es. unfold dims_of.
      rewrite EL, map_app, app_nth2 by (rewrite map_length; lia). rewrite map_length, Nat.sub_diag. simpl.
      now rewrite Nat.eqb_refl. }
    unfold bind at 1, liftR. rewrite Es1. unfold bind, setArr, setLegs, modify.
    eexists. split; [reflexivity|].
    match goal with |- only_tensor _ ?hh _ /\ _ => set (h' := hh) end.
    assert (OT : only_tensor h h' t).
    { constructor; simpl; auto. intros t' Ht'. rewrite !upd_other; auto. }
    assert (Et : tens h' t = mkTensor (u ++ v) (Some (np_sum_axis a (List.length u) w')) false false (t_len (tens h t)) (t_name (tens h t))).
    { simpl. rewrite !upd_same. simpl. rewrite D, NL. reflexivity. }
    clearbody h'.
    assert (Ed : forall l, dim_of h' l = dim_of h l) by (apply dim_of_legs; apply OT).
    assert (Esh : firstn (List.length u) (ashape a) ++ skipn (S (List.length u)) (ashape a) = map (dim_of h) (u ++ v)).
    { rewrite Es. unfold dims_of. rewrite EL, !map_app. cbn [map].
      rewrite firstn_app, map_length, Nat.sub_diag, firstn_all2 by (rewrite map_length; lia).
      simpl firstn. rewrite app_nil_r. f_equal.
      rewrite skipn_app, map_length, skipn_all2 by (rewrite map_length; lia).
      replace (S (List.length u) - List.length u) with 1 by lia. reflexivity. }
    split; auto. split; [|split; [|split; [|split]]].
    + constructor.
      * rewrite (ot_ntens _ _ _ OT). apply W.
      * unfold legs_of. rewrite Et. exact ND'.
      * unfold legs_of. rewrite Et. simpl t_legs. intros y Hy. rewrite (ot_nleg _ _ _ OT). apply W. now apply Hin.
      * unfold data_ok. rewrite Et. cbn [t_like t_arr t_diag t_legs]. split; [apply tab_wfa|]. unfold np_sum_axis, tab. cbn [ashape]. rewrite Esh. apply map_ext. auto.
      * rewrite Et. discriminate.
    + unfold legs_of. rewrite Et. reflexivity.
    + rewrite Et. auto.
    + rewrite Et. auto.
    + intros s Hs. unfold entry at 1, entry_of. rewrite Et. simpl t_arr. simpl t_diag. simpl t_legs. cbn iota.
      unfold np_sum_axis. rewrite aget_tab.
      2:{ rewrite Esh. apply inrange_map. exact Hs. }
      assert (nth (List.length u) (ashape a) 0 = dim_of h l) as ->.
      { rewrite Es. unfold dims_of. rewrite EL, map_app, app_nth2 by (rewrite map_length; lia).
        rewrite map_length, Nat.sub_diag. reflexivity. }
      apply sumN_ext. intros i _.
      assert (firstn (List.length u) (map s (u ++ v)) ++ i :: skipn (List.length u) (map s (u ++ v)) = map (upd s l i) (legs_of h t)) as ->.
      { rewrite EL, !map_app. cbn [map]. rewrite firstn_app, skipn_app, map_length, Nat.sub_diag.
        rewrite firstn_all2, skipn_all2 by (rewrite map_length; lia). simpl firstn. simpl skipn. rewrite app_nil_r, app_nil_l.
        rewrite upd_same. f_equal; [|f_equal].
        - apply map_ext_in. intros y Hy. rewrite upd_other; auto. intros ->. contradiction.
        - apply map_ext_in. intros y Hy. rewrite upd_other; auto. intros ->. contradiction. }
      unfold entry, entry_of. rewrite Ea, D. change (t_legs (tens h t)) with (legs_of h t).
      unfold w'. destruct w; simpl weight; ring.
Qed.

Lemma sumOutLeg_absent (h : heap) t l w : ~ In l (legs_of h t) -> sumOutLeg t l w h = (h, Ok tt).
Proof.
  intros H. unfold sumOutLeg, bind, reads. change (t_legs (tens h t)) with (legs_of h t).
  apply index_of_None in H. now rewrite H.
Qed.
End Mg.
