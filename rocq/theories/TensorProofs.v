(** Proofs about single-tensor operations. *)
From Coq Require Import List Arith Bool Lia String Permutation.
From Verif Require Import Base Sums NdModel HeapModel FuncsModel FuncsSpec TensorModel TensorSpec
  FuncsProofs NdProofs.
Import ListNotations.

Section T.
Context {A : Type} {HA : SR A}.
Add Ring Aring3 : (@SR_theory A HA).
Notation heap := (heap A).

(** ** General facts *)
Lemma only_tensor_refl (h : heap) t : only_tensor h h t.
Proof. constructor; auto. Qed.
Lemma only_tensor_trans (h1 h2 h3 : heap) t : only_tensor h1 h2 t -> only_tensor h2 h3 t -> only_tensor h1 h3 t.
Proof.
  intros [? ? T1] [? ? T2]. constructor; try congruence. intros. rewrite T2, T1; auto.
Qed.
Lemma only_tensor_set (h : heap) t v : only_tensor h (set_tens h t v) t.
Proof. constructor; auto. intros. simpl. now apply upd_other. Qed.

Lemma forallb_eq_ext (s s' : assignment) l0 ls :
  (forall l, In l (l0 :: ls) -> s l = s' l) ->
  forallb (fun l' => Nat.eqb (s l') (s l0)) ls = forallb (fun l' => Nat.eqb (s' l') (s' l0)) ls.
Proof.
  intros H. assert (s l0 = s' l0) as E0 by (apply H; simpl; auto). rewrite E0.
  assert (forall l, In l ls -> s l = s' l) as H' by (intros; apply H; simpl; auto). clear H.
  induction ls as [|x ls IH]; simpl; auto. rewrite H' by (simpl; auto). f_equal.
  apply IH. intros; apply H'; simpl; auto.
Qed.

Lemma entry_of_ext (r : tensor A) s s' : (forall l, In l (t_legs r) -> s l = s' l) -> entry_of r s = entry_of r s'.
Proof.
  intros H. unfold entry_of. destruct (t_arr r); auto. destruct (t_diag r).
  - destruct (t_legs r) as [|l0 ls]; auto. rewrite (forallb_eq_ext s s') by auto.
    rewrite (H l0) by (simpl; auto). reflexivity.
  - f_equal. apply map_ext_in. auto.
Qed.
Lemma entry_ext (h : heap) t s s' : (forall l, In l (legs_of h t) -> s l = s' l) -> entry h t s = entry h t s'.
Proof. apply entry_of_ext. Qed.

(** diagonal entries only depend on the set of legs *)
Lemma forallb_eq_spec (s : assignment) l0 ls :
  forallb (fun l' => Nat.eqb (s l') (s l0)) ls = true <-> (forall l l', In l (l0 :: ls) -> In l' (l0 :: ls) -> s l = s l').
Proof.
  rewrite forallb_forall. split.
  - intros H.
    assert (forall l, In l (l0 :: ls) -> s l = s l0) as G.
    { intros l [<-|Hl]; auto. apply Nat.eqb_eq. auto. }
    intros l l' Hl Hl'. rewrite (G l), (G l'); auto.
  - intros H l Hl. apply Nat.eqb_eq. apply H; simpl; auto.
Qed.

Lemma diag_entry_perm (r r' : tensor A) s : t_diag r = true -> t_diag r' = true ->
  t_arr r' = t_arr r -> Permutation (t_legs r') (t_legs r) -> entry_of r' s = entry_of r s.
Proof.
  intros D D' Ea P. unfold entry_of. rewrite Ea, D, D'. destruct (t_arr r) as [a|]; auto.
  destruct (t_legs r) as [|l ls] eqn:E1, (t_legs r') as [|l' ls'] eqn:E2; auto.
  - apply Permutation_sym, Permutation_nil in P. discriminate.
  - apply Permutation_nil in P. discriminate.
  - destruct (forallb (fun l'0 => s l'0 =? s l) ls) eqn:F1, (forallb (fun l'0 => s l'0 =? s l') ls') eqn:F2; auto.
    + f_equal. f_equal. rewrite forallb_eq_spec in F1. apply F1.
      * apply (Permutation_in _ P). simpl; auto.
      * simpl; auto.
    + exfalso. assert (forallb (fun l'0 => s l'0 =? s l') ls' = true); [|congruence].
      rewrite forallb_eq_spec in *. intros x y Hx Hy. apply F1; eapply Permutation_in; eauto.
    + exfalso. assert (forallb (fun l'0 => s l'0 =? s l) ls = true); [|congruence].
      rewrite forallb_eq_spec in *. apply Permutation_sym in P. intros x y Hx Hy. apply F2; eapply Permutation_in; eauto.
Qed.

(** ** moveLegsToFront *)
Definition put_legs (h : heap) (t : tid) (ls : list lid) : heap :=
  let r := tens h t in
  set_tens h t (mkTensor ls (t_arr r) (t_diag r) (t_like r) (t_len r) (t_name r)).

Lemma removeLegs_eq (h : heap) t ls :
  exists r' h', iterM (removeLeg t) ls h =
    (h', match listDifference (legs_of h t) ls with Ok _ => Ok tt | Err e => Err e end) /\
    only_tensor h h' t /\ tens h' t = tens (put_legs h t r') t /\
    (forall r, listDifference (legs_of h t) ls = Ok r -> r' = r).
Proof.
  revert h. induction ls as [|l ls IH]; intros h; simpl.
  - exists (legs_of h t), h. split; auto. split; [apply only_tensor_refl|]. split.
    + unfold put_legs. simpl. rewrite upd_same. unfold legs_of. now destruct (tens h t).
    + intros r E; congruence.
  - unfold bind, removeLeg, bind, reads. change (tlegs h t) with (legs_of h t).
    destruct (remove_one l (legs_of h t)) as [r1|] eqn:E1.
    + unfold setLegs, modify.
      destruct (IH (put_legs h t r1)) as (r' & h' & E & OT & Et & Hr).
      assert (legs_of (put_legs h t r1) t = r1) as El.
      { unfold legs_of, put_legs. simpl. now rewrite upd_same. }
      rewrite El in *. exists r', h'. split; [exact E|]. split.
      * eapply only_tensor_trans; [apply only_tensor_set | exact OT].
      * split; auto. rewrite Et. unfold put_legs. simpl. rewrite !upd_same. reflexivity.
    + exists (legs_of h t), h. unfold raise. split; auto. split; [apply only_tensor_refl|]. split; [|discriminate].
      unfold put_legs. simpl. rewrite upd_same. unfold legs_of. now destruct (tens h t).
Qed.

(** removal of distinct members *)
Lemma count_NoDup {X} `{Dec X} (l : list X) x : NoDup l -> count x l <= 1.
Proof.
  induction 1; simpl; [lia|]. destruct (dec x x0); [|lia]. subst. rewrite count_notin; auto.
Qed.

Lemma listDifference_NoDup {X} `{Dec X} (cur ls : list X) : NoDup cur -> NoDup ls -> incl ls cur ->
  listDifference cur ls = Ok (filter (fun l => negb (inb l ls)) cur).
Proof.
  intros ND NDl Hi. pose proof (listDifference_cases cur ls) as H0.
  destruct (listDifference cur ls) as [r|e].
  - destruct H0 as (_ & -> & _). f_equal. clear NDl Hi.
    assert (forall b, (forall x, In x cur -> (b x = 0 <-> ~ In x ls) ) ->
      drop_budget b cur = filter (fun l => negb (inb l ls)) cur) as G.
    { induction ND as [|x cur Hx ND IH]; intros b Hb; simpl; auto.
      destruct (b x) eqn:Eb.
      - assert (~ In x ls) as Hn by (apply Hb; simpl; auto). apply inb_false in Hn. rewrite Hn. simpl.
        f_equal. apply IH. intros; apply Hb; simpl; auto.
      - assert (inb x ls = true) as Hn.
        { destruct (inb x ls) eqn:E; auto. apply inb_false in E. apply Hb in E; simpl; auto. congruence. }
        rewrite Hn. simpl. apply IH. intros y Hy. destruct (dec y x); [subst; contradiction|].
        apply Hb; simpl; auto. }
    apply G. intros x _. split; intros E.
    + intros Hx. apply count_In in Hx. lia.
    + now apply count_notin.
  - destruct H0 as (_ & x & Hx). exfalso.
    destruct (in_dec dec x ls) as [i|i].
    + pose proof (count_NoDup ls x NDl). apply Hi in i. apply count_In in i. lia.
    + rewrite (count_notin x ls) in Hx by auto. lia.
Qed.

Lemma listDifference_Err {X} `{Dec X} (cur ls : list X) : NoDup cur -> ~ (NoDup ls /\ incl ls cur) ->
  listDifference cur ls = Err ValueError.
Proof.
  intros ND Hn. pose proof (listDifference_cases cur ls) as H0.
  destruct (listDifference cur ls) as [r|e]; [|destruct H0 as [-> _]; auto].
  exfalso. apply Hn. destruct H0 as (Hc & _ & P). split.
  - apply Permutation_sym in P. apply (Permutation_NoDup P) in ND.
    now apply NoDup_app_inv in ND.
  - intros x Hx. apply (Permutation_in _ P). apply in_app_iff; auto.
Qed.

Lemma rest_perm (cur ls : list nat) : NoDup cur -> NoDup ls -> incl ls cur ->
  Permutation (ls ++ filter (fun l => negb (inb l ls)) cur) cur.
Proof.
  intros ND NDl Hi. pose proof (listDifference_cases cur ls) as H0.
  rewrite listDifference_NoDup in H0; auto. tauto.
Qed.

Lemma data_ok_legs (h : heap) (r : tensor A) (ls : list lid) :
  t_diag r = true -> Permutation ls (t_legs r) ->
  data_ok h r -> data_ok h (mkTensor ls (t_arr r) (t_diag r) (t_like r) (t_len r) (t_name r)).
Proof.
  unfold data_ok. simpl. intros D P. rewrite D. destruct (t_like r), (t_arr r); auto.
  intros [H1 H2]. split; auto. rewrite H2. destruct (t_legs r) eqn:E, ls; auto.
  - apply Permutation_sym, Permutation_nil in P. discriminate.
  - apply Permutation_nil in P. discriminate.
Qed.

Lemma dim_of_legs (h h' : heap) : legs h' = legs h -> forall l, dim_of h' l = dim_of h l.
Proof. unfold dim_of. intros ->. auto. Qed.

Lemma moveLegsToFront_ok (h : heap) t ls : wf_tensor h t -> NoDup ls -> incl ls (legs_of h t) ->
  exists h', moveLegsToFront t ls h = (h', Ok tt) /\ only_tensor h h' t /\ wf_tensor h' t /\
    legs_of h' t = ls ++ filter (fun l => negb (inb l ls)) (legs_of h t) /\
    t_diag (tens h' t) = t_diag (tens h t) /\ t_like (tens h' t) = t_like (tens h t) /\
    t_len (tens h' t) = t_len (tens h t) /\ t_name (tens h' t) = t_name (tens h t) /\
    forall s, in_bounds h (legs_of h t) s -> entry h' t s = entry h t s.
Proof.
  intros W NDl Hi.
  destruct (removeLegs_eq h t ls) as (r' & h1 & E & OT & Et & Hr).
  rewrite listDifference_NoDup in E, Hr by (auto; apply W).
  specialize (Hr _ eq_refl). set (rest := filter (fun l => negb (inb l ls)) (legs_of h t)) in *. subst r'.
  unfold moveLegsToFront. unfold bind at 1, reads at 1.
  unfold bind at 1. rewrite E. unfold bind at 1, reads at 1.
  assert (tlegs h1 t = rest) as El by (unfold tlegs; rewrite Et; simpl; rewrite upd_same; auto).
  rewrite El. unfold bind at 1, setLegs, modify.
  set (r2 := mkTensor (ls ++ rest) (t_arr (tens h t)) (t_diag (tens h t)) (t_like (tens h t)) (t_len (tens h t)) (t_name (tens h t))).
  assert (Et' : tens h1 t = mkTensor rest (t_arr (tens h t)) (t_diag (tens h t)) (t_like (tens h t)) (t_len (tens h t)) (t_name (tens h t))).
  { rewrite Et. unfold put_legs. simpl. now rewrite upd_same. }
  rewrite Et'. simpl t_arr. simpl t_diag. simpl t_like. simpl t_len. simpl t_name.
  fold r2. set (h2 := set_tens h1 t r2).
  unfold bind at 1, reads at 1.
  assert (tens h2 t = r2) as Eh2 by (unfold h2; simpl; apply upd_same). rewrite Eh2.
  assert (only_tensor h h2 t) as OT2 by (eapply only_tensor_trans; [exact OT | apply only_tensor_set]).
  assert (P : Permutation (ls ++ rest) (legs_of h t)) by (apply rest_perm; auto; apply W).
  assert (wf_common : forall h3, only_tensor h h3 t -> (exists a, tens h3 t = mkTensor (ls ++ rest) a (t_diag (tens h t)) (t_like (tens h t)) (t_len (tens h t)) (t_name (tens h t))) ->
     data_ok h3 (tens h3 t) -> wf_tensor h3 t).
  { intros h3 OT3 (a3 & E3) D3. constructor.
    - rewrite (ot_ntens _ _ _ OT3). apply W.
    - unfold legs_of. rewrite E3. simpl. eapply Permutation_NoDup; [apply Permutation_sym, P|]. apply W.
    - unfold legs_of. rewrite E3. simpl. intros l Hl. rewrite (ot_nleg _ _ _ OT3). apply W.
      eapply Permutation_in; eauto.
    - auto.
    - unfold legs_of. rewrite E3. simpl. intros D. destruct (wt_diag _ _ W D) as [W1 W2]. split.
      + intros E0. apply W1. rewrite E0 in P. now apply Permutation_nil in P.
      + intros l Hl. rewrite (dim_of_legs _ _ (ot_legs _ _ _ OT3)). apply W2. eapply Permutation_in; eauto. }
  pose proof (wt_data _ _ W) as Wd.
  change (t_diag r2) with (t_diag (tens h t)). change (t_like r2) with (t_like (tens h t)). change (t_arr r2) with (t_arr (tens h t)).
  destruct (t_diag (tens h t)) eqn:D.
  - exists h2. unfold ret. split; auto. split; auto. split; [|split; [|split; [|split; [|split; [|split]]]]].
    + apply wf_common; auto. { exists (t_arr (tens h t)). rewrite Eh2. reflexivity. }
      rewrite Eh2. pose proof (data_ok_legs h (tens h t) (ls ++ rest) D P Wd) as Hd.
      unfold data_ok in *. simpl in *. rewrite D in *. exact Hd.
    + unfold legs_of. rewrite Eh2. reflexivity.
    + rewrite Eh2. reflexivity.
    + rewrite Eh2. reflexivity.
    + rewrite Eh2. reflexivity.
    + rewrite Eh2. reflexivity.
    + intros s _. unfold entry. rewrite Eh2. apply diag_entry_perm; auto.
  - destruct (t_like (tens h t)) eqn:L.
    + exists h2. unfold ret. split; auto. unfold data_ok in Wd. rewrite L in Wd.
      destruct (t_arr (tens h t)) eqn:Ea; [contradiction|].
      split; auto. split; [|split; [|split; [|split; [|split; [|split]]]]].
      * apply wf_common; auto. { exists None. rewrite Eh2. reflexivity. }
        rewrite Eh2. reflexivity.
      * unfold legs_of. rewrite Eh2. reflexivity.
      * rewrite Eh2. reflexivity.
      * rewrite Eh2. reflexivity.
      * rewrite Eh2. reflexivity.
      * rewrite Eh2. reflexivity.
      * intros s _. unfold entry, entry_of. rewrite Eh2, Ea. reflexivity.
    + unfold data_ok in Wd. rewrite L in Wd. destruct (t_arr (tens h t)) as [a|] eqn:Ea; [|contradiction].
      rewrite D in Wd. destruct Wd as [Wa Ws].
      destruct (moveaxis_named a (legs_of h t) ls (dim_of h) Wa Ws (wt_nodup _ _ W) NDl Hi) as (a' & Em & Wa' & Ws' & Hent).
      change (positions (legs_of h t) ls) with (moveFromIndices (tlegs h t) ls) in Em.
      unfold bind, liftR. rewrite Em. unfold setArr, modify. rewrite Eh2. simpl t_legs. simpl t_diag. simpl t_like. simpl t_len. simpl t_name.
      set (r3 := mkTensor (ls ++ rest) (Some a') false false (t_len (tens h t)) (t_name (tens h t))).
      set (h3 := set_tens h2 t r3).
      assert (tens h3 t = r3) as Eh3 by (unfold h3; simpl; apply upd_same).
      assert (only_tensor h h3 t) as OT3 by (eapply only_tensor_trans; [exact OT2 | apply only_tensor_set]).
      exists h3. split; auto. split; auto. split; [|split; [|split; [|split; [|split; [|split]]]]].
      * apply wf_common; auto. { exists (Some a'). rewrite Eh3. reflexivity. }
        rewrite Eh3. unfold data_ok. simpl. split; auto. rewrite Ws'. apply map_ext.
        intros l. symmetry. apply dim_of_legs. apply OT3.
      * unfold legs_of. rewrite Eh3. reflexivity.
      * rewrite Eh3. reflexivity.
      * rewrite Eh3. reflexivity.
      * rewrite Eh3. reflexivity.
      * rewrite Eh3. reflexivity.
      * intros s Hs. unfold entry, entry_of. rewrite Eh3, Ea. simpl. rewrite D. apply Hent. exact Hs.
Qed.

Lemma moveLegsToFront_err (h : heap) t ls : NoDup (legs_of h t) -> ~ (NoDup ls /\ incl ls (legs_of h t)) ->
  exists h', moveLegsToFront t ls h = (h', Err ValueError) /\ only_tensor h h' t.
Proof.
  intros W Hn. destruct (removeLegs_eq h t ls) as (r' & h1 & E & OT & _ & _).
  rewrite listDifference_Err in E; auto. exists h1. split; auto.
  unfold moveLegsToFront. unfold bind at 1, reads at 1. unfold bind at 1. rewrite E. reflexivity.
Qed.
End T.
