(** Proofs about copy and toTensorLike, and the frame of the in-place operations. *)
From Coq Require Import List Arith Bool Lia String Permutation.
From Verif Require Import Base Sums NdModel HeapModel FuncsModel FuncsSpec TensorModel TensorSpec
  FuncsProofs NdProofs TensorProofs LabelProofs MatrixProofs MergeProofs CtorProofs DiagCtorProofs.
Import ListNotations.
Local Open Scope nat_scope.

Section Cp.
Context {A : Type} {HA : SR A}.
Notation heap := (heap A).

(** ** copy *)
Definition entry_idx (r : tensor A) (idx : list nat) : A :=
  match t_arr r with
  | None => r0
  | Some a => if t_diag r then match idx with
                | [] => aget a []
                | i :: is => if forallb (fun j => Nat.eqb j i) is then aget a [i] else r0
                end
              else aget a idx
  end.
Lemma forallb_map' {X Y} (f : X -> Y) (p : Y -> bool) l : forallb p (map f l) = forallb (fun x => p (f x)) l.
Proof. induction l; simpl; congruence. Qed.
Lemma entry_of_idx (r : tensor A) s : entry_of r s = entry_idx r (map s (t_legs r)).
Proof.
  unfold entry_of, entry_idx. destruct (t_arr r); auto. destruct (t_diag r); auto.
  destruct (t_legs r); auto. simpl. now rewrite forallb_map'.
Qed.
Lemma entry_same_idx (h h' : heap) t t' s s' :
  t_arr (tens h' t') = t_arr (tens h t) -> t_diag (tens h' t') = t_diag (tens h t) ->
  map s' (legs_of h' t') = map s (legs_of h t) -> entry h' t' s' = entry h t s.
Proof.
  intros Ea Ed Em. unfold entry. rewrite !entry_of_idx. unfold legs_of in Em. rewrite Em.
  unfold entry_idx. now rewrite Ea, Ed.
Qed.

Lemma arr_eq (a b : arr A) : ashape a = ashape b -> adata a = adata b -> a = b.
Proof. destruct a, b. simpl. intros -> ->. reflexivity. Qed.


Lemma mkDense_copy_ok (h : heap) t data name like : wf_tensor h t ->
  t_diag (tens h t) = false ->
  match data with Some a => wfa a /\ ashape a = dims_of h t | None => True end ->
  exists h' t', mkDense (Some (shape h t)) (Some (labels h t)) data name None like h = (h', Ok t') /\
    new_tensor h h' t' None /\ wf_tensor h' t' /\ owned h' t' /\ names_of h' t' = names_of h t /\
    dims_of h' t' = dims_of h t /\ t_diag (tens h' t') = false /\ t_like (tens h' t') = like /\
    t_name (tens h' t') = name /\
    (like = false -> forall a, data = Some a -> t_arr (tens h' t') = Some a).
Proof.
  intros W Hd Hdat. pose proof (wf_shape h t W) as Hs. rewrite Hs.
  assert (AW : args_wf h data None).
  { constructor; [|exact I]. destruct data; [apply Hdat|exact I]. }
  pose proof (mkDense_spec h (Some (dims_of h t)) (Some (labels h t)) data name None like AW) as Sp.
  destruct (mkDense (Some (dims_of h t)) (Some (labels h t)) data name None like h) as [h' [t'|e]].
  - destruct Sp as (_ & N & W' & O & E1 & E2 & E3 & _ & E4 & E5 & _ & E6).
    specialize (E4 _ eq_refl). specialize (E5 _ eq_refl).
    exists h', t'. split; auto. split; auto. split; auto. split; auto.
    split. { rewrite E4. reflexivity. }
    split; auto. split; auto. split; auto. split; auto.
    intros -> a ->. destruct (E6 a eq_refl eq_refl) as (a' & Ea & Ed). rewrite Ea. f_equal.
    apply arr_eq; auto. destruct Hdat as [_ ->].
    destruct (wf_arr h' t' W' E2) as (a2 & Ea2 & _ & Es). rewrite Ea in Ea2. injection Ea2 as <-.
    rewrite E1 in Es. congruence.
  - exfalso. destruct Sp as (_ & Hn & _). apply Hn. unfold dense_args_ok. split.
    + unfold labels, dims_of, tlegs, legs_of. now rewrite !map_length.
    + destruct data as [a|]; auto. destruct Hdat as [_ ->]. reflexivity.
Qed.

Lemma mkDiag_copy_ok (h : heap) t data name like : wf_tensor h t ->
  t_diag (tens h t) = true -> (like = false -> legs_of h t <> []) ->
  match data with Some a => wfa a /\ legs_of h t <> [] /\ ashape a = [t_len (tens h t)] | None => True end ->
  exists h' t', mkDiag (Some (DList (shape h t))) (Some (labels h t)) data name None like h = (h', Ok t') /\
    new_tensor h h' t' None /\ wf_tensor h' t' /\ owned h' t' /\ names_of h' t' = names_of h t /\
    dims_of h' t' = dims_of h t /\ t_diag (tens h' t') = true /\ t_like (tens h' t') = like /\
    t_name (tens h' t') = name /\
    (like = false -> forall a, data = Some a -> t_arr (tens h' t') = Some a).
Proof.
  intros W Hd Hn Hdat. pose proof (wf_shape h t W) as Hs.
  assert (AW : args_wf h data None).
  { constructor; [|exact I]. destruct data; [apply Hdat|exact I]. }
  assert (Hok : exists h' t', mkDiag (Some (DList (shape h t))) (Some (labels h t)) data name None like h = (h', Ok t')).
  { assert (Hsh : shape h t = repeat (t_len (tens h t)) (List.length (legs_of h t))).
    { unfold shape. now rewrite Hd. }
    rewrite Hsh. unfold mkDiag. unfold bind at 1.
    assert (Hc : checkShapeDataCompatibleD (repeat (t_len (tens h t)) (List.length (legs_of h t))) data = true).
    { destruct data as [a|]; auto. destruct Hdat as (_ & Hl & Ea). unfold checkShapeDataCompatibleD.
      rewrite Ea. destruct (legs_of h t); [congruence|]. simpl. now rewrite Nat.eqb_refl. }
    assert (Hlab : checkShapeLabelsCompatible (repeat (t_len (tens h t)) (List.length (legs_of h t))) (Some (labels h t)) = true).
    { simpl. rewrite repeat_length. unfold labels, tlegs, legs_of. rewrite map_length. apply Nat.eqb_refl. }
    assert (Hg : exists r, generateDataD (repeat (t_len (tens h t)) (List.length (legs_of h t))) data like = Ok r).
    { unfold generateDataD. destruct like; [eauto|]. specialize (Hn eq_refl).
      destruct data as [a|].
      - destruct Hdat as (_ & _ & Ea). unfold ndim. rewrite Ea. simpl. eauto.
      - destruct (legs_of h t); [congruence|]. simpl. eauto. }
    destruct Hg as (r & Hg).
    unfold bind at 1, ret at 1. unfold bind at 1, check at 1.
    unfold checkShapeDiagonalCompatible. rewrite all_eqb_repeat. unfold ret at 1.
    unfold bind at 1, check at 1. rewrite Hlab. unfold ret at 1.
    unfold bind at 1, ret at 1. unfold bind at 1, check at 1. rewrite Hc. unfold ret at 1 2.
    unfold bind at 1, liftR at 1. rewrite Hg. unfold bind at 1, reads at 1. unfold bind at 1.
    destruct (makeLegs_ok (ntens h) (labels h t) (repeat (t_len (tens h t)) (List.length (legs_of h t))) h) as (h1 & -> & _).
    { rewrite repeat_length. unfold labels, tlegs, legs_of. now rewrite map_length. }
    unfold allocs, alloc_tens. eauto. }
  destruct Hok as (h' & t' & E). exists h', t'. split; auto.
  pose proof (mkDiag_spec h (Some (DList (shape h t))) (Some (labels h t)) data name None like AW) as Sp.
  rewrite E in Sp. destruct Sp as (N & O & ND & HD & E1 & E2 & E3 & _ & E4 & E5 & _ & E6).
  specialize (E4 _ eq_refl). assert (Hne : Some (labels h t) <> None) by (intros C; inversion C).
  specialize (E5 (shape h t) eq_refl (or_intror (or_introl Hne))).
  rewrite Hs in E5.
  assert (Sane : diag_data_sane h' t' data like).
  { unfold diag_data_sane. destruct data as [a|]; auto. destruct Hdat as (_ & Hl & Ea). left.
    assert (Hl' : legs_of h' t' <> []).
    { intros C. unfold dims_of in E5. rewrite C in E5. destruct (legs_of h t); [congruence|discriminate]. }
    split; auto. rewrite Ea. f_equal.
    destruct (legs_of h' t') as [|l0 L'] eqn:EL'; [congruence|].
    rewrite <- (HD l0 (or_introl eq_refl)).
    destruct (wt_diag h t W Hd) as [_ HD0]. destruct (legs_of h t) as [|m0 L] eqn:EL; [congruence|].
    rewrite <- (HD0 m0 (or_introl eq_refl)). unfold dims_of in E5. rewrite EL, EL' in E5. simpl in E5. congruence. }
  destruct (E6 Sane) as [W' HDat].
  split; auto. split; auto. split; auto. split. { rewrite E4. reflexivity. }
  split; auto. split; auto. split; auto. split; auto.
  intros Hl a ->. destruct (HDat Hl) as (a' & Ea' & Hm). destruct Hdat as (_ & _ & Es). rewrite Es in Hm. congruence.
Qed.

Lemma copy_ok (h : heap) t : wf_tensor h t ->
  ~ (t_diag (tens h t) = true /\ t_like (tens h t) = false /\ legs_of h t = []) ->
  exists h' t', copy t h = (h', Ok t') /\ copied h h' t t' /\ t_like (tens h' t') = t_like (tens h t) /\
    forall s s', map s' (legs_of h' t') = map s (legs_of h t) -> entry h' t' s' = entry h t s.
Proof.
  intros W Hsc. unfold copy. unfold bind at 1, reads at 1. unfold bind at 1, reads at 1. unfold bind at 1, reads at 1.
  cbv beta. destruct (t_diag (tens h t)) eqn:Hd.
  - destruct (mkDiag_copy_ok h t (t_arr (tens h t)) (t_name (tens h t)) (t_like (tens h t)) W Hd) as
      (h' & t' & E & N & W' & O & E1 & E2 & E3 & E4 & E5 & E6).
    + intros Hl C. apply Hsc. auto.
    + destruct (t_like (tens h t)) eqn:Hl.
      * now rewrite (wf_like h t W Hl).
      * destruct (wf_arr h t W Hl) as (a & Ea & Wa & Es). rewrite Ea. split; auto. rewrite Hd in Es.
        destruct (legs_of h t) eqn:EL; [exfalso; apply Hsc; auto|]. split; [discriminate|auto].
    + exists h', t'. split; auto. split; [constructor; auto; congruence|]. split; auto.
      intros s s' Hm. apply entry_same_idx; auto; [|congruence].
      destruct (t_like (tens h t)) eqn:Hl.
      * rewrite (wf_like h t W Hl). apply wf_like; auto.
      * destruct (wf_arr h t W Hl) as (a & Ea & _). rewrite Ea. auto.
  - destruct (mkDense_copy_ok h t (t_arr (tens h t)) (t_name (tens h t)) (t_like (tens h t)) W Hd) as
      (h' & t' & E & N & W' & O & E1 & E2 & E3 & E4 & E5 & E6).
    + destruct (t_like (tens h t)) eqn:Hl.
      * now rewrite (wf_like h t W Hl).
      * destruct (wf_arr h t W Hl) as (a & Ea & Wa & Es). rewrite Ea. rewrite Hd in Es. auto.
    + exists h', t'. split; auto. split; [constructor; auto; congruence|]. split; auto.
      intros s s' Hm. apply entry_same_idx; auto; [|congruence].
      destruct (t_like (tens h t)) eqn:Hl.
      * rewrite (wf_like h t W Hl). apply wf_like; auto.
      * destruct (wf_arr h t W Hl) as (a & Ea & _). rewrite Ea. auto.
Qed.

Lemma copy_scalar_diag (h : heap) t : wf_tensor h t -> t_diag (tens h t) = true ->
  t_like (tens h t) = false -> legs_of h t = [] -> copy t h = (h, Err IndexError).
Proof.
  intros W Hd Hl HL. destruct (wf_arr h t W Hl) as (a & Ea & Wa & Es). rewrite Hd, HL in Es.
  unfold copy. unfold bind at 1, reads at 1. unfold bind at 1, reads at 1. unfold bind at 1, reads at 1. cbv beta.
  rewrite Hd. unfold labels, shape, tlegs. rewrite Hd. unfold legs_of in HL. rewrite HL. simpl.
  unfold mkDiag. unfold bind, ret, check, liftR. unfold checkShapeDiagonalCompatible, checkShapeLabelsCompatible, checkShapeDataCompatibleD.
  rewrite Ea, Es. simpl. unfold generateDataD. rewrite Hl. unfold ndim. rewrite Es. simpl. reflexivity.
Qed.

Lemma toTensorLike_ok (h : heap) t : wf_tensor h t ->
  exists h' t', toTensorLike t h = (h', Ok t') /\ copied h h' t t' /\ t_like (tens h' t') = true.
Proof.
  intros W. unfold toTensorLike. unfold bind at 1, reads at 1. cbv beta. destruct (t_like (tens h t)) eqn:Hl.
  - destruct (copy_ok h t W) as (h' & t' & E & C & E2 & _); [rewrite Hl; intros (_ & F & _); discriminate|].
    exists h', t'. rewrite Hl in E2. auto.
  - unfold bind at 1, reads at 1. unfold bind at 1, reads at 1. cbv beta. destruct (t_diag (tens h t)) eqn:Hd.
    + destruct (mkDiag_copy_ok h t None (t_name (tens h t)) true W Hd) as
      (h' & t' & E & N & W' & O & E1 & E2 & E3 & E4 & E5 & E6); [discriminate|exact I|].
      exists h', t'. split; auto. split; [constructor; auto; congruence|auto].
    + destruct (mkDense_copy_ok h t None (t_name (tens h t)) true W Hd) as
      (h' & t' & E & N & W' & O & E1 & E2 & E3 & E4 & E5 & E6); [exact I|].
      exists h', t'. split; auto. split; [constructor; auto; congruence|auto].
Qed.

(** ** frame of in-place operations *)
Record inplace (h h' : heap) (t : tid) : Prop := {
  ip_tens : forall t', t' <> t -> tens h' t' = tens h t';
  ip_legs : forall l, ~ In l (legs_of h t) -> l < nleg h -> legs h' l = legs h l;
  ip_bonds : bonds h' = bonds h; ip_nbond : nbond h' = nbond h;
  ip_nleg : nleg h <= nleg h'; ip_ntens : ntens h' = ntens h;
  ip_tlegs : forall l, In l (legs_of h' t) -> In l (legs_of h t) \/ nleg h <= l < nleg h' }.

Lemma inplace_refl (h : heap) t : inplace h h t.
Proof. constructor; auto. Qed.
Lemma inplace_trans (h1 h2 h3 : heap) t : inplace h1 h2 t -> inplace h2 h3 t -> inplace h1 h3 t.
Proof.
  intros [a1 a2 a3 a4 a5 a6 a7] [b1 b2 b3 b4 b5 b6 b7]. constructor; try congruence; try lia.
  - intros t' Ht. now rewrite b1, a1.
  - intros l Hl Hn. rewrite b2, a2; auto; [|lia]. intros C. apply a7 in C. destruct C as [C|C]; [auto|lia].
  - intros l Hl. apply b7 in Hl. destruct Hl as [Hl|Hl]; [|right; lia]. apply a7 in Hl. destruct Hl; [auto|right; lia].
Qed.
Lemma inplace_only_tensor (h h' : heap) t : only_tensor h h' t -> incl (legs_of h' t) (legs_of h t) -> inplace h h' t.
Proof.
  intros [a1 a2 a3 a4 a5 a6 a7 a8] Hi. constructor; auto.
  - intros l _ _. now rewrite a1.
  - lia.
Qed.
Lemma inplace_only_names (h h' : heap) t L f : only_names h h' L f -> incl L (legs_of h t) -> inplace h h' t.
Proof.
  intros O Hi. pose proof (only_names_legs _ _ _ _ t O) as E. destruct O as [a1 a2 a3 a4 a5 a6 a7 a8 a9]. constructor; auto.
  - intros t' _. now rewrite a2.
  - lia.
  - intros l Hl. left. congruence.
Qed.

Definition framed {X} (t : tid) (m : @M A X) : Prop := forall h h' r, m h = (h', r) -> inplace h h' t.
Lemma framed_bind {X Y} t (m : @M A X) (k : X -> @M A Y) : framed t m -> (forall x, framed t (k x)) -> framed t (bind m k).
Proof.
  intros Hm Hk h h' r E. unfold bind in E. destruct (m h) as [h1 [x|e]] eqn:E1.
  - eapply inplace_trans; [eapply Hm; eauto|eapply Hk; eauto].
  - injection E as <- <-. eapply Hm; eauto.
Qed.
Lemma framed_const {X} t (f : heap -> res X) : framed t (fun h => (h, f h)).
Proof. intros h h' r E. injection E as <- <-. apply inplace_refl. Qed.
Lemma framed_reads {X} t (f : heap -> X) : framed t (reads f).
Proof. exact (framed_const t (fun h => Ok (f h))). Qed.
Lemma framed_readsR {X} t (f : heap -> res X) : framed t (readsR f).
Proof. exact (framed_const t f). Qed.
Lemma framed_liftR {X} t (r : res X) : framed t (liftR r).
Proof. exact (framed_const t (fun _ => r)). Qed.
Lemma framed_ret {X} t (x : X) : framed t (ret x).
Proof. exact (framed_const t (fun _ => Ok x)). Qed.
Lemma framed_raise {X} t e : framed t (@raise A X e).
Proof. exact (framed_const t (fun _ => Err e)). Qed.
Lemma framed_assert t b : framed t (assert b).
Proof. unfold assert. destruct b; [apply framed_ret|apply framed_raise]. Qed.
Lemma framed_iterM {X} t (f : X -> @M A unit) l : (forall x, framed t (f x)) -> framed t (iterM f l).
Proof. intros Hf. induction l; simpl; [apply framed_ret|]. apply framed_bind; auto. Qed.
Lemma framed_setArr t a : framed t (setArr t a).
Proof.
  intros h h' r E. unfold setArr, modify in E. injection E as <- <-. apply inplace_only_tensor; [apply only_tensor_set|].
  unfold legs_of. simpl. rewrite upd_same. simpl. apply incl_refl.
Qed.
Lemma framed_setLen t a : framed t (setLen t a).
Proof.
  intros h h' r E. unfold setLen, modify in E. injection E as <- <-. apply inplace_only_tensor; [apply only_tensor_set|].
  unfold legs_of. simpl. rewrite upd_same. simpl. apply incl_refl.
Qed.
Lemma setLegs_inplace t ls (h h' : heap) r : setLegs t ls h = (h', r) -> incl ls (legs_of h t) -> inplace h h' t.
Proof.
  intros E Hi. unfold setLegs, modify in E. injection E as <- <-. apply inplace_only_tensor; [apply only_tensor_set|].
  unfold legs_of at 1. simpl. rewrite upd_same. exact Hi.
Qed.
Lemma remove_one_incl {X} `{Dec X} (x : X) l : forall r, remove_one x l = Some r -> incl r l.
Proof.
  induction l as [|y l IH]; simpl; intros r E; [discriminate|]. destruct (dec x y).
  - injection E as <-. apply incl_tl, incl_refl.
  - destruct (remove_one x l) as [r'|]; [|discriminate]. injection E as <-.
    intros z [->|Hz]; [left; auto|right; eapply IH; eauto].
Qed.
Lemma remove_one_In {X} `{Dec X} (x : X) l : forall r, remove_one x l = Some r -> In x l.
Proof.
  induction l as [|y l IH]; simpl; intros r E; [discriminate|]. destruct (dec x y); auto.
  destruct (remove_one x l) as [r'|]; [|discriminate]. right. eapply IH; eauto.
Qed.
Lemma framed_removeLeg t l : framed t (removeLeg t l).
Proof.
  intros h h' r E. unfold removeLeg, bind, reads in E.
  destruct (remove_one l (tlegs h t)) as [r'|] eqn:Er.
  - apply setLegs_inplace in E; auto. eapply remove_one_incl; eauto.
  - injection E as <- <-. apply inplace_refl.
Qed.
Lemma removeLegs_incl t : forall ls (h h' : heap), iterM (removeLeg t) ls h = (h', Ok tt) ->
  incl ls (legs_of h t) /\ nleg h' = nleg h.
Proof.
  induction ls as [|l ls IH]; simpl; intros h h' E.
  - injection E as <-. split; auto. intros x [].
  - unfold bind in E. destruct (removeLeg t l h) as [h1 [[]|e]] eqn:E1; [|discriminate].
    apply IH in E. destruct E as [E En]. unfold removeLeg, bind, reads in E1.
    destruct (remove_one l (tlegs h t)) as [r|] eqn:Er; [|discriminate].
    pose proof (remove_one_In _ _ _ Er). pose proof (remove_one_incl _ _ _ Er) as Hi.
    unfold setLegs, modify in E1. injection E1 as <-.
    unfold legs_of in E at 1. simpl in E. rewrite upd_same in E. simpl in E. simpl in En.
    split; [|auto]. intros x [<-|Hx]; [assumption|]. apply Hi, E, Hx.
Qed.
Lemma framed_moveLegsToFront t ls : framed t (moveLegsToFront t ls).
Proof.
  intros h h' r E. unfold moveLegsToFront in E. unfold bind at 1, reads at 1 in E. unfold bind at 1 in E.
  destruct (iterM (removeLeg t) ls h) as [h1 [[]|e]] eqn:E1.
  - pose proof E1 as E1'. apply (framed_iterM t (removeLeg t) ls (framed_removeLeg t)) in E1.
    apply removeLegs_incl in E1'. destruct E1' as [Hi Hn].
    unfold bind at 1, reads at 1 in E. unfold bind at 1 in E.
    destruct (setLegs t (ls ++ tlegs h1 t) h1) as [h2 r2] eqn:E2.
    assert (inplace h h2 t) as I2.
    { unfold setLegs, modify in E2. injection E2 as <- <-.
      destruct E1 as [a1 a2 a3 a4 a5 a6 a7]. constructor; auto.
      - intros t' Ht. simpl. rewrite upd_other by auto. auto.
      - intros l Hl. unfold legs_of in Hl at 1. simpl in Hl. rewrite upd_same in Hl. simpl in Hl.
        apply in_app_iff in Hl. destruct Hl as [Hl|Hl]; auto. }
    assert (r2 = Ok tt) as -> by (unfold setLegs, modify in E2; congruence).
    apply (inplace_trans _ h2); auto. revert E. generalize h2. clear.
    assert (F : framed t (r1 <- reads (fun h : heap => tens h t) ;;
      if t_diag r1 then ret tt else if t_like r1 then ret tt else
      match t_arr r1 with
       | None => raise AttributeError
       | Some a => a' <- liftR (np_moveaxis a (moveFromIndices (tlegs h t) ls) (seq 0 (List.length (moveFromIndices (tlegs h t) ls)))) ;;
                   setArr t (Some a')
       end)).
    { apply framed_bind; [apply framed_reads|]. intros x. destruct (t_diag x); [apply framed_ret|].
      destruct (t_like x); [apply framed_ret|]. destruct (t_arr x); [|apply framed_raise].
      apply framed_bind; [apply framed_liftR|]. intros a'. apply framed_setArr. }
    intros h2 E. exact (F _ _ _ E).
  - injection E as <- <-. apply (framed_iterM t (removeLeg t) ls (framed_removeLeg t)) in E1. exact E1.
Qed.
Lemma framed_moveLabelsToFront t labs : framed t (moveLabelsToFront t labs).
Proof. apply framed_bind; [apply framed_readsR|]. intros. apply framed_moveLegsToFront. Qed.
Lemma framed_reArrange t labs : framed t (reArrange t labs).
Proof.
  apply framed_bind; [apply framed_reads|]. intros. apply framed_bind; [apply framed_assert|]. intros.
  apply framed_moveLabelsToFront.
Qed.
Lemma framed_toTensor t labs : framed t (toTensor t labs).
Proof.
  apply framed_bind; [apply framed_reads|]. intros. apply framed_bind; [apply framed_assert|]. intros.
  apply framed_bind; [destruct labs; [apply framed_reArrange|apply framed_ret]|]. intros.
  apply framed_bind; [apply framed_reads|]. intros x2. destruct (t_arr x2); [|apply framed_raise].
  destruct (t_diag x2); [apply framed_liftR|apply framed_ret].
Qed.
Lemma getLeg_In (h : heap) t lab b l : getLeg h t lab b = Some l -> In l (legs_of h t).
Proof.
  unfold getLeg. destruct (indexOfLabel h t lab b); [|discriminate]. intros E. eapply nth_error_In; eauto.
Qed.
Lemma setLegName_inplace t l n (h h' : heap) r : setLegName l n h = (h', r) -> In l (legs_of h t) -> inplace h h' t.
Proof.
  intros E Hi. unfold setLegName, modify in E. injection E as <- <-.
  apply (inplace_only_names _ _ _ _ _ (only_names_set h l n)). intros x [<-|[]]. auto.
Qed.
Lemma framed_renameLabel t cf ct : framed t (renameLabel t cf ct).
Proof.
  intros h h' r E. unfold renameLabel, bind, reads in E. destruct (getLeg h t cf false) as [l|] eqn:El.
  - apply setLegName_inplace with (t := t) in E; auto. eapply getLeg_In; eauto.
  - injection E as <- <-. apply inplace_refl.
Qed.
Lemma framed_renameLabels t cf ct : framed t (renameLabels t cf ct).
Proof. apply framed_bind; [apply framed_assert|]. intros _. apply framed_iterM. intros. apply framed_renameLabel. Qed.

(** loops over the legs that only rename the leg at hand *)
Lemma inplace_name_loop t (body : lid -> @M A unit) :
  (forall l (h h' : heap) r, body l h = (h', r) -> In l (legs_of h t) -> inplace h h' t /\ tens h' = tens h) ->
  forall L (h h' : heap) r, incl L (legs_of h t) -> iterM body L h = (h', r) -> inplace h h' t.
Proof.
  intros Hb. induction L as [|l L IH]; simpl; intros h h' r Hi E.
  - injection E as <- <-. apply inplace_refl.
  - unfold bind in E. destruct (body l h) as [h1 [[]|e]] eqn:E1.
    + apply Hb in E1; [|apply Hi; simpl; auto]. destruct E1 as [I1 T1]. eapply inplace_trans; [exact I1|].
      eapply IH; eauto. unfold legs_of. rewrite T1. intros x Hx. apply Hi. simpl. auto.
    + injection E as <- <-. apply Hb in E1; [|apply Hi; simpl; auto]. apply E1.
Qed.
Lemma framed_addTensorTag t tag : framed t (addTensorTag t tag).
Proof.
  intros h h' r E. unfold addTensorTag in E. unfold bind at 1, reads at 1 in E.
  eapply inplace_name_loop; [| |exact E]; [|apply incl_refl].
  clear. intros l h h' r E Hi. unfold bind, reads in E.
  destruct (legname h l); try (injection E as <- <-; split; [apply inplace_refl|auto]).
  destruct (findDash s); [injection E as <- <-; split; [apply inplace_refl|auto]|].
  split; [eapply setLegName_inplace; eauto|]. unfold setLegName, modify in E. injection E as <- <-. reflexivity.
Qed.
Lemma framed_removeTensorTag t : framed t (removeTensorTag t).
Proof.
  intros h h' r E. unfold removeTensorTag in E. unfold bind at 1, reads at 1 in E.
  eapply inplace_name_loop; [| |exact E]; [|apply incl_refl].
  clear. intros l h h' r E Hi. unfold bind, reads in E.
  destruct (legname h l); try (injection E as <- <-; split; [apply inplace_refl|auto]).
  destruct (findDash s); [|injection E as <- <-; split; [apply inplace_refl|auto]].
  split; [eapply setLegName_inplace; eauto|]. unfold setLegName, modify in E. injection E as <- <-. reflexivity.
Qed.

Lemma framed_outProduct t ls lab : framed t (outProduct t ls lab).
Proof.
  apply framed_bind; [apply framed_reads|]. intros rr. destruct (t_diag rr); [apply framed_raise|].
  apply framed_bind; [apply framed_assert|]. intros _.
  apply framed_bind; [apply framed_moveLegsToFront|]. intros _.
  apply framed_bind; [apply framed_reads|]. intros sh.
  intros h h' r E. unfold bind at 1, reads at 1 in E. unfold bind at 1 in E.
  match type of E with match ?m h with _ => _ end = _ => set (mm := m) in E end.
  assert (Hm : match mm h with (h1, _) => inplace h h1 t /\ legs_of h1 t = legs_of h t /\ nleg h1 = nleg h end).
  { unfold mm. destruct (t_like (tens h t)).
    - unfold reads. split; [apply inplace_refl|auto].
    - destruct (t_arr (tens h t)) as [a|]; [|unfold raise; split; [apply inplace_refl|auto]].
      unfold bind, liftR. destruct (np_reshape_front a (skipn (List.length ls) sh)) as [a'|e]; [|split; [apply inplace_refl|auto]].
      unfold setArr, modify, ret. split; [|split; auto].
      + apply (framed_setArr t (Some a') h _ (Ok tt)). reflexivity.
      + unfold legs_of. simpl. rewrite upd_same. reflexivity. }
  destruct (mm h) as [h1 [d|e]]; [|injection E as <- <-; apply Hm]. clear mm. destruct Hm as (I1 & L1 & N1).
  eapply inplace_trans; [exact I1|].
  unfold bind, newLeg, allocs, alloc_leg, setLegs, modify, ret in E. injection E as <- <-. simpl.
  constructor; simpl; auto.
  - intros t' Ht. now rewrite upd_other by auto.
  - intros l Hl Hn. rewrite upd_other by lia. auto.
  - intros l Hl. unfold legs_of in Hl at 1. simpl in Hl. rewrite upd_same in Hl. simpl in Hl.
    destruct Hl as [<-|Hl]; [right; lia|]. left. rewrite L1. rewrite <- (firstn_skipn (List.length ls) (legs_of h t)).
    apply in_app_iff. auto.
Qed.
Lemma framed_outProductLabels t labs lab : framed t (outProductLabels t labs lab).
Proof.
  apply framed_bind; [apply framed_reads|]. intros rr. destruct (t_diag rr); [apply framed_raise|].
  apply framed_bind; [apply framed_assert|]. intros _. apply framed_bind; [apply framed_reads|]. intros ls.
  destruct (find _ ls); [|apply framed_outProduct].
  apply framed_bind; [|intros; apply framed_raise]. apply framed_iterM. intros [l|]; [apply framed_removeLeg|apply framed_raise].
Qed.

Lemma framed_sumOutLeg t l w : framed t (sumOutLeg t l w).
Proof.
  intros h h' r E. unfold sumOutLeg in E. unfold bind at 1, reads at 1 in E.
  destruct (index_of l (t_legs (tens h t))) as [idx|]; [|injection E as <- <-; apply inplace_refl].
  set (ls' := firstn idx (t_legs (tens h t)) ++ skipn (S idx) (t_legs (tens h t))) in *.
  assert (Hi : incl ls' (legs_of h t)).
  { intros x Hx. unfold ls' in Hx. apply in_app_iff in Hx. unfold legs_of.
    destruct Hx as [Hx|Hx].
    - rewrite <- (firstn_skipn idx (t_legs (tens h t))). apply in_app_iff; auto.
    - rewrite <- (firstn_skipn (S idx) (t_legs (tens h t))). apply in_app_iff; auto. }
  destruct (t_diag (tens h t)).
  - unfold bind at 1 in E. destruct (setLegs t ls' h) as [h1 r1] eqn:E1.
    assert (r1 = Ok tt) as -> by (unfold setLegs, modify in E1; congruence).
    apply setLegs_inplace in E1; auto. eapply inplace_trans; [exact E1|].
    revert E. generalize h1. clear. intros h1 E.
    match type of E with ?m h1 = _ => assert (F : framed t m) end; [|exact (F _ _ _ E)].
    destruct ls'.
    + destruct (t_arr (tens h t)); [|apply framed_raise].
      apply framed_bind; [destruct w; [apply framed_liftR|apply framed_ret]|]. intros.
      apply framed_bind; [apply framed_setArr|]. intros. apply framed_setLen.
    + destruct w; [|apply framed_ret]. destruct (t_arr (tens h t)); [|apply framed_raise].
      apply framed_bind; [apply framed_liftR|]. intros. apply framed_setArr.
  - destruct (t_arr (tens h t)) as [a|]; [|destruct w; injection E as <- <-; apply inplace_refl].
    unfold bind at 1, liftR in E. destruct (sumOnAxis a idx w) as [a'|e]; [|injection E as <- <-; apply inplace_refl].
    unfold bind at 1 in E. destruct (setArr t (Some a') h) as [h1 r1] eqn:E1.
    assert (r1 = Ok tt) as -> by (unfold setArr, modify in E1; congruence).
    assert (legs_of h1 t = legs_of h t) as EL.
    { unfold setArr, modify in E1. injection E1 as <-. unfold legs_of. simpl. now rewrite upd_same. }
    apply framed_setArr in E1. eapply inplace_trans; [exact E1|]. apply setLegs_inplace in E; auto. now rewrite EL.
Qed.
Lemma framed_sumOutLegByLabel t lab b w : framed t (sumOutLegByLabel t lab b w).
Proof.
  apply framed_bind; [apply framed_reads|]. intros [l|]; [apply framed_sumOutLeg|apply framed_ret].
Qed.


Lemma fst_framed {X} t (m : @M A X) h : framed t m -> inplace h (fst (m h)) t.
Proof. intros F. apply (F h _ (snd (m h))). now destruct (m h). Qed.
Lemma after_inplace o t h : inplace h (after o t h) t.
Proof.
  destruct o; simpl; apply fst_framed; auto using framed_renameLabel, framed_renameLabels, framed_addTensorTag,
    framed_removeTensorTag, framed_moveLegsToFront, framed_moveLabelsToFront, framed_reArrange, framed_toTensor,
    framed_outProduct, framed_outProductLabels, framed_sumOutLeg, framed_sumOutLegByLabel.
  apply framed_iterM. intros. apply framed_sumOutLegByLabel.
Qed.



Lemma apart_sym (h : heap) t t' : apart h t t' -> apart h t' t.
Proof.
  intros (a & b & c). split; [auto|]. split.
  - intros l Hl. split; [auto|]. intros C. destruct (b l C). auto.
  - intros l Hl. apply b; auto.
Qed.
Lemma apart_step (h h' : heap) t t' : apart h t t' -> inplace h h' t -> apart h' t t' /\ same_state h h' t'.
Proof.
  intros (a & b & c) [i1 i2 i3 i4 i5 i6 i7]. assert (tens h' t' = tens h t') as E by auto.
  assert (legs_of h' t' = legs_of h t') as EL by (unfold legs_of; congruence). split.
  - split; [auto|]. rewrite EL. split.
    + intros l Hl. apply i7 in Hl. destruct Hl as [Hl|Hl].
      * apply b in Hl. split; [lia|apply Hl].
      * split; [lia|]. intros C. apply c in C. lia.
    + intros l Hl. apply c in Hl. lia.
  - split; auto. split; auto. intros l Hl. apply i2; auto. intros C. apply b in C. tauto.
Qed.
Lemma apart_after (h : heap) t t' o (b : bool) : apart h t t' ->
  apart (after o (if b then t else t') h) t t' /\
  same_state h (after o (if b then t else t') h) (if b then t' else t).
Proof.
  intros Ha. destruct b.
  - apply (apart_step h); auto. apply after_inplace.
  - apply apart_sym in Ha. destruct (apart_step h _ t' t Ha (after_inplace o t' h)) as [H1 H2]. split; auto.
    now apply apart_sym.
Qed.
Lemma run2_apart (h : heap) t t' os : apart h t t' -> apart (run2 t t' os h) t t'.
Proof.
  revert h. induction os as [|[b o] os IH]; simpl; intros h Ha; auto. apply IH. now apply (apart_after h t t' o b).
Qed.
Lemma copied_apart (h h' : heap) t t' : wf_tensor h t -> copied h h' t t' -> apart h' t t' /\ same_state h h' t.
Proof.
  intros W [N W' _ _ _ _ _]. destruct N as [n1 n2 n3 n4 n5 n6 n7 (L1 & L2 & L3)].
  pose proof (wt_id h t W) as Ht. assert (tens h' t = tens h t) as Et by auto.
  assert (legs_of h' t = legs_of h t) as EL by (unfold legs_of; congruence). split.
  - split; [lia|]. rewrite EL. split.
    + intros l Hl. apply (wt_alloc h t W) in Hl. split; [lia|]. rewrite L2. intros C. apply in_seq in C. lia.
    + intros l Hl. apply (wt_alloc h' t' W'); auto.
  - split; auto. split; auto. intros l Hl. apply L1. apply (wt_alloc h t W). auto.
Qed.
Lemma copy_independent (h h1 : heap) t t' os o (b : bool) : wf_tensor h t -> copy t h = (h1, Ok t') ->
  let h2 := run2 t t' os h1 in
  same_state h2 (after o (if b then t else t') h2) (if b then t' else t).
Proof.
  intros W E. assert (C : copied h h1 t t').
  { destruct (t_diag (tens h t)) eqn:Hd, (t_like (tens h t)) eqn:Hl, (legs_of h t) eqn:HL;
    try (destruct (copy_ok h t W) as (h' & t2 & E' & C & _); [rewrite ?Hd, ?Hl, ?HL; intros (?&?&?); discriminate|];
         rewrite E in E'; injection E' as <- <-; exact C).
    rewrite copy_scalar_diag in E; auto. discriminate. }
  apply apart_after. apply run2_apart. eapply copied_apart; eauto.
Qed.
Lemma same_state_entry (h h' : heap) t s : same_state h h' t ->
  entry h' t s = entry h t s /\ legs_of h' t = legs_of h t /\ names_of h' t = names_of h t /\ dims_of h' t = dims_of h t.
Proof.
  intros (E & HL & _). unfold entry, legs_of, names_of, dims_of, legs_of. rewrite E. repeat split; auto;
  apply map_ext_in; intros l Hl; unfold dim_of; now rewrite HL.
Qed.
End Cp.
