(** Proofs about labels: lookup, renaming, tags, reordering by label. *)
From Coq Require Import List Arith Bool Lia String Ascii Permutation.
From Verif Require Import Base Sums NdModel HeapModel FuncsModel FuncsSpec TensorModel TensorSpec
  FuncsProofs NdProofs TensorProofs.
Import ListNotations.
Local Open Scope list_scope.
Local Open Scope nat_scope.

Section L.
Context {A : Type} {HA : SR A}.
Notation heap := (heap A).


Lemma nth_occ_filter {X} (f : X -> pname) (L : list X) e k i :
  nth_occ e k (map f L) = Some i ->
  nth_error (filter (fun x => if dec e (f x) then true else false) L) k = nth_error L i /\ i < List.length L.
Proof.
  revert k i. induction L as [|x L IH]; simpl; intros k i E; [discriminate|].
  destruct (dec e (f x)).
  - destruct k.
    + injection E as <-. simpl. split; auto. lia.
    + destruct (nth_occ e k (map f L)) eqn:E'; [|discriminate]. injection E as <-.
      apply IH in E' as [H1 H2]. simpl. split; auto. lia.
  - destruct (nth_occ e k (map f L)) eqn:E'; [|discriminate]. injection E as <-.
    apply IH in E' as [H1 H2]. simpl. split; auto. lia.
Qed.

Lemma nth_occ_inj {X} `{Dec X} (e e' : X) k k' l i :
  nth_occ e k l = Some i -> nth_occ e' k' l = Some i -> e = e' /\ k = k'.
Proof.
  intros H1 H2. apply nth_occ_Some in H1 as [H1 C1]. apply nth_occ_Some in H2 as [H2 C2].
  assert (e = e') by congruence. subst. auto.
Qed.

Lemma count_firstn_S {X} `{Dec X} (x : X) l : forall i, nth_error l i = Some x ->
  count x (firstn (S i) l) = S (count x (firstn i l)).
Proof.
  induction l as [|y l IH]; intros [|i] E; try discriminate.
  - injection E as ->. simpl. destruct (dec x x); [lia|congruence].
  - simpl in E. apply IH in E. change (firstn (S (S i)) (y :: l)) with (y :: firstn (S i) l).
    change (firstn (S i) (y :: l)) with (y :: firstn i l). cbn [count]. lia.
Qed.

Definition pick (h : heap) (t : tid) (i : option nat) : res lid :=
  match i with
  | None => Err ValueError
  | Some k => match nth_error (tlegs h t) k with Some l => Ok l | None => Err IndexError end
  end.

Lemma getLegsByLabel_gen (h : heap) t labs : forall seen,
  match rmapM (pick h t) (kth_requests (labels h t) seen labs) with
  | Ok ls =>
      List.length ls = List.length labs /\
      (forall k lab, nth_error labs k = Some lab ->
         nth_error ls k = nth_error (filter (named h lab) (legs_of h t)) (count lab (seen ++ firstn k labs)) /\
         exists i, nth_occ lab (count lab (seen ++ firstn k labs)) (labels h t) = Some i /\
                   nth_error ls k = nth_error (legs_of h t) i) /\
      (forall lab, In lab labs -> count lab (seen ++ labs) <= count lab (names_of h t))
  | Err e => e = ValueError /\ exists lab, count lab (seen ++ labs) > count lab (names_of h t)
  end.
Proof.
  induction labs as [|lab labs IH]; intros seen; cbn [kth_requests rmapM rbind].
  - split; auto. split; [intros [|k]; discriminate|]. intros lab [].
  - destruct (nth_occ lab (count lab seen) (labels h t)) as [i|] eqn:E; simpl pick.
    + destruct (nth_occ_filter (legname h) (tlegs h t) _ _ _ E) as [F1 F2].
      destruct (nth_error (tlegs h t) i) as [l|] eqn:El.
      2:{ apply nth_error_None in El. lia. }
      cbn [rbind]. specialize (IH (seen ++ [lab])).
      destruct (rmapM (pick h t) (kth_requests (labels h t) (seen ++ [lab]) labs)) as [ls|e]; cbn [rbind].
      * destruct IH as (L & Hk & Hc). split; [simpl; lia|]. split.
        -- intros [|k] lab'; simpl.
           ++ intros E'. injection E' as <-. rewrite app_nil_r. split.
              ** symmetry. exact F1.
              ** exists i. split; [exact E|]. symmetry. exact El.
           ++ intros E'. specialize (Hk k lab' E'). rewrite <- app_assoc in Hk. exact Hk.
        -- intros lab' [->|Hl].
           ++ destruct (in_dec dec lab' labs) as [Hi|Hi].
              ** specialize (Hc lab' Hi). rewrite <- app_assoc in Hc. exact Hc.
              ** rewrite count_app. simpl. rewrite (count_notin lab' labs) by auto.
                 destruct (dec lab' lab'); [|congruence].
                 assert (~ count lab' (labels h t) <= count lab' seen) as N.
                 { intros C. apply nth_occ_count in C. congruence. }
                 change (names_of h t) with (labels h t). lia.
           ++ specialize (Hc lab' Hl). rewrite <- app_assoc in Hc. exact Hc.
      * destruct IH as (-> & lab' & Hl). split; auto. exists lab'. rewrite <- app_assoc in Hl. exact Hl.
    + split; auto. exists lab. apply nth_occ_count in E. rewrite count_app. simpl.
      destruct (dec lab lab); [|congruence]. change (names_of h t) with (labels h t). lia.
Qed.

Lemma getLegsByLabel_spec (h : heap) t labs :
  match getLegsByLabel h t labs with
  | Ok ls =>
      List.length ls = List.length labs /\
      (forall k lab, nth_error labs k = Some lab ->
         nth_error ls k = nth_error (filter (named h lab) (legs_of h t)) (count lab (firstn k labs))) /\
      (NoDup (legs_of h t) -> NoDup ls) /\ incl ls (legs_of h t) /\
      (forall lab, count lab labs <= count lab (names_of h t))
  | Err e => e = ValueError /\ exists lab, count lab labs > count lab (names_of h t)
  end.
Proof.
  unfold getLegsByLabel. fold (pick h t). rewrite generateIndices_spec.
  pose proof (getLegsByLabel_gen h t labs []) as G.
  destruct (rmapM (pick h t) (kth_requests (labels h t) [] labs)) as [ls|e]; auto.
  destruct G as (L & Hk & Hc). split; auto. split; [|split; [|split]].
  - intros k lab E. apply (Hk k lab E).
  - intros ND. apply NoDup_nth_error. intros i j Hi E.
    destruct (nth_error labs i) as [li|] eqn:Ei. 2:{ apply nth_error_None in Ei. lia. }
    destruct (Hk i li Ei) as (_ & pi & Oi & Ni). rewrite Ni in E.
    assert (Hj : j < List.length ls).
    { apply nth_error_Some. rewrite <- E. rewrite <- Ni. apply nth_error_Some. auto. }
    destruct (nth_error labs j) as [lj|] eqn:Ej. 2:{ apply nth_error_None in Ej. lia. }
    destruct (Hk j lj Ej) as (_ & pj & Oj & Nj). rewrite Nj in E.
    assert (pi = pj).
    { eapply (proj1 (NoDup_nth_error (legs_of h t)) ND); auto.
      apply nth_error_Some. rewrite <- Ni. apply nth_error_Some. auto. }
    subst pj. destruct (nth_occ_inj _ _ _ _ _ _ Oi Oj) as [-> C]. simpl in C.
    destruct (Nat.lt_trichotomy i j) as [H|[H|H]]; auto; exfalso.
    + assert (count lj (firstn (S i) labs) <= count lj (firstn j labs)) as Q.
      { replace j with (S i + (j - S i)) by lia. rewrite <- (firstn_skipn (S i) (firstn (S i + (j - S i)) labs)).
        rewrite count_app, firstn_firstn, Nat.min_l by lia. lia. }
      assert (count lj (firstn (S i) labs) = S (count lj (firstn i labs))) as Q2.
      { now apply count_firstn_S. }
      lia.
    + assert (count lj (firstn (S j) labs) <= count lj (firstn i labs)) as Q.
      { replace i with (S j + (i - S j)) by lia. rewrite <- (firstn_skipn (S j) (firstn (S j + (i - S j)) labs)).
        rewrite count_app, firstn_firstn, Nat.min_l by lia. lia. }
      assert (count lj (firstn (S j) labs) = S (count lj (firstn j labs))) as Q2.
      { now apply count_firstn_S. }
      lia.
  - intros l Hl. apply In_nth_error in Hl as (k & Ek).
    destruct (nth_error labs k) as [lab|] eqn:Elab.
    + destruct (Hk k lab Elab) as (_ & i & _ & E). rewrite Ek in E. symmetry in E. eapply nth_error_In; eauto.
    + apply nth_error_None in Elab. assert (k < List.length ls) by (apply nth_error_Some; congruence). lia.
  - intros lab. destruct (in_dec dec lab labs); [apply (Hc lab); auto|]. rewrite count_notin; auto. lia.
Qed.

(** names of the legs found *)
Lemma getLegsByLabel_names (h : heap) t labs ls : getLegsByLabel h t labs = Ok ls ->
  map (fun l => l_name (legs h l)) ls = labs.
Proof.
  intros E. pose proof (getLegsByLabel_spec h t labs) as G. rewrite E in G.
  destruct G as (L & Hk & _). apply nth_ext with (d := NNone) (d' := NNone); [now rewrite map_length|].
  intros k Hk'. rewrite map_length in Hk'.
  destruct (nth_error labs k) as [lab|] eqn:El. 2:{ apply nth_error_None in El. lia. }
  rewrite (nth_error_nth labs k NNone El).
  specialize (Hk k lab El). destruct (nth_error ls k) as [l|] eqn:Els. 2:{ apply nth_error_None in Els. lia. }
  apply nth_error_nth. rewrite nth_error_map, Els. simpl. f_equal. symmetry in Hk.
  apply nth_error_In in Hk. apply filter_In in Hk as [_ Hk]. unfold named in Hk.
  destruct (dec lab (l_name (legs h l))); congruence.
Qed.

(** ** moveLabelsToFront, reArrange *)
Lemma moveLabelsToFront_ok (h : heap) t labs : wf_tensor h t ->
  (forall lab, count lab labs <= count lab (names_of h t)) ->
  exists ls h', getLegsByLabel h t labs = Ok ls /\ moveLabelsToFront t labs h = (h', Ok tt) /\
    map (fun l => l_name (legs h l)) ls = labs /\
    only_tensor h h' t /\ wf_tensor h' t /\
    legs_of h' t = ls ++ filter (fun l => negb (inb l ls)) (legs_of h t) /\
    forall s, in_bounds h (legs_of h t) s -> entry h' t s = entry h t s.
Proof.
  intros W Hc. pose proof (getLegsByLabel_spec h t labs) as G.
  destruct (getLegsByLabel h t labs) as [ls|e] eqn:E.
  - destruct G as (L & Hk & ND & Hi & _). specialize (ND (wt_nodup _ _ W)).
    destruct (moveLegsToFront_ok h t ls W ND Hi) as (h' & E1 & E2 & E3 & E4 & _ & _ & _ & _ & E5).
    exists ls, h'. split; auto. split.
    + unfold moveLabelsToFront, bind, readsR. rewrite E. auto.
    + split; auto. now apply getLegsByLabel_names in E.
  - exfalso. destruct G as (_ & lab & Hl). specialize (Hc lab). lia.
Qed.

Lemma moveLabelsToFront_err (h : heap) t labs :
  (exists lab, count lab labs > count lab (names_of h t)) ->
  moveLabelsToFront t labs h = (h, Err ValueError).
Proof.
  intros (lab & Hl). pose proof (getLegsByLabel_spec h t labs) as G.
  unfold moveLabelsToFront, bind, readsR.
  destruct (getLegsByLabel h t labs) as [ls|e] eqn:E.
  - exfalso. destruct G as (_ & _ & _ & _ & Hc). specialize (Hc lab). lia.
  - destruct G as (-> & _). auto.
Qed.

Lemma reArrange_ok (h : heap) t labs : wf_tensor h t -> Permutation (names_of h t) labs ->
  exists h', reArrange t labs h = (h', Ok tt) /\ only_tensor h h' t /\ wf_tensor h' t /\
    names_of h' t = labs /\ Permutation (legs_of h' t) (legs_of h t) /\
    forall s, in_bounds h (legs_of h t) s -> entry h' t s = entry h t s.
Proof.
  intros W P.
  destruct (moveLabelsToFront_ok h t labs W) as (ls & h' & E & E1 & En & OT & W' & El & Hs).
  { intros lab. apply Nat.eq_le_incl. symmetry. revert lab. now apply count_perm. }
  assert (filter (fun l => negb (inb l ls)) (legs_of h t) = []) as Er.
  { pose proof (getLegsByLabel_spec h t labs) as G. rewrite E in G. destruct G as (L & _ & ND & Hi & _).
    specialize (ND (wt_nodup _ _ W)). pose proof (rest_perm _ _ (wt_nodup _ _ W) ND Hi) as Q.
    apply Permutation_length in Q. apply Permutation_length in P. rewrite app_length in Q.
    unfold names_of in P. rewrite map_length in P.
    apply length_zero_iff_nil. lia. }
  rewrite Er, app_nil_r in El.
  exists h'. unfold reArrange, bind, reads.
  assert (compareLists (labels h t) labs = true) as -> by (apply compareLists_perm; exact P).
  simpl. split; auto. split; auto. split; auto. split.
  - unfold names_of. rewrite El. rewrite (ot_legs _ _ _ OT). exact En.
  - split; auto. rewrite El.
    pose proof (getLegsByLabel_spec h t labs) as G. rewrite E in G. destruct G as (L & _ & ND & Hi & _).
    specialize (ND (wt_nodup _ _ W)). pose proof (rest_perm _ _ (wt_nodup _ _ W) ND Hi) as Q.
    rewrite Er, app_nil_r in Q. exact Q.
Qed.

Lemma reArrange_err (h : heap) t labs : ~ Permutation (names_of h t) labs ->
  reArrange t labs h = (h, Err AssertionError).
Proof.
  intros P. unfold reArrange, bind, reads.
  destruct (compareLists (labels h t) labs) eqn:E; [|reflexivity].
  exfalso. apply P. now apply compareLists_perm.
Qed.

(** ** renaming *)
Lemma getLeg_first (h : heap) t lab :
  match getLeg h t lab false with
  | None => ~ In lab (names_of h t)
  | Some l => exists u v, legs_of h t = u ++ l :: v /\ l_name (legs h l) = lab /\
                          forall l', In l' u -> l_name (legs h l') <> lab
  end.
Proof.
  unfold getLeg, indexOfLabel, labels, names_of. change (tlegs h t) with (legs_of h t).
  generalize (legs_of h t). intros L.
  change (legname h) with (fun l => l_name (legs h l)).
  induction L as [|x L IH]; simpl; auto.
  destruct (dec lab (l_name (legs h x))) as [E|E]; simpl.
  - exists [], L. simpl. auto.
  - destruct (index_of lab (map (fun l => l_name (legs h l)) L)) as [i|]; simpl in *.
    + destruct (nth_error L i) as [l|]; [|intuition].
      destruct IH as (u & v & -> & E1 & E2). exists (x :: u), v. simpl. split; auto. split; auto.
      intros l' [<-|Hl']; auto.
    + intuition.
Qed.

Lemma only_names_nil (h : heap) f : only_names h h [] f.
Proof. constructor; auto. intros l []. Qed.

Lemma only_names_ext (h h' : heap) L L' f f' : only_names h h' L f ->
  (forall l, In l L <-> In l L') -> (forall l, In l L -> f l = f' l) -> only_names h h' L' f'.
Proof.
  intros O HL Hf. destruct O as [? ? ? ? ? ? ? on_in0 on_out0]. constructor; auto.
  - intros l Hl. rewrite <- Hf by (now apply HL). apply on_in0. now apply HL.
  - intros l Hl. apply on_out0. intros H. apply Hl. now apply HL.
Qed.

Lemma only_names_set (h : heap) l n :
  only_names h (set_leg h l (mkLeg (l_tensor (legs h l)) (l_dim (legs h l)) n (l_bond (legs h l)))) [l] (fun _ => n).
Proof.
  constructor; auto; intros l'.
  - intros [<-|[]]. simpl. now rewrite upd_same.
  - intros H. simpl. rewrite upd_other; auto. intros ->. apply H. simpl; auto.
Qed.

Lemma only_names_trans (h1 h2 h3 : heap) L1 L2 f1 f2 :
  only_names h1 h2 L1 f1 -> only_names h2 h3 L2 f2 ->
  only_names h1 h3 (L1 ++ L2) (fun l => if inb l L2 then f2 l else f1 l).
Proof.
  intros O1 O2. destruct O1 as [? ? ? ? ? ? ? on_in0 on_out0], O2 as [? ? ? ? ? ? ? on_in1 on_out1]. constructor; try congruence; intros l Hl.
  - destruct (inb l L2) eqn:E.
    + apply inb_spec in E. rewrite on_in1 by auto.
      destruct (in_dec Nat.eq_dec l L1) as [i|i].
      * rewrite on_in0 by auto. reflexivity.
      * rewrite on_out0 by auto. reflexivity.
    + apply inb_false in E. rewrite on_out1 by auto. apply on_in0. apply in_app_iff in Hl. tauto.
  - rewrite in_app_iff in Hl. rewrite on_out1, on_out0; tauto.
Qed.

Lemma only_names_legs (h h' : heap) L f t : only_names h h' L f -> legs_of h' t = legs_of h t.
Proof. intros O. unfold legs_of. now rewrite (on_tens _ _ _ _ O). Qed.
Lemma only_names_dim (h h' : heap) L f l : only_names h h' L f -> dim_of h' l = dim_of h l.
Proof.
  intros O. unfold dim_of. destruct (in_dec Nat.eq_dec l L) as [i|i].
  - now rewrite (on_in _ _ _ _ O l i).
  - now rewrite (on_out _ _ _ _ O l i).
Qed.
Lemma only_names_wf (h h' : heap) L f t : only_names h h' L f -> wf_tensor h t -> wf_tensor h' t.
Proof.
  intros O W. destruct W as [? ? ? wt_data0 wt_diag0]. constructor.
  - now rewrite (on_ntens _ _ _ _ O).
  - now rewrite (only_names_legs _ _ _ _ _ O).
  - rewrite (only_names_legs _ _ _ _ _ O), (on_nleg _ _ _ _ O). auto.
  - rewrite (on_tens _ _ _ _ O). unfold data_ok in *. destruct (t_like (tens h t)), (t_arr (tens h t)); auto.
    destruct wt_data0 as [? E]. split; auto. rewrite E. destruct (t_diag (tens h t)); auto.
    apply map_ext. intros l. symmetry. eapply only_names_dim; eauto.
  - rewrite (only_names_legs _ _ _ _ _ O), (on_tens _ _ _ _ O). intros D. destruct (wt_diag0 D) as [D1 D2].
    split; auto. intros l Hl. rewrite (only_names_dim _ _ _ _ _ O). auto.
Qed.

Lemma renameLabel_ok (h : heap) t cf ct : NoDup (legs_of h t) ->
  exists h' L, renameLabel t cf ct h = (h', Ok tt) /\
    only_names h h' L (fun _ => ct) /\
    (match getLeg h t cf false with Some l => L = [l] | None => L = [] end) /\ incl L (legs_of h t) /\
    names_of h' t = replace_first cf ct (names_of h t).
Proof.
  intros ND. pose proof (getLeg_first h t cf) as G. unfold renameLabel, bind, reads.
  destruct (getLeg h t cf false) as [l|].
  - eexists _, [l]. split; [reflexivity|]. split; [apply only_names_set|]. split; auto.
    destruct G as (u & v & E & En & Hu). split.
    { intros x [<-|[]]. rewrite E. apply in_app_iff. simpl; auto. }
    unfold names_of, legs_of in *. simpl tens. rewrite E in *.
    apply NoDup_remove_2 in ND. rewrite in_app_iff in ND.
    clear E. induction u as [|x u IH]; simpl.
    + rewrite upd_same. simpl. rewrite En. destruct (dec cf cf); [|congruence]. f_equal.
      apply map_ext_in. intros l' Hl'. rewrite upd_other; auto. intros ->. apply ND. simpl; auto.
    + destruct (dec cf (l_name (legs h x))) as [e|e].
      * exfalso. symmetry in e. revert e. apply Hu. simpl; auto.
      * rewrite upd_other.
        2:{ intros ->. apply ND. simpl; auto. }
        f_equal. apply IH.
        -- intros [H|H]; apply ND; simpl; auto.
        -- intros l' Hl'; apply Hu; simpl; auto.
  - exists h, []. split; [reflexivity|]. split; [apply only_names_nil|]. split; auto. split; [intros x []|].
    revert G. generalize (names_of h t). intros N. induction N as [|x N IH]; simpl; auto.
    intros H. destruct (dec cf x) as [->|e]; [exfalso; auto|]. f_equal. apply IH. auto.
Qed.

Lemma renameLabels_ok (h : heap) t cf ct : NoDup (legs_of h t) -> List.length cf = List.length ct ->
  exists h' f, renameLabels t cf ct h = (h', Ok tt) /\ only_names h h' (legs_of h t) f /\
    names_of h' t = fold_left (fun N p => replace_first (fst p) (snd p) N) (combine cf ct) (names_of h t).
Proof.
  intros ND L. unfold renameLabels, bind at 1, assert. rewrite L, Nat.eqb_refl. unfold ret at 1.
  generalize (combine cf ct). clear cf ct L. intros P.
  enough (exists h' f L, iterM (fun p => renameLabel t (fst p) (snd p)) P h = (h', Ok tt) /\
     only_names h h' L f /\ incl L (legs_of h t) /\
     names_of h' t = fold_left (fun N p => replace_first (fst p) (snd p) N) P (names_of h t)) as (h' & f & L & E1 & E2 & E3 & E4).
  { exists h', (fun l => l_name (legs h' l)). split; auto. split; auto.
    destruct E2 as [? ? ? ? ? ? ? on_in0 on_out0]. constructor; auto.
    intros l Hl. destruct (in_dec Nat.eq_dec l L) as [i|i].
    - rewrite (on_in0 l i). reflexivity.
    - rewrite (on_out0 l i). now destruct (legs h l). }
  revert h ND. induction P as [|p P IH]; intros h ND; simpl.
  - exists h, (fun _ => NNone), []. split; auto. split; [apply only_names_nil|]. split; auto. intros x [].
  - destruct (renameLabel_ok h t (fst p) (snd p) ND) as (h1 & L1 & E1 & O1 & _ & I1 & N1).
    pose proof (only_names_legs _ _ _ _ t O1) as EL.
    destruct (IH h1) as (h' & f & L & E2 & O2 & I2 & N2); [now rewrite EL|].
    unfold bind. rewrite E1. exists h', (fun l => if inb l L then f l else snd p), (L1 ++ L). split; auto. split.
    + exact (only_names_trans _ _ _ _ _ _ _ O1 O2).
    + split; [rewrite EL in I2; intros x Hx; apply in_app_iff in Hx as []; auto|]. rewrite N2, N1. reflexivity.
Qed.

Lemma renameLabels_err (h : heap) t cf ct : List.length cf <> List.length ct ->
  renameLabels t cf ct h = (h, Err AssertionError).
Proof.
  intros L. unfold renameLabels, bind, assert. apply Nat.eqb_neq in L. rewrite L. reflexivity.
Qed.

(** ** tags *)
Lemma findDash_app tag s : findDash tag = None ->
  findDash (tag ++ "-" ++ s)%string = Some (String.length tag).
Proof.
  induction tag as [|c tag IH]; simpl; auto. destruct (Ascii.eqb c "-"); [discriminate|].
  destruct (findDash tag); [discriminate|]. intros _. simpl in IH. now rewrite IH.
Qed.
Lemma dropChars_app tag s : dropChars (String.length tag + 1) (tag ++ "-" ++ s)%string = s.
Proof.
  rewrite Nat.add_1_r. induction tag as [|c tag IH].
  - simpl. now destruct s.
  - change (String c tag ++ "-" ++ s)%string with (String c (tag ++ "-" ++ s)).
    change (String.length (String c tag)) with (S (String.length tag)). cbn [dropChars]. exact IH.
Qed.

Lemma findDash_has s : (exists k, findDash s = Some k) <-> has_dash s.
Proof.
  split.
  - induction s as [|c s IH]; simpl; intros [k E]; [discriminate|]. destruct (Ascii.eqb_spec c "-").
    + subst c. exists EmptyString, s. reflexivity.
    + destruct (findDash s) as [k'|] eqn:E2; [|discriminate]. destruct IH as (u & v & ->); [eauto|].
      exists (String c u), v. reflexivity.
  - intros (u & v & ->). induction u as [|c u IH].
    + exists 0. reflexivity.
    + destruct IH as [k E]. change (findDash (String c (u ++ "-" ++ v)) ) with
        (if Ascii.eqb c "-" then Some 0 else option_map S (findDash (u ++ "-" ++ v)%string)) || idtac.
      simpl append. cbn [findDash]. destruct (Ascii.eqb c "-"); [eauto|].
      simpl append in E. rewrite E. simpl. eauto.
Qed.
Lemma findDash_None s : findDash s = None <-> ~ has_dash s.
Proof.
  rewrite <- findDash_has. destruct (findDash s); split; intros H; try congruence.
  - exfalso. eauto.
  - intros [k E]. discriminate.
Qed.

Section Loop.
Variable step : pname -> res pname.
Variable body : lid -> @M A unit.
Hypothesis Hbody : forall (h : heap) l,
  match step (l_name (legs h l)) with
  | Ok n => exists h1, body l h = (h1, Ok tt) /\ only_names h h1 [l] (fun _ => n)
  | Err e => body l h = (h, Err e)
  end.
Definition stepped (h : heap) (l : lid) : pname :=
  match step (l_name (legs h l)) with Ok n => n | Err _ => NNone end.

Lemma loop_ok (L : list lid) : forall h : heap, NoDup L ->
  (forall l, In l L -> exists n, step (l_name (legs h l)) = Ok n) ->
  exists h', iterM body L h = (h', Ok tt) /\ only_names h h' L (stepped h).
Proof.
  induction L as [|l L IH]; intros h ND H; simpl.
  - exists h. split; auto. apply only_names_nil.
  - inversion ND as [|? ? Hl ND']; subst.
    destruct (H l) as (n & En); [simpl; auto|].
    pose proof (Hbody h l) as B. rewrite En in B. destruct B as (h1 & E1 & O1).
    assert (forall l', In l' L -> legs h1 l' = legs h l') as Same.
    { intros l' Hl'. apply (on_out _ _ _ _ O1). intros [->|[]]. auto. }
    destruct (IH h1 ND') as (h' & E2 & O2).
    { intros l' Hl'. rewrite Same by auto. apply H. simpl; auto. }
    exists h'. unfold bind. rewrite E1. split; auto.
    eapply only_names_ext; [exact (only_names_trans _ _ _ _ _ _ _ O1 O2)| |].
    + intros l'. simpl. tauto.
    + intros l' Hl'. unfold stepped. destruct (inb l' L) eqn:E.
      * apply inb_spec in E. now rewrite Same.
      * simpl in Hl'. destruct Hl' as [<-|Hl']; [now rewrite En|]. apply inb_false in E. contradiction.
Qed.

Lemma loop_err (L u v : list lid) x e : forall h : heap, L = u ++ x :: v -> NoDup L ->
  (forall l, In l u -> exists n, step (l_name (legs h l)) = Ok n) ->
  step (l_name (legs h x)) = Err e ->
  exists h', iterM body L h = (h', Err e) /\ only_names h h' u (stepped h).
Proof.
  intros h -> ND H He.
  assert (forall (k : list lid) (h0 h1 : heap), iterM body k h0 = (h1, Ok tt) -> iterM body (k ++ x :: v) h0 = iterM body (x :: v) h1) as G.
  { induction k as [|y k IH]; intros h0 h1; simpl.
    - unfold ret. intros E. now injection E as ->.
    - unfold bind. destruct (body y h0) as [h2 [[]|]]; [|discriminate]. intros E. rewrite (IH _ _ E). reflexivity. }
  apply NoDup_app_inv in ND as (NDu & NDx & Hd).
  destruct (loop_ok u h NDu H) as (h1 & E1 & O1).
  exists h1. split; auto. rewrite (G _ _ _ E1). cbn [iterM]. unfold bind.
  pose proof (Hbody h1 x) as B. rewrite (on_out _ _ _ _ O1), He in B.
  - now rewrite B.
  - intros Hx. apply (Hd x); simpl; auto.
Qed.
End Loop.

Definition addStep (tag : string) (n : pname) : res pname :=
  match n with
  | NStr s => match findDash s with Some _ => Err AssertionError | None => Ok (NStr (tag ++ "-" ++ s)) end
  | _ => Err AttributeError
  end.
Definition removeStep (n : pname) : res pname :=
  match n with
  | NStr s => Ok (NStr (match findDash s with Some k => dropChars (k + 1) s | None => s end))
  | _ => Err AttributeError
  end.

Definition addBody (tag : string) (l : lid) : @M A unit :=
    n <- reads (fun h => legname h l) ;;
    match n with
    | NStr s => match findDash s with
                | Some _ => raise AssertionError
                | None => setLegName l (NStr (tag ++ "-" ++ s))
                end
    | _ => raise AttributeError
    end.
Definition removeBody (l : lid) : @M A unit :=
    n <- reads (fun h => legname h l) ;;
    match n with
    | NStr s => match findDash s with
                | None => ret tt
                | Some k => setLegName l (NStr (dropChars (k + 1) s))
                end
    | _ => raise AttributeError
    end.
Lemma addBody_spec tag (h : heap) l :
  match addStep tag (l_name (legs h l)) with
  | Ok n => exists h1, addBody tag l h = (h1, Ok tt) /\ only_names h h1 [l] (fun _ => n)
  | Err e => addBody tag l h = (h, Err e)
  end.
Proof.
  unfold addBody, addStep, bind, reads, legname. destruct (l_name (legs h l)); try reflexivity.
  destruct (findDash s); [reflexivity|]. eexists. split; [reflexivity|]. apply only_names_set.
Qed.
Lemma removeBody_spec (h : heap) l :
  match removeStep (l_name (legs h l)) with
  | Ok n => exists h1, removeBody l h = (h1, Ok tt) /\ only_names h h1 [l] (fun _ => n)
  | Err e => removeBody l h = (h, Err e)
  end.
Proof.
  unfold removeBody, removeStep, bind, reads, legname. destruct (l_name (legs h l)) eqn:En; try reflexivity.
  destruct (findDash s).
  - eexists. split; [reflexivity|]. apply only_names_set.
  - exists h. split; [reflexivity|]. constructor; auto. intros l' [<-|[]]. rewrite <- En. now destruct (legs h l).
Qed.

(** a name without '-' *)
Definition untagged (n : pname) : Prop := exists s, n = NStr s /\ findDash s = None.

Lemma addTensorTag_ok (h : heap) t tag : NoDup (legs_of h t) ->
  (forall l, In l (legs_of h t) -> untagged (l_name (legs h l))) ->
  exists h', addTensorTag t tag h = (h', Ok tt) /\
    only_names h h' (legs_of h t) (fun l => match l_name (legs h l) with NStr s => NStr (tag ++ "-" ++ s) | n => n end).
Proof.
  intros ND H. unfold addTensorTag, bind at 1, reads at 1. change (tlegs h t) with (legs_of h t).
  destruct (loop_ok (addStep tag) (addBody tag) (addBody_spec tag) (legs_of h t) h ND) as (h' & E & O).
  { intros l Hl. destruct (H l Hl) as (s & -> & Hs). simpl. rewrite Hs. eauto. }
  exists h'. split; [exact E|]. eapply only_names_ext; [exact O|tauto|].
  intros l Hl. unfold stepped. destruct (H l Hl) as (s & -> & Hs). simpl. now rewrite Hs.
Qed.

Lemma addTensorTag_err (h : heap) t tag u x v s k : NoDup (legs_of h t) -> legs_of h t = u ++ x :: v ->
  (forall l, In l u -> untagged (l_name (legs h l))) ->
  l_name (legs h x) = NStr s -> findDash s = Some k ->
  exists h', addTensorTag t tag h = (h', Err AssertionError) /\
    only_names h h' u (fun l => match l_name (legs h l) with NStr s => NStr (tag ++ "-" ++ s) | n => n end).
Proof.
  intros ND EL H Ex Es. unfold addTensorTag, bind at 1, reads at 1. change (tlegs h t) with (legs_of h t).
  destruct (loop_err (addStep tag) (addBody tag) (addBody_spec tag) (legs_of h t) u v x AssertionError h EL ND) as (h' & E & O).
  { intros l Hl. destruct (H l Hl) as (s' & -> & Hs). simpl. rewrite Hs. eauto. }
  { rewrite Ex. simpl. now rewrite Es. }
  exists h'. split; [exact E|]. eapply only_names_ext; [exact O|tauto|].
  intros l Hl. unfold stepped. destruct (H l Hl) as (s' & -> & Hs). simpl. now rewrite Hs.
Qed.

Lemma removeTensorTag_ok (h : heap) t : NoDup (legs_of h t) ->
  (forall l, In l (legs_of h t) -> exists s, l_name (legs h l) = NStr s) ->
  exists h', removeTensorTag t h = (h', Ok tt) /\
    only_names h h' (legs_of h t) (fun l => match l_name (legs h l) with
       NStr s => NStr (match findDash s with Some k => dropChars (k + 1) s | None => s end) | n => n end).
Proof.
  intros ND H. unfold removeTensorTag, bind at 1, reads at 1. change (tlegs h t) with (legs_of h t).
  destruct (loop_ok removeStep removeBody removeBody_spec (legs_of h t) h ND) as (h' & E & O).
  { intros l Hl. destruct (H l Hl) as (s & ->). simpl. eauto. }
  exists h'. split; [exact E|]. eapply only_names_ext; [exact O|tauto|].
  intros l Hl. unfold stepped. destruct (H l Hl) as (s & ->). reflexivity.
Qed.

Lemma tag_roundtrip (h : heap) t tag : NoDup (legs_of h t) ->
  (forall l, In l (legs_of h t) -> untagged (l_name (legs h l))) ->
  exists h1 h2, addTensorTag t tag h = (h1, Ok tt) /\ removeTensorTag t h1 = (h2, Ok tt) /\
    only_names h h2 (legs_of h t) (fun l => match l_name (legs h l) with
       NStr s => NStr (match findDash tag with
                       | Some k => dropChars (k + 1) tag ++ "-" ++ s | None => s end) | n => n end).
Proof.
  intros ND H. destruct (addTensorTag_ok h t tag ND H) as (h1 & E1 & O1).
  pose proof (only_names_legs _ _ _ _ t O1) as EL.
  destruct (removeTensorTag_ok h1 t) as (h2 & E2 & O2).
  { now rewrite EL. }
  { rewrite EL. intros l Hl. rewrite (on_in _ _ _ _ O1 l Hl). simpl.
    destruct (H l Hl) as (s & -> & _). eauto. }
  exists h1, h2. split; auto. split; auto. rewrite EL in O2.
  eapply only_names_ext; [exact (only_names_trans _ _ _ _ _ _ _ O1 O2)| |].
  { intros l. rewrite in_app_iff. tauto. }
  intros l Hl. assert (In l (legs_of h t)) as Hl' by (apply in_app_iff in Hl; tauto).
  cbv beta.   assert (inb l (legs_of h t) = true) as -> by (now apply inb_spec).
  rewrite (on_in _ _ _ _ O1 l Hl'). simpl.
  destruct (H l Hl') as (s & -> & Hs). f_equal.
  destruct (findDash tag) as [k|] eqn:Et.
  - assert (forall x, findDash (tag ++ x)%string = Some k) as Ef.
    { intros x. clear -Et. revert k Et. induction tag as [|c tag IH]; simpl; intros k Et; [discriminate|].
      destruct (Ascii.eqb c "-"); auto. destruct (findDash tag); [|discriminate]. injection Et as <-.
      now rewrite (IH n eq_refl). }
    rewrite Ef. clear -Et. revert k Et. induction tag as [|c tag IH]; simpl; intros k Et; [discriminate|].
    destruct (Ascii.eqb c "-").
    + injection Et as <-. simpl. destruct tag; reflexivity.
    + destruct (findDash tag); [|discriminate]. injection Et as <-. simpl. now rewrite (IH n eq_refl).
  - pose proof (findDash_app tag s Et) as F. simpl in F. rewrite F.
    pose proof (dropChars_app tag s) as D. simpl in D. now rewrite D.
Qed.

Lemma untagged_dash (n : pname) : untagged n <-> exists s, n = NStr s /\ ~ has_dash s.
Proof. unfold untagged. split; intros (s & -> & H); exists s; split; auto; now apply findDash_None. Qed.
Lemma append_length' u v : String.length (u ++ v) = String.length u + String.length v.
Proof. induction u; simpl; auto. Qed.
Lemma tag_roundtrip_spec (h : heap) t tag : NoDup (legs_of h t) ->
  (forall l, In l (legs_of h t) -> exists s, l_name (legs h l) = NStr s /\ ~ has_dash s) ->
  exists h1 h2, addTensorTag t tag h = (h1, Ok tt) /\ removeTensorTag t h1 = (h2, Ok tt) /\
    (forall l s, In l (legs_of h t) -> l_name (legs h l) = NStr s -> l_name (legs h1 l) = NStr (tag ++ "-" ++ s)) /\
    (~ has_dash tag -> only_names h h2 (legs_of h t) (fun l => l_name (legs h l))) /\
    (forall u v, tag = (u ++ "-" ++ v)%string -> ~ has_dash u ->
       forall l s, In l (legs_of h t) -> l_name (legs h l) = NStr s ->
         l_name (legs h2 l) = NStr (v ++ "-" ++ s) /\ l_name (legs h2 l) <> l_name (legs h l)).
Proof.
  intros ND Hu.
  assert (Hu' : forall l, In l (legs_of h t) -> untagged (l_name (legs h l))).
  { intros l Hl. apply untagged_dash. auto. }
  destruct (tag_roundtrip h t tag ND Hu') as (h1 & h2 & E1 & E2 & O).
  destruct (addTensorTag_ok h t tag ND Hu') as (h1' & E1' & O1). rewrite E1 in E1'. injection E1' as <-.
  exists h1, h2. split; auto. split; auto. split; [|split].
  - intros l s Hl En. rewrite (on_in _ _ _ _ O1 l Hl). simpl. now rewrite En.
  - intros Ht. apply findDash_None in Ht. rewrite Ht in O. eapply only_names_ext; [exact O|tauto|].
    intros l Hl. simpl. now destruct (l_name (legs h l)).
  - intros u v -> Hd l s Hl En. apply findDash_None in Hd.
    assert (l_name (legs h2 l) = NStr (v ++ "-" ++ s)) as E.
    { rewrite (on_in _ _ _ _ O l Hl). cbn [l_name]. rewrite En. rewrite (findDash_app u v Hd).
      now rewrite dropChars_app. }
    split; auto. rewrite E, En. intros C. injection C as C. apply (f_equal String.length) in C.
    simpl append in C. rewrite append_length' in C. simpl in C. lia.
Qed.
Lemma tag_err_spec (h : heap) t tag u x v s : NoDup (legs_of h t) -> legs_of h t = u ++ x :: v ->
  (forall l, In l u -> exists s', l_name (legs h l) = NStr s' /\ ~ has_dash s') ->
  l_name (legs h x) = NStr s -> has_dash s ->
  exists h', addTensorTag t tag h = (h', Err AssertionError) /\
    only_names h h' u (fun l => match l_name (legs h l) with NStr s => NStr (tag ++ "-" ++ s) | n => n end).
Proof.
  intros ND EL Hu En Hd. apply findDash_has in Hd. destruct Hd as [k Hk].
  eapply addTensorTag_err; eauto. intros l Hl. apply untagged_dash. auto.
Qed.
End L.

(** ** fold of replace_first as a simultaneous substitution *)
Section Sim.
Context {X : Type} {DX : Dec X}.
Variable d : X.
Local Notation simul := (TensorSpec.simul d).

(** the j-th element equal to [n] becomes the target of the j-th request for [n] *)

Lemma replace_first_notin (a b : X) N : ~ In a N -> replace_first a b N = N.
Proof.
  induction N as [|x N IH]; simpl; auto. intros H. destruct (dec a x) as [->|e]; [exfalso; auto|].
  f_equal. apply IH. auto.
Qed.
Lemma replace_first_at (a b : X) u v : ~ In a u -> replace_first a b (u ++ a :: v) = u ++ b :: v.
Proof.
  induction u as [|x u IH]; simpl; intros H.
  - destruct (dec a a); congruence.
  - destruct (dec a x) as [->|e]; [exfalso; auto|]. f_equal. apply IH. auto.
Qed.

Lemma nth_occ_notin (e : X) k l : ~ In e l -> nth_occ e k l = None.
Proof. intros H. apply nth_occ_count. rewrite count_notin; auto. lia. Qed.

Lemma split_first (a : X) N : In a N -> exists u v, N = u ++ a :: v /\ ~ In a u.
Proof.
  induction N as [|x N IH]; simpl; [tauto|]. intros H. destruct (dec x a) as [->|e].
  - exists [], N. auto.
  - destruct IH as (u & v & -> & Hu); [destruct H; congruence|]. exists (x :: u), v. split; auto.
    simpl. intros [?|?]; auto.
Qed.

Lemma simul_fold cf : forall ct N, List.length cf = List.length ct ->
  (forall i j, i < j -> j < List.length cf -> nth i ct d <> nth j cf d) ->
  fold_left (fun N p => replace_first (fst p) (snd p) N) (combine cf ct) N = simul cf ct N.
Proof.
  induction cf as [|a cf IH]; intros [|b ct] N L H; try discriminate.
  - simpl. unfold TensorSpec.simul. simpl. symmetry. apply (map_nth_seq N d).
  - simpl fold_left. rewrite IH; [|simpl in L; lia|].
    2:{ intros i j Hij Hj. apply (H (S i) (S j)); simpl; lia. }
    assert (Hb : ~ In b cf).
    { intros Hb. apply (In_nth _ _ d) in Hb as (j & Hj & Ej). apply (H 0 (S j)); simpl; auto; lia. }
    unfold TensorSpec.simul. destruct (in_dec dec a N) as [Ha|Ha].
    + destruct (split_first a N Ha) as (u & v & -> & Hu). rewrite replace_first_at by auto.
      rewrite !app_length. simpl. apply map_ext_in. intros i Hi. apply in_seq in Hi.
      destruct (Nat.lt_trichotomy i (List.length u)) as [C|[C|C]].
      * rewrite !app_nth1 by auto. rewrite !firstn_app. replace (i - List.length u) with 0 by lia. simpl.
        rewrite !app_nil_r. destruct (dec (nth i u d) a) as [e|e].
        { exfalso. apply Hu. rewrite <- e. now apply nth_In. }
        simpl. destruct (nth_occ (nth i u d) _ cf); reflexivity.
      * subst i. rewrite !app_nth2, !Nat.sub_diag by lia. simpl.
        rewrite !firstn_app, !Nat.sub_diag, !firstn_all. simpl. rewrite !app_nil_r.
        rewrite (count_notin a u Hu). destruct (dec a a); [|congruence].
        now rewrite (nth_occ_notin b _ cf Hb).
      * rewrite !app_nth2 by lia. rewrite !firstn_app, !firstn_all2 by lia.
        destruct (i - List.length u) as [|q] eqn:Eq; [lia|]. simpl.
        set (n := nth q v d). rewrite !count_app. simpl.
        destruct (dec n a) as [->|e].
        -- rewrite (count_notin a u Hu). simpl. destruct (dec a b) as [->|eb].
           ++ rewrite !(nth_occ_notin b _ cf Hb). reflexivity.
           ++ simpl. destruct (nth_occ a (count a (firstn q v)) cf); reflexivity.
        -- simpl. destruct (dec n b) as [eb|eb].
           ++ rewrite eb. rewrite !(nth_occ_notin b _ cf Hb). reflexivity.
           ++ simpl. destruct (nth_occ n (count n u + count n (firstn q v)) cf); reflexivity.
    + rewrite replace_first_notin by auto. apply map_ext_in. intros i Hi. apply in_seq in Hi.
      simpl. destruct (dec (nth i N d) a) as [e|e].
      { exfalso. apply Ha. rewrite <- e. apply nth_In. lia. }
      destruct (nth_occ (nth i N d) _ cf); reflexivity.
Qed.

Lemma swap_does_not_swap (a b : X) : a <> b ->
  fold_left (fun N p => replace_first (fst p) (snd p) N) (combine [a; b] [b; a]) [a; b] = [a; b].
Proof.
  intros H. simpl. destruct (dec a a); [|congruence]. simpl. destruct (dec b b); [|congruence]. reflexivity.
Qed.
End Sim.
