(** Proofs about copyTensorList: the copies mirror the network (C23). *)
From Coq Require Import List Arith Bool Lia Permutation.
From Verif Require Import Base Sums NdModel HeapModel FuncsModel TensorModel TensorSpec ContractModel NetSpec
  FuncsProofs NdProofs TensorProofs CopyProofs ShareProofs SumpairsProofs LinkProofs NetProofs SeqProofs FrameProofs.
Import ListNotations.
Local Open Scope nat_scope.

(** ** dictionaries built from two lists *)
Definition dictF (xs ys : list nat) (x : nat) : nat := match dictGet (combine xs ys) x with Some y => y | None => x end.
Lemma dictGet_notin {Y} (xs : list nat) (ys : list Y) x : ~ In x xs -> dictGet (combine xs ys) x = None.
Proof.
  revert ys. induction xs as [|a xs IH]; intros [|b ys] H; simpl; auto. rewrite IH by (simpl in H; tauto).
  destruct (dec x a); auto. subst. simpl in H. tauto.
Qed.
Lemma dictGet_nth {Y} (xs : list nat) (ys : list Y) : NoDup xs -> List.length xs = List.length ys -> 
  forall i x, nth_error xs i = Some x -> dictGet (combine xs ys) x = nth_error ys i.
Proof.
  intros N. revert ys. induction N as [|a xs Ha N IH]; intros [|b ys] E i x Hi; simpl in *; try discriminate.
  - destruct i; discriminate.
  - destruct i as [|i]; simpl in *.
    + injection Hi as ->. rewrite dictGet_notin by auto. destruct (dec x x); congruence.
    + injection E as E. rewrite (IH ys E i x Hi). destruct (nth_error ys i) as [y|] eqn:EY; auto.
      apply nth_error_None in EY. assert (nth_error xs i <> None) as K by congruence. apply nth_error_Some in K. lia.
Qed.
Lemma dictF_map xs ys : NoDup xs -> List.length xs = List.length ys -> map (dictF xs ys) xs = ys.
Proof.
  intros N E. apply nth_ext with (d := 0) (d' := 0); [now rewrite map_length|]. intros i Hi. rewrite map_length in Hi.
  rewrite nth_indep with (d' := dictF xs ys 0) by now rewrite map_length. rewrite map_nth.
  destruct (nth_error xs i) as [x|] eqn:EX; [|apply nth_error_None in EX; lia].
  rewrite (nth_error_nth _ _ _ EX). unfold dictF. rewrite (dictGet_nth xs ys N E i x EX).
  destruct (nth_error ys i) as [y|] eqn:EY; [|apply nth_error_None in EY; lia]. now rewrite (nth_error_nth _ _ _ EY).
Qed.
Lemma dictGet_dictF xs ys x : NoDup xs -> List.length xs = List.length ys -> In x xs -> dictGet (combine xs ys) x = Some (dictF xs ys x).
Proof.
  intros N E Hx. apply In_nth_error in Hx. destruct Hx as [i Hi]. unfold dictF. rewrite (dictGet_nth xs ys N E i x Hi).
  destruct (nth_error ys i) eqn:EY; auto. apply nth_error_None in EY. assert (nth_error xs i <> None) as K by congruence. apply nth_error_Some in K. lia.
Qed.
Lemma map_inj_NoDup {X Y} (f : X -> Y) l : NoDup (map f l) -> forall x y, In x l -> In y l -> f x = f y -> x = y.
Proof.
  induction l as [|a l IH]; simpl; intros N x y Hx Hy E; [tauto|]. inversion N as [|? ? Ha N']; subst.
  destruct Hx as [<-|Hx], Hy as [<-|Hy]; auto.
  - exfalso. apply Ha. rewrite E. now apply in_map.
  - exfalso. apply Ha. rewrite <- E. now apply in_map.
Qed.

Section Cl.
Context {A : Type} {HA : SR A}.
Notation heap := (heap A).

(** ** phase 1: the copies *)
Record is_copy (h h1 : heap) (like : bool) (t c : tid) : Prop := {
  ic_id : ntens h <= c < ntens h1;
  ic_wf : wf_tensor h1 c; ic_owned : owned h1 c;
  ic_names : names_of h1 c = names_of h t; ic_dims : dims_of h1 c = dims_of h t;
  ic_diag : t_diag (tens h1 c) = t_diag (tens h t); ic_name : t_name (tens h1 c) = t_name (tens h t);
  ic_like : t_like (tens h1 c) = if like then true else t_like (tens h t);
  ic_legs : forall l, In l (legs_of h1 c) -> nleg h <= l /\ l_bond (legs h1 l) = None;
  ic_entry : like = false -> forall s s', map s' (legs_of h1 c) = map s (legs_of h t) -> entry h1 c s' = entry h t s }.
Record phase1 (h h1 : heap) (like : bool) (ts cs : list tid) : Prop := {
  p1_legs : forall l, l < nleg h -> legs h1 l = legs h l;
  p1_bonds : bonds h1 = bonds h; p1_nbond : nbond h1 = nbond h;
  p1_tens : forall t, t < ntens h -> tens h1 t = tens h t;
  p1_nleg : nleg h <= nleg h1; p1_ntens : ntens h <= ntens h1;
  p1_copies : Forall2 (is_copy h h1 like) ts cs;
  p1_ids : NoDup cs; p1_nodup : NoDup (all_legs h1 cs) }.

Definition copyable (h : heap) (t : tid) : Prop := ~ (t_diag (tens h t) = true /\ t_like (tens h t) = false /\ legs_of h t = []).

Lemma copy1 (h : heap) like t : wf_tensor h t -> (like = false -> copyable h t) ->
  exists h1 c, (if like then toTensorLike t else copy t) h = (h1, Ok c) /\ phase1 h h1 like [t] [c] /\ c = ntens h.
Proof.
  intros W Hc. assert (K : exists h1 c, (if like then toTensorLike t else copy t) h = (h1, Ok c) /\ copied h h1 t c /\
    t_like (tens h1 c) = (if like then true else t_like (tens h t)) /\
    (like = false -> forall s s', map s' (legs_of h1 c) = map s (legs_of h t) -> entry h1 c s' = entry h t s)).
  { destruct like.
    - destruct (toTensorLike_ok h t W) as (h1 & c & E & C & L). exists h1, c. split; auto. split; auto. split; auto. discriminate.
    - destruct (copy_ok h t W (Hc eq_refl)) as (h1 & c & E & C & L & V). exists h1, c. auto. }
  destruct K as (h1 & c & E & C & L & V). exists h1, c. split; auto.
  destruct C as [NT W1 O1 N1 D1 G1 M1]. destruct NT as [n1 n2 n3 n4 n5 n6 n7 (n8 & n9 & n10)].
  split; [|exact n1]. constructor; auto; try lia.
  - constructor; [|constructor]. constructor; auto; try lia. intros l Hl. split; auto. rewrite n9 in Hl. apply in_seq in Hl. lia.
  - constructor; [tauto|constructor].
  - unfold all_legs. simpl. rewrite app_nil_r. apply W1.
Qed.

Lemma phase1_trans (h h1 h2 : heap) like t ts c cs : phase1 h h1 like [t] [c] -> phase1 h1 h2 like ts cs ->
  (forall t', In t' ts -> wf_tensor h t') -> phase1 h h2 like (t :: ts) (c :: cs).
Proof.
  intros [a1 a2 a3 a4 a5 a6 a7 a8 a9] [b1 b2 b3 b4 b5 b6 b7 b8 b9] W.
  inversion a7 as [|? ? ? ? [i1 i2 i3 i4 i5 i6 i7 i8 i9 i10] _]; subst.
  assert (TC : tens h2 c = tens h1 c) by (apply b4; lia).
  assert (LC : legs_of h2 c = legs_of h1 c) by (unfold legs_of; now rewrite TC).
  assert (LL : forall l, In l (legs_of h1 c) -> legs h2 l = legs h1 l) by (intros l Hl; apply b1; now apply (wt_alloc _ _ i2)).
  constructor; try congruence; try lia.
  - intros l Hl. rewrite b1 by lia. auto.
  - intros t' Ht. rewrite b4 by lia. auto.
  - constructor.
    + constructor; auto; try lia; try congruence.
      * eapply wf_same; eauto; try lia. intros l Hl. unfold dim_of. now rewrite LL.
      * intros l Hl. rewrite LC in Hl. rewrite LL by auto. auto.
      * rewrite <- i4. unfold names_of. rewrite LC. apply map_ext_in. intros l Hl. now rewrite LL.
      * rewrite <- i5. unfold dims_of. rewrite LC. apply map_ext_in. intros l Hl. unfold dim_of. now rewrite LL.
      * intros l Hl. rewrite LC in Hl. rewrite LL by auto. auto.
      * intros Ef s s' Es. unfold entry. rewrite TC. apply i10; auto. now rewrite <- LC.
    + assert (WW : Forall (fun t' => wf_tensor h t') ts) by now apply Forall_forall.
      clear -b7 WW a1 a4 a5 a6. induction b7 as [|t' c' ts cs J _ IH]; [constructor|]. inversion WW as [|? ? W1 W2]; subst. constructor; auto.
      assert (TT : tens h1 t' = tens h t') by (apply a4; apply W1).
      assert (LT : legs_of h1 t' = legs_of h t') by (unfold legs_of; now rewrite TT).
      assert (LL : forall l, In l (legs_of h t') -> legs h1 l = legs h l) by (intros l Hl; apply a1; now apply (wt_alloc _ _ W1)).
      destruct J as [i1 i2 i3 i4 i5 i6 i7 i8 i9 i10]. constructor; auto; try lia; try congruence.
      * rewrite i4. unfold names_of. rewrite LT. apply map_ext_in. intros l Hl. now rewrite LL.
      * rewrite i5. unfold dims_of. rewrite LT. apply map_ext_in. intros l Hl. unfold dim_of. now rewrite LL.
      * rewrite i8. now rewrite TT.
      * intros l Hl. destruct (i9 l Hl). split; auto. lia.
      * intros Ef s s' Es. rewrite (i10 Ef s s') by now rewrite LT. unfold entry. now rewrite TT.
  - constructor; auto. intros Hi. assert (ntens h1 <= c); [|lia].
    clear -b7 Hi. induction b7 as [|t' c' ts cs J _ IH]; [destruct Hi|]. destruct Hi as [->|Hi]; [apply J|auto].
  - simpl. unfold all_legs. simpl. rewrite LC. apply NoDup_app_intro.
    + apply i2.
    + exact b9.
    + intros l H1 H2. apply all_legs_In in H2. destruct H2 as (c' & Hc' & Hl). apply (wt_alloc _ _ i2) in H1.
      assert (nleg h1 <= l); [|lia]. clear -b7 Hc' Hl. induction b7 as [|t' c0 ts cs J _ IH]; [destruct Hc'|]. destruct Hc' as [->|Hc']; auto.
      now apply (ic_legs _ _ _ _ _ J).
Qed.
Lemma phase1_nil (h : heap) like : phase1 h h like [] [].
Proof. constructor; auto; constructor. Qed.

Lemma phase1_ok like : forall ts (h : heap), (forall t, In t ts -> wf_tensor h t) -> (like = false -> forall t, In t ts -> copyable h t) ->
  exists h1 cs, mapM (fun t => if like then toTensorLike t else copy t) ts h = (h1, Ok cs) /\ phase1 h h1 like ts cs.
Proof.
  induction ts as [|t ts IH]; intros h W C.
  - exists h, []. split; [reflexivity|apply phase1_nil].
  - destruct (copy1 h like t) as (h1 & c & E & P & _); [apply W; simpl; auto|intros Ef; apply C; simpl; auto|].
    assert (TT : forall t', In t' ts -> tens h1 t' = tens h t') by (intros t' Ht; apply P; apply W; simpl; auto).
    destruct (IH h1) as (h2 & cs & E2 & P2).
    + intros t' Ht. apply (wf_same h); auto; try apply P; [|apply W; simpl; auto]. intros l Hl. unfold dim_of. rewrite (p1_legs _ _ _ _ _ P); auto.
      apply (wt_alloc h t'); [apply W; simpl; auto|auto].
    + intros Ef t' Ht. unfold copyable, legs_of. rewrite TT by auto. apply (C Ef); simpl; auto.
    + exists h2, (c :: cs). split.
      * simpl. unfold bind at 1. rewrite E. unfold bind. now rewrite E2.
      * eapply phase1_trans; eauto. intros t' Ht. apply W. simpl; auto.
Qed.

(** ** phase 2: the links *)
Section Phase2.
Variables (h h1 : heap) (like : bool) (ts cs : list tid).
Hypothesis WL : wf_list h ts.
Hypothesis P1 : phase1 h h1 like ts cs.
Let AL := all_legs h ts.
Let ct := dictF ts cs.
Let cp := dictF AL (all_legs h1 cs).

Lemma old_legs t : In t ts -> legs_of h1 t = legs_of h t.
Proof. intros Ht. unfold legs_of. rewrite (p1_tens _ _ _ _ _ P1); auto. apply (wn_wf _ _ (wl_net _ _ WL) t Ht). Qed.
Lemma al_alloc l : In l AL -> l < nleg h.
Proof. intros Hl. apply all_legs_In in Hl. destruct Hl as (t & Ht & Hl). exact (wt_alloc _ _ (wn_wf _ _ (wl_net _ _ WL) t Ht) l Hl). Qed.
Lemma len_copies : List.length ts = List.length cs.
Proof. eapply Forall2_length, P1. Qed.
Lemma same_len t c : is_copy h h1 like t c -> List.length (legs_of h t) = List.length (legs_of h1 c).
Proof. intros J. pose proof (f_equal (@List.length _) (ic_dims _ _ _ _ _ J)) as E. unfold dims_of in E. now rewrite !map_length in E. Qed.
Lemma len_legs : List.length AL = List.length (all_legs h1 cs).
Proof.
  assert (G : forall ts' cs', Forall2 (is_copy h h1 like) ts' cs' -> List.length (all_legs h ts') = List.length (all_legs h1 cs')).
  { induction 1 as [|t c ts' cs' J _ IH]; auto. unfold all_legs in *. simpl. rewrite !app_length, IH. now rewrite (same_len t c J). }
  apply G, P1.
Qed.
Lemma map_ct : map ct ts = cs.
Proof. apply dictF_map; [apply WL|apply len_copies]. Qed.
Lemma map_cp : map cp AL = all_legs h1 cs.
Proof. apply dictF_map; [apply WL|apply len_legs]. Qed.
Lemma copy_of t : In t ts -> is_copy h h1 like t (ct t).
Proof.
  pose proof (p1_copies _ _ _ _ _ P1) as F. rewrite <- map_ct in F. revert F. generalize ts at 1 2 3. intros l F Ht. induction l as [|a l IH]; [destruct Ht|].
  inversion F; subst. destruct Ht as [->|Ht]; auto.
Qed.
Lemma legs_cp t : In t ts -> legs_of h1 (ct t) = map cp (legs_of h t).
Proof.
  intros Ht. pose proof map_cp as E. unfold AL, all_legs in E. rewrite <- map_ct in E. 
  assert (FL : forall t, In t ts -> List.length (legs_of h t) = List.length (legs_of h1 (ct t))) by (intros; apply same_len; now apply copy_of).
  revert E FL Ht. generalize ts at 1 2 3 4. intros l. induction l as [|a l IH]; intros E FL Ht; [destruct Ht|]. simpl in E. rewrite map_app in E.
  assert (E2 : map cp (legs_of h a) = legs_of h1 (ct a) /\ map cp (flat_map (legs_of h) l) = flat_map (legs_of h1) (map ct l)).
  { assert (LE : List.length (map cp (legs_of h a)) = List.length (legs_of h1 (ct a))) by (rewrite map_length; apply FL; simpl; auto).
    revert E LE. generalize (map cp (legs_of h a)), (legs_of h1 (ct a)), (map cp (flat_map (legs_of h) l)), (flat_map (legs_of h1) (map ct l)).
    clear. induction l as [|x u IH]; intros [|y v] p q E LE; simpl in *; try discriminate; auto.
    injection E as -> E. injection LE as LE. destruct (IH v p q E LE) as [-> ->]. auto. }
  destruct E2 as [E1 E2]. destruct Ht as [->|Ht]; auto. apply IH; auto. intros; apply FL; simpl; auto.
Qed.
Lemma cp_inj l l' : In l AL -> In l' AL -> cp l = cp l' -> l = l'.
Proof. apply map_inj_NoDup. rewrite map_cp. apply P1. Qed.
Lemma cp_new l : In l AL -> nleg h <= cp l < nleg h1 /\ l_bond (legs h1 (cp l)) = None /\ 
  l_name (legs h1 (cp l)) = l_name (legs h l) /\ dim_of h1 (cp l) = dim_of h l.
Proof.
  intros Hl. apply all_legs_In in Hl. destruct Hl as (t & Ht & Hl). pose proof (copy_of t Ht) as J. pose proof (legs_cp t Ht) as EL.
  assert (In (cp l) (legs_of h1 (ct t))) as Hc by (rewrite EL; now apply in_map).
  destruct (ic_legs _ _ _ _ _ J _ Hc) as (B1 & B2). split; [split; [exact B1|exact (wt_alloc _ _ (ic_wf _ _ _ _ _ J) _ Hc)]|]. split; [exact B2|].
  pose proof (ic_names _ _ _ _ _ J) as EN. pose proof (ic_dims _ _ _ _ _ J) as ED. unfold names_of in EN. unfold dims_of in ED. rewrite EL, map_map in EN, ED.
  clear -Hl EN ED. induction (legs_of h t) as [|x u IH]; [destruct Hl|]. simpl in *. injection EN as E1 E2. injection ED as E3 E4.
  destruct Hl as [->|Hl]; auto.
Qed.

(** a link of the list already copied *)
Definition done (added : list bid) (l l2 : lid) : Prop :=
  exists b, l_bond (legs h l) = Some b /\ In b added /\ linked h l l2 /\ In l2 AL.
Record inv2 (hc : heap) (added : list bid) : Prop := {
  v_legs : forall l, l < nleg h -> legs hc l = legs h l;
  v_bonds : forall b, b < nbond h -> bonds hc b = bonds h b;
  v_tens : tens hc = tens h1; v_nleg : nleg hc = nleg h1; v_ntens : ntens hc = ntens h1; v_nbond : nbond h <= nbond hc;
  v_leg : forall l, In l AL -> l_name (legs hc (cp l)) = l_name (legs h l) /\ dim_of hc (cp l) = dim_of h l /\
                               l_tensor (legs hc (cp l)) = l_tensor (legs h1 (cp l));
  v_done : forall l l2, In l AL -> done added l l2 -> exists b, nbond h <= b < nbond hc /\
             l_bond (legs hc (cp l)) = Some b /\ l_bond (legs hc (cp l2)) = Some b /\ ends hc b (cp l) (cp l2);
  v_open : forall l, In l AL -> (forall l2, ~ done added l l2) -> l_bond (legs hc (cp l)) = None }.

Lemma inv2_init : inv2 h1 [].
Proof.
  constructor; auto; try apply P1.
  - intros b Hb. now rewrite (p1_bonds _ _ _ _ _ P1).
  - rewrite (p1_nbond _ _ _ _ _ P1). lia.
  - intros l Hl. destruct (cp_new l Hl) as (_ & _ & X & Y). auto.
  - intros l l2 _ (b & _ & [] & _).
  - intros l Hl _. now destruct (cp_new l Hl) as (_ & X & _).
Qed.

Lemma link_of l b : In l AL -> l_bond (legs h l) = Some b -> exists l2, ends h b l l2 /\ linked h l l2 /\ (In l2 AL -> l_bond (legs h l2) = Some b /\ dim_of h l = dim_of h l2).
Proof. intros Hl Eb. destruct (wn_links _ _ (wl_net _ _ WL) l b Hl Eb) as (l2 & E & X). exists l2. split; auto. split; auto. exists b. auto. Qed.
Lemma ends_two b l l2 x y : ends h b l l2 -> ends h b x y -> (x = l /\ y = l2) \/ (x = l2 /\ y = l).
Proof. intros [E|E] [F|F]; rewrite E in F; injection F; intros; subst; auto. Qed.

Lemma copyLeg_step hc added l : inv2 hc added -> In l AL ->
  exists hc' added', copyLeg ts (combine ts cs) added (l, cp l) hc = (hc', Ok added') /\ inv2 hc' added' /\ incl added added' /\
    forall b, l_bond (legs h l) = Some b -> In b added'.
Proof.
  intros I Hl. assert (EL : legs hc l = legs h l) by (apply I; now apply al_alloc).
  unfold copyLeg. unfold bind at 1, reads at 1, legbond. rewrite EL.
  destruct (l_bond (legs h l)) as [b|] eqn:Eb; [|exists hc, added; split; [reflexivity|]; split; auto; split; [apply incl_refl|discriminate]].
  destruct (inb b added) eqn:Ein.
  { apply inb_true in Ein. exists hc, added. split; [reflexivity|]. split; auto. split; [apply incl_refl|]. now intros b' [= <-]. }
  apply inb_false in Ein. destruct (link_of l b Hl Eb) as (l2 & En & Lk & Hsame).
  assert (Hbb : b < nbond h) by (eapply (wl_bonds _ _ WL); eauto).
  assert (Part : partner hc l = Some l2).
  { apply partner_ends with (b := b); [now rewrite EL|]. unfold ends. rewrite (v_bonds _ _ I) by auto. exact En. }
  unfold bind at 1, readsR at 1. rewrite (bondAnotherSide_partner hc l b) by now rewrite EL. rewrite Part.
  unfold bind at 1, reads at 1.
  assert (INCL : forall b', Some b = Some b' -> In b' (b :: added)) by (intros b' [= <-]; simpl; auto).
  assert (SKIP : ~ In l2 AL -> inv2 hc (b :: added)).
  { intros N. assert (DD : forall x y, In x AL -> done (b :: added) x y -> done added x y).
    { intros x y Hx (b' & Eb' & Hin & Lx & Hy). destruct Hin as [<-|Hin]; [|exists b'; auto]. exfalso. destruct (link_of x b Hx Eb') as (y' & Ey & _ & _).
      destruct Lx as (bb & Ebb & Ebx). assert (bb = b) by congruence. subst bb. destruct (ends_two _ _ _ _ _ En Ebx) as [[-> ->]|[-> ->]]; auto. }
    destruct I as [v1 v2 v3 v4 v5 v6 v7 v8 v9]. constructor; auto.
    intros x Hx Hn. apply v9; auto. intros y (b' & K1 & K2 & K3 & K4). apply (Hn y). exists b'. simpl. auto. }
  destruct (in_dec Nat.eq_dec l2 AL) as [Hl2|Hl2].
  - (* linked inside the list *)
    destruct (Hsame Hl2) as (Eb2 & Edim). pose proof Hl2 as Hl2'. apply all_legs_In in Hl2'. destruct Hl2' as (t2 & Ht2 & Hin2).
    assert (EL2 : legs hc l2 = legs h l2) by (apply I; now apply al_alloc).
    rewrite EL2, (wn_owned _ _ (wl_net _ _ WL) t2 Ht2 l2 Hin2).
    assert (IB : inb t2 ts = true) by now apply inb_true. rewrite IB. cbv [negb].
    rewrite (dictGet_dictF ts cs t2 (wn_ids _ _ (wl_net _ _ WL)) len_copies Ht2). fold ct. fold (ct t2).
    unfold bind at 1, readsR at 1.
    assert (T2 : tlegs hc t2 = legs_of h t2). { change (tlegs hc t2) with (legs_of hc t2). unfold legs_of. rewrite (v_tens _ _ I). apply (old_legs t2 Ht2). }
    assert (T3 : tlegs hc (ct t2) = map cp (legs_of h t2)). { change (tlegs hc (ct t2)) with (legs_of hc (ct t2)). unfold legs_of. rewrite (v_tens _ _ I). apply (legs_cp t2 Ht2). }
    rewrite T2. destruct (index_of l2 (legs_of h t2)) as [k|] eqn:EK; [|exfalso; apply index_of_None in EK; auto].
    apply index_of_Some in EK. destruct EK as (EK & _).
    unfold bind at 1, readsR at 1. fold ct. rewrite T3. rewrite nth_error_map, EK. simpl option_map. cbv beta iota.
    assert (DE : dim_of hc (cp l) = dim_of hc (cp l2)).
    { destruct (v_leg _ _ I l Hl) as (_ & -> & _). destruct (v_leg _ _ I l2 Hl2) as (_ & -> & _). exact Edim. }
    assert (ML : makeLink [RLeg (cp l)] [RLeg (cp l2)] None None hc = (linked_heap hc (cp l) (cp l2), Ok [nbond hc])).
    { pose proof (linkPair_ok hc (cp l) (cp l2) DE) as LP. 
      change (makeLink [RLeg (cp l)] [RLeg (cp l2)] None None hc) with (bind (linkPair (Some (cp l), Some (cp l2))) (fun y => ys <- ret [] ;; ret (y :: ys)) hc).
      unfold bind at 1. now rewrite LP. }
    unfold bind at 1. rewrite ML. exists (linked_heap hc (cp l) (cp l2)), (b :: added). split; [reflexivity|].
    split; [|split; [intros x Hx; simpl; auto|exact INCL]].
    destruct I as [v1 v2 v3 v4 v5 v6 v7 v8 v9].
    assert (LX : forall x, legs (linked_heap hc (cp l) (cp l2)) x = if Nat.eqb x (cp l2) || Nat.eqb x (cp l) then with_bond (legs hc x) (nbond hc) else legs hc x).
    { intros x. simpl. unfold upd. destruct (Nat.eqb_spec x (cp l2)) as [->|]; simpl; [|destruct (Nat.eqb_spec x (cp l)) as [->|]; reflexivity].
      destruct (Nat.eqb_spec (cp l2) (cp l)) as [->|]; reflexivity. }
    assert (LO : forall x, In x AL -> x <> l -> x <> l2 -> legs (linked_heap hc (cp l) (cp l2)) (cp x) = legs hc (cp x)).
    { intros x Hx N1 N2. rewrite LX. destruct (Nat.eqb_spec (cp x) (cp l2)) as [E|_]; [apply cp_inj in E; auto; congruence|].
      destruct (Nat.eqb_spec (cp x) (cp l)) as [E|_]; [apply cp_inj in E; auto; congruence|]. reflexivity. }
    assert (BX : forall b', b' < nbond hc -> bonds (linked_heap hc (cp l) (cp l2)) b' = bonds hc b') by (intros b' Hb'; simpl; rewrite upd_other by lia; auto).
    assert (BN : bonds (linked_heap hc (cp l) (cp l2)) (nbond hc) = mkBond (cp l) (cp l2)) by (simpl; now rewrite upd_same).
    assert (L1 : l_bond (legs (linked_heap hc (cp l) (cp l2)) (cp l)) = Some (nbond hc)) by (rewrite LX, Nat.eqb_refl, orb_true_r; reflexivity).
    assert (L2 : l_bond (legs (linked_heap hc (cp l) (cp l2)) (cp l2)) = Some (nbond hc)) by (rewrite LX, Nat.eqb_refl; reflexivity).
    constructor; try (simpl; auto; lia).
    + intros x Hx. rewrite LX. destruct (cp_new l Hl) as (? & _). destruct (cp_new l2 Hl2) as (? & _).
      destruct (Nat.eqb_spec x (cp l2)); [lia|]. destruct (Nat.eqb_spec x (cp l)); [lia|]. simpl. auto.
    + intros b' Hb'. rewrite BX by lia. auto.
    + intros x Hx. unfold dim_of. rewrite LX. destruct (v7 x Hx) as (X1 & X2 & X3). destruct (_ || _); simpl; auto.
    + intros x y Hx (b' & K1 & [<-|K2] & K3 & K4).
      * destruct K3 as (bb & Kb & Ke). assert (bb = b) by congruence. subst bb. exists (nbond hc). split; [simpl; lia|].
        destruct (ends_two _ _ _ _ _ En Ke) as [[-> ->]|[-> ->]]; split; auto; split; auto; unfold ends; rewrite BN; auto.
      * assert (b' <> b) as Nb by (intros ->; auto).
        destruct (v8 x y Hx) as (bb & B1 & B2 & B3 & B4); [exists b'; auto|].
        assert (x <> l) by congruence. assert (x <> l2) by congruence.
        destruct (link_of x b' Hx K1) as (y' & Y1 & Y2 & Y3). assert (y' = y) by (eapply linked_fun; eauto). subst y'.
        destruct (Y3 K4) as (Y4 & _). assert (y <> l) by congruence. assert (y <> l2) by congruence.
        exists bb. split; [simpl; lia|]. rewrite !LO by auto. split; auto. split; auto. unfold ends. rewrite BX by lia. exact B4.
    + intros x Hx Hn. assert (x <> l). { intros ->. apply (Hn l2). exists b. simpl. auto. }
      assert (x <> l2). { intros ->. apply (Hn l). exists b. split; auto. split; [simpl; auto|]. split; auto. exists b. split; auto. destruct En; [right|left]; auto. }
      rewrite LO by auto. apply v9; auto. intros y (b' & K1 & K2 & K3 & K4). apply (Hn y). exists b'. simpl. auto.
  - (* linked to the outside *)
    assert (OUT : match l_tensor (legs hc l2) with Some t2 => inb t2 ts = false | None => True end).
    { rewrite (v_legs _ _ I) by (eapply (wl_alloc _ _ WL); eauto). destruct (l_tensor (legs h l2)) as [t2|] eqn:ET; auto. apply inb_false. intros Ht2.
      apply Hl2. apply all_legs_In. exists t2. split; auto. eapply (wl_owner _ _ WL); eauto. }
    exists hc, (b :: added). split; [|split; [auto|split; [intros x Hx; simpl; auto|exact INCL]]].
    destruct (l_tensor (legs hc l2)) as [t2|]; [rewrite OUT|]; reflexivity.
Qed.

Lemma copyLegs_fold : forall L hc added, inv2 hc added -> incl L AL ->
  exists hc' added', foldM (copyLeg ts (combine ts cs)) (combine L (map cp L)) added hc = (hc', Ok added') /\ inv2 hc' added' /\ incl added added' /\
    forall l b, In l L -> l_bond (legs h l) = Some b -> In b added'.
Proof.
  induction L as [|l L IH]; intros hc added I HL.
  - exists hc, added. split; [reflexivity|]. split; auto. split; [apply incl_refl|]. intros l b [].
  - destruct (copyLeg_step hc added l I) as (h2 & a2 & E & I2 & In2 & B2); [apply HL; simpl; auto|].
    destruct (IH h2 a2 I2) as (h3 & a3 & E3 & I3 & In3 & B3); [intros x Hx; apply HL; simpl; auto|].
    exists h3, a3. split; [|split; [auto|split; [eapply incl_tran; eauto|]]].
    + cbn [combine map foldM]. unfold bind at 1. rewrite E. exact E3.
    + intros x b [<-|Hx] Eb; [apply In3; auto|eapply B3; eauto].
Qed.
Lemma copyTensors_fold : forall T hc added, inv2 hc added -> incl T ts ->
  exists hc' added', foldM (copyTensorLegs ts (combine ts cs)) T added hc = (hc', Ok added') /\ inv2 hc' added' /\ incl added added' /\
    forall l b, In l (all_legs h T) -> l_bond (legs h l) = Some b -> In b added'.
Proof.
  induction T as [|t T IH]; intros hc added I HT.
  - exists hc, added. split; [reflexivity|]. split; auto. split; [apply incl_refl|]. intros l b [].
  - assert (Ht : In t ts) by (apply HT; simpl; auto).
    destruct (copyLegs_fold (legs_of h t) hc added I) as (h2 & a2 & E & I2 & In2 & B2).
    { intros x Hx. apply all_legs_In. eauto. }
    destruct (IH h2 a2 I2) as (h3 & a3 & E3 & I3 & In3 & B3); [intros x Hx; apply HT; simpl; auto|].
    exists h3, a3. split; [|split; [auto|split; [eapply incl_tran; eauto|]]].
    + cbn [foldM]. unfold bind at 1. unfold copyTensorLegs at 1. 
      rewrite (dictGet_dictF ts cs t (wn_ids _ _ (wl_net _ _ WL)) len_copies Ht). fold ct. fold (ct t).
      unfold bind at 1, reads. 
      assert (T2 : tlegs hc t = legs_of h t). { change (tlegs hc t) with (legs_of hc t). unfold legs_of. rewrite (v_tens _ _ I). apply (old_legs t Ht). }
      assert (T3 : tlegs hc (ct t) = map cp (legs_of h t)). { change (tlegs hc (ct t)) with (legs_of hc (ct t)). unfold legs_of. rewrite (v_tens _ _ I). apply (legs_cp t Ht). }
      fold ct. rewrite T2, T3, E. exact E3.
    + intros x b Hx Eb. unfold all_legs in Hx. simpl in Hx. apply in_app_iff in Hx. destruct Hx as [Hx|Hx]; [apply In3; eapply B2; eauto|eapply B3; eauto].
Qed.

Lemma phase2_ok : exists h' a', foldM (copyTensorLegs ts (combine ts cs)) ts [] h1 = (h', Ok a') /\ net_copy h h' ts ct cp /\
  cs = map ct ts /\
  (forall t, In t ts -> t_like (tens h' (ct t)) = if like then true else t_like (tens h t)) /\
  (like = false -> forall t s, In t ts -> entry h' (ct t) s = entry h t (fun l => s (cp l))).
Proof.
  destruct (copyTensors_fold ts h1 [] inv2_init (incl_refl ts)) as (h' & a' & E & I & _ & B).
  exists h', a'. split; auto.
  assert (LL : forall t, In t ts -> legs_of h' (ct t) = map cp (legs_of h t)).
  { intros t Ht. unfold legs_of. rewrite (v_tens _ _ I). apply (legs_cp t Ht). }
  assert (DN : forall l l2, In l AL -> linked h l l2 -> In l2 AL -> done a' l l2).
  { intros l l2 Hl Lk Hl2. pose proof Lk as (b & Eb & _). exists b. split; [exact Eb|]. split; [exact (B l b Hl Eb)|]. split; [exact Lk|exact Hl2]. }
  assert (AE : all_legs h' (map ct ts) = map cp AL).
  { unfold AL, all_legs. assert (G : forall T, incl T ts -> flat_map (legs_of h') (map ct T) = map cp (flat_map (legs_of h) T)).
    { induction T as [|t T IH]; intros HT; auto. simpl. rewrite map_app, LL by (apply HT; simpl; auto). f_equal. apply IH. intros x Hx. apply HT. simpl; auto. }
    apply G, incl_refl. }
  split; [|split; [symmetry; apply map_ct|split]].
  - assert (LKD : forall l l', In l AL -> In l' AL -> linked h' (cp l) (cp l') <-> linked h l l').
    { intros l l' Hl Hl'. split.
      - intros (b' & Eb' & En'). destruct (partner h l) as [l2|] eqn:EP.
        + apply partner_Some in EP. destruct (in_dec Nat.eq_dec l2 AL) as [H2|H2].
          * destruct (v_done _ _ I l l2 Hl (DN _ _ Hl EP H2)) as (bb & _ & K1 & _ & K2).
            assert (cp l' = cp l2) as EE by (eapply (linked_fun h' (cp l)); [exists b'; eauto|exists bb; eauto]).
            apply cp_inj in EE; auto. subst. exact EP.
          * rewrite (v_open _ _ I l Hl) in Eb'; [discriminate|]. intros y (bb & _ & _ & Ly & Hy). assert (y = l2) by (eapply linked_fun; eauto). subst. auto.
        + rewrite (v_open _ _ I l Hl) in Eb'; [discriminate|]. intros y (bb & _ & _ & Ly & Hy). apply partner_Some in Ly. congruence.
      - intros Lk. destruct (v_done _ _ I l l' Hl (DN _ _ Hl Lk Hl')) as (bb & _ & K1 & _ & K2). exists bb. auto. }
    assert (OPEN : forall l, In l AL -> (forall l', linked h l l' -> ~ In l' AL) -> l_bond (legs h' (cp l)) = None).
    { intros l Hl Hn. apply (v_open _ _ I l Hl). intros y (bb & _ & _ & Ly & Hy). exact (Hn y Ly Hy). }
    constructor; auto.
    + intros t Ht. rewrite (v_ntens _ _ I). apply (copy_of t Ht).
    + intros l Hl. rewrite (v_nleg _ _ I). now apply cp_new.
    + apply map_inj_NoDup. rewrite map_ct. apply P1.
    + exact cp_inj.
    + intros l Hl. destruct (v_leg _ _ I l Hl) as (X & Y & _). auto.
    + intros t Ht. rewrite (v_tens _ _ I). split; [apply (copy_of t Ht)|apply (copy_of t Ht)].
    + constructor.
      * intros c Hc. apply in_map_iff in Hc. destruct Hc as (t & <- & Ht). pose proof (copy_of t Ht) as J.
        apply (wf_same h1); [now rewrite (v_tens _ _ I)| |rewrite (v_nleg _ _ I); lia|rewrite (v_ntens _ _ I); lia|apply J].
        intros x Hx. rewrite (legs_cp t Ht) in Hx. apply in_map_iff in Hx. destruct Hx as (l & <- & Hl).
        assert (In l AL) as Hal by (apply all_legs_In; eauto). destruct (v_leg _ _ I l Hal) as (_ & Y & _). rewrite Y. symmetry. now apply cp_new.
      * intros c Hc. apply in_map_iff in Hc. destruct Hc as (t & <- & Ht). pose proof (copy_of t Ht) as J.
        intros x Hx. rewrite (LL t Ht) in Hx. apply in_map_iff in Hx. destruct Hx as (l & <- & Hl).
        assert (In l AL) as Hal by (apply all_legs_In; eauto). destruct (v_leg _ _ I l Hal) as (_ & _ & Z). rewrite Z.
        apply (ic_owned _ _ _ _ _ J). rewrite (legs_cp t Ht). now apply in_map.
      * rewrite map_ct. apply P1.
      * rewrite AE, map_cp. apply P1.
      * rewrite AE. intros x b Hx Eb. apply in_map_iff in Hx. destruct Hx as (l & <- & Hl).
        destruct (partner h l) as [l2|] eqn:EP.
        -- apply partner_Some in EP. destruct (in_dec Nat.eq_dec l2 AL) as [H2|H2].
           ++ destruct (v_done _ _ I l l2 Hl (DN _ _ Hl EP H2)) as (bb & _ & K1 & K2 & K3).
              assert (bb = b) by congruence. subst bb. exists (cp l2). split; auto. intros _. split; auto.
              destruct (v_leg _ _ I l Hl) as (_ & -> & _). destruct (v_leg _ _ I l2 H2) as (_ & -> & _).
              eapply links_dim; [apply (wl_net _ _ WL)| | |]; eauto.
           ++ rewrite (OPEN l Hl) in Eb; [discriminate|]. intros y Ly. assert (y = l2) by (eapply linked_fun; eauto). now subst.
        -- rewrite (OPEN l Hl) in Eb; [discriminate|]. intros y Ly. apply partner_Some in Ly. congruence.
    + apply (v_legs _ _ I). + apply (v_bonds _ _ I).
    + intros t Ht. rewrite (v_tens _ _ I). now apply P1.
  - intros t Ht. rewrite (v_tens _ _ I). apply (copy_of t Ht).
  - intros Ef t s Ht. unfold entry at 1. rewrite (v_tens _ _ I). apply (ic_entry _ _ _ _ _ (copy_of t Ht) Ef).
    rewrite (legs_cp t Ht), map_map. reflexivity.
Qed.
End Phase2.

Lemma copyTensorList_ok (h : heap) ts like : wf_list h ts -> (like = false -> forall t, In t ts -> copyable h t) ->
  exists h' ct cp, copyTensorList ts like h = (h', Ok (map ct ts)) /\ net_copy h h' ts ct cp /\
    (forall t, In t ts -> t_like (tens h' (ct t)) = if like then true else t_like (tens h t)) /\
    (like = false -> forall t s, In t ts -> entry h' (ct t) s = entry h t (fun l => s (cp l))).
Proof.
  intros WL C. destruct (phase1_ok like ts h) as (h1 & cs & E1 & P1); [apply WL|auto|].
  destruct (phase2_ok h h1 like ts cs WL P1) as (h' & a' & E2 & N & EC & V). exists h'. do 2 eexists. split; [|split; [exact N|exact V]].
  unfold copyTensorList. unfold bind at 1. rewrite E1. unfold bind at 1. rewrite E2. now rewrite <- EC.
Qed.

(** ** a copied network has the same value *)
Section Rename.
Variables (h h' : heap) (ts : list tid) (ct cp : nat -> nat).
Hypothesis W : wf_net h ts.
Hypothesis N : net_copy h h' ts ct cp.
Let AL := all_legs h ts.
Definition cp2 (p : lid * lid) : lid * lid := (cp (fst p), cp (snd p)).

Lemma al_sub G : incl G ts -> incl (all_legs h G) AL.
Proof. intros HG l Hl. apply all_legs_In in Hl. destruct Hl as (t & Ht & Hl). apply all_legs_In. eauto. Qed.
Lemma all_legs_map G : incl G ts -> all_legs h' (map ct G) = map cp (all_legs h G).
Proof.
  unfold all_legs. induction G as [|t G IH]; intros HG; auto. simpl. rewrite map_app, (nc_legs _ _ _ _ _ N) by (apply HG; simpl; auto).
  f_equal. apply IH. intros x Hx. apply HG. simpl; auto.
Qed.
Lemma inb_map l L : In l AL -> incl L AL -> inb (cp l) (map cp L) = inb l L.
Proof.
  intros Hl HL. destruct (inb l L) eqn:E.
  - apply inb_true in E. apply inb_true. now apply in_map.
  - apply inb_false in E. apply inb_false. intros Hi. apply in_map_iff in Hi. destruct Hi as (x & Ex & Hx).
    apply (nc_inj _ _ _ _ _ N) in Ex; auto. now subst.
Qed.
Lemma pairs_map L1 L2 : incl L1 AL -> incl L2 AL -> pairs_between h' (map cp L1) (map cp L2) = map cp2 (pairs_between h L1 L2).
Proof.
  intros H1 H2. unfold pairs_between. induction L1 as [|l L1 IH]; auto. simpl. rewrite map_app. rewrite IH by (intros x Hx; apply H1; simpl; auto).
  f_equal. assert (Hl : In l AL) by (apply H1; simpl; auto). destruct (partner h l) as [l2|] eqn:EP.
  - apply partner_Some in EP. destruct (in_dec Nat.eq_dec l2 AL) as [Ha|Ha].
    + assert (E2 : partner h' (cp l) = Some (cp l2)) by (apply partner_Some; now apply (nc_linked _ _ _ _ _ N)).
      rewrite E2, inb_map by auto. destruct (inb l2 L2); reflexivity.
    + assert (E2 : partner h' (cp l) = None).
      { unfold partner. rewrite (nc_free _ _ _ _ _ N l Hl); auto. intros x Lx. assert (x = l2) by (eapply linked_fun; eauto). now subst. }
      rewrite E2. assert (E3 : inb l2 L2 = false) by (apply inb_false; intros Hi; apply Ha; auto). now rewrite E3.
  - assert (E2 : partner h' (cp l) = None).
    { unfold partner. rewrite (nc_free _ _ _ _ _ N l Hl); auto. intros x Lx. apply partner_Some in Lx. congruence. }
    now rewrite E2.
Qed.
Lemma inner_map G : incl G ts -> inner h' (map ct G) = map cp2 (inner h G).
Proof.
  induction G as [|t G IH]; intros HG; auto. simpl. rewrite map_app. 
  assert (HG' : incl G ts) by (intros x Hx; apply HG; simpl; auto). assert (Ht : In t ts) by (apply HG; simpl; auto).
  rewrite IH by auto. f_equal. rewrite all_legs_map, (nc_legs _ _ _ _ _ N) by auto. apply pairs_map; [|now apply al_sub].
  intros l Hl. apply all_legs_In. eauto.
Qed.
Lemma others_map X Y : incl X AL -> incl Y AL -> others (map cp X) (map cp Y) = map cp (others X Y).
Proof.
  intros HX HY. unfold others. induction X as [|x X IH]; auto. simpl. rewrite inb_map by (auto; apply HX; simpl; auto).
  destruct (negb (inb x Y)); simpl; rewrite IH by (intros y Hy; apply HX; simpl; auto); auto.
Qed.
Lemma inner_sub G : incl G ts -> NoDup G -> incl (map fst (inner h G) ++ map snd (inner h G)) AL.
Proof. intros HG ND x Hx. apply (al_sub G HG). apply inner_legs; auto. Qed.
Lemma free_map G : incl G ts -> NoDup G -> free_legs h' (map ct G) = map cp (free_legs h G).
Proof.
  intros HG ND. unfold free_legs. rewrite all_legs_map, inner_map by auto. rewrite !map_map.
  replace (map (fun x => fst (cp2 x)) (inner h G) ++ map (fun x => snd (cp2 x)) (inner h G)) with (map cp (map fst (inner h G) ++ map snd (inner h G))).
  - apply others_map; [now apply al_sub|now apply inner_sub].
  - rewrite map_app, !map_map. reflexivity.
Qed.
Lemma free_sub G : incl G ts -> incl (free_legs h G) AL.
Proof. intros HG l Hl. apply (al_sub G HG). unfold free_legs, others in Hl. apply filter_In in Hl. tauto. Qed.
Lemma dims_map L : incl L AL -> map (dim_of h') (map cp L) = map (dim_of h) L.
Proof. intros HL. rewrite map_map. apply map_ext_in. intros l Hl. apply (nc_leg _ _ _ _ _ N). auto. Qed.

Lemma sumpairs_map (f' f : assignment -> A) : (forall s s', (forall l, In l AL -> s l = s' (cp l)) -> f' s' = f s) ->
  forall P, incl (plegs P) AL -> forall s s', (forall l, In l AL -> s l = s' (cp l)) -> 
  sumpairs (dim_of h') (map cp2 P) f' s' = sumpairs (dim_of h) P f s.
Proof.
  intros HF P. induction P as [|[a b] P IH]; intros HP s s' Hs; [now apply HF|]. simpl.
  assert (Ha : In a AL) by (apply HP; apply plegs_cons; auto). assert (Hb : In b AL) by (apply HP; apply plegs_cons; auto).
  destruct (nc_leg _ _ _ _ _ N a Ha) as (_ & ->). apply sumN_ext. intros i _. apply IH.
  - intros x Hx. apply HP. apply plegs_cons; auto.
  - intros l Hl. unfold upd. destruct (Nat.eqb_spec l b) as [->|N1].
    + now rewrite Nat.eqb_refl.
    + destruct (Nat.eqb_spec (cp l) (cp b)) as [E|_]; [apply (nc_inj _ _ _ _ _ N) in E; auto; congruence|].
      destruct (Nat.eqb_spec l a) as [->|N2]; [now rewrite Nat.eqb_refl|].
      destruct (Nat.eqb_spec (cp l) (cp a)) as [E|_]; [apply (nc_inj _ _ _ _ _ N) in E; auto; congruence|]. auto.
Qed.
Lemma netval_copy s : (forall t s, In t ts -> entry h' (ct t) s = entry h t (fun l => s (cp l))) ->
  netval h' (map ct ts) s = netval h ts (fun l => s (cp l)).
Proof.
  intros HE. unfold netval. rewrite inner_map by apply incl_refl. apply sumpairs_map; auto.
  - intros s0 s' Hs. assert (G : forall T, incl T ts -> prod_entries h' (map ct T) s' = prod_entries h T s0).
    { induction T as [|t T IH]; intros HT; auto. simpl. rewrite IH by (intros x Hx; apply HT; simpl; auto). f_equal.
      rewrite HE by (apply HT; simpl; auto). apply entry_ext. intros l Hl. symmetry. apply Hs. apply all_legs_In. exists t. split; auto. apply HT; simpl; auto. }
    apply G, incl_refl.
  - apply inner_legs, W.
Qed.

Lemma all_diag_map G : incl G ts -> all_diag h' (map ct G) = all_diag h G.
Proof.
  unfold all_diag. induction G as [|t G IH]; intros HG; auto. simpl. rewrite IH by (intros x Hx; apply HG; simpl; auto).
  f_equal. apply (nc_flags _ _ _ _ _ N). apply HG; simpl; auto.
Qed.
Lemma map_nil_iff {X Y} (f : X -> Y) l : l <> [] -> map f l <> [].
Proof. destruct l; [congruence|discriminate]. Qed.
Lemma group_ok_map G1 G2 : incl (G1 ++ G2) ts -> NoDup (G1 ++ G2) -> group_ok h G1 G2 -> group_ok h' (map ct G1) (map ct G2).
Proof.
  intros HG ND (O1 & O2 & O3). assert (I1 : incl G1 ts) by (intros x Hx; apply HG, in_app_iff; auto).
  assert (I2 : incl G2 ts) by (intros x Hx; apply HG, in_app_iff; auto). apply NoDup_app_inv in ND. destruct ND as (N1 & N2 & _).
  unfold group_ok. rewrite !all_diag_map by auto. split; [|split].
  - intros E1 E2. destruct (O1 E1 E2) as (l & l' & H1 & H2 & Lk). exists (cp l), (cp l'). rewrite !all_legs_map by auto.
    split; [now apply in_map|]. split; [now apply in_map|]. apply (nc_linked _ _ _ _ _ N); auto; [apply (al_sub G1 I1)|apply (al_sub G2 I2)]; auto.
  - intros E1 E2. rewrite free_map by auto. apply map_nil_iff; auto.
  - intros E1 E2. rewrite free_map by auto. apply map_nil_iff; auto.
Qed.
Lemma group_cost_map G1 G2 : incl (G1 ++ G2) ts -> NoDup (G1 ++ G2) -> group_cost h' (map ct G1) (map ct G2) = group_cost h G1 G2.
Proof.
  intros HG ND. assert (I1 : incl G1 ts) by (intros x Hx; apply HG, in_app_iff; auto).
  assert (I2 : incl G2 ts) by (intros x Hx; apply HG, in_app_iff; auto). pose proof ND as ND'. apply NoDup_app_inv in ND'. destruct ND' as (N1 & N2 & _).
  unfold group_cost. rewrite !all_diag_map by auto. rewrite <- map_app, !free_map by auto.
  rewrite dims_map by now apply free_sub. rewrite pairs_map by now apply free_sub.
  destruct (all_diag h G1), (all_diag h G2); auto.
  - destruct (free_legs h G1) as [|l L] eqn:E; auto. simpl. apply (nc_leg _ _ _ _ _ N). apply (free_sub G1 I1). rewrite E; simpl; auto.
  - f_equal. rewrite !map_app, dims_map by now apply free_sub. f_equal. rewrite !map_map. apply map_ext_in. intros p Hp. unfold cp2. simpl.
    apply (nc_leg _ _ _ _ _ N). apply (free_sub G1 I1). destruct p as [x y]. apply pairs_In in Hp. tauto.
Qed.
Definition regroup (g : nat * list tid) : nat * list tid := (fst g, map ct (snd g)).
Lemma complete_map gs sq n : complete (group_ok h) (group_cost h) gs sq n ->
  incl (flat_map snd gs) ts -> NoDup (flat_map snd gs) ->
  complete (group_ok h') (group_cost h') (map regroup gs) sq n.
Proof.
  induction 1 as [G|gs rest s t G1 G2 sq n Hst P OK CC IH]; intros HI ND; [constructor|].
  assert (PF : Permutation (flat_map snd gs) (flat_map snd ((s, G1) :: (t, G2) :: rest))).
  { apply Permutation_flat_map. exact P. } 
  assert (HI2 : incl (flat_map snd ((s, G1) :: (t, G2) :: rest)) ts) by (intros x Hx; apply HI; eapply Permutation_in; [symmetry; exact PF|exact Hx]).
  assert (ND2 := Permutation_NoDup PF ND). simpl in HI2, ND2. rewrite app_assoc in HI2, ND2.
  assert (HI3 : incl (G1 ++ G2) ts) by (intros x Hx; apply HI2, in_app_iff; auto).
  assert (ND3 : NoDup (G1 ++ G2)) by (apply NoDup_app_inv in ND2; tauto).
  rewrite <- (group_cost_map G1 G2) by auto.
  apply (complete_step _ _ _ (map regroup rest) s t (map ct G1) (map ct G2)); auto.
  - apply (Permutation_map regroup) in P. exact P.
  - now apply group_ok_map.
  - rewrite <- map_app. apply IH; simpl; auto.
Qed.
Lemma singles_flat (T : list tid) : flat_map snd (singles T) = T.
Proof.
  unfold singles. generalize 0. induction T as [|t T IH]; intros k; auto. simpl. f_equal. apply IH.
Qed.
Lemma singles_map T : map regroup (singles T) = singles (map ct T).
Proof.
  unfold singles. rewrite map_length. generalize 0. induction T as [|t T IH]; intros k; auto. simpl. f_equal. apply IH.
Qed.
Lemma complete_copy sq n : complete (group_ok h) (group_cost h) (singles ts) sq n -> complete (group_ok h') (group_cost h') (singles (map ct ts)) sq n.
Proof.
  intros C. rewrite <- singles_map. apply complete_map; auto; rewrite singles_flat; [apply incl_refl|apply W].
Qed.
End Rename.

(** ** contracting out of place: copy, then contract the copies *)
Lemma contractWithSeq_copy (h : heap) ts sq n : wf_list h ts ->
  (forall t, In t ts -> t_like (tens h t) = false /\ (t_diag (tens h t) = true -> legs_of h t <> [])) ->
  (forall p, In p (inner h ts) -> 0 < dim_of h (fst p)) ->
  complete (group_ok h) (group_cost h) (singles ts) sq n ->
  exists h' t0 cur cp, contractWithSeq ts sq false h = (h', Ok (t0, n, cur)) /\
    wf_tensor h' t0 /\ t_like (tens h' t0) = false /\ t_diag (tens h' t0) = all_diag h ts /\
    (forall l l', In l (free_legs h ts) -> In l' (free_legs h ts) -> cp l = cp l' -> l = l') /\
    Permutation (legs_of h' t0) (map cp (free_legs h ts)) /\
    (forall l, In l (free_legs h ts) -> l_name (legs h' (cp l)) = l_name (legs h l) /\ dim_of h' (cp l) = dim_of h l) /\
    forall s, in_bounds h (free_legs h ts) (fun l => s (cp l)) -> entry h' t0 s = netval h ts (fun l => s (cp l)).
Proof.
  intros WL LI Pos C. pose proof (wl_net _ _ WL) as W.
  destruct (copyTensorList_ok h ts false WL) as (h1 & ct & cp & E & N & LK & EN).
  { intros _ t Ht (D & _ & L). destruct (LI t Ht) as (_ & K). now apply K. }
  destruct (contractWithSeq_inplace h1 (map ct ts) sq n) as (h' & t0 & cur & E2 & W2 & L2 & D2 & P2 & N2 & V2).
  - apply N.
  - intros c Hc. apply in_map_iff in Hc. destruct Hc as (t & <- & Ht). rewrite (LK t Ht). apply (LI t Ht).
  - intros p Hp. rewrite (inner_map h h1 ts ct cp N ts (incl_refl ts)) in Hp. apply in_map_iff in Hp. destruct Hp as (q & <- & Hq). unfold cp2; simpl.
    destruct (nc_leg _ _ _ _ _ N (fst q)) as (_ & ->); auto. apply inner_legs; [apply W|]. apply plegs_In. destruct q as [x y]. simpl. eauto.
  - now apply (complete_copy h h1 ts ct cp W N).
  - exists h', t0, cur, cp. assert (FM : free_legs h1 (map ct ts) = map cp (free_legs h ts)) by (apply (free_map h h1 ts ct cp N); [apply incl_refl|apply W]).
    assert (FS := free_sub h ts ts (incl_refl ts)). rewrite FM in *.
    split; [unfold contractWithSeq, bind in *; now rewrite E|]. split; [exact W2|]. split; [exact L2|]. split; [|split; [|split; [exact P2|split]]].
    + rewrite D2. apply (all_diag_map h h1 ts ct cp N). apply incl_refl.
    + intros l l' Hl Hl'. apply (nc_inj _ _ _ _ _ N); auto.
    + intros l Hl. destruct (N2 (cp l)) as (-> & ->); [now apply in_map|]. apply (nc_leg _ _ _ _ _ N). auto.
    + intros s B. rewrite V2. apply (netval_copy h h1 ts ct cp W N); auto.
      intros x Hx. apply in_map_iff in Hx. destruct Hx as (l & <- & Hl). destruct (nc_leg _ _ _ _ _ N l) as (_ & ->); [apply FS; exact Hl|]. apply (B l Hl).
Qed.
End Cl.
