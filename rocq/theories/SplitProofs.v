(** Two new tensors that share one new bond and take over the free legs of a group. *)
From Coq Require Import List Arith Bool Lia String ZArith Permutation.
From Verif Require Import Base Sums NdModel NdProofs HeapModel FuncsModel FuncsProofs TensorModel TensorSpec
  ContractModel NetSpec ShareProofs LinkProofs SumpairsProofs ContractProofs NetProofs MergeLinkProofs GroupSpec GroupProofs.
Import ListNotations.
Local Open Scope list_scope.
Local Open Scope nat_scope.

Section Sp.
Context {A : Type} {HA : SR A}.
Notation heap := (heap A).

(** [h'] is [h] with the new tensors u = ntens h (legs La ++ [x]) and v (legs y :: Lb), x - y linked by a new bond;
    the legs of La and Lb are now called [nm] *)
Record pair_made (h h' : heap) (La Lb : list lid) (k : nat) (na nb : pname) (nm : lid -> pname) : Prop := {
  pm_ntens : ntens h' = S (S (ntens h)); pm_nleg : nleg h' = S (S (nleg h)); pm_nbond : nbond h' = S (nbond h);
  pm_x : legs h' (nleg h) = mkLeg (Some (ntens h)) k na (Some (nbond h));
  pm_y : legs h' (S (nleg h)) = mkLeg (Some (S (ntens h))) k nb (Some (nbond h));
  pm_b : bonds h' (nbond h) = mkBond (nleg h) (S (nleg h));
  pm_bonds : forall b, b < nbond h -> bonds h' b = bonds h b;
  pm_A : forall l, In l La -> legs h' l = mkLeg (Some (ntens h)) (l_dim (legs h l)) (nm l) (l_bond (legs h l));
  pm_B : forall l, In l Lb -> legs h' l = mkLeg (Some (S (ntens h))) (l_dim (legs h l)) (nm l) (l_bond (legs h l));
  pm_o : forall l, l < nleg h -> ~ In l (La ++ Lb) -> legs h' l = legs h l;
  pm_tens : forall t, t < ntens h -> tens h' t = tens h t;
  pm_u : legs_of h' (ntens h) = La ++ [nleg h];
  pm_v : legs_of h' (S (ntens h)) = S (nleg h) :: Lb;
  pm_wu : wf_tensor h' (ntens h); pm_wv : wf_tensor h' (S (ntens h)) }.

Section PM.
Variables (h h' : heap) (La Lb : list lid) (k : nat) (na nb : pname) (nm : lid -> pname) (G rest : list tid).
Hypothesis PM : pair_made h h' La Lb k na nb nm.
Hypothesis WO : wf_open h (G ++ rest).
Hypothesis HP : Permutation (La ++ Lb) (free_legs h G).
Hypothesis NL : forall l l', In l La -> In l' Lb -> ~ linked h l l' /\ ~ linked h l' l.
Let W := wo_net _ _ WO.
Let x := nleg h.
Let y := S (nleg h).
Let u := ntens h.
Let v := S (ntens h).

Lemma pm_all l : In l (La ++ Lb) -> In l (all_legs h (G ++ rest)).
Proof.
  intros Hl. apply (Permutation_in _ HP) in Hl. apply rp_free_all in Hl. rewrite all_legs_app. apply in_app_iff; auto.
Qed.
Lemma pm_lt l : In l (La ++ Lb) -> l < nleg h.
Proof. intros Hl. apply (rp_alloc h G rest WO). now apply pm_all. Qed.
Lemma pm_legs l : l < nleg h -> l_bond (legs h' l) = l_bond (legs h l) /\ dim_of h' l = dim_of h l.
Proof.
  intros Hl. unfold dim_of. destruct (in_dec Nat.eq_dec l La) as [HA'|HA']; [rewrite (pm_A _ _ _ _ _ _ _ _ PM) by auto; auto|].
  destruct (in_dec Nat.eq_dec l Lb) as [HB|HB]; [rewrite (pm_B _ _ _ _ _ _ _ _ PM) by auto; auto|].
  rewrite (pm_o _ _ _ _ _ _ _ _ PM); auto. rewrite in_app_iff; tauto.
Qed.
Lemma pm_ends b l l' : b < nbond h -> ends h' b l l' <-> ends h b l l'.
Proof. intros Hb. unfold ends. now rewrite (pm_bonds _ _ _ _ _ _ _ _ PM). Qed.
Lemma pm_linked l l' : In l (all_legs h (G ++ rest)) -> linked h' l l' <-> linked h l l'.
Proof.
  intros Hl. unfold linked. destruct (pm_legs l) as (EB & _); [now apply (rp_alloc h G rest WO)|]. rewrite EB.
  split; intros (b & E & N); exists b; split; auto; apply pm_ends in N || apply pm_ends; auto; eapply (wo_bonds _ _ WO); eauto.
Qed.
Lemma pm_link : linked h' x y /\ linked h' y x.
Proof.
  split; exists (nbond h); unfold ends; rewrite (pm_b _ _ _ _ _ _ _ _ PM).
  - unfold x at 1. rewrite (pm_x _ _ _ _ _ _ _ _ PM). auto.
  - unfold y at 1. rewrite (pm_y _ _ _ _ _ _ _ _ PM). auto.
Qed.

Lemma pm_allnew l : In l (all_legs h' [u; v]) <-> In l (La ++ Lb) \/ l = x \/ l = y.
Proof.
  unfold all_legs. cbn [flat_map]. rewrite app_nil_r. unfold u, v. rewrite (pm_u _ _ _ _ _ _ _ _ PM), (pm_v _ _ _ _ _ _ _ _ PM).
  rewrite !in_app_iff. cbn [In]. unfold x, y. intuition auto.
Qed.
Lemma pm_nodup : NoDup (La ++ Lb).
Proof. apply (Permutation_NoDup (Permutation_sym HP)). apply free_NoDup. pose proof (wn_nodup _ _ W) as N. rewrite all_legs_app in N. apply (NoDup_app_l _ _ N). Qed.

Lemma pm_wf : wf_open h' [u; v].
Proof.
  destruct pm_link as (LX & LY).
  assert (WN : wf_net h' [u; v]).
  { constructor.
    - intros t [<-|[<-|[]]]; apply PM.
    - intros t [<-|[<-|[]]] l Hl.
      + unfold u in Hl. rewrite (pm_u _ _ _ _ _ _ _ _ PM) in Hl. apply in_app_iff in Hl. destruct Hl as [Hl|[<-|[]]].
        * now rewrite (pm_A _ _ _ _ _ _ _ _ PM).
        * now rewrite (pm_x _ _ _ _ _ _ _ _ PM).
      + unfold v in Hl. rewrite (pm_v _ _ _ _ _ _ _ _ PM) in Hl. destruct Hl as [<-|Hl].
        * now rewrite (pm_y _ _ _ _ _ _ _ _ PM).
        * now rewrite (pm_B _ _ _ _ _ _ _ _ PM).
    - unfold u, v. repeat constructor; simpl; lia.
    - unfold all_legs. cbn [flat_map]. rewrite app_nil_r. unfold u, v. rewrite (pm_u _ _ _ _ _ _ _ _ PM), (pm_v _ _ _ _ _ _ _ _ PM).
      apply (Permutation_NoDup (l := nleg h :: S (nleg h) :: La ++ Lb)).
      { rewrite <- app_assoc. cbn [app]. change (La ++ nleg h :: S (nleg h) :: Lb) with (La ++ [nleg h; S (nleg h)] ++ Lb).
        rewrite (app_assoc La). rewrite (Permutation_app_comm La [nleg h; S (nleg h)]). reflexivity. }
      constructor; [|constructor; [|apply pm_nodup]].
      + intros [E|Hl]; [lia|]. apply pm_lt in Hl. lia.
      + intros Hl. apply pm_lt in Hl. lia.
    - intros l b Hl EB. apply pm_allnew in Hl. destruct Hl as [Hl|[->| ->]].
      + pose proof (pm_all l Hl) as HA'. pose proof (pm_lt l Hl) as Lt. destruct (pm_legs l Lt) as (EB' & ED). rewrite EB' in EB.
        destruct (wn_links _ _ W l b HA' EB) as (l' & EN & OK). exists l'. pose proof (wo_bonds _ _ WO l b HA' EB) as Lb'.
        assert (l' < nleg h) as Lt' by (apply (wo_alloc _ _ WO l l' HA'); exists b; auto).
        split; [now apply pm_ends|]. intros Hl'. apply pm_allnew in Hl'. unfold x, y in Hl'. destruct Hl' as [Hl'|[-> | ->]]; [|lia|lia].
        destruct (pm_legs l' Lt') as (-> & ->). rewrite ED. apply OK. now apply pm_all.
      + unfold x in EB. rewrite (pm_x _ _ _ _ _ _ _ _ PM) in EB. injection EB as <-. exists y. split; [unfold ends; rewrite (pm_b _ _ _ _ _ _ _ _ PM); auto|].
        intros _. unfold x, y, dim_of. rewrite (pm_x _ _ _ _ _ _ _ _ PM), (pm_y _ _ _ _ _ _ _ _ PM). auto.
      + unfold y in EB. rewrite (pm_y _ _ _ _ _ _ _ _ PM) in EB. injection EB as <-. exists x. split; [unfold ends; rewrite (pm_b _ _ _ _ _ _ _ _ PM); auto|].
        intros _. unfold x, y, dim_of. rewrite (pm_x _ _ _ _ _ _ _ _ PM), (pm_y _ _ _ _ _ _ _ _ PM). auto. }
  constructor; auto.
  - rewrite (pm_nbond _ _ _ _ _ _ _ _ PM). intros l b Hl EB. apply pm_allnew in Hl. destruct Hl as [Hl|[-> | ->]].
    + destruct (pm_legs l (pm_lt l Hl)) as (E & _). rewrite E in EB. pose proof (wo_bonds _ _ WO l b (pm_all l Hl) EB). lia.
    + unfold x in EB. rewrite (pm_x _ _ _ _ _ _ _ _ PM) in EB. injection EB as <-. lia.
    + unfold y in EB. rewrite (pm_y _ _ _ _ _ _ _ _ PM) in EB. injection EB as <-. lia.
  - rewrite (pm_nleg _ _ _ _ _ _ _ _ PM). intros l l' Hl LL. apply pm_allnew in Hl. destruct Hl as [Hl|[-> | ->]].
    + apply pm_linked in LL; [|now apply pm_all]. pose proof (wo_alloc _ _ WO l l' (pm_all l Hl) LL). lia.
    + rewrite (linked_fun h' x l' y LL LX). unfold y. lia.
    + rewrite (linked_fun h' y l' x LL LY). unfold x. lia.
Qed.

Lemma pm_shared : shared h' u v = [(x, y)].
Proof.
  destruct pm_link as (LX & LY). unfold shared. unfold u, v. rewrite (pm_u _ _ _ _ _ _ _ _ PM), (pm_v _ _ _ _ _ _ _ _ PM). fold x y. change (S x) with y.
  rewrite pairs_between_app.
  assert (X : forall L, incl L La -> pairs_between h' L (y :: Lb) = []).
  { induction L as [|l L IH]; intros HI; auto. unfold pairs_between in *. cbn [flat_map]. rewrite IH by (intros z Hz; apply HI; simpl; auto). rewrite app_nil_r.
    destruct (partner h' l) as [l'|] eqn:EP; auto. destruct (inb l' (y :: Lb)) eqn:EI; auto. exfalso.
    apply inb_true in EI. apply partner_Some in EP. assert (Hl : In l La) by (apply HI; simpl; auto).
    assert (Hl2 : In l (La ++ Lb)) by (apply in_app_iff; auto).
    apply pm_linked in EP; [|now apply pm_all]. pose proof (wo_alloc _ _ WO l l' (pm_all l Hl2) EP). destruct EI as [<-|EI]; [unfold y in *; lia|].
    destruct (NL l l' Hl EI); auto. }
  rewrite X by apply incl_refl. unfold pairs_between. cbn [flat_map app]. apply partner_Some in LX. rewrite LX.
  assert (E : inb y (y :: Lb) = true) by (apply inb_true; simpl; auto). change (S x) with y. rewrite E. reflexivity.
Qed.
Lemma pm_inner : inner h' [u; v] = [(x, y)].
Proof.
  cbn [inner]. unfold all_legs. cbn [flat_map]. rewrite !app_nil_r. change (pairs_between h' (legs_of h' u) (legs_of h' v)) with (shared h' u v). rewrite pm_shared.
  assert (forall L, pairs_between h' L [] = []) as ->; auto.
  induction L as [|l L IH]; auto. unfold pairs_between in *. cbn [flat_map]. rewrite IH. destruct (partner h' l); auto.
Qed.
Lemma pm_freelegs : Permutation (free_legs h' [u; v]) (La ++ Lb).
Proof.
  apply NoDup_Permutation; [apply free_NoDup, pm_wf|apply pm_nodup|]. intros l. unfold free_legs. rewrite others_In, pm_inner, pm_allnew. simpl.
  split.
  - intros ([H|H] & N); auto. exfalso. apply N. destruct H as [-> | ->]; auto.
  - intros H. split; auto. apply pm_lt in H. unfold x, y. intros [E|[E|[]]]; lia.
Qed.

Lemma pm_replaced : group_replaced h h' G [u; v] rest.
Proof.
  constructor.
  - apply pm_wf.
  - rewrite (pm_ntens _ _ _ _ _ _ _ _ PM). intros t [<-|[<-|[]]]; unfold u, v; lia.
  - rewrite pm_freelegs. exact HP.
  - intros l Hl. apply pm_allnew in Hl. destruct Hl as [Hl|[-> | ->]]; [left; now apply (Permutation_in _ HP)|right; unfold x; lia|right; unfold y; lia].
  - intros l Hl. apply pm_legs. apply (rp_alloc h G rest WO). now apply (rp_keep h G rest).
  - intros l Hl N. rewrite (pm_o _ _ _ _ _ _ _ _ PM); auto. intros H. apply N. now apply (Permutation_in _ HP).
  - intros b Hb. left. now apply PM.
  - intros t Ht _. now apply PM.
  - rewrite (pm_nleg _ _ _ _ _ _ _ _ PM). lia.
  - rewrite (pm_nbond _ _ _ _ _ _ _ _ PM). lia.
  - rewrite (pm_ntens _ _ _ _ _ _ _ _ PM). lia.
Qed.

Lemma pm_value s : netval h' [u; v] s = sumN k (fun i => rmul (entry h' u (upd (upd s x i) y i)) (entry h' v (upd (upd s x i) y i))).
Proof.
  unfold netval. rewrite pm_inner. cbn [sumpairs]. unfold dim_of, x at 1. rewrite (pm_x _ _ _ _ _ _ _ _ PM). cbn [l_dim].
  apply sumN_ext. intros i Hi. cbn [prod_entries]. now rewrite (rmul_comm _ r1), rmul_1_l.
Qed.
End PM.
End Sp.
