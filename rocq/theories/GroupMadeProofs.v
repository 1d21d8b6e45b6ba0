(** New tensors that share new bonds and take over the free legs of a group. *)
From Coq Require Import List Arith Bool Lia String ZArith Permutation.
From Verif Require Import Base Sums NdModel NdProofs HeapModel FuncsModel FuncsProofs TensorModel TensorSpec
  ContractModel NetSpec ShareProofs LinkProofs SumpairsProofs ContractProofs NetProofs MergeLinkProofs GroupSpec GroupProofs.
Import ListNotations.
Local Open Scope list_scope.
Local Open Scope nat_scope.

Section Gm.
Context {A : Type} {HA : SR A}.
Notation heap := (heap A).

(** [h'] is [h] with the new tensors [G'], whose legs are the old legs [F] and the new legs [N]; the new legs are linked in pairs *)
Record group_made (h h' : heap) (F : list lid) (G' : list tid) (N : list lid) : Prop := {
  gm_wf : forall t, In t G' -> wf_tensor h' t;
  gm_own : forall t, In t G' -> owned h' t;
  gm_nd : NoDup G'; gm_ids : forall t, In t G' -> ntens h <= t < ntens h';
  gm_legs : Permutation (all_legs h' G') (F ++ N);
  gm_N : NoDup N; gm_new : forall l, In l N -> nleg h <= l < nleg h';
  gm_link : forall l, In l N -> exists l' b, In l' N /\ l_bond (legs h' l) = Some b /\ l_bond (legs h' l') = Some b /\
    b < nbond h' /\ ends h' b l l' /\ dim_of h' l = dim_of h' l' /\ l_tensor (legs h' l) <> l_tensor (legs h' l');
  gm_F : forall l, In l F -> l_bond (legs h' l) = l_bond (legs h l) /\ dim_of h' l = dim_of h l;
  gm_o : forall l, l < nleg h -> ~ In l F -> legs h' l = legs h l;
  gm_bonds : forall b, b < nbond h -> bonds h' b = bonds h b;
  gm_tens : forall t, t < ntens h -> tens h' t = tens h t;
  gm_nleg : nleg h <= nleg h'; gm_nbond : nbond h <= nbond h'; gm_ntens : ntens h <= ntens h' }.

Variables (h h' : heap) (F N : list lid) (G G' rest : list tid).
Hypothesis GM : group_made h h' F G' N.
Hypothesis WO : wf_open h (G ++ rest).
Hypothesis HP : Permutation F (free_legs h G).
Hypothesis NL : forall l l', In l F -> In l' F -> ~ linked h l l'.
Let W := wo_net _ _ WO.

Lemma gm_all l : In l F -> In l (all_legs h (G ++ rest)).
Proof. intros Hl. apply (Permutation_in _ HP) in Hl. apply rp_free_all in Hl. rewrite all_legs_app. apply in_app_iff; auto. Qed.
Lemma gm_lt l : In l F -> l < nleg h.
Proof. intros Hl. apply (rp_alloc h G rest WO). now apply gm_all. Qed.
Lemma gm_leg l : l < nleg h -> l_bond (legs h' l) = l_bond (legs h l) /\ dim_of h' l = dim_of h l.
Proof.
  intros Hl. destruct (in_dec Nat.eq_dec l F) as [H|H]; [now apply (gm_F _ _ _ _ _ GM)|]. unfold dim_of. now rewrite (gm_o _ _ _ _ _ GM).
Qed.
Lemma gm_ends b l l' : b < nbond h -> ends h' b l l' <-> ends h b l l'.
Proof. intros Hb. unfold ends. now rewrite (gm_bonds _ _ _ _ _ GM). Qed.
Lemma gm_linked l l' : In l (all_legs h (G ++ rest)) -> linked h' l l' <-> linked h l l'.
Proof.
  intros Hl. unfold linked. destruct (gm_leg l) as (EB & _); [now apply (rp_alloc h G rest WO)|]. rewrite EB.
  split; intros (b & E & X); exists b; split; auto; apply gm_ends in X || apply gm_ends; auto; eapply (wo_bonds _ _ WO); eauto.
Qed.
Lemma gm_allnew l : In l (all_legs h' G') <-> In l F \/ In l N.
Proof. rewrite <- in_app_iff. split; apply Permutation_in; [|apply Permutation_sym]; apply GM. Qed.
Lemma gm_nodup : NoDup F.
Proof. apply (Permutation_NoDup (Permutation_sym HP)). apply free_NoDup. pose proof (wn_nodup _ _ W) as X. rewrite all_legs_app in X. apply (NoDup_app_l _ _ X). Qed.

Lemma gm_wfo : wf_open h' G'.
Proof.
  assert (WN : wf_net h' G').
  { constructor; try apply GM.
    - apply (Permutation_NoDup (Permutation_sym (gm_legs _ _ _ _ _ GM))). apply NoDup_app_intro; [apply gm_nodup|apply GM|].
      intros l H1 H2. apply gm_lt in H1. apply (gm_new _ _ _ _ _ GM) in H2. lia.
    - intros l b Hl EB. apply gm_allnew in Hl. destruct Hl as [Hl|Hl].
      + pose proof (gm_all l Hl) as HA'. pose proof (gm_lt l Hl) as Lt. destruct (gm_leg l Lt) as (EB' & ED). rewrite EB' in EB.
        destruct (wn_links _ _ W l b HA' EB) as (l' & EN & OK). exists l'. pose proof (wo_bonds _ _ WO l b HA' EB) as Lb'.
        assert (l' < nleg h) as Lt' by (apply (wo_alloc _ _ WO l l' HA'); exists b; auto).
        split; [now apply gm_ends|]. intros Hl'. apply gm_allnew in Hl'. destruct Hl' as [Hl'|Hl']; [|apply (gm_new _ _ _ _ _ GM) in Hl'; lia].
        destruct (gm_leg l' Lt') as (-> & ->). rewrite ED. apply OK. now apply gm_all.
      + destruct (gm_link _ _ _ _ _ GM l Hl) as (l' & b' & I' & E1 & E2 & LT & EN & ED & _). rewrite E1 in EB. injection EB as <-.
        exists l'. auto. }
  constructor; auto.
  - intros l b Hl EB. apply gm_allnew in Hl. destruct Hl as [Hl|Hl].
    + destruct (gm_leg l (gm_lt l Hl)) as (E & _). rewrite E in EB. pose proof (wo_bonds _ _ WO l b (gm_all l Hl) EB). pose proof (gm_nbond _ _ _ _ _ GM). lia.
    + destruct (gm_link _ _ _ _ _ GM l Hl) as (l' & b' & I' & E1 & E2 & LT & _). rewrite E1 in EB. injection EB as <-. lia.
  - intros l l' Hl LL. apply gm_allnew in Hl. destruct Hl as [Hl|Hl].
    + apply gm_linked in LL; [|now apply gm_all]. pose proof (wo_alloc _ _ WO l l' (gm_all l Hl) LL). pose proof (gm_nleg _ _ _ _ _ GM). lia.
    + destruct (gm_link _ _ _ _ _ GM l Hl) as (z & b' & I' & E1 & E2 & LT & EN & _). assert (linked h' l z) as LZ by (exists b'; auto).
      rewrite (linked_fun h' l l' z LL LZ). now apply (gm_new _ _ _ _ _ GM).
Qed.

Lemma gm_freelegs : Permutation (free_legs h' G') F.
Proof.
  pose proof (wo_net _ _ gm_wfo) as WN.
  apply NoDup_Permutation; [apply free_NoDup, WN|apply gm_nodup|]. intros l. rewrite free_In by apply WN. rewrite gm_allnew. split.
  - intros ([H|H] & X); auto. exfalso. destruct (gm_link _ _ _ _ _ GM l H) as (l' & b & I' & E1 & E2 & LT & EN & ED & NT).
    assert (IL : forall z, In z N -> exists t, In t G' /\ In z (legs_of h' t)).
    { intros z Hz. apply all_legs_In. apply gm_allnew. auto. }
    destruct (IL l H) as (t & Ht & Hl), (IL l' I') as (t' & Ht' & Hl').
    apply (X l'). exists t, t'. repeat (split; auto); [|exists b; auto].
    intros ->. apply NT. now rewrite (gm_own _ _ _ _ _ GM t' Ht' l Hl), (gm_own _ _ _ _ _ GM t' Ht' l' Hl').
  - intros H. split; auto. intros l' (t & t' & Ht & Ht' & _ & Hl & Hl' & LK). apply gm_linked in LK; [|now apply gm_all].
    assert (In l' (all_legs h' G')) as HX by (apply all_legs_In; eauto). apply gm_allnew in HX. destruct HX as [HX|HX]; [now apply (NL l l')|].
    apply (gm_new _ _ _ _ _ GM) in HX. pose proof (wo_alloc _ _ WO l l' (gm_all l H) LK). lia.
Qed.

Lemma gm_replaced : group_replaced h h' G G' rest.
Proof.
  constructor.
  - apply gm_wfo.
  - exact (gm_ids _ _ _ _ _ GM).
  - rewrite gm_freelegs. exact HP.
  - intros l Hl. apply gm_allnew in Hl. destruct Hl as [Hl|Hl]; [left; now apply (Permutation_in _ HP)|right; now apply (gm_new _ _ _ _ _ GM)].
  - intros l Hl. apply gm_leg. apply (rp_alloc h G rest WO). now apply (rp_keep h G rest).
  - intros l Hl X. rewrite (gm_o _ _ _ _ _ GM); auto. intros H. apply X. now apply (Permutation_in _ HP).
  - intros b Hb. left. now apply GM.
  - intros t Ht _. now apply GM.
  - exact (gm_nleg _ _ _ _ _ GM).
  - exact (gm_nbond _ _ _ _ _ GM).
  - exact (gm_ntens _ _ _ _ _ GM).
Qed.
End Gm.
