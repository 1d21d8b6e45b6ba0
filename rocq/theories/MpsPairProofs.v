(** Two neighbouring sites of a chain: what SchimdtDecomposition needs of them, and which legs go where. *)
From Coq Require Import List Arith Bool Lia String ZArith Permutation.
From Verif Require Import Base Sums NdModel NdProofs HeapModel FuncsModel FuncsProofs TensorModel TensorSpec
  ContractModel NetSpec ShareProofs LinkProofs SumpairsProofs ContractProofs NetProofs MergeLinkProofs GroupSpec GroupProofs
  FtnNetSpec FtnMainProofs SvdModel SvdSpec SchmidtSpec MpsSpec.
Import ListNotations.
Local Open Scope list_scope.
Local Open Scope nat_scope.

Lemma flat_map_one {X Y} (f : X -> list Y) L x p : NoDup L -> In x L -> f x = [p] -> (forall y, In y L -> y <> x -> f y = []) -> flat_map f L = [p].
Proof.
  induction L as [|z L IH]; intros ND Hx E O; [destruct Hx|]. cbn [flat_map]. inversion ND as [|? ? N1 N2]; subst.
  assert (Z : forall M, (forall y, In y M -> f y = []) -> flat_map f M = []).
  { induction M as [|m M IHM]; intros H; auto. cbn [flat_map]. rewrite (H m) by (simpl; auto). apply IHM. intros y Hy. apply H. simpl; auto. }
  destruct Hx as [->|Hx].
  - rewrite E, Z; auto. intros y Hy. apply O; [simpl; auto|]. intros ->. auto.
  - rewrite (O z); [|simpl; auto|intros ->; auto]. apply IH; auto. intros y Hy. apply O. simpl; auto.
Qed.
Lemma others_one (L : list nat) R x : NoDup L -> Permutation L (R ++ [x]) -> Permutation (others L [x]) R.
Proof.
  intros ND P. unfold others. pose proof (perm_filter (fun l => negb (inb l [x])) _ _ P) as Q. rewrite Q, filter_app.
  assert (filter (fun l => negb (inb l [x])) [x] = []) as ->.
  { cbn [filter]. assert (inb x [x] = true) as -> by (apply inb_true; simpl; auto). reflexivity. }
  rewrite app_nil_r. assert (N : ~ In x R).
  { intros Hi. pose proof (Permutation_NoDup P ND) as N2. apply (NoDup_app_disj _ _ x N2); simpl; auto. }
  clear - N. induction R as [|y R IH]; auto. cbn [filter]. assert (inb y [x] = false) as ->.
  { apply inb_false. simpl. intros [->|[]]. apply N. simpl; auto. }
  cbn [negb]. apply perm_skip, IH. intros Hi. apply N. simpl; auto.
Qed.

Section Mp.
Context {A : Type} {HA : SR A}.
Notation heap := (heap A).
Variables (h : heap) (ta tb : tid) (outA outB : list lid) (oa ob xa xb : lid) (pa pb : string).
Hypothesis WP : wf_pair h ta tb.
Hypothesis PA : Permutation (legs_of h ta) ((outA ++ [oa]) ++ [xa]).
Hypothesis PB : Permutation (legs_of h tb) ((outB ++ [ob]) ++ [xb]).
Hypothesis LKS : linked h xa xb.
Hypothesis NLK : forall l l', In l ((outA ++ [oa]) ++ outB ++ [ob]) -> In l' ((outA ++ [oa]) ++ outB ++ [ob]) -> ~ linked h l l'.
Hypothesis SA : outA = [] \/ exists l, outA = [l] /\ l_name (legs h l) = NStr pa.
Hypothesis SB : outB = [] \/ exists l, outB = [l] /\ l_name (legs h l) = NStr pb.
Hypothesis NO : l_name (legs h oa) = NStr "o" /\ l_name (legs h ob) = NStr "o".
Hypothesis NX : l_name (legs h xa) = NStr pb /\ l_name (legs h xb) = NStr pa.
Hypothesis DN : pa <> pb /\ pa <> "o"%string /\ pb <> "o"%string /\ after_dash pa = None /\ after_dash pb = None.

Lemma pair_shared : shared h ta tb = [(xa, xb)].
Proof.
  unfold shared, pairs_between. apply (flat_map_one _ _ xa).
  - apply WP.
  - eapply Permutation_in; [symmetry; exact PA|]. apply in_app_iff. simpl; auto.
  - apply partner_Some in LKS. rewrite LKS. assert (inb xb (legs_of h tb) = true) as ->; auto. apply inb_true.
    eapply Permutation_in; [symmetry; exact PB|]. apply in_app_iff. simpl; auto.
  - intros y Hy NE. destruct (partner h y) as [y'|] eqn:EP; auto. destruct (inb y' (legs_of h tb)) eqn:EI; auto. exfalso.
    apply inb_true in EI. apply partner_Some in EP. pose proof (Permutation_in _ PA Hy) as Hy1. pose proof (Permutation_in _ PB EI) as Hy2.
    rewrite in_app_iff in Hy1, Hy2. destruct Hy1 as [Hy1|[<-|[]]]; [|congruence].
    destruct Hy2 as [Hy2|[<-|[]]].
    + apply (NLK y y'); auto; apply in_app_iff; auto.
    + apply NE. (* both y and xa are linked to xb *)
      assert (L1 : linked h xb y /\ linked h xb xa).
      { split.
        - destruct EP as (b & Eb & En). destruct (wp_links _ _ _ WP y b) as (z & Ez & K); [apply in_app_iff; auto|auto|].
          assert (z = xb) as -> by (apply (linked_fun h y); exists b; auto). destruct K as [K1 K2]; [apply in_app_iff; auto|].
          exists b. split; auto. destruct En as [En|En]; [right|left]; auto.
        - destruct LKS as (b & Eb & En). destruct (wp_links _ _ _ WP xa b) as (z & Ez & K); auto.
          { apply in_app_iff. left. eapply Permutation_in; [symmetry; exact PA|]. apply in_app_iff. simpl; auto. }
          assert (z = xb) as -> by (apply (linked_fun h xa); exists b; auto). destruct K as [K1 K2]; [apply in_app_iff; auto|].
          exists b. split; auto. destruct En as [En|En]; [right|left]; auto. }
      destruct L1. apply (linked_fun h xb); auto.
Qed.
Lemma pair_restA : Permutation (restA h ta tb) (outA ++ [oa]).
Proof. unfold restA. rewrite pair_shared. cbn [map fst]. apply others_one; auto. apply WP. Qed.
Lemma pair_restB : Permutation (restB h ta tb) (outB ++ [ob]).
Proof. unfold restB. rewrite pair_shared. cbn [map snd]. apply others_one; auto. apply WP. Qed.

Lemma called_o l s : l_name (legs h l) = NStr s -> called h ["o"%string] l = String.eqb s "o".
Proof. intros E. unfold called. rewrite E. cbn [existsb]. apply orb_false_r. Qed.
Lemma called_oo : called h ["o"%string] oa = true /\ called h ["o"%string] ob = true.
Proof. destruct NO as [N1 N2]. rewrite (called_o oa _ N1), (called_o ob _ N2). auto. Qed.
Lemma called_out l : In l (outA ++ outB) -> called h ["o"%string] l = false.
Proof.
  intros Hl. destruct DN as (_ & D1 & D2 & _). apply in_app_iff in Hl. destruct Hl as [Hl|Hl].
  - destruct SA as [E|(l1 & E & E1)]; rewrite E in Hl; [destruct Hl|]. destruct Hl as [<-|[]]. rewrite (called_o _ _ E1). now apply String.eqb_neq.
  - destruct SB as [E|(l1 & E & E1)]; rewrite E in Hl; [destruct Hl|]. destruct Hl as [<-|[]]. rewrite (called_o _ _ E1). now apply String.eqb_neq.
Qed.
Lemma filter_out (L : list nat) : incl L (outA ++ outB) -> filter (called h ["o"%string]) L = [] /\ filter (fun l => negb (called h ["o"%string] l)) L = L.
Proof.
  induction L as [|l L IH]; intros HI; auto. cbn [filter]. rewrite (called_out l) by (apply HI; simpl; auto).
  destruct IH as [-> E]; [intros x Hx; apply HI; simpl; auto|]. cbn [negb]. now rewrite E.
Qed.
Lemma pair_sideA : Permutation (sideA h ta tb ["o"%string] ["o"%string]) (outA ++ [ob]).
Proof.
  unfold sideA. rewrite (perm_filter _ _ _ pair_restA), (perm_filter _ _ _ pair_restB), !filter_app.
  destruct (filter_out outA) as [_ ->]; [apply incl_appl, incl_refl|]. destruct (filter_out outB) as [-> _]; [apply incl_appr, incl_refl|].
  cbn [filter]. destruct called_oo as [-> ->]. cbn [negb app]. now rewrite app_nil_r.
Qed.
Lemma pair_sideB : Permutation (sideB h ta tb ["o"%string] ["o"%string]) (oa :: outB).
Proof.
  unfold sideB. rewrite (perm_filter _ _ _ pair_restA), (perm_filter _ _ _ pair_restB), !filter_app.
  destruct (filter_out outA) as [-> _]; [apply incl_appl, incl_refl|]. destruct (filter_out outB) as [_ ->]; [apply incl_appr, incl_refl|].
  cbn [filter]. destruct called_oo as [-> ->]. cbn [negb app]. now rewrite app_nil_r.
Qed.

Lemma names_out p q (out : list lid) x y : out = [] \/ (exists l, out = [l] /\ l_name (legs h l) = NStr p) ->
  l_name (legs h x) = NStr "o" -> l_name (legs h y) = NStr q -> p <> q -> p <> "o"%string -> q <> "o"%string ->
  NoDup (map (fun l => l_name (legs h l)) ((out ++ [x]) ++ [y])) /\ NoDup (map (fun l => l_name (legs h l)) (out ++ [x])).
Proof.
  intros S Ex Ey D1 D2 D3. destruct S as [->|(l & -> & El)]; cbn [app map]; rewrite ?Ex, ?Ey, ?El;
  split; repeat constructor; simpl; intuition congruence.
Qed.

Lemma pair_separable : separable h ta tb ["o"%string] ["o"%string].
Proof.
  destruct DN as (D0 & D1 & D2 & D3 & D4), NO as [N1 N2], NX as [N3 N4].
  assert (IA : forall l, In l (legs_of h ta) <-> In l ((outA ++ [oa]) ++ [xa])) by (intros; split; apply Permutation_in; auto using Permutation_sym).
  assert (IB : forall l, In l (legs_of h tb) <-> In l ((outB ++ [ob]) ++ [xb])) by (intros; split; apply Permutation_in; auto using Permutation_sym).
  constructor.
  - intros l Hl. rewrite in_app_iff, IA, IB, !in_app_iff in Hl. simpl in Hl.
    destruct Hl as [[[Hl|[<-|[]]]|[<-|[]]]|[[Hl|[<-|[]]]|[<-|[]]]].
    + destruct SA as [E|(l1 & E & E1)]; rewrite E in Hl; [destruct Hl|]. destruct Hl as [<-|[]]. eauto.
    + exists "o"%string. auto.
    + eauto.
    + destruct SB as [E|(l1 & E & E1)]; rewrite E in Hl; [destruct Hl|]. destruct Hl as [<-|[]]. eauto.
    + exists "o"%string. auto.
    + eauto.
  - eapply Permutation_NoDup; [apply Permutation_map; symmetry; exact PA|]. apply (names_out pa pb); auto.
  - eapply Permutation_NoDup; [apply Permutation_map; symmetry; exact PB|]. apply (names_out pb pa); auto.
  - reflexivity.
  - intros s [<-|[]]. exists oa. rewrite IA, !in_app_iff. simpl. auto.
  - intros s [<-|[]]. exists ob. rewrite IB, !in_app_iff. simpl. auto.
  - split.
    + eapply Permutation_NoDup; [apply Permutation_map; symmetry; exact pair_sideA|]. apply (names_out pa pb outA ob xa); auto.
    + intros E. pose proof pair_sideA as P. rewrite E in P. apply Permutation_nil in P. now destruct outA.
  - split.
    + eapply Permutation_NoDup; [apply Permutation_map; symmetry; exact pair_sideB|].
      eapply Permutation_NoDup; [apply Permutation_map, (Permutation_app_comm outB [oa])|]. apply (names_out pb pa outB oa xb); auto.
    + intros E. pose proof pair_sideB as P. rewrite E in P. apply Permutation_nil in P. discriminate P.
  - assert (IR : forall l, In l (restA h ta tb ++ restB h ta tb) -> In l ((outA ++ [oa]) ++ outB ++ [ob])).
    { intros l Hl. rewrite in_app_iff in *. destruct Hl as [Hl|Hl]; [left|right].
      - eapply Permutation_in; [exact pair_restA|auto].
      - eapply Permutation_in; [exact pair_restB|auto]. }
    intros l l' H1 H2. apply NLK; auto.
Qed.
End Mp.
