(** From a list of linked tensors to the graph the searches work on. *)
From Coq Require Import List Arith Bool Lia Permutation ZArith Relations.
From Verif Require Import Base Sums NdModel HeapModel FuncsModel TensorModel TensorSpec ContractModel NetSpec NetGraphSpec
  FuncsProofs NdProofs TensorProofs MergeProofs ShareProofs DiagContractProofs NetProofs SeqProofs CopyListProofs
  SearchModel SearchSpec SearchBase GraphModel GraphSpec GraphProofs NetGraphModel.
Import ListNotations.
Local Open Scope nat_scope.

Lemma rfold_app {X S} (f : S -> X -> res S) l l' : forall s, rfold f (l ++ l') s = (letr s' := rfold f l s in rfold f l' s').
Proof. induction l as [|x l IH]; intros s; simpl; auto. destruct (f s x); simpl; auto. Qed.
Lemma rmapM_ok {X Y} (f : X -> res Y) (g : X -> Y) : forall l, (forall x, In x l -> f x = Ok (g x)) -> rmapM f l = Ok (map g l).
Proof. induction l as [|x l IH]; intros H; simpl; auto. rewrite H by (simpl; auto). simpl. rewrite IH by (intros; apply H; simpl; auto). reflexivity. Qed.

(** the searches see a graph in which [eix] numbers the links and free legs of the list *)
Section GraphOf.
Context {A : Type} {HA : SR A}.
Notation heap := (heap A).

Record graph_of (h : heap) (ts : list tid) (verts : list vres) (eix dimE : nat -> nat) : Prop := {
  go_len : List.length verts = List.length ts;
  go_edges : forall i t, nth_error ts i = Some t -> Permutation (vedges verts i) (map eix (legs_of h t));
  go_shape : forall i t, nth_error ts i = Some t -> vshape verts i = map dimE (vedges verts i);
  go_dim : forall l, In l (all_legs h ts) -> dimE (eix l) = dim_of h l;
  go_diag : forall i t, nth_error ts i = Some t -> vdiag verts i = t_diag (tens h t);
  go_eix : forall l l', In l (all_legs h ts) -> In l' (all_legs h ts) -> eix l = eix l' <-> l = l' \/ linked h l l' }.

Section Build.
Variables (h : heap) (ts : list tid).
Hypothesis W : wf_net h ts.
Hypothesis CL : closed_net h ts.
Let n := List.length ts.
Definition at_ (i : nat) (l : lid) : Prop := exists t, nth_error ts i = Some t /\ In l (legs_of h t).

Lemma at_fun i j l : at_ i l -> at_ j l -> i = j.
Proof.
  intros (t & Et & Hl) (t' & Et' & Hl'). assert (t = t') as <-.
  { eapply (one_owner h ts); eauto using nth_error_In; apply W. }
  eapply (NoDup_nth_error ts); [apply W|apply nth_error_Some; congruence|congruence].
Qed.
Lemma at_lt i l : at_ i l -> i < n.
Proof. intros (t & E & _). apply nth_error_Some. congruence. Qed.
Lemma at_all i l : at_ i l -> In l (all_legs h ts).
Proof. intros (t & E & Hl). apply all_legs_In. eauto using nth_error_In. Qed.
Lemma all_at l : In l (all_legs h ts) -> exists i, at_ i l.
Proof. intros H. apply all_legs_In in H. destruct H as (t & Ht & Hl). apply In_nth_error in Ht. destruct Ht as (i & E). exists i, t. auto. Qed.
Lemma at_partner i l l' : at_ i l -> linked h l l' -> exists j, j <> i /\ at_ j l'.
Proof.
  intros (t & E & Hl) LK. destruct (CL t l l') as (t' & Ht' & N & Hl'); eauto using nth_error_In.
  apply In_nth_error in Ht'. destruct Ht' as (j & E'). exists j. split; [|exists t'; auto]. intros ->. congruence.
Qed.
Lemma lk_sym l l' : In l (all_legs h ts) -> linked h l l' -> In l' (all_legs h ts) /\ linked h l' l.
Proof.
  intros Hl LK. destruct (all_at l Hl) as (i & Ai). destruct (at_partner i l l' Ai LK) as (j & _ & Aj). split; [eapply at_all; eauto|].
  apply (links_sym h (all_legs h ts) l l'); eauto using at_all. apply W.
Qed.
Lemma lk_irrefl l : In l (all_legs h ts) -> ~ linked h l l.
Proof. intros Hl LK. destruct (all_at l Hl) as (i & Ai). destruct (at_partner i l l Ai LK) as (j & N & Aj). apply N. eapply at_fun; eauto. Qed.
Lemma lk_bond l l' b : In l (all_legs h ts) -> linked h l l' -> l_bond (legs h l) = Some b -> l_bond (legs h l') = Some b.
Proof.
  intros Hl LK Eb. destruct (lk_sym l l' Hl LK) as (Hl' & _). destruct (wn_links _ _ W l b Hl Eb) as (l2 & EN & C).
  assert (l2 = l') as ->; [|now apply C]. apply (linked_fun h l); auto. exists b. auto.
Qed.
Lemma bond_lk l l' b : In l (all_legs h ts) -> In l' (all_legs h ts) -> l <> l' -> l_bond (legs h l) = Some b -> l_bond (legs h l') = Some b -> linked h l l'.
Proof.
  intros Hl Hl' N E E'. destruct (wn_links _ _ W l b Hl E) as (x & EX & _). destruct (wn_links _ _ W l' b Hl' E') as (y & EY & _).
  destruct (ends_two h b l x l' y EX EY) as [[-> _]|[-> ->]]; [congruence|]. exists b. auto.
Qed.
Lemma bond_has_partner l b : In l (all_legs h ts) -> l_bond (legs h l) = Some b -> exists l', linked h l l'.
Proof. intros Hl E. destruct (wn_links _ _ W l b Hl E) as (x & EX & _). exists x, b. auto. Qed.

Definition describes (l : lid) (e : nat * option nat * nat) : Prop :=
  let '(a, b, w) := e in at_ a l /\ w = dim_of h l /\
  match b with None => l_bond (legs h l) = None | Some j => exists l', linked h l l' /\ at_ j l' end.

Record binv (done : list lid) (st : graph nat * list bid) : Prop := {
  bi_C : exists C E, ginv n E (fst st) /\ Forall2 describes C E /\ NoDup C /\ incl C done /\
         (forall l, In l done -> In l C \/ exists l', In l' C /\ linked h l' l) /\
         (forall l l', In l C -> In l' C -> ~ linked h l l');
  bi_bonds : forall b, In b (snd st) <-> exists l, In l done /\ l_bond (legs h l) = Some b;
  bi_cache : g_cache (fst st) = None; bi_indexed : g_indexed (fst st) = false }.

Lemma tmap_get j t : nth_error ts j = Some t -> dictGet (combine ts (seq 0 n)) t = Some j.
Proof.
  intros E. rewrite (dictGet_nth ts (seq 0 n)) with (i := j); auto; [|apply W|now rewrite seq_length].
  rewrite nth_error_nth' with (d := 0); [f_equal; rewrite seq_nth; auto|rewrite seq_length]; apply nth_error_Some; congruence.
Qed.

Lemma binv_leg done st i l : binv done st -> at_ i l -> incl done (all_legs h ts) -> ~ In l done ->
  exists st', graphLeg h ts i st l = Ok st' /\ binv (done ++ [l]) st'.
Proof.
  intros [(C & E & GI & FD & NC & IC & CV & NL) BB BC BI] Ai HD ND. destruct st as [g bs]. cbn [fst snd] in *.
  assert (Hl : In l (all_legs h ts)) by eauto using at_all.
  unfold graphLeg, legbond, legdim. destruct (l_bond (legs h l)) as [b|] eqn:Eb.
  - destruct (inb b bs) eqn:EI.
    + apply inb_true in EI. exists (g, bs). split; auto. apply BB in EI. destruct EI as (l0 & H0 & E0).
      assert (l0 <> l) by congruence. pose proof (bond_lk l0 l b (HD _ H0) Hl H E0 Eb) as LK.
      constructor; cbn [fst snd]; auto.
      * exists C, E. split; auto. split; auto. split; auto. split; [|split; auto].
        -- intros x Hx. apply in_app_iff; auto.
        -- intros x Hx. apply in_app_iff in Hx. destruct Hx as [Hx|[<-|[]]]; auto. right. exists l0. split; auto.
           destruct (CV l0 H0) as [HC|(l1 & H1 & LK1)]; auto. exfalso. apply ND.
           destruct (lk_sym l1 l0 (HD _ (IC _ H1)) LK1) as (_ & LK2). assert (l1 = l) as <- by (eapply linked_fun; eauto). auto.
      * intros b'. rewrite BB. split; intros (x & Hx & Ex).
        -- exists x. split; auto. apply in_app_iff; auto.
        -- apply in_app_iff in Hx. destruct Hx as [Hx|[<-|[]]]; eauto. exists l0. split; auto. congruence.
    + apply inb_false in EI. destruct (bond_has_partner l b Hl Eb) as (l' & LK).
      rewrite (bondAnotherSide_partner h l b Eb), (proj2 (partner_Some h l l') LK). cbn [rbind].
      destruct (at_partner i l l' Ai LK) as (j & Nj & Aj). destruct Aj as (t' & Et' & Hl').
      rewrite (wn_owned _ _ W t' (nth_error_In _ _ Et') l' Hl'). fold n. rewrite (tmap_get j t' Et').
      pose proof (ginv_addEdge n E g i j (l_dim (legs h l)) GI) as GA. 
      assert (Lj : j < n) by (apply nth_error_Some; congruence). assert (Li : i < n) by (eapply at_lt; eauto).
      destruct (addEdge g i j (l_dim (legs h l))) as [g'|e]; [|exfalso; apply (proj2 GA); auto].
      destruct GA as (_ & _ & GI' & _ & GC & GX & GY). cbn [rbind]. exists (g', b :: bs). split; auto.
      assert (NP : ~ In l' done). { intros Hd. apply EI. apply BB. exists l'. split; auto. eapply lk_bond; eauto. }
      constructor; cbn [fst snd]; try congruence.
      * exists (C ++ [l]), (E ++ [(i, Some j, l_dim (legs h l))]). split; auto. split; [|split; [|split; [|split]]].
        -- apply Forall2_app; auto. constructor; [|constructor]. split; auto. split; auto. exists l'. split; auto. exists t'. auto.
        -- apply NoDup_app; [auto|constructor; auto; constructor|]. intros x Hx [<-|[]]. auto.
        -- intros x Hx. apply in_app_iff in Hx. apply in_app_iff. destruct Hx; auto.
        -- intros x Hx. apply in_app_iff in Hx. destruct Hx as [Hx|[<-|[]]].
           ++ destruct (CV x Hx) as [?|(y & ? & ?)]; [left; apply in_app_iff; auto|right; exists y; split; auto; apply in_app_iff; auto].
           ++ left. apply in_app_iff. simpl. auto.
        -- intros x y Hx Hy LK'. apply in_app_iff in Hx. apply in_app_iff in Hy. destruct Hx as [Hx|[<-|[]]], Hy as [Hy|[<-|[]]].
           ++ apply (NL x y); auto.
           ++ apply NP. destruct (lk_sym x l (HD _ (IC _ Hx)) LK') as (_ & LK2). assert (x = l') as <- by (eapply linked_fun; eauto). auto.
           ++ apply NP. assert (y = l') as <- by (eapply linked_fun; eauto). auto.
           ++ apply (lk_irrefl l); auto.
      * intros b'. simpl. rewrite BB. split.
        -- intros [<-|(x & Hx & Ex)]; [exists l; split; auto; apply in_app_iff; simpl; auto|exists x; split; auto; apply in_app_iff; auto].
        -- intros (x & Hx & Ex). apply in_app_iff in Hx. destruct Hx as [Hx|[<-|[]]]; [right; eauto|left; congruence].
  - pose proof (ginv_addFree n E g i (l_dim (legs h l)) GI) as GA. assert (Li : i < n) by (eapply at_lt; eauto).
    destruct (addFreeEdge g i (l_dim (legs h l))) as [g'|e]; [|exfalso; apply (proj2 GA); auto].
    destruct GA as (_ & GI' & _ & GC & GX & GY). cbn [rbind]. exists (g', bs). split; auto.
    constructor; cbn [fst snd]; try congruence.
    + exists (C ++ [l]), (E ++ [(i, None, l_dim (legs h l))]). split; auto. split; [|split; [|split; [|split]]].
      -- apply Forall2_app; auto. constructor; [|constructor]. split; auto.
      -- apply NoDup_app; [auto|constructor; auto; constructor|]. intros x Hx [<-|[]]. auto.
      -- intros x Hx. apply in_app_iff in Hx. apply in_app_iff. destruct Hx; auto.
      -- intros x Hx. apply in_app_iff in Hx. destruct Hx as [Hx|[<-|[]]].
         ++ destruct (CV x Hx) as [?|(y & ? & ?)]; [left; apply in_app_iff; auto|right; exists y; split; auto; apply in_app_iff; auto].
         ++ left. apply in_app_iff. simpl. auto.
      -- assert (NB : forall x, ~ linked h l x) by (intros x (b & E1 & _); congruence).
         intros x y Hx Hy LK'. apply in_app_iff in Hx. apply in_app_iff in Hy. destruct Hx as [Hx|[<-|[]]], Hy as [Hy|[<-|[]]].
         ++ apply (NL x y); auto.
         ++ destruct (lk_sym x l (HD _ (IC _ Hx)) LK') as (_ & LK2). apply (NB x LK2).
         ++ apply (NB y LK').
         ++ apply (NB l LK').
    + intros b'. rewrite BB. split.
      -- intros (x & Hx & Ex). exists x. split; auto. apply in_app_iff; auto.
      -- intros (x & Hx & Ex). apply in_app_iff in Hx. destruct Hx as [Hx|[<-|[]]]; [eauto|congruence].
Qed.

Lemma binv_legs i : forall L done st, binv done st -> (forall l, In l L -> at_ i l) -> incl done (all_legs h ts) -> NoDup (done ++ L) ->
  exists st', rfold (graphLeg h ts i) L st = Ok st' /\ binv (done ++ L) st'.
Proof.
  induction L as [|l L IH]; intros done st B HA' HD ND.
  - exists st. rewrite app_nil_r. auto.
  - destruct (binv_leg done st i l B) as (st1 & E1 & B1); auto; [apply HA'; simpl; auto| |].
    + intros Hx. apply NoDup_app_inv in ND. destruct ND as (_ & _ & D). apply (D l Hx). simpl; auto.
    + destruct (IH (done ++ [l]) st1 B1) as (st2 & E2 & B2).
      * intros; apply HA'; simpl; auto.
      * intros x Hx. apply in_app_iff in Hx. destruct Hx as [Hx|[<-|[]]]; auto. eapply at_all. apply HA'. simpl; auto.
      * now rewrite <- app_assoc.
      * exists st2. cbn [rfold]. rewrite E1. cbn [rbind]. rewrite <- app_assoc in B2. auto.
Qed.

Lemma binv_tensors : forall post pre st, ts = pre ++ post -> binv (all_legs h pre) st ->
  exists st', rfold (fun st '(i, t) => rfold (graphLeg h ts i) (tlegs h t) st) (combine (seq (List.length pre) (List.length post)) post) st = Ok st' /\
    binv (all_legs h ts) st'.
Proof.
  induction post as [|t post IH]; intros pre st Ets B.
  - rewrite app_nil_r in Ets. exists st. rewrite Ets. auto.
  - pose proof (wn_nodup _ _ W) as ND. rewrite Ets, all_legs_app in ND. simpl in ND. rewrite app_assoc in ND. apply NoDup_app_inv in ND.
    destruct (binv_legs (List.length pre) (legs_of h t) (all_legs h pre) st B) as (st1 & E1 & B1).
    + intros l Hl. exists t. split; auto. rewrite Ets, nth_error_app2, Nat.sub_diag by lia. reflexivity.
    + intros x Hx. rewrite Ets, all_legs_app. apply in_app_iff; auto.
    + tauto.
    + assert (E3 : all_legs h (pre ++ [t]) = all_legs h pre ++ legs_of h t) by (rewrite all_legs_app; simpl; now rewrite app_nil_r).
      destruct (IH (pre ++ [t]) st1) as (st2 & E2 & B2).
      * now rewrite <- app_assoc.
      * now rewrite E3.
      * exists st2. split; auto. cbn [List.length seq combine rfold]. unfold tlegs, legs_of in *. rewrite E1. cbn [rbind].
        rewrite app_length in E2. simpl in E2. now rewrite Nat.add_1_r in E2.
Qed.

Lemma binv_new : binv [] (newGraph n, []).
Proof.
  constructor; auto.
  - exists [], []. split; [apply ginv_new|]. split; [constructor|]. split; [constructor|]. split; [apply incl_refl|]. split; [intros ? []|intros ? ? []].
  - intros b. simpl. split; [intros []|intros (l & [] & _)].
Qed.

(** *** the finished graph *)
Section Finished.
Variables (g0 : graph nat) (C : list lid) (E : list (nat * option nat * nat)).
Hypothesis GI : ginv n E g0.
Hypothesis FD : Forall2 describes C E.
Hypothesis NC : NoDup C.
Hypothesis CV : forall l, In l (all_legs h ts) -> In l C \/ exists l', In l' C /\ linked h l' l.
Hypothesis IC : incl C (all_legs h ts).
Hypothesis NL : forall l l', In l C -> In l' C -> ~ linked h l l'.
Hypothesis CA : g_cache g0 = None.
Hypothesis IX : g_indexed g0 = false.

Definition eno (l : lid) : nat :=
  match index_of l C with
  | Some k => k
  | None => match partner h l with
            | Some l' => match index_of l' C with Some k => k | None => 0 end
            | None => 0
            end
  end.
Lemma index_nth (X : list nat) x k : index_of x X = Some k -> nth_error X k = Some x.
Proof. intros H. apply index_of_nth in H. destruct H as (H & L). rewrite <- H. now apply nth_error_nth'. Qed.
Lemma eno_spec l : In l (all_legs h ts) -> exists c, nth_error C (eno l) = Some c /\ In c C /\ (c = l \/ linked h c l).
Proof.
  intros Hl. unfold eno. destruct (index_of l C) as [k|] eqn:E1.
  - exists l. split; [now apply index_nth|]. split; auto. eapply index_of_Some_In; eauto.
  - destruct (CV l Hl) as [H|(c & Hc & LK)]; [apply index_of_None in E1; contradiction|].
    destruct (lk_sym c l (IC c Hc) LK) as (_ & LK2). rewrite (proj2 (partner_Some h l c) LK2).
    destruct (index_of_In C c Hc) as (k & Ek). rewrite Ek. exists c. split; [now apply index_nth|auto].
Qed.
Lemma eno_at x c l : nth_error C x = Some c -> In l (all_legs h ts) -> c = l \/ linked h c l -> eno l = x.
Proof.
  intros Ex Hl HC. destruct (eno_spec l Hl) as (c' & Ec' & Hc' & HC').
  assert (In c C) as Hc by eauto using nth_error_In.
  assert (c = c') as <-.
  { destruct HC as [->|LK], HC' as [->|LK']; auto.
    - exfalso. apply (NL c' l); auto.
    - exfalso. apply (NL c l); auto.
    - destruct (lk_sym c l (IC c Hc) LK) as (_ & K). destruct (lk_sym c' l (IC c' Hc') LK') as (_ & K'). eapply linked_fun; eauto. }
  symmetry. eapply (NoDup_nth_error C); eauto; [apply nth_error_Some; congruence|congruence].
Qed.
Lemma eno_inj l l' : In l (all_legs h ts) -> In l' (all_legs h ts) -> eno l = eno l' <-> l = l' \/ linked h l l'.
Proof.
  intros Hl Hl'. destruct (eno_spec l Hl) as (c & Ec & Hc & HC). destruct (eno_spec l' Hl') as (c' & Ec' & Hc' & HC'). split.
  - intros EE. rewrite EE, Ec' in Ec. injection Ec as ->. destruct HC as [->|LK], HC' as [->|LK']; auto.
    + right. apply (lk_sym l' l); auto.
    + left. eapply linked_fun; eauto.
  - intros [->|LK]; auto. destruct HC as [->|K].
    + symmetry. apply (eno_at _ l l'); auto.
    + symmetry. apply (eno_at _ c l'); auto. destruct (lk_sym c l (IC c Hc) K) as (_ & K2). left. eapply linked_fun; eauto.
Qed.
Lemma len_CE : List.length C = List.length E.
Proof. clear - FD. induction FD; simpl; auto. Qed.
Lemma F2_nth x c : nth_error C x = Some c -> exists e, nth_error E x = Some e /\ describes c e.
Proof.
  clear - FD. revert x. induction FD as [|a b C' E' D F IH]; intros [|x] H; simpl in *; try discriminate.
  - injection H as <-. eauto.
  - auto.
Qed.
Lemma F2_nth_r x e : nth_error E x = Some e -> exists c, nth_error C x = Some c /\ describes c e.
Proof.
  clear - FD. revert x. induction FD as [|a b C' E' D F IH]; intros [|x] H; simpl in *; try discriminate.
  - injection H as <-. eauto.
  - auto.
Qed.
Lemma incident_In_legs i t x : nth_error ts i = Some t -> In x (incident i 0 E) <-> exists l, In l (legs_of h t) /\ eno l = x.
Proof.
  intros Et. rewrite incident_In. split.
  - intros (a & b & w & _ & Ex & HH). rewrite Nat.sub_0_r in Ex. destruct (F2_nth_r x _ Ex) as (c & Ec & Aa & _ & Hb).
    destruct HH as [->| ->].
    + exists c. destruct Aa as (t' & Et' & Hc). assert (t' = t) as -> by congruence. split; auto.
      apply (eno_at x c c); auto. apply IC. eauto using nth_error_In.
    + destruct Hb as (l' & LK & t' & Et' & Hl'). assert (t' = t) as -> by congruence. exists l'. split; auto.
      apply (eno_at x c l'); auto. apply all_legs_In. eauto using nth_error_In.
  - intros (l & Hl & <-). assert (Al : at_ i l) by (exists t; auto). destruct (eno_spec l (at_all i l Al)) as (c & Ec & Hc & HC).
    destruct (F2_nth _ c Ec) as ([[a b] w] & Ee & Aa & Ew & Hb). exists a, b, w. split; [lia|]. rewrite Nat.sub_0_r. split; auto.
    destruct HC as [->|LK]; [left; eapply at_fun; eauto|]. right. destruct b as [j|].
    + destruct Hb as (l' & LK' & Aj). assert (l' = l) as -> by (eapply linked_fun; eauto). f_equal. eapply at_fun; eauto.
    + exfalso. destruct LK as (b & EB & _). congruence.
Qed.
Lemma incident_NoDup i : forall (l : list (nat * option nat * nat)) k, (forall a b w, In (a, b, w) l -> b <> Some a) -> NoDup (incident i k l).
Proof.
  induction l as [|[[a b] w] l IH]; intros k H; cbn [incident]; [constructor|].
  assert (R : NoDup (incident i (S k) l)) by (apply IH; intros; eapply H; right; eauto).
  assert (NK : ~ In k (incident i (S k) l)) by (intros X; apply incident_In in X; destruct X as (? & ? & ? & X & _); lia).
  assert (Hb : b <> Some a) by (apply (H a b w); simpl; auto).
  destruct (Nat.eqb_spec a i) as [->|].
  - destruct b as [b|]; [destruct (Nat.eqb_spec b i) as [->|]; [congruence|]|]; simpl; constructor; auto.
  - destruct b as [b|]; [destruct (Nat.eqb_spec b i) as [->|]|]; simpl; auto. constructor; auto.
Qed.
Lemma edges_perm i t : nth_error ts i = Some t -> Permutation (incident i 0 E) (map eno (legs_of h t)).
Proof.
  intros Et. apply NoDup_Permutation.
  - apply incident_NoDup. intros a b w Hin ->. apply In_nth_error in Hin. destruct Hin as (x & Ex).
    destruct (F2_nth_r x _ Ex) as (c & Ec & Aa & _ & l' & LK & Al'). destruct (at_partner a c l' Aa LK) as (j & Nj & Aj). apply Nj. eapply at_fun; eauto.
  - assert (ND : NoDup (legs_of h t)) by (apply wt_nodup, W; eauto using nth_error_In).
    assert (INJ : forall l l', In l (legs_of h t) -> In l' (legs_of h t) -> eno l = eno l' -> l = l').
    { intros l l' Hl Hl' EE. assert (Al : at_ i l) by (exists t; auto). assert (Al' : at_ i l') by (exists t; auto).
      apply eno_inj in EE; eauto using at_all. destruct EE as [|LK]; auto. destruct (at_partner i l l' Al LK) as (j & Nj & Aj). exfalso. apply Nj. eapply at_fun; eauto. }
    clear - ND INJ. induction (legs_of h t) as [|l L IH]; simpl; [constructor|]. inversion ND; subst. constructor.
    + intros X. apply in_map_iff in X. destruct X as (l' & EE & Hl'). assert (l' = l) as -> by (apply INJ; simpl; auto). contradiction.
    + apply IH; auto. intros. apply INJ; simpl; auto.
  - intros x. rewrite (incident_In_legs i t x Et), in_map_iff. split; intros (l & H1 & H2); eauto.
Qed.

Definition es := collectEdges g0.
Definition ix (x : nat) : nat := match index_of x es with Some k => k | None => 0 end.
Definition wgt (x : nat) : nat := match nth_error E x with Some (_, _, w) => w | None => 0 end.
Definition dimE (k : nat) : nat := match nth_error es k with Some x => wgt x | None => 0 end.
Lemma ix_spec x : x < List.length E -> nth_error es (ix x) = Some x.
Proof.
  intros Hx. unfold ix. destruct (index_of_In es x) as (k & Ek).
  - unfold es. apply (collect_all n E g0); auto.
  - rewrite Ek. now apply index_nth.
Qed.
Lemma getE : snd (getEdges g0) = es.
Proof. unfold getEdges. rewrite CA. reflexivity. Qed.
Lemma ix_index x : x < List.length E -> g_index (addEdgeIndex g0) x = Some (ix x).
Proof. intros Hx. apply addEdgeIndex_first; auto; rewrite getE; [apply collect_NoDup|now apply ix_spec]. Qed.
Lemma eno_lt l : In l (all_legs h ts) -> eno l < List.length E.
Proof. intros Hl. destruct (eno_spec l Hl) as (c & Ec & _). rewrite <- len_CE. apply nth_error_Some. congruence. Qed.

Let g := addEdgeIndex g0.
Lemma g_same : g_n g = n /\ g_indexed g = true /\ (forall i, g_v g i = incident i 0 E) /\ map desc (g_store g) = E.
Proof.
  pose proof (ginv_index n E g0 GI) as [G1 G2 G3 G4]. fold g in G1, G2, G3. split; auto. split; auto.
  unfold g, addEdgeIndex. rewrite IX. unfold getEdges. rewrite CA. reflexivity.
Qed.
Definition verts_of : list vres :=
  combine (map (fun i => (map ix (incident i 0 E), map wgt (incident i 0 E))) (seq 0 n)) (diagFlags h ts).
Lemma incident_lt i x : In x (incident i 0 E) -> x < List.length E.
Proof. intros H. apply incident_In in H. destruct H as (a & b & w & _ & Ex & _). rewrite Nat.sub_0_r in Ex. apply nth_error_Some. congruence. Qed.
Lemma searchVerts_of : searchVerts g (diagFlags h ts) = Ok verts_of.
Proof.
  destruct g_same as (G1 & G2 & G3 & G4). unfold searchVerts. assert (addEdgeIndex g = g) as ->.
  { unfold addEdgeIndex at 1. now rewrite G2. }
  rewrite G1. rewrite (rmapM_ok _ (fun i => (map ix (incident i 0 E), map wgt (incident i 0 E)))); [reflexivity|].
  intros i _. unfold vertexLists. rewrite G3. rewrite (rmapM_ok _ ix).
  - cbn [rbind]. rewrite (rmapM_ok _ wgt); [reflexivity|]. intros x Hx. unfold edgeWeightOf, wgt. apply incident_lt in Hx.
    rewrite <- G4, nth_error_map. rewrite <- G4, map_length in Hx. apply nth_error_Some in Hx. destruct (nth_error (g_store g) x) as [e|]; [reflexivity|congruence].
  - intros x Hx. unfold edgeIndexOf, g. rewrite ix_index; auto. eapply incident_lt; eauto.
Qed.
Lemma vert_of i t : nth_error ts i = Some t -> vert verts_of i = (map ix (incident i 0 E), map wgt (incident i 0 E), t_diag (tens h t)).
Proof.
  intros Et. assert (Hi : i < n) by (apply nth_error_Some; congruence). unfold vert, verts_of. 
  rewrite (nth_indep _ _ ([], [], false)) || idtac.
  apply nth_error_nth. unfold diagFlags. clear - Et Hi.
  assert (G : forall k (T : list tid) j, nth_error T j = Some t -> 
    nth_error (combine (map (fun i => (map ix (incident i 0 E), map wgt (incident i 0 E))) (seq k (List.length T))) (map (fun t => t_diag (tens h t)) T)) j =
    Some (map ix (incident (k + j) 0 E), map wgt (incident (k + j) 0 E), t_diag (tens h t))).
  { clear. intros k T. revert k. induction T as [|t0 T IH]; intros k [|j] H; try discriminate; simpl in *.
    - injection H as ->. now rewrite Nat.add_0_r.
    - rewrite IH by auto. now rewrite Nat.add_succ_r. }
  apply (G 0 ts i Et).
Qed.
Lemma verts_graph_of : graph_of h ts verts_of (fun l => ix (eno l)) dimE.
Proof.
  constructor.
  - unfold verts_of, diagFlags. etransitivity; [apply combine_length|]. rewrite !map_length, seq_length. unfold n. lia.
  - intros i t Et. unfold vedges. rewrite (vert_of i t Et). cbn [fst snd]. rewrite <- (map_map eno ix). apply Permutation_map. now apply edges_perm.
  - intros i t Et. unfold vedges, vshape. rewrite (vert_of i t Et). cbn [fst snd]. rewrite map_map. apply map_ext_in. intros x Hx.
    unfold dimE. rewrite ix_spec; auto. eapply incident_lt; eauto.
  - intros l Hl. unfold dimE. rewrite ix_spec by (now apply eno_lt). destruct (eno_spec l Hl) as (c & Ec & Hc & HC).
    destruct (F2_nth _ c Ec) as ([[a b] w] & Ee & Aa & Ew & Hb). unfold wgt. rewrite Ee, Ew. destruct HC as [->|LK]; auto.
    apply (links_dim h (all_legs h ts)); auto. apply W.
  - intros i t Et. unfold vdiag. now rewrite (vert_of i t Et).
  - intros l l' Hl Hl'. rewrite <- (eno_inj l l' Hl Hl'). split; [|congruence]. intros EE.
    assert (Some (eno l) = Some (eno l')) as X; [|now injection X].
    rewrite <- (ix_spec (eno l)), <- (ix_spec (eno l')) by (now apply eno_lt). congruence.
Qed.
End Finished.

Lemma makeTensorGraph_ok : exists g verts eix dimE, makeTensorGraph h ts = Ok g /\ searchVerts g (diagFlags h ts) = Ok verts /\
  graph_of h ts verts eix dimE.
Proof.
  destruct (binv_tensors ts [] (newGraph n, []) eq_refl binv_new) as ([g0 bs] & EF & [(C & E & GI & FD & NC & IC & CV & NL) BB BC BI]). cbn [fst snd] in *.
  exists (addEdgeIndex g0), (verts_of g0 E), (fun l => ix g0 (eno C l)), (dimE g0 E). split; [|split].
  - unfold makeTensorGraph. fold n. simpl in EF. fold n in EF. rewrite EF. reflexivity.
  - eapply searchVerts_of; eauto.
  - eapply verts_graph_of; eauto.
Qed.
End Build.
End GraphOf.
