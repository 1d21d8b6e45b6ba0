(** The constructor of FreeBoundaryMPS and getChi. *)
From Coq Require Import List Arith Bool Lia String ZArith Permutation.
From Verif Require Import Base Sums NdModel NdProofs HeapModel FuncsModel FuncsProofs TensorModel TensorSpec LabelProofs
  ContractModel NetSpec SumpairsProofs ContractProofs ShareProofs OuterProofs NetProofs SeqProofs GroupSpec GroupProofs NetSameProofs SvdModel SvdSpec SchmidtSpec SchmidtProofs
  MpsModel MpsSpec MpsPairProofs MpsProofs.
Import ListNotations.
Local Open Scope list_scope.
Local Open Scope nat_scope.

Section Mp.
Context {A : Type} {HA : SR A}.
Notation heap := (heap A).

(** a bond that is shared is the bond of a shared leg *)
Lemma share_bonds_of (h : heap) tb ls b : In b (share_list h tb ls) -> exists l l', In (l, l') (pairs_between h ls (legs_of h tb)) /\ l_bond (legs h l) = Some b.
Proof.
  unfold share_list. intros Hb. apply in_flat_map in Hb. destruct Hb as (l & Hl & Hb). unfold share1 in Hb. destruct (partner h l) as [l'|] eqn:Ep; [|destruct Hb].
  destruct (inb l' (legs_of h tb)) eqn:Ei; [|destruct Hb]. destruct (l_bond (legs h l)) as [b'|] eqn:Eb; [|destruct Hb]. destruct Hb as [<-|[]].
  exists l, l'. split; auto. apply pairs_In. apply inb_true in Ei. apply partner_Some in Ep. auto.
Qed.

Lemma shareBonds_bonds (h : heap) ta tb : wf_pair h ta tb ->
  exists h1 bs, shareBonds ta tb h = (h1, Ok bs) /\ only_bonds h h1 /\
    map (fun b => bonds h1 b) bs = map (fun p => mkBond (fst p) (snd p)) (shared h ta tb) /\
    List.length bs = List.length (shared h ta tb) /\
    forall b, In b bs -> exists l l', In (l, l') (shared h ta tb) /\ l_bond (legs h l) = Some b.
Proof.
  intros W. destruct (shareLegs_loop tb (legs_of h ta) h) as (h1 & bss & E & O & C & _ & MP).
  - apply wt_nodup, W.
  - intros l. now apply wp_disj.
  - intros l Hl. eapply links_ok_partner; [apply W|]. apply in_app_iff; auto.
  - exists h1, (List.concat bss). split; [|split; [|split; [|split]]]; auto.
    + unfold shareBonds. erewrite bind_ok by reflexivity. change (tlegs h ta) with (legs_of h ta). rewrite (bind_ok _ _ _ _ _ E). reflexivity.
    + apply (f_equal (@List.length _)) in MP. now rewrite !map_length in MP.
    + intros b Hb. rewrite C in Hb. now apply share_bonds_of in Hb.
Qed.

Lemma net_sub_pair (h : heap) ta tb ts : wf_net h (ta :: tb :: ts) -> wf_pair h ta tb /\ wf_net h (tb :: ts).
Proof.
  intros W. split; [now apply (wf_net_pair h ta tb ts)|]. apply (wf_net_sub h (tb :: ts) [ta] (ta :: tb :: ts)); auto.
  symmetry. apply Permutation_cons_append.
Qed.

Lemma ob_shared (h h1 : heap) ta tb : only_bonds h h1 -> shared h1 ta tb = shared h ta tb.
Proof. intros O. apply ns_shared. now apply ns_ob. Qed.

Lemma sharedOnce_ok : forall ts (h : heap), wf_net h ts ->
  exists h' b, sharedOnce ts h = (h', Ok b) /\ only_bonds h h' /\
    (b = true <-> forall i, S i < List.length ts -> List.length (shared h (nth i ts 0) (nth (S i) ts 0)) = 1).
Proof.
  induction ts as [|ta [|tb ts] IH]; intros h W.
  - exists h, true. split; [reflexivity|]. split; [apply only_bonds_refl|]. split; auto. intros _ i Hi. simpl in Hi. lia.
  - exists h, true. split; [reflexivity|]. split; [apply only_bonds_refl|]. split; auto. intros _ i Hi. simpl in Hi. lia.
  - destruct (net_sub_pair _ _ _ _ W) as [WP W']. destruct (shareBonds_bonds h ta tb WP) as (h1 & bs & E & O & _ & LN & _).
    cbn [sharedOnce]. rewrite (bind_ok _ _ _ _ _ E). rewrite LN. destruct (Nat.eqb_spec (List.length (shared h ta tb)) 1) as [E1|N1].
    + destruct (IH h1) as (h2 & b & E2 & O2 & SP); [now apply (ns_wf_net _ _ (ns_ob _ _ O))|]. exists h2, b. split; auto. split; [eapply only_bonds_trans; eauto|].
      rewrite SP. split.
      * intros H [|i] Hi; [exact E1|]. cbn [nth]. specialize (H i). cbn [nth] in H. rewrite (ob_shared _ _ _ _ O) in H. apply H. cbn [List.length] in *. lia.
      * intros H i Hi. rewrite (ob_shared _ _ _ _ O). apply (H (S i)). cbn [List.length] in *. lia.
    + exists h1, false. split; [reflexivity|]. split; auto. split; [discriminate|]. intros H. exfalso. apply N1. apply (H 0). cbn [List.length]. lia.
Qed.

Lemma last_nth {X} (l : list X) d : last l d = nth (List.length l - 1) l d.
Proof. induction l as [|x [|y l] IH]; auto. change (last (x :: y :: l) d) with (last (y :: l) d). rewrite IH. cbn [List.length]. replace (S (S (List.length l)) - 1) with (S (S (List.length l) - 1)) by lia. reflexivity. Qed.
Lemma removelast_nth {X} (l : list X) d i : S i < List.length l -> nth i (removelast l) d = nth i l d.
Proof.
  revert i. induction l as [|x [|y l] IH]; intros i Hi; cbn [List.length] in Hi; try lia. destruct i; [reflexivity|]. change (removelast (x :: y :: l)) with (x :: removelast (y :: l)).
  cbn [nth]. apply IH. cbn [List.length]. lia.
Qed.
Lemma removelast_len {X} (l : list X) : List.length (removelast l) = List.length l - 1.
Proof. induction l as [|x [|y l] IH]; auto. change (removelast (x :: y :: l)) with (x :: removelast (y :: l)). cbn [List.length] in *. lia. Qed.

Lemma middle_ok (ds : list nat) : forallb (Nat.eqb 3) (removelast (tl ds)) = true <-> forall i, 0 < i -> S i < List.length ds -> nth i ds 0 = 3.
Proof.
  rewrite forallb_forall. split.
  - intros H i H0 Hi. destruct ds as [|d ds]; [simpl in Hi; lia|]. cbn [tl] in H. destruct i; [lia|]. cbn [nth List.length] in *.
    symmetry. apply Nat.eqb_eq. apply H. rewrite <- (removelast_nth ds 0 i) by lia. apply nth_In. rewrite removelast_len. lia.
  - intros H x Hx. apply Nat.eqb_eq. destruct ds as [|d ds]; [destruct Hx|]. cbn [tl] in Hx. apply (In_nth _ _ 0) in Hx. destruct Hx as (i & Hi & <-).
    rewrite removelast_len in Hi. rewrite removelast_nth by lia. symmetry. apply (H (S i)); cbn [List.length]; lia.
Qed.

Lemma nth_dims (h h1 : heap) ts i : wf_net h ts -> only_bonds h h1 -> i < List.length ts -> nth i (map (tdim h1) ts) 0 = List.length (legs_of h (nth i ts 0)).
Proof.
  intros W O Hi. rewrite (nth_indep _ 0 (tdim h1 0)) by now rewrite map_length. rewrite map_nth. unfold tdim. rewrite (shape_ob h h1), map_length; auto.
  apply (wn_wf _ _ W). now apply nth_In.
Qed.

Lemma check_ok (h : heap) ts : wf_net h ts -> exists h' b, checkMPSProperty ts h = (h', Ok b) /\ only_bonds h h' /\ (b = true <-> mps_shape h ts).
Proof.
  intros W. destruct ts as [|t0 tr]; [|set (ts := t0 :: tr) in *].
  { exists h, false. split; [reflexivity|]. split; [apply only_bonds_refl|]. split; [discriminate|]. intros [H _]. now elim H. }
  destruct (sharedOnce_ok ts h W) as (h1 & b & E & O & SP). exists h1.
  unfold checkMPSProperty. unfold ts at 1. cbv beta iota. fold ts. rewrite (bind_ok _ _ _ _ _ E).
  destruct b; cbn [negb]; [|exists false; split; [reflexivity|split; [auto|]]; split; [discriminate|]; intros (_ & H & _); now apply SP in H].
  erewrite bind_ok by reflexivity. set (ds := map (tdim h1) ts).
  assert (ND : forall i, i < List.length ts -> nth i ds 0 = List.length (legs_of h (nth i ts 0))).
  { intros i Hi. unfold ds. now apply nth_dims. }
  assert (LD : List.length ds = List.length ts) by (unfold ds; now rewrite map_length).
  assert (HD : hd 0 ds = List.length (legs_of h (nth 0 ts 0))) by (rewrite <- ND by (unfold ts; simpl; lia); now destruct ds).
  assert (LT : last ds 0 = List.length (legs_of h (nth (List.length ts - 1) ts 0))) by (rewrite last_nth, LD; apply ND; unfold ts; simpl; lia).
  pose proof (middle_ok ds) as MID.
  assert (NE : ts <> []) by (unfold ts; discriminate). clearbody ds ts.
  destruct (Nat.ltb 1 (List.length ts) && (negb (Nat.eqb (hd 0 ds) 2) || negb (Nat.eqb (last ds 0) 2))) eqn:EB.
  - exists false. split; [reflexivity|]. split; auto. split; [discriminate|]. intros (_ & _ & H & _). apply andb_true_iff in EB. destruct EB as [E1 E2].
    apply Nat.ltb_lt in E1. destruct (H E1) as [H1 H2]. rewrite HD, LT, H1, H2 in E2. discriminate.
  - exists (forallb (Nat.eqb 3) (removelast (tl ds))). split; [reflexivity|]. split; auto. rewrite MID, LD. unfold mps_shape. split.
    + intros H. split; auto. split; [now apply SP|]. split.
      * intros H1. apply Nat.ltb_lt in H1. rewrite H1 in EB. cbn [andb] in EB. apply orb_false_iff in EB. destruct EB as [E1 E2].
        apply negb_false_iff, Nat.eqb_eq in E1. apply negb_false_iff, Nat.eqb_eq in E2. now rewrite <- HD, <- LT.
      * intros i H0 Hi. rewrite <- ND by lia. auto.
    + intros (_ & _ & _ & H) i H0 Hi. rewrite ND by lia. auto.
Qed.

(** getChi *)
Lemma bondChi_ok : forall ts (h : heap) c, wf_net h ts -> (c <= -1)%Z -> (forall i, S i < List.length ts -> shared h (nth i ts 0) (nth (S i) ts 0) <> []) ->
  exists h', bondChi ts c h = (h', Ok c) /\ only_bonds h h'.
Proof.
  induction ts as [|ta [|tb ts] IH]; intros h c W HC HS.
  - exists h. split; [reflexivity|apply only_bonds_refl].
  - exists h. split; [reflexivity|apply only_bonds_refl].
  - destruct (net_sub_pair _ _ _ _ W) as [WP W']. destruct (shareBonds_bonds h ta tb WP) as (h1 & bs & E & O & _ & LN & _).
    cbn [bondChi]. rewrite (bind_ok _ _ _ _ _ E). destruct bs as [|b bs].
    { exfalso. apply (HS 0); [cbn [List.length]; lia|]. cbn [nth]. now destruct (shared h ta tb). }
    erewrite bind_ok by reflexivity. rewrite Z.min_l by lia.
    destruct (IH h1 c) as (h2 & E2 & O2); [now apply (ns_wf_net _ _ (ns_ob _ _ O))|auto| |].
    + intros i Hi. rewrite (ob_shared _ _ _ _ O). apply (HS (S i)). cbn [List.length] in *. lia.
    + exists h2. split; auto. eapply only_bonds_trans; eauto.
Qed.
Lemma getChi_ok (h : heap) ts chi : wf_net h ts -> (forall i, S i < List.length ts -> shared h (nth i ts 0) (nth (S i) ts 0) <> []) ->
  exists h', only_bonds h h' /\ getChi ts chi h = (h', Ok (match chi with None => (-1, false) | Some c => if Z.ltb c (-1) then (-1, true) else (c, false) end)%Z).
Proof.
  intros W HS. destruct (bondChi_ok ts h (-1)%Z W) as (h' & E & O); [lia|auto|]. exists h'. split; auto. unfold getChi. rewrite (bind_ok _ _ _ _ _ E).
  destruct chi as [c|]; [|reflexivity]. destruct (Z.ltb c (-1)); reflexivity.
Qed.

(** renameBonds *)
Lemma neighbours_in (h : heap) : forall ts l l', In (l, l') (neighbours h ts) -> In l (all_legs h ts) /\ In l' (all_legs h ts) /\ linked h l l'.
Proof.
  induction ts as [|ta [|tb ts] IH]; intros l l' Hp; [destruct Hp|destruct Hp|]. cbn [neighbours] in Hp. apply in_app_iff in Hp. destruct Hp as [Hp|Hp].
  - unfold shared in Hp. apply pairs_In in Hp. unfold all_legs. cbn [flat_map]. rewrite !in_app_iff. tauto.
  - apply IH in Hp. change (all_legs h (ta :: tb :: ts)) with (legs_of h ta ++ all_legs h (tb :: ts)). rewrite !in_app_iff. tauto.
Qed.
Lemma ns_neighbours (h g : heap) : net_same h g -> forall ts, neighbours g ts = neighbours h ts.
Proof. intros NS. induction ts as [|ta [|tb ts] IH]; auto. cbn [neighbours] in *. now rewrite IH, (ns_shared _ _ NS). Qed.

Record renamedTo (h h' : heap) (ts : list tid) : Prop := {
  rt_same : net_same h h';
  rt_r : forall l, In l (map fst (neighbours h ts)) -> l_name (legs h' l) = NStr "r";
  rt_l : forall l, In l (map snd (neighbours h ts)) -> l_name (legs h' l) = NStr "l";
  rt_else : forall l, ~ In l (map fst (neighbours h ts)) -> ~ In l (map snd (neighbours h ts)) -> l_name (legs h' l) = l_name (legs h l) }.

Lemma name_set (h : heap) l n : exists h', setLegName l n h = (h', Ok tt) /\ net_same h h' /\ l_name (legs h' l) = n /\ forall x, x <> l -> legs h' x = legs h x.
Proof.
  eexists. split; [reflexivity|]. pose proof (only_names_set h l n) as ON. split; [eapply ns_names; exact ON|]. split.
  - cbn. now rewrite upd_same.
  - intros x Hx. cbn. now rewrite upd_other.
Qed.

Lemma renamePairs_ok : forall ts (h : heap), wf_net h ts -> (forall i, S i < List.length ts -> List.length (shared h (nth i ts 0) (nth (S i) ts 0)) = 1) ->
  exists h' bs, renamePairs ts h = (h', Ok bs) /\ renamedTo h h' ts /\
    forall b, In b bs <-> exists p, In p (neighbours h ts) /\ l_bond (legs h (fst p)) = Some b.
Proof.
  induction ts as [|ta [|tb ts] IH]; intros h W HS.
  - exists h, []. split; [reflexivity|]. split; [constructor; auto using ns_refl; intros l []|]. intros b. split; [intros []|intros (p & [] & _)].
  - exists h, []. split; [reflexivity|]. split; [constructor; auto using ns_refl; intros l []|]. intros b. split; [intros []|intros (p & [] & _)].
  - destruct (net_sub_pair _ _ _ _ W) as [WP W']. destruct (shareBonds_bonds h ta tb WP) as (h1 & bs & E & O & MB & LN & HB).
    assert (L1 := HS 0 ltac:(cbn [List.length]; lia)). cbn [nth] in L1. destruct (shared h ta tb) as [|[la lb] [|? ?]] eqn:ES; try discriminate L1.
    destruct bs as [|b [|? ?]]; try discriminate LN. cbn [map fst snd] in MB. injection MB as MB.
    assert (IS : In (la, lb) (shared h ta tb)) by (rewrite ES; simpl; auto). unfold shared in IS. apply pairs_In in IS. destruct IS as (IA & IB & LK).
    assert (DJ : forall l, In l (legs_of h ta) -> ~ In l (legs_of h tb)) by (intros l; now apply wp_disj).
    destruct (HB b (or_introl eq_refl)) as (x & y & [EX|[]] & BX). injection EX as <- <-.
    assert (SD : sideLeg h1 b ta = Ok la /\ forall g, tens g = tens h -> bonds g = bonds h1 -> sideLeg g b tb = Ok lb).
    { unfold sideLeg, tlegs. split.
      - rewrite MB. cbn [b0]. rewrite (ob_tens _ _ O). now rewrite (proj2 (inb_true la _) IA).
      - intros g G1 G2. rewrite G2, MB, G1. cbn [b0 b1]. rewrite (proj2 (inb_true lb _) IB). rewrite (proj2 (inb_false la _)); auto. }
    destruct SD as [SD1 SD2].
    cbn [renamePairs]. rewrite (bind_ok _ _ _ _ _ E). cbv beta iota.
    rewrite (bind_ok _ _ h1 h1 la) by (unfold readsR; now rewrite SD1).
    destruct (name_set h1 la (NStr "r")) as (h2 & E2 & NS2 & N2 & F2). rewrite (bind_ok _ _ _ _ _ E2).
    assert (NS1 : net_same h h1) by now apply ns_ob.
    rewrite (bind_ok _ _ h2 h2 lb).
    2:{ unfold readsR. rewrite SD2; auto. - rewrite (ns_tens _ _ NS2). apply O. - unfold setLegName, modify in E2. now injection E2 as <-. }
    destruct (name_set h2 lb (NStr "l")) as (h3 & E3 & NS3 & N3 & F3). rewrite (bind_ok _ _ _ _ _ E3).
    assert (NS : net_same h h3) by (eapply ns_trans; [exact NS1|eapply ns_trans; eauto]).
    destruct (IH h3) as (h4 & bs4 & E4 & [R1 R2 R3 R4] & B4); [now apply (ns_wf_net _ _ NS)| |].
    { intros i Hi. rewrite (ns_shared _ _ NS). apply (HS (S i)). cbn [List.length] in *. lia. }
    rewrite (ns_neighbours _ _ NS) in *.
    rewrite (bind_ok _ _ _ _ _ E4). exists h4, (b :: bs4). split; [reflexivity|].
    assert (NE : la <> lb) by (intros ->; now apply (DJ lb)).
    assert (OUT : forall p q, In (p, q) (neighbours h (tb :: ts)) -> p <> la /\ q <> la /\ p <> lb /\ q <> lb).
    { intros p q Hp. apply neighbours_in in Hp. destruct Hp as (H1 & H2 & H3).
      assert (ND : NoDup (legs_of h ta ++ all_legs h (tb :: ts))) by apply (wn_nodup _ _ W).
      assert (NA : forall z, In z (all_legs h (tb :: ts)) -> ~ In z (legs_of h ta)) by (intros z Hz Hz'; exact (NoDup_app_disj _ _ z ND Hz' Hz)).
      assert (LB : linked h lb la).
      { apply (links_sym h (all_legs h (ta :: tb :: ts))); [apply W| | |exact LK]; unfold all_legs; cbn [flat_map]; rewrite !in_app_iff; auto. }
      assert (LQ : linked h q p).
      { apply (links_sym h (all_legs h (ta :: tb :: ts))); [apply W| | |exact H3]; change (all_legs h (ta :: tb :: ts)) with (legs_of h ta ++ all_legs h (tb :: ts)); rewrite !in_app_iff; auto. }
      split; [intros ->; now apply (NA la)|]. split; [intros ->; now apply (NA la)|]. split.
      - intros ->. assert (q = la) by (apply (linked_fun h lb); auto). subst. now apply (NA la).
      - intros ->. assert (p = la) by (apply (linked_fun h lb); auto). subst. now apply (NA la). }
    assert (OUT1 : forall z, In z (map fst (neighbours h (tb :: ts))) -> z <> la /\ z <> lb).
    { intros z Hz. apply in_map_iff in Hz. destruct Hz as ((p & q) & <- & Hz). destruct (OUT p q Hz) as (? & ? & ? & ?). auto. }
    assert (OUT2 : forall z, In z (map snd (neighbours h (tb :: ts))) -> z <> la /\ z <> lb).
    { intros z Hz. apply in_map_iff in Hz. destruct Hz as ((p & q) & <- & Hz). destruct (OUT p q Hz) as (? & ? & ? & ?). auto. }
    assert (NB : neighbours h (ta :: tb :: ts) = (la, lb) :: neighbours h (tb :: ts)).
    { change (neighbours h (ta :: tb :: ts)) with (shared h ta tb ++ neighbours h (tb :: ts)). now rewrite ES. }
    split.
    + constructor.
      * eapply ns_trans; eauto.
      * rewrite NB. cbn [map fst]. intros l [<-|Hl]; [|auto]. rewrite R4.
        { rewrite F3 by auto. auto. } { intros C. now apply OUT1 in C. } { intros C. now apply OUT2 in C. }
      * rewrite NB. cbn [map snd]. intros l [<-|Hl]; [|auto]. rewrite R4; auto. { intros C. now apply OUT1 in C. } { intros C. now apply OUT2 in C. }
      * rewrite NB. cbn [map fst snd]. intros l Hl1 Hl2. rewrite R4 by (simpl in *; tauto). rewrite F3 by (simpl in *; intuition). rewrite F2 by (simpl in *; intuition).
        now rewrite (ob_legs _ _ O).
    + intros b'. rewrite NB. cbn [In]. rewrite B4. split.
      * intros [<-|(p & Hp & Bp)]; [exists (la, lb); auto|]. exists p. split; auto. destruct (ns_leg _ _ NS (fst p)) as (_ & _ & <-). auto.
      * intros (p & [<-|Hp] & Bp); [left; cbn [fst] in Bp; congruence|]. right. exists p. split; auto. destruct (ns_leg _ _ NS (fst p)) as (_ & _ & ->). auto.
Qed.

Lemma oLegs_ok inn : forall ls (h : heap), exists h', iterM (fun l =>
      b <- reads (fun h => legbond h l) ;; if inb b (map Some inn) then ret tt else setLegName l (NStr "o")) ls h = (h', Ok tt) /\ net_same h h' /\
  (forall l, In l ls -> inb (l_bond (legs h l)) (map Some inn) = false -> l_name (legs h' l) = NStr "o") /\
  (forall l, ~ In l ls \/ inb (l_bond (legs h l)) (map Some inn) = true -> l_name (legs h' l) = l_name (legs h l)).
Proof.
  induction ls as [|l ls IH]; intros h.
  - exists h. split; [reflexivity|]. split; [apply ns_refl|]. split; [intros l []|auto].
  - cbn [iterM]. assert (ST : exists h1, (b <- reads (fun h => legbond h l) ;; if inb b (map Some inn) then ret tt else setLegName l (NStr "o")) h = (h1, Ok tt) /\ net_same h h1 /\
      (inb (l_bond (legs h l)) (map Some inn) = false -> l_name (legs h1 l) = NStr "o") /\
      (forall x, x <> l \/ inb (l_bond (legs h x)) (map Some inn) = true -> l_name (legs h1 x) = l_name (legs h x))).
    { erewrite bind_ok by reflexivity. change (legbond h l) with (l_bond (legs h l)). destruct (inb (l_bond (legs h l)) (map Some inn)) eqn:EB.
      - exists h. split; [reflexivity|]. split; [apply ns_refl|]. split; [discriminate|auto].
      - destruct (name_set h l (NStr "o")) as (h1 & E1 & NS1 & N1 & F1). exists h1. split; auto. split; auto. split; auto.
        intros x [Hx|Hx]; [now rewrite F1|]. rewrite F1; auto. intros ->. congruence. }
    destruct ST as (h1 & E1 & NS1 & N1 & F1). rewrite (bind_ok _ _ _ _ _ E1).
    destruct (IH h1) as (h2 & E2 & NS2 & N2 & F2). exists h2. split; auto. split; [eapply ns_trans; eauto|].
    assert (BB : forall x, l_bond (legs h1 x) = l_bond (legs h x)) by (intros x; apply (ns_leg _ _ NS1 x)). split.
    + intros x Hx HB. destruct (in_dec Nat.eq_dec x ls) as [Hx'|Hx']; [apply N2; auto; now rewrite BB|]. destruct Hx as [<-|Hx]; [|now elim Hx'].
      rewrite F2 by auto. auto.
    + intros x Hx. rewrite F2; [|rewrite BB; simpl in Hx; tauto]. apply F1. simpl in Hx. destruct Hx as [Hx|Hx]; [left; intros ->; apply Hx; auto|auto].
Qed.

Lemma oTens_ok inn : forall ts (h : heap), exists h', iterM (fun t =>
    ls <- reads (fun h => tlegs h t) ;;
    iterM (fun l => b <- reads (fun h => legbond h l) ;; if inb b (map Some inn) then ret tt else setLegName l (NStr "o")) ls) ts h = (h', Ok tt) /\ net_same h h' /\
  (forall l, In l (all_legs h ts) -> inb (l_bond (legs h l)) (map Some inn) = false -> l_name (legs h' l) = NStr "o") /\
  (forall l, ~ In l (all_legs h ts) \/ inb (l_bond (legs h l)) (map Some inn) = true -> l_name (legs h' l) = l_name (legs h l)).
Proof.
  induction ts as [|t ts IH]; intros h.
  - exists h. split; [reflexivity|]. split; [apply ns_refl|]. split; [intros l []|auto].
  - cbn [iterM]. destruct (oLegs_ok inn (legs_of h t) h) as (h1 & E1 & NS1 & N1 & F1).
    rewrite (bind_ok _ _ h h1 tt).
    2:{ erewrite bind_ok by reflexivity. exact E1. }
    destruct (IH h1) as (h2 & E2 & NS2 & N2 & F2). exists h2. split; auto. split; [eapply ns_trans; eauto|].
    assert (BB : forall x, l_bond (legs h1 x) = l_bond (legs h x)) by (intros x; apply (ns_leg _ _ NS1 x)).
    change (all_legs h (t :: ts)) with (legs_of h t ++ all_legs h ts). rewrite (ns_all _ _ NS1) in *. split.
    + intros x Hx HB. destruct (in_dec Nat.eq_dec x (all_legs h ts)) as [Hx'|Hx']; [apply N2; auto; now rewrite BB|].
      apply in_app_iff in Hx. destruct Hx as [Hx|Hx]; [|now elim Hx']. rewrite F2 by auto. auto.
    + intros x Hx. rewrite in_app_iff in Hx. rewrite F2; [|rewrite BB; tauto]. apply F1. tauto.
Qed.

(** a bond is among the inner ones exactly for the legs of neighbouring bonds *)
Lemma inner_bond (h : heap) ts inn l : wf_net h ts -> (forall b, In b inn <-> exists p, In p (neighbours h ts) /\ l_bond (legs h (fst p)) = Some b) ->
  In l (all_legs h ts) -> inb (l_bond (legs h l)) (map Some inn) = true <-> In l (map fst (neighbours h ts)) \/ In l (map snd (neighbours h ts)).
Proof.
  intros W HB Hl. rewrite inb_true, in_map_iff. split.
  - intros (b & E & Hb). symmetry in E. apply HB in Hb. destruct Hb as ([p q] & Hp & Bp). cbn [fst] in Bp.
    destruct (neighbours_in h ts p q Hp) as (H1 & H2 & (b' & B' & EN)). rewrite Bp in B'. injection B' as <-.
    destruct (wn_links _ _ W l b Hl E) as (z & EZ & _). assert (l = p \/ l = q) as [->| ->].
    { unfold ends in *. destruct EN as [EN|EN], EZ as [EZ|EZ]; rewrite EN in EZ; injection EZ; auto. }
    + left. apply in_map_iff. exists (p, q). auto.
    + right. apply in_map_iff. exists (p, q). auto.
  - intros [HN|HN]; apply in_map_iff in HN; destruct HN as ([p q] & <- & Hp); cbn [fst snd] in *;
      destruct (neighbours_in h ts p q Hp) as (H1 & H2 & LK).
    + destruct LK as (b & B & EN). exists b. split; auto. apply HB. exists (p, q). auto.
    + destruct (links_sym h _ _ _ (wn_links _ _ W) H1 H2 LK) as (b & B & EN). exists b. split; auto. apply HB. exists (p, q). split; auto. cbn [fst].
      destruct LK as (b' & B' & EN'). destruct (wn_links _ _ W p b' H1 B') as (z & EZ & HZ).
      assert (z = q) as -> by (apply (linked_fun h p); [exists b'; auto|exists b'; auto]). destruct (HZ H2) as [HZ' _]. congruence.
Qed.

Lemma newMps_ok (h : heap) ts chi : wf_net h ts ->
  (mps_shape h ts -> exists h', newMps ts chi h =
     (h', Ok (mkMps ts (match chi with None => -1 | Some c => if Z.ltb c (-1) then -1 else c end) None, match chi with None => false | Some c => Z.ltb c (-1) end)%Z) /\
     net_same h h' /\ mps_named h ts h') /\
  (~ mps_shape h ts -> exists h', newMps ts chi h = (h', Err ValueError) /\ only_bonds h h').
Proof.
  intros W. destruct (check_ok h ts W) as (h1 & b & E1 & O1 & SP). unfold newMps. rewrite (bind_ok _ _ _ _ _ E1). split.
  - intros SH. assert (b = true) as -> by now apply SP. erewrite bind_ok by reflexivity.
    assert (NS1 := ns_ob _ _ O1). assert (W1 := ns_wf_net _ _ NS1 _ W). destruct SH as (NE & S1 & S2 & S3).
    assert (S1' : forall i, S i < List.length ts -> List.length (shared h1 (nth i ts 0) (nth (S i) ts 0)) = 1) by (intros i Hi; rewrite (ns_shared _ _ NS1); auto).
    destruct (getChi_ok h1 ts chi W1) as (h2 & O2 & E2).
    { intros i Hi C. specialize (S1' i Hi). rewrite C in S1'. discriminate. }
    rewrite (bind_ok _ _ _ _ _ E2). assert (NS2 : net_same h h2) by (eapply ns_trans; [exact NS1|now apply ns_ob]). assert (W2 := ns_wf_net _ _ NS2 _ W).
    destruct (renamePairs_ok ts h2 W2) as (h3 & bs & E3 & [R1 R2 R3 R4] & HB).
    { intros i Hi. rewrite (ns_shared _ _ NS2). auto. }
    destruct (oTens_ok bs ts h3) as (h4 & E4 & NS4 & N4 & F4).
    assert (NS3 : net_same h h3) by (eapply ns_trans; eauto).
    assert (EC : (let '(c, w) := (match chi with None => (-1, false) | Some c => if Z.ltb c (-1) then (-1, true) else (c, false) end)%Z in renameBonds ts ;;; ret (mkMps ts c None, w)) h2 =
      (h4, Ok (mkMps ts (match chi with None => -1 | Some c => if Z.ltb c (-1) then -1 else c end) None, match chi with None => false | Some c => Z.ltb c (-1) end)%Z)).
    { assert (RB : renameBonds ts h2 = (h4, Ok tt)) by (unfold renameBonds; rewrite (bind_ok _ _ _ _ _ E3); exact E4).
      destruct chi as [c|]; [destruct (Z.ltb c (-1))|]; rewrite (bind_ok _ _ _ _ _ RB); reflexivity. }
    exists h4. split; [exact EC|]. split; [eapply ns_trans; eauto|].
    assert (BD : forall l, l_bond (legs h3 l) = l_bond (legs h2 l)) by (intros l; apply (ns_leg _ _ R1 l)).
    rewrite (ns_neighbours _ _ NS2) in *. rewrite (ns_all _ _ NS3) in *.
    assert (IN : forall l, In l (all_legs h ts) -> inb (l_bond (legs h3 l)) (map Some bs) = true <-> In l (map fst (neighbours h ts)) \/ In l (map snd (neighbours h ts))).
    { intros l Hl. rewrite BD. rewrite <- (ns_neighbours _ _ NS2). apply inner_bond; auto; [rewrite (ns_neighbours _ _ NS2); auto|now rewrite (ns_all _ _ NS2)]. }
    assert (NI : forall l, In l (map fst (neighbours h ts)) \/ In l (map snd (neighbours h ts)) -> In l (all_legs h ts)).
    { intros l [Hl|Hl]; apply in_map_iff in Hl; destruct Hl as ([p q] & <- & Hp); apply neighbours_in in Hp; tauto. }
    constructor.
    + intros l Hl. rewrite F4; [now apply R2|]. right. apply IN; auto.
    + intros l Hl. rewrite F4; [now apply R3|]. right. apply IN; auto.
    + intros l Hl H1 H2. apply N4; auto. destruct (inb (l_bond (legs h3 l)) (map Some bs)) eqn:EB; auto. apply IN in EB; tauto.
    + intros l Hl. rewrite F4 by auto. rewrite R4.
      * now rewrite (ob_legs _ _ O2), (ob_legs _ _ O1).
      * intros C. apply Hl, NI; auto.
      * intros C. apply Hl, NI; auto.
  - intros SH. assert (b = false) as -> by (destruct b; auto; exfalso; now apply SH, SP). exists h1. split; auto.
Qed.

(** the result is a chain *)
Lemma neighbours_at (h : heap) p : forall ts, In p (neighbours h ts) <-> exists i, S i < List.length ts /\ In p (shared h (nth i ts 0) (nth (S i) ts 0)).
Proof.
  induction ts as [|ta [|tb ts] IH].
  - split; [intros []|]. intros (i & Hi & _). simpl in Hi. lia.
  - split; [intros []|]. intros (i & Hi & _). simpl in Hi. lia.
  - change (neighbours h (ta :: tb :: ts)) with (shared h ta tb ++ neighbours h (tb :: ts)). rewrite in_app_iff, IH. split.
    + intros [Hp|(i & Hi & Hp)]; [exists 0; cbn [nth List.length]; split; [lia|auto]|]. exists (S i). cbn [List.length] in *. split; [lia|exact Hp].
    + intros ([|i] & Hi & Hp); [left; exact Hp|]. right. exists i. cbn [List.length] in *. split; [lia|exact Hp].
Qed.
Lemma finite_choice {X} (P : nat -> X -> Prop) d : forall n, (forall i, i < n -> exists x, P i x) -> exists l, List.length l = n /\ forall i, i < n -> P i (nth i l d).
Proof.
  induction n as [|n IH]; intros H; [exists []; split; auto; lia|]. destruct IH as (l & L & HP); [intros i Hi; apply H; lia|]. destruct (H n) as (x & Hx); [lia|].
  exists (l ++ [x]). split; [rewrite app_length; simpl; lia|]. intros i Hi. destruct (Nat.eq_dec i n) as [->|N].
  - rewrite app_nth2 by lia. now rewrite L, Nat.sub_diag.
  - rewrite app_nth1 by lia. apply HP. lia.
Qed.
Lemma take_one (L : list nat) x : In x L -> exists L', Permutation L (x :: L').
Proof. intros H. apply in_split in H. destruct H as (u & v & ->). exists (u ++ v). symmetry. apply Permutation_middle. Qed.

Lemma new_chain (h h' : heap) ts env : wf_open h (ts ++ env) -> mps_shape h ts -> no_other_links h ts ->
  (forall t, In t ts -> t_diag (tens h t) = false /\ t_like (tens h t) = false) -> net_same h h' -> mps_named h ts h' -> 
  exists os, is_mps h' ts os env.
Proof.
  intros WO (NE & S1 & S2 & S3) (X1 & X2 & X3) KD NS MN. set (n := List.length ts).
  set (rt := fun i => fst (hd (0, 0) (shared h (nth i ts 0) (nth (S i) ts 0)))).
  set (lf := fun i => match i with 0 => 0 | S j => snd (hd (0, 0) (shared h (nth j ts 0) (nth (S j) ts 0))) end).
  assert (WN : wf_net h ts).
  { apply (wf_net_sub h ts env (ts ++ env)); [reflexivity|apply WO]. }
  assert (SH : forall i, S i < n -> shared h (nth i ts 0) (nth (S i) ts 0) = [(rt i, lf (S i))]).
  { intros i Hi. unfold rt, lf. specialize (S1 i Hi). destruct (shared h (nth i ts 0) (nth (S i) ts 0)) as [|[x y] [|? ?]]; try discriminate S1. reflexivity. }
  assert (LK : forall i, S i < n -> In (rt i) (legs_of h (nth i ts 0)) /\ In (lf (S i)) (legs_of h (nth (S i) ts 0)) /\ linked h (rt i) (lf (S i))).
  { intros i Hi. apply pairs_In. fold (shared h (nth i ts 0) (nth (S i) ts 0)). rewrite SH by auto. simpl; auto. }
  assert (ALL : forall i l, i < n -> In l (legs_of h (nth i ts 0)) -> In l (all_legs h ts)).
  { intros i l Hi Hl. unfold all_legs. apply in_flat_map. exists (nth i ts 0). split; auto. now apply nth_In. }
  assert (LK' : forall i, S i < n -> linked h (lf (S i)) (rt i)).
  { intros i Hi. destruct (LK i Hi) as (I1 & I2 & I3). apply (links_sym h (all_legs h ts)); auto; [apply WN|eapply ALL; [|exact I1]; lia|eapply ALL; [|exact I2]; lia]. }
  assert (SITE : forall i j l, i < n -> j < n -> In l (legs_of h (nth i ts 0)) -> In l (legs_of h (nth j ts 0)) -> i = j).
  { intros i j l Hi Hj H1 H2. assert (nth i ts 0 = nth j ts 0) as E.
    { apply (one_owner h ts _ _ l (wn_nodup _ _ WN)); auto; now apply nth_In. }
    apply (NoDup_nth ts 0); auto. apply WN. }
  assert (DIF : forall i, S (S i) < n -> lf (S i) <> rt (S i)).
  { intros i Hi C. destruct (LK i) as (I1 & _ & _); [lia|]. destruct (LK (S i)) as (_ & I2 & I3); [lia|]. rewrite <- C in I3.
    assert (E : lf (S (S i)) = rt i) by (apply (linked_fun h (lf (S i))); auto; apply LK'; lia). rewrite E in I2.
    assert (i = S (S i)) by (apply (SITE i (S (S i)) (rt i)); auto; lia). lia. }
  destruct (finite_choice (fun i o => Permutation (legs_of h (nth i ts 0)) (opt (Nat.ltb 0 i) (lf i) ++ opt (Nat.ltb (S i) n) (rt i) ++ [o])) 0 n) as (os & LO & PO).
  { intros i Hi. destruct (Nat.eq_dec n 1) as [E1|N1].
    - assert (i = 0) as -> by lia. specialize (X3 E1). destruct (legs_of h (nth 0 ts 0)) as [|o [|? ?]]; try discriminate X3. exists o. rewrite E1. reflexivity.
    - destruct i as [|i].
      + destruct S2 as [S2 _]; [fold n; lia|]. destruct (LK 0) as (I1 & _ & _); [lia|]. destruct (take_one _ _ I1) as (L' & P). rewrite (Permutation_length P) in S2. 
        destruct L' as [|o [|? ?]]; try discriminate S2. exists o. assert (Nat.ltb 1 n = true) as -> by (apply Nat.ltb_lt; lia). exact P.
      + destruct (LK i) as (_ & I1 & _); [lia|]. destruct (take_one _ _ I1) as (L' & P). change (Nat.ltb 0 (S i)) with true. cbn [opt app].
        destruct (Nat.ltb_spec (S (S i)) n) as [LT|GE].
        * destruct (LK (S i)) as (I2 & _ & _); [lia|]. assert (I3 := I2). apply (Permutation_in _ P) in I3. destruct I3 as [I3|I3]; [now elim (DIF i LT)|].
          destruct (take_one _ _ I3) as (L2 & P2). assert (LN := S3 (S i) ltac:(lia) LT). rewrite (Permutation_length P) in LN. cbn [List.length] in LN. rewrite (Permutation_length P2) in LN.
          destruct L2 as [|o [|? ?]]; try discriminate LN. exists o. rewrite P, P2. reflexivity.
        * destruct S2 as [_ S2]; [fold n; lia|]. fold n in S2. replace (n - 1) with (S i) in S2 by lia. rewrite (Permutation_length P) in S2.
          destruct L' as [|o [|? ?]]; try discriminate S2. exists o. rewrite P. reflexivity. }
  assert (OIN : forall i, i < n -> In (nth i os 0) (legs_of h (nth i ts 0))).
  { intros i Hi. eapply Permutation_in; [symmetry; apply PO; auto|]. rewrite !in_app_iff. simpl; auto. }
  assert (ND : forall i, i < n -> NoDup (legs_of h (nth i ts 0))).
  { intros i Hi. apply (wt_nodup _ _ (wn_wf _ _ WN _ (nth_In _ 0 Hi))). }
  assert (NR : forall i, S i < n -> nth i os 0 <> rt i).
  { intros i Hi C. assert (NN := ND i ltac:(lia)). rewrite (PO i ltac:(lia)) in NN. assert (Nat.ltb (S i) n = true) as E by now apply Nat.ltb_lt. rewrite E in NN.
    cbn [opt] in NN. apply NoDup_app_r in NN. rewrite C in NN. inversion NN; simpl in *; tauto. }
  assert (NL : forall i, S i < n -> nth (S i) os 0 <> lf (S i)).
  { intros i Hi C. assert (NN := ND (S i) Hi). rewrite (PO (S i) Hi) in NN. change (Nat.ltb 0 (S i)) with true in NN. cbn [opt app] in NN. rewrite C in NN.
    inversion NN as [|? ? Q _]. apply Q. apply in_app_iff. simpl; auto. }
  assert (NB : forall i, S i < n -> In (rt i, lf (S i)) (neighbours h ts)).
  { intros i Hi. apply neighbours_at. exists i. split; auto. rewrite SH by auto. simpl; auto. }
  assert (IND : forall l, In l os -> exists i, i < n /\ l = nth i os 0).
  { intros l Hl. apply (In_nth _ _ 0) in Hl. destruct Hl as (i & Hi & <-). exists i. split; auto. lia. }
  assert (APART : forall i l' j, i < n -> j < n -> In l' (legs_of h (nth j ts 0)) -> ~ linked h (nth i os 0) l').
  { intros i l' j Hi Hj Hl' LL. assert (Hoi := OIN i Hi).
    assert (LL' : linked h l' (nth i os 0)) by (apply (links_sym h (all_legs h ts)); eauto; apply WN).
    destruct (Nat.lt_trichotomy i j) as [LT|[EQ|GT]].
    - assert (In (nth i os 0, l') (shared h (nth i ts 0) (nth j ts 0))) as IN by (apply pairs_In; auto). destruct (Nat.eq_dec j (S i)) as [->|N].
      + rewrite SH in IN by auto. destruct IN as [IN|[]]. injection IN as IN _. now apply (NR i Hj).
      + rewrite X1 in IN; [destruct IN|lia|auto].
    - subst j. apply (X2 (nth i ts 0) (nth i os 0) l'); auto. now apply nth_In.
    - assert (In (l', nth i os 0) (shared h (nth j ts 0) (nth i ts 0))) as IN by (apply pairs_In; auto). destruct (Nat.eq_dec i (S j)) as [->|N].
      + rewrite SH in IN by auto. destruct IN as [IN|[]]. injection IN as _ IN. now apply (NL j Hi).
      + rewrite X1 in IN; [destruct IN|lia|auto]. }
  exists os, lf, rt. constructor.
  - exact LO.
  - now apply (ns_wf_open _ _ NS).
  - intros t Ht. rewrite (ns_tens _ _ NS). auto.
  - intros i Hi. rewrite (ns_legs_of _ _ NS). now apply PO.
  - intros i Hi. apply (mn_o _ _ _ MN); [now apply (ALL i); auto| |].
    + intros C. apply in_map_iff in C. destruct C as ([p q] & E & C). cbn [fst] in E. apply neighbours_at in C. destruct C as (j & Hj & C).
      rewrite SH in C by auto. destruct C as [C|[]]. injection C as C _. rewrite <- C in E. destruct (LK j Hj) as (I1 & _ & _). rewrite E in I1.
      assert (j = i) by (apply (SITE j i (nth i os 0)); auto; fold n in Hj; lia). subst j. now apply (NR i Hj).
    + intros C. apply in_map_iff in C. destruct C as ([p q] & E & C). cbn [snd] in E. apply neighbours_at in C. destruct C as (j & Hj & C).
      rewrite SH in C by auto. destruct C as [C|[]]. injection C as _ C. assert (EE : lf (S j) = nth i os 0) by (transitivity q; [exact C|exact E]). destruct (LK j Hj) as (_ & I1 & _). rewrite EE in I1.
      assert (S j = i) by (apply (SITE (S j) i (nth i os 0)); auto). subst i. now apply (NL j Hj).
  - intros i Hi. apply (mn_l _ _ _ MN). apply in_map_iff. exists (rt i, lf (S i)). auto.
  - intros i Hi. apply (mn_r _ _ _ MN). apply in_map_iff. exists (rt i, lf (S i)). auto.
  - intros i Hi. apply (ns_linked _ _ NS). now apply LK.
  - intros l l' Hl Hl' LL. apply (ns_linked _ _ NS) in LL. rewrite (ns_all _ _ NS) in Hl'. destruct (IND l Hl) as (i & Hi & ->).
    unfold all_legs in Hl'. apply in_flat_map in Hl'. destruct Hl' as (t & Ht & Hl'). apply (In_nth _ _ 0) in Ht. destruct Ht as (j & Hj & <-).
    exact (APART i l' j Hi Hj Hl' LL).
Qed.

Lemma new_shape (h : heap) ts chi : wf_net h ts ->
  (mps_shape h ts -> exists h' m w, newMps ts chi h = (h', Ok (m, w)) /\ m_ts m = ts /\ net_same h h' /\ mps_named h ts h') /\
  (~ mps_shape h ts -> exists h', newMps ts chi h = (h', Err ValueError) /\ only_bonds h h').
Proof.
  intros W. destruct (newMps_ok h ts chi W) as [N1 N2]. split; auto. intros SH. destruct (N1 SH) as (h' & E & R). eexists h', _, _. split; [exact E|]. auto.
Qed.
Lemma sub_net (h : heap) ts env : wf_open h (ts ++ env) -> wf_net h ts.
Proof. intros WO. apply (wf_net_sub h ts env (ts ++ env)); [reflexivity|apply WO]. Qed.
Lemma new_is_mps (h : heap) ts env chi : wf_open h (ts ++ env) -> mps_shape h ts -> no_other_links h ts ->
  (forall t, In t ts -> t_diag (tens h t) = false /\ t_like (tens h t) = false) ->
  exists h' m w os, newMps ts chi h = (h', Ok (m, w)) /\ m_ts m = ts /\ net_same h h' /\ mps_named h ts h' /\ is_mps h' ts os env.
Proof.
  intros WO SH NO KD. destruct (proj1 (new_shape h ts chi (sub_net h ts env WO)) SH) as (h' & m & w & E & ET & NS & MN).
  destruct (new_chain h h' ts env WO SH NO KD NS MN) as (os & IM). exists h', m, w, os. auto.
Qed.
End Mp.
