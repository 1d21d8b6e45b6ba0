(** Searching for a sequence and running it. *)
From Coq Require Import List Arith Bool Lia Permutation Relations.
From Verif Require Import Base Sums FuncsModel FuncsProofs NdModel HeapModel NdProofs TensorModel TensorSpec TensorProofs
  ContractModel NetSpec ShareProofs ContractProofs NetProofs SumpairsProofs SeqProofs CopyListProofs SearchModel SearchSpec SearchBase BfProofs
  GreedyProofs CapProofs SearchProofs GraphModel GraphProofs NetGraphModel NetGraphSpec RetProofs NetGraphProofs NetSearchProofs.
Import ListNotations.
Local Open Scope nat_scope.

Section Run.
Context {A : Type} {HA : SR A}.
Notation heap := (heap A).
Variable symdiff : list nat -> list nat -> list nat.
Hypothesis SD : symdiff_ok symdiff.

(** what a search gives back fits the tensors *)
Definition ret_ok (vok : Prop) (h : heap) (ts : list tid) (sq : list (nat * nat)) (n : nat) : Prop :=
  complete (fun G1 G2 => ok_ret h G1 G2 /\ (vok -> ok_val h G1 G2)) (group_cost h) (singles ts) sq n.

Lemma generate_ok (h : heap) ts : wf_net h ts -> closed_net h ts -> exists verts eix dimE, graph_of h ts verts eix dimE /\
  (forall fuel bf typ, generateOptimalSequence symdiff fuel h ts bf typ = if bf then bruteForce symdiff verts typ else capping symdiff verts typ fuel) /\
  (forall fuel, generateGreedySequence symdiff fuel h ts = greedySearch symdiff verts).
Proof.
  intros W CL. destruct (makeTensorGraph_ok h ts W CL) as (g & verts & eix & dimE & E1 & E2 & GO). exists verts, eix, dimE. split; auto.
  unfold generateOptimalSequence, generateGreedySequence, optimalContractSequence. rewrite E1. cbn [rbind]. rewrite E2. auto.
Qed.
Lemma touching_joinable verts sq (cost : list nat -> list nat -> nat) c gs : complete (touching verts) cost gs sq c -> complete (joinable verts) cost gs sq c.
Proof. apply complete_weaken. intros G1 G2 T _ _. exact T. Qed.

Lemma greedy_fits fuel (h : heap) ts sq c : wf_net h ts -> closed_net h ts -> ts <> [] ->
  generateGreedySequence symdiff fuel h ts = Ok (sq, c) -> ret_ok True h ts sq c.
Proof.
  intros W CL NE E. destruct (generate_ok h ts W CL) as (verts & eix & dimE & GO & _ & EG). rewrite EG in E.
  assert (0 < List.length verts) as L by (rewrite (go_len _ _ _ _ _ GO); destruct ts; [congruence|simpl; lia]).
  destruct (greedy_complete symdiff verts dimE SD (wf_verts h ts W CL verts eix dimE GO) sq c L E) as (_ & HC & _).
  apply touching_joinable in HC. destruct (transfer_joinable h ts W CL verts eix dimE GO None sq c HC) as (n & Hn & En). now rewrite <- (En eq_refl).
Qed.
Lemma capping_fits fuel (h : heap) ts typ sq c : wf_net h ts -> closed_net h ts ->
  generateOptimalSequence symdiff fuel h ts false typ = Ok (sq, c) -> exists n, ret_ok True h ts sq n /\ (typ = None -> n = c).
Proof.
  intros W CL E. destruct (generate_ok h ts W CL) as (verts & eix & dimE & GO & EO & _). rewrite EO in E.
  destruct (cap_complete symdiff verts dimE typ SD (wf_verts h ts W CL verts eix dimE GO) fuel sq c E) as (_ & HC).
  apply (transfer_joinable h ts W CL verts eix dimE GO typ sq c HC).
Qed.
Lemma bf_fits_net fuel (h : heap) ts sq c : wf_net h ts -> closed_net h ts -> ts <> [] -> diagonals_uniform h ts ->
  generateOptimalSequence symdiff fuel h ts true None = Ok (sq, c) -> ret_ok False h ts sq c.
Proof.
  intros W CL NE DU E. destruct (generate_ok h ts W CL) as (verts & eix & dimE & GO & EO & _). rewrite EO in E.
  assert (0 < List.length verts) as L by (rewrite (go_len _ _ _ _ _ GO); destruct ts; [congruence|simpl; lia]).
  pose proof (wf_verts h ts W CL verts eix dimE GO) as WV.
  destruct (bf_complete symdiff verts dimE None SD WV sq c L (fun _ => uniform_verts h ts W CL verts eix dimE GO DU) E) as (_ & HC).
  eapply transfer_uniform; eauto.
Qed.

Lemma run_cost (vok : Prop) (h : heap) ts sq c inplace h' t0 n cur : wf_net h ts -> (inplace = false -> wf_list h ts) ->
  (forall t, In t ts -> t_like (tens h t) = false) -> ret_ok vok h ts sq c ->
  contractWithSeq ts sq inplace h = (h', Ok (t0, n, cur)) -> n = c.
Proof.
  intros W WL NLK HC E. destruct inplace.
  - eapply inplace_ret in E; eauto. tauto.
  - eapply outplace_ret in E; eauto. tauto.
Qed.
Lemma cost_greedy fuel (h : heap) ts sq c inplace h' t0 n cur : wf_net h ts -> closed_net h ts -> (inplace = false -> wf_list h ts) ->
  (forall t, In t ts -> t_like (tens h t) = false) -> ts <> [] ->
  generateGreedySequence symdiff fuel h ts = Ok (sq, c) ->
  contractWithSeq ts sq inplace h = (h', Ok (t0, n, cur)) -> n = c.
Proof. intros W CL WL NLK NE E. eapply run_cost; eauto. eapply greedy_fits; eauto. Qed.
Lemma cost_capping fuel (h : heap) ts sq c inplace h' t0 n cur : wf_net h ts -> closed_net h ts -> (inplace = false -> wf_list h ts) ->
  (forall t, In t ts -> t_like (tens h t) = false) ->
  generateOptimalSequence symdiff fuel h ts false None = Ok (sq, c) ->
  contractWithSeq ts sq inplace h = (h', Ok (t0, n, cur)) -> n = c.
Proof. intros W CL WL NLK E. destruct (capping_fits fuel h ts None sq c W CL E) as (m & HM & Em). specialize (Em eq_refl). subst m. eapply run_cost; eauto. Qed.
Lemma cost_bf fuel (h : heap) ts sq c inplace h' t0 n cur : wf_net h ts -> closed_net h ts -> (inplace = false -> wf_list h ts) ->
  (forall t, In t ts -> t_like (tens h t) = false) -> ts <> [] -> diagonals_uniform h ts ->
  generateOptimalSequence symdiff fuel h ts true None = Ok (sq, c) ->
  contractWithSeq ts sq inplace h = (h', Ok (t0, n, cur)) -> n = c.
Proof. intros W CL WL NLK NE DU E. eapply run_cost; eauto. eapply bf_fits_net; eauto. Qed.

(** the default search never leads to a wrong value *)
Lemma default_value fuel (h : heap) ts typ inplace greedy h' t0 n cur : wf_net h ts -> closed_net h ts -> (inplace = false -> wf_list h ts) ->
  (forall t, In t ts -> t_like (tens h t) = false) -> ts <> [] ->
  contractAndCost symdiff fuel ts None false typ inplace greedy h = (h', Ok (t0, n, cur)) ->
  exists cp, (inplace = true -> cp = fun l => l) /\ result_legs h h' ts t0 cp /\
    forall s, in_bounds h (free_legs h ts) (fun l => s (cp l)) -> entry h' t0 s = netval h ts (fun l => s (cp l)).
Proof.
  intros W CL WL NLK NE E. unfold contractAndCost, bind, readsR, ret in E.
  destruct (if greedy then generateGreedySequence symdiff fuel h ts else generateOptimalSequence symdiff fuel h ts false typ) as [[sq c]|e] eqn:EG; [|discriminate].
  cbn [fst] in E. assert (HC : exists m, ret_ok True h ts sq m).
  { destruct greedy; [exists c; eapply greedy_fits; eauto|]. destruct (capping_fits fuel h ts typ sq c W CL EG) as (m & HM & _). eauto. }
  destruct HC as (m & HM). destruct inplace.
  - eapply inplace_ret in E; eauto. destruct E as (_ & RL & V). exists (fun l => l). split; auto.
  - eapply outplace_ret in E; eauto. destruct E as (_ & cp & RL & V). exists cp. split; [discriminate|]. auto.
Qed.

(** *** a link leading out of the list *)
Lemma rfold_err {X T} (f : T -> X -> res T) (P : T -> Prop) (bad : X -> Prop) e l :
  (forall s x, In x l -> P s -> f s x = Err e \/ exists s', f s x = Ok s' /\ P s' /\ ~ bad x) ->
  forall s, P s -> rfold f l s = Err e \/ exists s', rfold f l s = Ok s' /\ P s' /\ forall x, In x l -> ~ bad x.
Proof.
  induction l as [|x l IH]; intros HF s Ps; simpl; [right; exists s; split; auto; split; auto; intros ? []|].
  destruct (HF s x (or_introl eq_refl) Ps) as [E|(s' & E & Ps' & NB)]; rewrite E; simpl; auto.
  destruct (IH (fun s x Hx => HF s x (or_intror Hx)) s' Ps') as [E2|(s2 & E2 & P2 & NB2)]; auto.
  right. exists s2. split; auto. split; auto. intros y [<-|Hy]; auto.
Qed.
Lemma open_link_raises (h : heap) ts : wf_net h ts ->
  (exists l l', In l (all_legs h ts) /\ linked h l l' /\ forall t', l_tensor (legs h l') = Some t' -> ~ In t' ts) ->
  makeTensorGraph h ts = Err KeyError.
Proof.
  intros W (lo & lo' & Hlo & LKo & NTo). set (n := List.length ts).
  set (bad := fun l => exists l', linked h l l' /\ forall t', l_tensor (legs h l') = Some t' -> ~ In t' ts).
  set (P := fun st : graph nat * list bid => g_n (fst st) = n /\ forall b, In b (snd st) -> exists l0 l0' t', In l0 (all_legs h ts) /\
     l_bond (legs h l0) = Some b /\ linked h l0 l0' /\ l_tensor (legs h l0') = Some t' /\ In t' ts).
  assert (STEP : forall i t, nth_error ts i = Some t -> forall st l, In l (legs_of h t) -> P st ->
     graphLeg h ts i st l = Err KeyError \/ exists st', graphLeg h ts i st l = Ok st' /\ P st' /\ ~ bad l).
  { intros i t Et [g bs] l Hl (Gn & BS). cbn [fst snd] in *. assert (Hal : In l (all_legs h ts)) by (apply all_legs_In; eauto using nth_error_In).
    assert (Li : (i <? g_n g) = true) by (rewrite Gn; apply Nat.ltb_lt, nth_error_Some; congruence).
    unfold graphLeg, legbond, legdim. destruct (l_bond (legs h l)) as [b|] eqn:Eb.
    - destruct (wn_links _ _ W l b Hal Eb) as (l' & EN & SY).
      assert (LK : linked h l l') by (exists b; auto).
      destruct (inb b bs) eqn:EI.
      + right. exists (g, bs). split; auto. split; [split; auto|]. intros (x & LKx & NT). assert (x = l') as -> by (eapply linked_fun; eauto).
        apply inb_true in EI. destruct (BS b EI) as (l0 & l0' & t' & H0 & E0 & LK0 & T0 & Ht').
        destruct (Nat.eq_dec l0 l) as [->|N0]; [assert (l0' = l') as -> by (eapply linked_fun; eauto); eapply NT; eauto|].
        destruct (wn_links _ _ W l0 b H0 E0) as (l1 & EN1 & _). assert (l0 = l') as ->.
        { destruct EN as [K|K], EN1 as [K1|K1]; rewrite K in K1; injection K1 as -> ->; congruence. }
        apply all_legs_In in H0. destruct H0 as (u & Hu & Hlu). eapply (NT u); eauto. apply (wn_owned _ _ W); auto.
      + rewrite (bondAnotherSide_partner h l b Eb), (proj2 (partner_Some h l l') LK). cbn [rbind].
        destruct (l_tensor (legs h l')) as [t'|] eqn:ET; auto.
        destruct (in_dec Nat.eq_dec t' ts) as [Ht'|Ht']; [|left; rewrite dictGet_notin; auto].
        pose proof Ht' as Hj. apply In_nth_error in Hj. destruct Hj as (j & Ej). assert (Lj : j < n) by (apply nth_error_Some; congruence).
        rewrite (dictGet_nth ts (seq 0 (List.length ts)) (wn_ids _ _ W) ltac:(now rewrite seq_length) j t' Ej).
        assert (nth_error (seq 0 (List.length ts)) j = Some j) as ->.
        { rewrite (nth_error_nth' _ 0) by (now rewrite seq_length). now rewrite seq_nth. }
        unfold addEdge. rewrite Li. assert ((j <? g_n g) = true) as -> by (rewrite Gn; now apply Nat.ltb_lt). cbn [vertexAddEdge rbind].
        right. eexists. split; [reflexivity|]. split.
        * split; [exact Gn|]. cbn [snd]. intros b' [<-|Hb']; [exists l, l', t'; auto 8|auto].
        * intros (x & LKx & NT). assert (x = l') as -> by (eapply linked_fun; eauto). eapply NT; eauto.
    - unfold addFreeEdge. rewrite Li. cbn [rbind]. right. eexists. split; [reflexivity|]. split; [split; auto|].
      intros (x & (b & EB & _) & _). congruence. }
  unfold makeTensorGraph. fold n.
  destruct (rfold_err (fun st '(i, t) => rfold (graphLeg h ts i) (tlegs h t) st) P (fun p => exists l, In l (legs_of h (snd p)) /\ bad l) KeyError (combine (seq 0 n) ts)) with (s := (newGraph (W := nat) n, @nil bid)) as [->|(st & E & _ & NB)]; auto.
  - intros st [i t] Hit Pst. assert (Et : nth_error ts i = Some t).
    { apply In_nth_error in Hit. destruct Hit as (k & Ek). assert (k < List.length (combine (seq 0 n) ts)) as Lk by (apply nth_error_Some; congruence).
      rewrite combine_length, seq_length in Lk. rewrite (nth_error_nth' _ (0, 0)) in Ek by (rewrite combine_length, seq_length; auto).
      rewrite combine_nth in Ek by (now rewrite seq_length). rewrite seq_nth in Ek by lia. injection Ek as Ei Et. subst i t. apply nth_error_nth'. lia. }
    destruct (rfold_err (graphLeg h ts i) P bad KeyError (legs_of h t) (fun s x Hx Ps => STEP i t Et s x Hx Ps) st Pst) as [E|(st' & E & Pst' & NB)]; auto.
    right. exists st'. split; [exact E|]. split; auto. intros (l & Hl & B). exact (NB l Hl B).
  - split; [reflexivity|]. intros b [].
  - exfalso. apply all_legs_In in Hlo. destruct Hlo as (t & Ht & Hl). apply In_nth_error in Ht. destruct Ht as (i & Ei).
    apply (NB (i, t)); [|exists lo; split; auto; exists lo'; auto].
    apply (nth_error_In _ i). assert (i < n) by (apply nth_error_Some; congruence).
    rewrite (nth_error_nth' _ (0, 0)) by (rewrite combine_length, seq_length; unfold n in *; lia).
    rewrite combine_nth by (now rewrite seq_length). rewrite seq_nth by auto. f_equal. f_equal. now apply nth_error_nth.
Qed.

(** *** connected networks: the search ends and the run succeeds *)
Lemma net_crossing (h : heap) ts G x y : clos_refl_trans tid (net_adjacent h ts) x y -> In x G -> ~ In y G ->
  exists u v, In u G /\ ~ In v G /\ net_adjacent h ts u v.
Proof.
  intros R. apply clos_rt_rt1n in R. induction R as [x|x y z AD R IH]; intros Hx Hz; [contradiction|].
  destruct (in_dec Nat.eq_dec y G) as [Hy|Hy]; eauto.
Qed.
Lemma part_free (h : heap) ts G1 G2 R : wf_net h ts -> net_connected h ts -> Permutation (G1 ++ G2 ++ R) ts -> G1 <> [] -> G2 <> [] ->
  free_legs h G1 <> [] /\ free_legs h G2 <> [].
Proof.
  intros W NC P N1 N2.
  assert (X : forall G K, Permutation (G ++ K) ts -> G <> [] -> K <> [] -> free_legs h G <> []).
  { intros G K PG NG NK EF. destruct G as [|x G']; [congruence|]. destruct K as [|y K']; [congruence|]. set (G := x :: G') in *. set (K := y :: K') in *.
    assert (NDT : NoDup (G ++ K)) by (eapply Permutation_NoDup; [symmetry; exact PG|apply W]).
    assert (Hy : ~ In y G) by (intros Hy; eapply (NoDup_app_disj G K y); eauto; simpl; auto).
    destruct (net_crossing h ts G x y) as (u & v & Hu & Hv & Hut & Hvt & l & l' & Hl & Hl' & LK); auto.
    - apply NC; rewrite <- PG; apply in_app_iff; simpl; auto.
    - simpl; auto.
    - assert (Hv' : In v K) by (rewrite <- PG in Hvt; apply in_app_iff in Hvt; tauto).
      assert (In l (free_legs h G)) as F; [|rewrite EF in F; exact F].
      apply (link_free1 h ts G K [] W ltac:(now rewrite app_nil_r) l l'); auto; apply all_legs_In; eauto. }
  split.
  - apply (X G1 (G2 ++ R)); auto. destruct G2; simpl; congruence.
  - apply (X G2 (G1 ++ R)); auto; [|destruct G1; simpl; congruence]. rewrite <- P, !app_assoc. apply Permutation_app_tail, Permutation_app_comm.
Qed.
Lemma ret_group_ok (h : heap) ts gs sq n : wf_net h ts -> net_connected h ts ->
  complete (fun G1 G2 => ok_ret h G1 G2 /\ (True -> ok_val h G1 G2)) (group_cost h) gs sq n ->
  Permutation (flat_map snd gs) ts -> (forall g, In g gs -> snd g <> []) -> complete (group_ok h) (group_cost h) gs sq n.
Proof.
  intros W NC. induction 1 as [G|gs rest s t G1 G2 sq n ST P (OR & OV) HC IH]; intros PF NE; [constructor|].
  assert (PX : Permutation (G1 ++ G2 ++ flat_map snd rest) ts) by (rewrite <- PF; rewrite (Permutation_flat_map snd P); reflexivity).
  assert (N1 : G1 <> []) by (apply (NE (s, G1)); rewrite P; simpl; auto).
  assert (N2 : G2 <> []) by (apply (NE (t, G2)); rewrite P; simpl; auto).
  destruct (part_free h ts G1 G2 _ W NC PX N1 N2) as (F1 & F2).
  econstructor; eauto.
  - split; [exact (OV I)|]. split; auto.
  - apply IH; [cbn [flat_map snd]; rewrite <- app_assoc; auto|]. intros g [<-|Hg]; simpl; [destruct G1; simpl; congruence|].
    apply NE. rewrite P. simpl; auto.
Qed.

Section Connected.
Variables (h : heap) (ts : list tid).
Hypothesis W : wf_net h ts.
Hypothesis CL : closed_net h ts.
Hypothesis NC : net_connected h ts.
Hypothesis NE : ts <> [].
Hypothesis POS : forall l, In l (all_legs h ts) -> 0 < dim_of h l.
Lemma verts_connected verts eix dimE : graph_of h ts verts eix dimE -> connected verts.
Proof.
  intros GO i j Hi Hj. pose proof (NC _ _ (tn_In h ts verts eix dimE GO i Hi) (tn_In h ts verts eix dimE GO j Hj)) as R.
  remember (nth i ts 0) as t eqn:Et. remember (nth j ts 0) as t' eqn:Et'. revert i Hi Et. apply clos_rt_rt1n in R.
  induction R as [t|t u t' (Ht & Hu & l & l' & Hl & Hl' & LK) R IH]; intros i Hi Et.
  - assert (i = j) as -> by (eapply (tn_inj h ts W verts eix dimE GO); eauto; congruence). apply rt_refl.
  - apply In_nth_error in Hu. destruct Hu as (k & Ek). assert (Hk : In k (vertices verts)).
    { apply in_seq. rewrite (go_len _ _ _ _ _ GO). split; [lia|]. apply nth_error_Some. congruence. }
    eapply rt_trans; [apply rt_step|apply (IH Et' k Hk); symmetry; apply nth_error_nth; exact Ek].
    split; auto. split; auto. exists (eix l).
    assert (Ei : nth_error ts i = Some t) by (rewrite (tn_nth h ts verts eix dimE GO i Hi); now rewrite Et).
    rewrite (go_edges _ _ _ _ _ GO i t Ei), (go_edges _ _ _ _ _ GO k u Ek). split; [now apply in_map|].
    assert (eix l = eix l') as -> by (apply (go_eix _ _ _ _ _ GO); auto; apply all_legs_In; eauto using nth_error_In). now apply in_map.
Qed.
Lemma singles_full sq n : ret_ok True h ts sq n -> complete (group_ok h) (group_cost h) (singles ts) sq n.
Proof.
  intros HC. eapply ret_group_ok; eauto.
  - rewrite singles_flat. reflexivity.
  - intros [k G] Hg. unfold singles in Hg. apply in_combine_r in Hg. apply in_map_iff in Hg. destruct Hg as (t & <- & _). discriminate.
Qed.
(** a search that ends, with a sequence that fits *)
Lemma capping_runs typ : (forall d, typ = Some d -> 0 < d) -> (typ = None -> forall t, In t ts -> legs_of h t <> []) ->
  exists fuel0 sq c, (forall fuel, fuel0 <= fuel -> generateOptimalSequence symdiff fuel h ts false typ = Ok (sq, c)) /\
    exists n, complete (group_ok h) (group_cost h) (singles ts) sq n /\ (typ = None -> n = c).
Proof.
  intros PT HL. destruct (generate_ok h ts W CL) as (verts & eix & dimE & GO & EO & _).
  pose proof (wf_verts h ts W CL verts eix dimE GO) as WV.
  assert (0 < List.length verts) as L by (rewrite (go_len _ _ _ _ _ GO); destruct ts; [congruence|simpl; lia]).
  assert (PC : positive_costs verts dimE typ).
  { apply positive_dims; auto. intros i e Hi He. rewrite (go_edges _ _ _ _ _ GO i _ (tn_nth h ts verts eix dimE GO i Hi)) in He.
    apply in_map_iff in He. destruct He as (l & <- & Hl). assert (In l (all_legs h ts)) by (apply all_legs_In; eauto using tn_In).
    rewrite (go_dim _ _ _ _ _ GO); auto. }
  destruct (cap_stops symdiff verts dimE typ SD WV PC L) as ([sq c] & fuel0 & HF).
  - intros EN i Hi EV. rewrite (go_shape _ _ _ _ _ GO i _ (tn_nth h ts verts eix dimE GO i Hi)) in EV. apply map_eq_nil in EV.
    pose proof (go_edges _ _ _ _ _ GO i _ (tn_nth h ts verts eix dimE GO i Hi)) as P. rewrite EV in P. apply Permutation_nil in P. apply map_eq_nil in P.
    eapply (HL EN); [|exact P]. eapply tn_In; eauto.
  - right. eapply verts_connected; eauto.
  - exists fuel0, sq, c. assert (GEN : forall fuel, fuel0 <= fuel -> generateOptimalSequence symdiff fuel h ts false typ = Ok (sq, c)).
    { intros fuel Hf. rewrite EO. auto. }
    split; auto. destruct (capping_fits fuel0 h ts typ sq c W CL (GEN fuel0 (le_n _))) as (n & Hn & En). exists n. split; auto. now apply singles_full.
Qed.
Lemma greedy_runs : exists sq c, (forall fuel, generateGreedySequence symdiff fuel h ts = Ok (sq, c)) /\
    complete (group_ok h) (group_cost h) (singles ts) sq c.
Proof.
  destruct (generate_ok h ts W CL) as (verts & eix & dimE & GO & _ & EG).
  pose proof (wf_verts h ts W CL verts eix dimE GO) as WV.
  assert (0 < List.length verts) as L by (rewrite (go_len _ _ _ _ _ GO); destruct ts; [congruence|simpl; lia]).
  destruct (greedy_connected symdiff verts dimE SD WV L (verts_connected verts eix dimE GO)) as (sq & c & EQ & _).
  exists sq, c. assert (GEN : forall fuel, generateGreedySequence symdiff fuel h ts = Ok (sq, c)) by (intros; now rewrite EG).
  split; auto. apply singles_full. eapply (greedy_fits 0); eauto.
Qed.
Hypothesis NLK : forall t, In t ts -> t_like (tens h t) = false.
Lemma inner_pos p : In p (inner h ts) -> 0 < dim_of h (fst p).
Proof.
  intros Hp. apply POS. destruct p as [l l']. apply inner_sound in Hp; [|apply W]. destruct Hp as (t & t' & Ht & _ & _ & Hl & _). apply all_legs_In. eauto.
Qed.
(** both modes of running a fitting sequence *)
Lemma run_full inplace sq n : (inplace = false -> wf_list h ts /\ forall t, In t ts -> t_diag (tens h t) = true -> legs_of h t <> []) ->
  complete (group_ok h) (group_cost h) (singles ts) sq n ->
  exists h' t0 cur cp, contractWithSeq ts sq inplace h = (h', Ok (t0, n, cur)) /\ (inplace = true -> cp = fun l => l) /\ result_legs h h' ts t0 cp /\
    forall s, in_bounds h (free_legs h ts) (fun l => s (cp l)) -> entry h' t0 s = netval h ts (fun l => s (cp l)).
Proof.
  intros HI HC. destruct inplace.
  - destruct (contractWithSeq_inplace h ts sq n W NLK inner_pos HC) as (h' & t0 & cur & E & H1 & H2 & H3 & H4 & H5 & H6).
    exists h', t0, cur, (fun l => l). split; auto. split; auto. split; auto. constructor; auto. now rewrite map_id.
  - destruct (HI eq_refl) as (WL & HD). destruct (contractWithSeq_copy h ts sq n WL) as (h' & t0 & cur & cp & E & H1 & H2 & H3 & H4 & H5 & H6 & H7); auto.
    + apply inner_pos.
    + exists h', t0, cur, cp. split; auto. split; [discriminate|]. split; auto. constructor; auto.
Qed.
Lemma capping_full typ inplace : (forall d, typ = Some d -> 0 < d) -> (typ = None -> forall t, In t ts -> legs_of h t <> []) ->
  (inplace = false -> wf_list h ts /\ forall t, In t ts -> t_diag (tens h t) = true -> legs_of h t <> []) ->
  exists fuel0 sq c n h' t0 cur cp, (forall fuel, fuel0 <= fuel -> generateOptimalSequence symdiff fuel h ts false typ = Ok (sq, c) /\
      contractAndCost symdiff fuel ts None false typ inplace false h = (h', Ok (t0, n, cur))) /\
    (typ = None -> n = c) /\ (inplace = true -> cp = fun l => l) /\ result_legs h h' ts t0 cp /\
    forall s, in_bounds h (free_legs h ts) (fun l => s (cp l)) -> entry h' t0 s = netval h ts (fun l => s (cp l)).
Proof.
  intros PT HL HI. destruct (capping_runs typ PT HL) as (fuel0 & sq & c & GEN & n & HC & En).
  destruct (run_full inplace sq n HI HC) as (h' & t0 & cur & cp & E & H1 & H2 & H3).
  exists fuel0, sq, c, n, h', t0, cur, cp. split; auto.
  intros fuel Hf. split; auto. unfold contractAndCost, bind, readsR, ret. rewrite (GEN fuel Hf). cbn [fst]. exact E.
Qed.
Lemma greedy_full typ inplace : 
  (inplace = false -> wf_list h ts /\ forall t, In t ts -> t_diag (tens h t) = true -> legs_of h t <> []) ->
  exists sq n h' t0 cur cp, (forall fuel, generateGreedySequence symdiff fuel h ts = Ok (sq, n) /\
      contractAndCost symdiff fuel ts None false typ inplace true h = (h', Ok (t0, n, cur))) /\
    (inplace = true -> cp = fun l => l) /\ result_legs h h' ts t0 cp /\
    forall s, in_bounds h (free_legs h ts) (fun l => s (cp l)) -> entry h' t0 s = netval h ts (fun l => s (cp l)).
Proof.
  intros HI. destruct greedy_runs as (sq & n & GEN & HC).
  destruct (run_full inplace sq n HI HC) as (h' & t0 & cur & cp & E & H1 & H2 & H3).
  exists sq, n, h', t0, cur, cp. split; auto.
  intros fuel. split; auto. unfold contractAndCost, bind, readsR, ret. rewrite GEN. cbn [fst]. exact E.
Qed.
Lemma contractTensorList_ok : wf_list h ts -> (forall t, In t ts -> t_diag (tens h t) = true -> legs_of h t <> []) ->
  exists fuel0 h' t0 cp, (forall fuel, fuel0 <= fuel -> contractTensorList symdiff fuel ts h = (h', Ok t0)) /\ result_legs h h' ts t0 cp /\
    forall s, in_bounds h (free_legs h ts) (fun l => s (cp l)) -> entry h' t0 s = netval h ts (fun l => s (cp l)).
Proof.
  intros WL HD. destruct (capping_full (Some 10) false) as (fuel0 & sq & c & n & h' & t0 & cur & cp & RUN & _ & _ & RL & V); auto; try discriminate.
  - intros d E. injection E as <-. lia.
  - exists fuel0, h', t0, cp. split; auto. intros fuel Hf. destruct (RUN fuel Hf) as (_ & E). unfold contractTensorList, contractWithSequence, bind, ret. rewrite E. reflexivity.
Qed.
End Connected.
End Run.
