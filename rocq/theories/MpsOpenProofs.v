(** Contractions inside an open network, chains under changes elsewhere, closed networks. *)
From Coq Require Import List Arith Bool Lia String ZArith Permutation.
From Verif Require Import Base Sums NdModel NdProofs HeapModel FuncsModel FuncsProofs TensorModel TensorSpec
  ContractModel NetSpec ShareProofs LinkProofs SumpairsProofs ContractProofs OuterProofs NetProofs MergeLinkProofs GroupSpec GroupProofs NetSameProofs
  FtnNetSpec FtnMainProofs SvdModel SvdSpec MergeSvdProofs MpsModel MpsSpec MpsPairProofs MpsProofs MpsSwapProofs MpsMoveProofs MpsCreateStepProofs MpsContractSpec.
Import ListNotations.
Local Open Scope list_scope.
Local Open Scope nat_scope.

Section Mp.
Context {A : Type} {HA : SR A}.
Notation heap := (heap A).

(** [t] holds the contraction of the dense tensors [ta] and [tb] of the network [ta :: tb :: rest] *)
Record joined (h : heap) (ta tb : tid) (rest : list tid) (h' : heap) (t : tid) : Prop := {
  jn_legs : legs_of h' t = restA h ta tb ++ restB h ta tb;
  jn_flags : t_diag (tens h' t) = false /\ t_like (tens h' t) = false;
  jn_leg : forall l, l < nleg h -> l_bond (legs h' l) = l_bond (legs h l) /\ dim_of h' l = dim_of h l /\ l_name (legs h' l) = l_name (legs h l);
  jn_links : forall l l', l < nleg h -> linked h' l l' <-> linked h l l';
  jn_nleg : nleg h' = nleg h;
  jn_rest : untouched h rest h';
  jn_wf : wf_open h' (t :: rest);
  jn_free : same_free h (ta :: tb :: rest) h' (t :: rest);
  jn_value : same_value h (ta :: tb :: rest) h' (t :: rest) }.

Lemma open_lt (h : heap) ts l : wf_open h ts -> In l (all_legs h ts) -> l < nleg h.
Proof. intros W H. unfold all_legs in H. apply in_flat_map in H. destruct H as (t & Ht & Hl). exact (wt_alloc _ _ (wn_wf _ _ (wo_net _ _ W) t Ht) l Hl). Qed.

Lemma contract_open (h : heap) ta tb rest : wf_open h (ta :: tb :: rest) -> t_diag (tens h ta) = false -> t_like (tens h ta) = false ->
  t_diag (tens h tb) = false -> t_like (tens h tb) = false -> exists h' t, contractTwoTensors ta tb h = (h', Ok t) /\ joined h ta tb rest h' t.
Proof.
  intros WO DA KA DB KB. destruct (contract_dense h ta tb (open_pair _ _ _ _ WO) KA KB DA DB) as (h' & t & E & CT & DT & KT & EV).
  exists h', t. split; auto. assert (WN := wo_net _ _ WO).
  assert (PL : Permutation (restA h ta tb ++ restB h ta tb) (restA h ta tb ++ restB h ta tb)) by reflexivity.
  pose proof (step_wf h h' ta tb t _ rest WN CT PL) as W2. pose proof (step_free h h' ta tb t _ rest WN CT PL) as F2.
  pose proof (step_incl h h' ta tb t _ rest WN CT PL) as I2. pose proof (net_alloc h ta tb rest WN) as AL.
  assert (IR : incl (all_legs h rest) (all_legs h (ta :: tb :: rest))) by (unfold all_legs; cbn [flat_map]; intros l; rewrite !in_app_iff; auto).
  constructor; auto.
  - apply CT.
  - intros l Hl. apply (step_leg h h' ta tb t _ CT l Hl).
  - intros l l' Hl. apply (step_linked h h' ta tb t _ CT l l' Hl).
  - apply CT.
  - constructor.
    + intros u Hu. now apply (step_rest h h' ta tb t _ rest WN CT).
    + intros l Hl. apply (ct_out _ _ _ _ _ _ CT); [apply AL, IR, Hl|]. intros HI.
      pose proof (wn_nodup _ _ WN) as ND. unfold all_legs in ND. cbn [flat_map] in ND. rewrite app_assoc in ND. refine (NoDup_app_disj _ _ l ND _ Hl).
      rewrite in_app_iff in *. destruct HI as [HI|HI]; apply others_In in HI; tauto.
    + intros l l' Hl. apply (step_linked h h' ta tb t _ CT). apply AL, IR, Hl.
  - constructor; auto.
    + intros l b Hl Hb. rewrite (ct_nbond _ _ _ _ _ _ CT). apply I2 in Hl. destruct (step_leg h h' ta tb t _ CT l (AL l Hl)) as (EB & _).
      rewrite EB in Hb. now apply (wo_bonds _ _ WO l).
    + intros l l' Hl LK. rewrite (ct_nleg _ _ _ _ _ _ CT). apply I2 in Hl. apply (wo_alloc _ _ WO l l' Hl).
      apply (step_linked h h' ta tb t _ CT l l'); auto.
  - split; auto. intros l Hl. apply (step_leg h h' ta tb t _ CT l). apply AL. unfold free_legs in Hl. apply others_In in Hl. tauto.
  - intros s Hs. apply (step_value h h' ta tb t _ rest WN CT PL EV s Hs).
Qed.

(** ** Frames *)
Lemma ut_all (h h' : heap) env : untouched h env h' -> all_legs h' env = all_legs h env.
Proof. intros U. unfold all_legs. rewrite !flat_map_concat_map. f_equal. apply map_ext_in. intros t Ht. unfold legs_of. now rewrite (ut_tens _ _ _ U). Qed.
Lemma all_incl (h : heap) ts ts' : incl ts ts' -> incl (all_legs h ts) (all_legs h ts').
Proof. intros I l Hl. unfold all_legs in *. apply in_flat_map in Hl. destruct Hl as (t & Ht & Hl). apply in_flat_map. exists t. auto. Qed.
Lemma ut_incl (h h' : heap) env env' : incl env' env -> untouched h env h' -> untouched h env' h'.
Proof.
  intros I U. constructor.
  - intros t Ht. apply (ut_tens _ _ _ U); auto.
  - intros l Hl. apply (ut_legs _ _ _ U). now apply (all_incl h env').
  - intros l l' Hl. apply (ut_links _ _ _ U). now apply (all_incl h env').
Qed.
Lemma ut_refl (h : heap) env : untouched h env h.
Proof. constructor; auto. reflexivity. Qed.
Lemma ut_trans (h h1 h2 : heap) env : untouched h env h1 -> untouched h1 env h2 -> untouched h env h2.
Proof.
  intros U1 U2. pose proof (ut_all _ _ _ U1) as E. constructor.
  - intros t Ht. rewrite (ut_tens _ _ _ U2) by auto. now apply (ut_tens _ _ _ U1).
  - intros l Hl. rewrite (ut_legs _ _ _ U2) by (now rewrite E). now apply (ut_legs _ _ _ U1).
  - intros l l' Hl. rewrite (ut_links _ _ _ U2) by (now rewrite E). now apply (ut_links _ _ _ U1).
Qed.
Lemma moved_ut (h h' : heap) ts os env lf rt lo hi chi ts' os' lf' rt' : moved h ts os env lf rt lo hi chi h' ts' os' lf' rt' -> untouched h env h'.
Proof.
  intros M. constructor.
  - apply (mv_env _ _ _ _ _ _ _ _ _ _ _ _ _ _ M).
  - apply (mv_envlegs _ _ _ _ _ _ _ _ _ _ _ _ _ _ M).
  - intros l l' Hl. apply (mv_links _ _ _ _ _ _ _ _ _ _ _ _ _ _ M). apply in_app_iff; auto.
Qed.

Lemma chain_frame (h h' : heap) ts os e e' lf rt : chain h ts os e lf rt -> untouched h ts h' -> wf_open h' (ts ++ e') -> chain h' ts os e' lf rt.
Proof.
  intros CH U WO. pose proof (ut_all _ _ _ U) as EA.
  assert (LG : forall i, i < List.length ts -> legs_of h' (nth i ts 0) = legs_of h (nth i ts 0)).
  { intros i Hi. unfold legs_of. now rewrite (ut_tens _ _ _ U) by (now apply nth_In). }
  assert (IO : forall i, i < List.length ts -> In (nth i os 0) (all_legs h ts)) by (intros i Hi; apply (ch_all _ _ i _ Hi), (ch_in_o _ _ _ _ _ _ CH _ Hi)).
  constructor.
  - apply CH.
  - exact WO.
  - intros t Ht. rewrite (ut_tens _ _ _ U) by auto. now apply (ch_kind _ _ _ _ _ _ CH).
  - intros i Hi. rewrite LG by auto. now apply (ch_legs _ _ _ _ _ _ CH).
  - intros i Hi. rewrite (ut_legs _ _ _ U) by auto. now apply (ch_o _ _ _ _ _ _ CH).
  - intros i Hi. rewrite (ut_legs _ _ _ U); [now apply (ch_l _ _ _ _ _ _ CH)|]. apply (ch_all _ _ (S i) _ Hi), (ch_in_l _ _ _ _ _ _ CH _ Hi).
  - intros i Hi. rewrite (ut_legs _ _ _ U); [now apply (ch_r _ _ _ _ _ _ CH)|]. assert (Hi' : i < List.length ts) by lia. apply (ch_all _ _ i _ Hi'), (ch_in_r _ _ _ _ _ _ CH _ Hi).
  - intros i Hi. rewrite (ut_links _ _ _ U); [now apply (ch_link _ _ _ _ _ _ CH)|]. assert (Hi' : i < List.length ts) by lia. apply (ch_all _ _ i _ Hi'), (ch_in_r _ _ _ _ _ _ CH _ Hi).
  - intros l l' Hl Hl' LK. rewrite EA in Hl'. apply (ch_os _ _ _ _ _ _ CH) in Hl. destruct Hl as (i & Hi & ->). rewrite (ut_links _ _ _ U) in LK by auto.
    apply (ch_out _ _ _ _ _ _ CH (nth i os 0) l'); auto. apply (ch_os _ _ _ _ _ _ CH). eauto.
Qed.
Lemma slim_frame (h h' : heap) ts os e lf rt q : chain h ts os e lf rt -> untouched h ts h' -> slim h q os rt -> slim h' q os rt.
Proof.
  intros CH U SL k Hk. assert (Hk' : S k < List.length ts) by (rewrite <- (ch_len _ _ _ _ _ _ CH); auto). assert (Hk2 : k < List.length ts) by lia.
  unfold dim_of. rewrite (ut_legs _ _ _ U); [now apply SL|]. apply (ch_all _ _ k _ Hk2), (ch_in_r _ _ _ _ _ _ CH _ Hk').
Qed.

(** ** Closed networks *)
Lemma free_all (h : heap) N l : In l (free_legs h N) -> In l (all_legs h N).
Proof. intros H. unfold free_legs in H. apply others_In in H. tauto. Qed.
Lemma closed_step (h h' : heap) N N' : same_free h N h' N' -> (forall l l', In l (free_legs h N) -> linked h' l l' -> linked h l l') ->
  closed h N -> closed h' N'.
Proof. intros [P _] L C l l' Hl LK. assert (Hl' : In l (free_legs h N)) by (eapply Permutation_in; [exact P|auto]). apply (C l l' Hl'). now apply L. Qed.
Lemma closed_perm (h : heap) N N' : wf_net h N -> Permutation N N' -> closed h N -> closed h N'.
Proof. intros W P C l l' Hl. apply C. eapply Permutation_in; [symmetry; apply (free_perm h N N' P W)|auto]. Qed.

(** a link leads to a leg of another tensor of the network *)
Lemma closed_link (h : heap) N l l' : wf_net h N -> closed h N -> In l (all_legs h N) -> linked h l l' -> inner_link h N l l'.
Proof.
  intros W C Hl LK. destruct (all_free_or_inner h N l Hl) as [H|H]; [now destruct (C l l' H)|].
  unfold plegs in H. apply in_app_iff in H.
  assert (exists x, inner_link h N l x) as (x & IL).
  { destruct H as [H|H]; apply in_map_iff in H; destruct H as ([a b] & <- & H); apply (inner_sound h N) in H; [| apply W| |apply W]; eauto.
    exists a. apply inner_link_sym; [apply W|auto]. }
  assert (LX : linked h l x) by (destruct IL as (? & ? & ? & ? & ? & ? & ? & ?); auto). now rewrite (linked_fun h l l' x LK LX).
Qed.
Lemma closed_in (h : heap) N l l' : wf_net h N -> closed h N -> In l (all_legs h N) -> linked h l l' -> In l' (all_legs h N) /\ linked h l' l.
Proof.
  intros W C Hl LK. pose proof (closed_link h N l l' W C Hl LK) as IL. apply (inner_link_sym h N l l' (wn_links _ _ W)) in IL.
  destruct IL as (t & t' & H1 & H2 & H3 & H4 & H5 & H6). split; auto. unfold all_legs. apply in_flat_map. eauto.
Qed.
Lemma inner_not_free (h : heap) N l l' : wf_net h N -> inner_link h N l l' -> ~ In l (free_legs h N).
Proof.
  intros W IL H. unfold free_legs in H. apply others_In in H. destruct H as [_ H]. apply H. rewrite in_app_iff.
  destruct (inner_complete h N l l' (wn_links _ _ W) IL) as [Q|Q]; [left|right]; apply in_map_iff; eexists; (split; [|exact Q]); auto.
Qed.
Lemma closed_list (h : heap) N : wf_open h N -> closed h N -> wf_list h N.
Proof.
  intros WO C. constructor; try apply WO. intros l l' t' Hl LK OW Ht. destruct (closed_in h N l l' (wo_net _ _ WO) C Hl LK) as [H _].
  unfold all_legs in H. apply in_flat_map in H. destruct H as (t & Ht2 & Hl'). pose proof (wn_owned _ _ (wo_net _ _ WO) t Ht2 l' Hl') as OW2.
  rewrite OW in OW2. injection OW2 as ->. exact Hl'.
Qed.

(** the legs of a chain *)
Lemma chain_leg (h : heap) ts os env lf rt l : chain h ts os env lf rt -> In l (all_legs h ts) ->
  In l os \/ (exists i, S i < List.length ts /\ l = rt i) \/ (exists i, S i < List.length ts /\ l = lf (S i)).
Proof.
  intros CH Hl. unfold all_legs in Hl. apply in_flat_map in Hl. destruct Hl as (t & Ht & Hl). destruct (In_nth _ _ 0 Ht) as (i & Hi & <-).
  apply (Permutation_in _ (ch_legs _ _ _ _ _ _ CH i Hi)) in Hl. rewrite !in_app_iff in Hl. destruct Hl as [Hl|[Hl|[<-|[]]]].
  - right; right. destruct i as [|i]; [destruct Hl|]. change (Nat.ltb 0 (S i)) with true in Hl. destruct Hl as [<-|[]]. eauto.
  - right; left. destruct (Nat.ltb_spec (S i) (List.length ts)); [|destruct Hl]. destruct Hl as [<-|[]]. eauto.
  - left. apply (ch_os _ _ _ _ _ _ CH). eauto.
Qed.
Lemma chain_inner (h : heap) ts os env lf rt i : chain h ts os env lf rt -> S i < List.length ts -> inner_link h (ts ++ env) (rt i) (lf (S i)).
Proof.
  intros CH Hi. exists (nth i ts 0), (nth (S i) ts 0). assert (Hi' : i < List.length ts) by lia.
  split; [apply in_app_iff; left; now apply nth_In|]. split; [apply in_app_iff; left; now apply nth_In|]. split.
  - intros E. pose proof (NoDup_nth ts 0) as [Q _]. specialize (Q (ch_ids _ _ _ _ _ _ CH) i (S i) Hi' Hi E). lia.
  - split; [now apply (ch_in_r _ _ _ _ _ _ CH)|]. split; [now apply (ch_in_l _ _ _ _ _ _ CH)|]. now apply (ch_link _ _ _ _ _ _ CH).
Qed.
Lemma chain_free (h : heap) ts os env lf rt l : chain h ts os env lf rt -> In l (free_legs h (ts ++ env)) -> In l (os ++ all_legs h env).
Proof.
  intros CH Hl. pose proof (free_all _ _ _ Hl) as HA'. unfold all_legs in HA'. rewrite flat_map_app in HA'. rewrite in_app_iff in *. destruct HA' as [HA'|HA']; auto. left.
  assert (W := wo_net _ _ (ch_wf _ _ _ _ _ _ CH)).
  destruct (chain_leg _ _ _ _ _ _ _ CH HA') as [H|[(i & Hi & ->)|(i & Hi & ->)]]; auto; exfalso.
  - exact (inner_not_free _ _ _ _ W (chain_inner _ _ _ _ _ _ _ CH Hi) Hl).
  - exact (inner_not_free _ _ _ _ W (inner_link_sym _ _ _ _ (wn_links _ _ W) (chain_inner _ _ _ _ _ _ _ CH Hi)) Hl).
Qed.
Lemma moved_closed (h h' : heap) ts os env lf rt lo hi chi ts' os' lf' rt' : chain h ts os env lf rt ->
  moved h ts os env lf rt lo hi chi h' ts' os' lf' rt' -> closed h (ts ++ env) -> closed h' (ts' ++ env).
Proof.
  intros CH M C. eapply closed_step; [apply M| |exact C]. intros l l' Hl LK. apply (mv_links _ _ _ _ _ _ _ _ _ _ _ _ _ _ M); auto.
  now apply (chain_free _ _ _ _ _ _ _ CH).
Qed.
Lemma joined_closed (h h' : heap) ta tb rest t : wf_open h (ta :: tb :: rest) -> joined h ta tb rest h' t -> closed h (ta :: tb :: rest) -> closed h' (t :: rest).
Proof.
  intros WO J C. eapply closed_step; [apply J| |exact C]. intros l l' Hl LK. apply (jn_links _ _ _ _ _ _ J); auto.
  apply (open_lt _ _ _ WO). now apply free_all.
Qed.
Lemma same_closed (h h' : heap) N : net_same h h' -> closed h N -> closed h' N.
Proof. intros NS C l l' Hl LK. rewrite (ns_free _ _ NS) in Hl. apply (ns_linked _ _ NS) in LK. exact (C l l' Hl LK). Qed.
Lemma same_ut (h h' : heap) env L : net_same h h' -> (forall l, ~ In l L -> l_name (legs h' l) = l_name (legs h l)) ->
  (forall l, In l (all_legs h env) -> ~ In l L) -> untouched h env h'.
Proof.
  intros NS NM D. constructor.
  - intros t _. now rewrite (ns_tens _ _ NS).
  - intros l Hl. destruct (ns_leg _ _ NS l) as (E1 & E2 & E3). pose proof (NM l (D l Hl)) as E4. destruct (legs h' l), (legs h l). cbn in *. congruence.
  - intros l l' _. apply (ns_linked _ _ NS).
Qed.
Lemma same_sf (h h' : heap) N : net_same h h' -> same_free h N h' N.
Proof. intros NS. split; [now rewrite (ns_free _ _ NS)|]. intros l _. apply (ns_dim _ _ NS). Qed.
Lemma same_sv (h h' : heap) N : net_same h h' -> same_value h N h' N.
Proof. intros NS s _. apply (ns_netval _ _ NS). Qed.

(** ** Contracting two tensors with one link between them *)
Lemma others_perm (L R : list lid) x : NoDup L -> Permutation L (x :: R) -> Permutation (others L [x]) R.
Proof.
  intros ND P. assert (ND2 : NoDup (x :: R)) by (eapply Permutation_NoDup; [exact P|auto]). apply NoDup_cons_iff in ND2. destruct ND2 as [NI ND2].
  apply NoDup_Permutation; auto; [now apply NoDup_filter|]. intros l. rewrite others_In. split.
  - intros [H1 H2]. apply (Permutation_in _ P) in H1. destruct H1 as [->|H1]; auto. exfalso. apply H2. simpl; auto.
  - intros H. split; [eapply Permutation_in; [symmetry; exact P|simpl; auto]|]. intros [->|[]]. contradiction.
Qed.
Lemma join_one (h : heap) ta tb rest x y Ra Rb : wf_open h (ta :: tb :: rest) -> t_diag (tens h ta) = false /\ t_like (tens h ta) = false ->
  t_diag (tens h tb) = false /\ t_like (tens h tb) = false -> Permutation (legs_of h ta) (x :: Ra) -> Permutation (legs_of h tb) (y :: Rb) ->
  linked h x y -> (forall z w, In z Ra -> linked h z w -> ~ In w (legs_of h tb)) ->
  exists h' t, contractTwoTensors ta tb h = (h', Ok t) /\ joined h ta tb rest h' t /\ Permutation (legs_of h' t) (Ra ++ Rb).
Proof.
  intros WO [DA KA] [DB KB] PA PB LK NO. destruct (contract_open h ta tb rest WO DA KA DB KB) as (h' & t & E & J). exists h', t. split; auto. split; auto.
  pose proof (open_pair _ _ _ _ WO) as WP.
  assert (SH : shared h ta tb = [(x, y)]).
  { unfold shared. apply (pairs_one h _ _ x y).
    - apply WP.
    - eapply Permutation_in; [symmetry; exact PA|simpl; auto].
    - exact LK.
    - eapply Permutation_in; [symmetry; exact PB|simpl; auto].
    - intros z w Hz NE LKz. apply (NO z w); auto. apply (Permutation_in _ PA) in Hz. destruct Hz as [->|Hz]; [congruence|auto]. }
  rewrite (jn_legs _ _ _ _ _ _ J). unfold restA, restB. rewrite SH. cbn [map fst snd]. apply Permutation_app; apply others_perm; auto; apply WP.
Qed.
End Mp.
