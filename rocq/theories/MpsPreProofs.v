(** A chain whose legs have not been named yet: the constructor FreeBoundaryMPS accepts it and names the legs. *)
From Coq Require Import List Arith Bool Lia String ZArith Permutation.
From Verif Require Import Base Sums NdModel NdProofs HeapModel FuncsModel FuncsProofs TensorModel TensorSpec
  ContractModel NetSpec ShareProofs LinkProofs SumpairsProofs ContractProofs NetProofs MergeLinkProofs GroupSpec GroupProofs NetSameProofs
  SvdModel MpsModel MpsSpec MpsPairProofs MpsProofs MpsNewProofs MpsCreateStepProofs.
Import ListNotations.
Local Open Scope list_scope.
Local Open Scope nat_scope.

Section Pc.
Context {A : Type} {HA : SR A}.
Notation heap := (heap A).

Record prechain (h : heap) (ts : list tid) (os : list lid) (env : list tid) (lf rt : nat -> lid) : Prop := {
  pc_len : List.length os = List.length ts;
  pc_wf : wf_open h (ts ++ env);
  pc_kind : forall t, In t ts -> t_diag (tens h t) = false /\ t_like (tens h t) = false;
  pc_legs : forall i, i < List.length ts ->
    Permutation (legs_of h (nth i ts 0)) (opt (Nat.ltb 0 i) (lf i) ++ opt (Nat.ltb (S i) (List.length ts)) (rt i) ++ [nth i os 0]);
  pc_link : forall i, S i < List.length ts -> linked h (rt i) (lf (S i));
  pc_out : forall l l', In l os -> In l' (all_legs h ts) -> ~ linked h l l' }.

Variables (h : heap) (ts : list tid) (os : list lid) (env : list tid) (lf rt : nat -> lid).
Hypothesis PC : prechain h ts os env lf rt.
Notation n := (List.length ts).

Lemma pc_mem i l : i < n -> In l (legs_of h (nth i ts 0)) <-> (0 < i /\ l = lf i) \/ (S i < n /\ l = rt i) \/ l = nth i os 0.
Proof.
  intros Hi. assert (E : In l (legs_of h (nth i ts 0)) <-> In l (opt (Nat.ltb 0 i) (lf i) ++ opt (Nat.ltb (S i) n) (rt i) ++ [nth i os 0])).
  { split; apply Permutation_in; [|symmetry]; now apply PC. }
  rewrite E, !in_app_iff. unfold opt. destruct (Nat.ltb_spec 0 i), (Nat.ltb_spec (S i) n); simpl; intuition (subst; auto; lia).
Qed.
Lemma pc_all i l : i < n -> In l (legs_of h (nth i ts 0)) -> In l (all_legs h ts).
Proof. intros Hi Hl. apply all_legs_In. exists (nth i ts 0). split; auto. now apply nth_In. Qed.
Lemma pc_net : wf_net h ts.
Proof. apply (wf_net_app_l h ts env). apply PC. Qed.
Lemma pc_site i j l : i < n -> j < n -> In l (legs_of h (nth i ts 0)) -> In l (legs_of h (nth j ts 0)) -> i = j.
Proof.
  intros Hi Hj H1 H2. apply (NoDup_nth ts 0); auto; [apply pc_net|].
  apply (one_owner h ts _ _ l (wn_nodup _ _ pc_net)); auto; now apply nth_In.
Qed.
Lemma pc_inr i : S i < n -> In (rt i) (legs_of h (nth i ts 0)).
Proof. intros H. apply pc_mem; [lia|]. auto. Qed.
Lemma pc_inl i : S i < n -> In (lf (S i)) (legs_of h (nth (S i) ts 0)).
Proof. intros H. apply pc_mem; [lia|]. left. split; [lia|auto]. Qed.
Lemma pc_ino i : i < n -> In (nth i os 0) (legs_of h (nth i ts 0)).
Proof. intros H. apply pc_mem; auto. Qed.
Lemma pc_ios i : i < n -> In (nth i os 0) os.
Proof. intros H. apply nth_In. now rewrite (pc_len _ _ _ _ _ _ PC). Qed.
Lemma pc_back i : S i < n -> linked h (lf (S i)) (rt i).
Proof.
  intros Hi. apply (links_sym h (all_legs h ts)); [apply pc_net| | |now apply PC].
  - apply (pc_all i); [lia|]. now apply pc_inr.
  - apply (pc_all (S i)); [lia|]. now apply pc_inl.
Qed.
Lemma pc_links i z w j : i < n -> j < n -> In z (legs_of h (nth i ts 0)) -> In w (legs_of h (nth j ts 0)) -> linked h z w ->
  (j = S i /\ z = rt i /\ w = lf j) \/ (i = S j /\ z = lf i /\ w = rt j).
Proof.
  intros Hi Hj Hz Hw LK. apply (pc_mem i) in Hz; auto. destruct Hz as [(I0 & ->)|[(I1 & ->)| ->]].
  - destruct i as [|i]; [lia|]. assert (w = rt i) as -> by (eapply linked_fun; [exact LK|now apply pc_back]).
    assert (i = j) as -> by (apply (pc_site i j (rt i)); auto; [lia|apply pc_inr; lia]). auto.
  - assert (w = lf (S i)) as -> by (eapply linked_fun; [exact LK|now apply PC]).
    assert (S i = j) as <- by (apply (pc_site (S i) j (lf (S i))); auto; now apply pc_inl). auto.
  - exfalso. apply (pc_out _ _ _ _ _ _ PC (nth i os 0) w); auto; [now apply pc_ios|now apply (pc_all j)].
Qed.
Lemma pc_next i : S i < n -> shared h (nth i ts 0) (nth (S i) ts 0) = [(rt i, lf (S i))].
Proof.
  intros Hi. unfold shared. apply pairs_one.
  - apply (wt_nodup _ _ (wn_wf _ _ pc_net _ (nth_In ts 0 (Nat.lt_trans _ _ _ (Nat.lt_succ_diag_r i) Hi)))).
  - now apply pc_inr.
  - now apply PC.
  - now apply pc_inl.
  - intros z w Hz N LK Hw. destruct (pc_links i z w (S i)) as [(_ & E & _)|(E & _)]; auto; lia.
Qed.
Lemma pc_shape : n <> 0 -> mps_shape h ts.
Proof.
  intros NE. split; [intros ->; now apply NE|]. split; [|split].
  - intros i Hi. now rewrite pc_next.
  - intros Hn. split.
    + rewrite (Permutation_length (pc_legs _ _ _ _ _ _ PC 0 ltac:(lia))), !app_length; unfold opt. destruct (Nat.ltb_spec 1 n); cbn; lia.
    + rewrite (Permutation_length (pc_legs _ _ _ _ _ _ PC (n - 1) ltac:(lia))), !app_length; unfold opt. destruct (Nat.ltb_spec 0 (n - 1)), (Nat.ltb_spec (S (n - 1)) n); cbn; lia.
  - intros i H0 Hi. rewrite (Permutation_length (pc_legs _ _ _ _ _ _ PC i ltac:(lia))), !app_length. unfold opt.
    destruct (Nat.ltb_spec 0 i), (Nat.ltb_spec (S i) n); cbn; lia.
Qed.
Lemma pc_neighbour p : In p (neighbours h ts) <-> exists i, S i < n /\ p = (rt i, lf (S i)).
Proof.
  rewrite neighbours_at. split; intros (i & Hi & H); exists i; split; auto.
  - rewrite pc_next in H by auto. destruct H as [H|[]]. auto.
  - rewrite pc_next by auto. simpl; auto.
Qed.
Lemma pc_chain h' : net_same h h' -> mps_named h ts h' -> chain h' ts os env lf rt.
Proof.
  intros NS MN.
  assert (NLK : forall i p, i < n -> In p (neighbours h ts) -> fst p <> nth i os 0 /\ snd p <> nth i os 0).
  { intros i p Hi Hp. apply pc_neighbour in Hp as (j & Hj & ->). cbn. split; intros E.
    - apply (pc_out _ _ _ _ _ _ PC (nth i os 0) (lf (S j))); [now apply pc_ios|apply (pc_all (S j)); auto; now apply pc_inl|rewrite <- E; now apply PC].
    - apply (pc_out _ _ _ _ _ _ PC (nth i os 0) (rt j)); [now apply pc_ios|apply (pc_all j); [lia|now apply pc_inr]|rewrite <- E; now apply pc_back]. }
  constructor.
  - apply PC.
  - apply (ns_wf_open _ _ NS), PC.
  - intros t Ht. rewrite (ns_tens _ _ NS). now apply PC.
  - intros i Hi. rewrite (ns_legs_of _ _ NS). now apply PC.
  - intros i Hi. apply (mn_o _ _ _ MN).
    + apply (pc_all i); auto. now apply pc_ino.
    + intros H. apply in_map_iff in H as (p & E & Hp). destruct (NLK i p Hi Hp); contradiction.
    + intros H. apply in_map_iff in H as (p & E & Hp). destruct (NLK i p Hi Hp); contradiction.
  - intros i Hi. apply (mn_l _ _ _ MN). apply in_map_iff. exists (rt i, lf (S i)). split; auto. apply pc_neighbour. eauto.
  - intros i Hi. apply (mn_r _ _ _ MN). apply in_map_iff. exists (rt i, lf (S i)). split; auto. apply pc_neighbour. eauto.
  - intros i Hi. apply (ns_linked _ _ NS). now apply PC.
  - intros l l' Hl Hl' LK. apply (ns_linked _ _ NS) in LK. rewrite (ns_all _ _ NS) in Hl'. now apply (pc_out _ _ _ _ _ _ PC l l').
Qed.
Lemma pc_new chi : n <> 0 -> exists h', newMps ts chi h = 
    (h', Ok (mkMps ts (match chi with None => -1 | Some c => if Z.ltb c (-1) then -1 else c end) None, match chi with None => false | Some c => Z.ltb c (-1) end)%Z) /\
  net_same h h' /\ chain h' ts os env lf rt /\ forall l, ~ In l (all_legs h ts) -> l_name (legs h' l) = l_name (legs h l).
Proof.
  intros NE. destruct (proj1 (newMps_ok h ts chi pc_net) (pc_shape NE)) as (h' & E & NS & MN). exists h'. split; auto. split; auto.
  split; [now apply pc_chain|]. intros l Hl. now apply (mn_else _ _ _ MN).
Qed.
End Pc.
