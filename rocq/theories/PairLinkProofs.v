(** Two tensors without bonds are linked and contracted: the Einstein sum over the linked legs. *)
From Coq Require Import List Arith Bool String Ascii Lia Permutation.
From Verif Require Import Base Sums NdModel HeapModel FuncsModel TensorModel TensorSpec ContractModel NetSpec FtnModel FtnNetSpec NamedSpec NetsSpec
  FuncsProofs NdProofs TensorProofs CopyProofs LinkProofs ShareProofs NetProofs SumpairsProofs MatrixProofs ContractProofs OuterProofs FtnMainProofs NamedMatProofs.
Import ListNotations.
Local Open Scope nat_scope.
Local Open Scope string_scope.
Local Open Scope list_scope.

Section Pl.
Context {A : Type} {HA : SR A}.
Notation heap := (heap A).

Lemma legs_listed (h : heap) t m : has_legs h t m -> exists ls, Permutation (legs_of h t) ls /\ map (fun l => (l_name (legs h l), dim_of h l)) ls = map (fun p : string * nat => (NStr (fst p), snd p)) m.
Proof.
  unfold has_legs, names_of, dims_of. rewrite combine_map_same. intros P. symmetry in P. apply Permutation_map_inv in P. destruct P as (ls & E & P). exists ls. auto.
Qed.
Lemma listed_legs (h : heap) t m ls : Permutation (legs_of h t) ls -> map (fun l => (l_name (legs h l), dim_of h l)) ls = map (fun p : string * nat => (NStr (fst p), snd p)) m -> has_legs h t m.
Proof. intros P E. unfold has_legs, names_of, dims_of. rewrite combine_map_same, <- E. now apply Permutation_map. Qed.
Lemma entry_at (h : heap) t ls m s : Permutation (legs_of h t) ls -> (forall l, In l ls -> s l = index_in m (l_name (legs h l))) -> entry h t s = at_ h t m.
Proof. intros P E. unfold at_, at_names. apply entry_ext. intros l Hl. apply E. eapply Permutation_in; eauto. Qed.

Definition unlinked (h : heap) t : Prop := forall l, In l (legs_of h t) -> l_bond (legs h l) = None.

Section Two.
Variables (h hL : heap) (ta tb : tid) (ps : list (lid * lid)) (ra rb : list lid).
Hypothesis Da : dense h ta.
Hypothesis Db : dense h tb.
Hypothesis Nab : ta <> tb.
Hypothesis ND : NoDup (legs_of h ta ++ legs_of h tb).
Hypothesis Ua : unlinked h ta.
Hypothesis Ub : unlinked h tb.
Hypothesis LA : links_added h hL ps.
Hypothesis Pa : Permutation (legs_of h ta) (map fst ps ++ ra).
Hypothesis Pb : Permutation (legs_of h tb) (map snd ps ++ rb).
Hypothesis Dm : forall p, In p ps -> dim_of h (fst p) = dim_of h (snd p).

Lemma pl_legs t : legs_of hL t = legs_of h t. Proof. unfold legs_of. now rewrite (la_tens _ _ _ LA). Qed.
Lemma pl_dim l : dim_of hL l = dim_of h l. Proof. unfold dim_of. apply (la_fields _ _ _ LA). Qed.
Lemma pl_name l : l_name (legs hL l) = l_name (legs h l). Proof. apply (la_fields _ _ _ LA). Qed.
Lemma pl_entry t s : entry hL t s = entry h t s. Proof. unfold entry. now rewrite (la_tens _ _ _ LA). Qed.
Lemma pl_wf t : wf_tensor h t -> wf_tensor hL t.
Proof.
  intros W. apply (wf_same h hL); auto; [now rewrite (la_tens _ _ _ LA)|intros l _; apply pl_dim|rewrite (la_nleg _ _ _ LA); lia|rewrite (la_ntens _ _ _ LA); lia].
Qed.
Lemma pl_all : Permutation (legs_of h ta ++ legs_of h tb) ((map fst ps ++ map snd ps) ++ ra ++ rb).
Proof.
  eapply Permutation_trans; [apply Permutation_app; [exact Pa|exact Pb]|]. rewrite <- !app_assoc. apply Permutation_app_head. rewrite !app_assoc. apply Permutation_app_tail. apply Permutation_app_comm.
Qed.
Lemma pl_nodup : NoDup ((map fst ps ++ map snd ps) ++ ra ++ rb).
Proof. eapply Permutation_NoDup; [exact pl_all|exact ND]. Qed.
Lemma pl_rest l : In l (ra ++ rb) -> legs hL l = legs h l /\ l_bond (legs h l) = None.
Proof.
  intros Hl. split.
  - apply (la_out _ _ _ LA). intros X. apply (NoDup_app_disj _ _ l pl_nodup); auto.
  - assert (X : In l (legs_of h ta ++ legs_of h tb)) by (eapply Permutation_in; [symmetry; exact pl_all|apply in_app_iff; auto]). apply in_app_iff in X. destruct X; auto.
Qed.
Lemma pl_pair_wf : wf_tensor h ta -> wf_tensor h tb -> wf_pair hL ta tb.
Proof.
  intros Wa Wb. split; [apply pl_wf, Wa|apply pl_wf, Wb|exact Nab|rewrite !pl_legs; exact ND|]. rewrite !pl_legs. intros l b Hl Eb.
  assert (X : In l ((map fst ps ++ map snd ps) ++ ra ++ rb)) by (eapply Permutation_in; [exact pl_all|exact Hl]). apply in_app_iff in X. destruct X as [X|X].
  - assert (exists l', (In (l, l') ps \/ In (l', l) ps)) as (l' & Hp).
    { apply in_app_iff in X. destruct X as [X|X]; apply in_map_iff in X as ([u v] & E & X); simpl in E; subst; eauto. }
    exists l'. assert (K : linked hL l l' /\ l_bond (legs hL l') = l_bond (legs hL l) /\ dim_of h l = dim_of h l').
    { destruct Hp as [Hp|Hp]; destruct (la_in _ _ _ LA _ _ Hp) as (K1 & K2 & K3); repeat split; auto; [apply (Dm _ Hp)|symmetry; apply (Dm _ Hp)]. }
    destruct K as ((b' & E1 & E2) & K2 & K3). assert (b' = b) as -> by congruence. split; [exact E2|]. intros _. rewrite !pl_dim. split; [congruence|exact K3].
  - destruct (pl_rest l X) as (E1 & E2). rewrite E1, E2 in Eb. discriminate.
Qed.
Lemma pl_pair : wf_pair hL ta tb. Proof. apply pl_pair_wf; [apply Da|apply Db]. Qed.
Lemma pl_shared : Permutation (shared hL ta tb) ps.
Proof.
  unfold shared, pairs_between. rewrite !pl_legs. eapply Permutation_trans; [apply Permutation_flat_map; exact Pa|]. rewrite flat_map_app.
  assert (E2 : forall L, incl L ra -> flat_map (fun l => match partner hL l with Some l' => if inb l' (legs_of h tb) then [(l, l')] else [] | None => [] end) L = []).
  { induction L as [|l L IH]; intros I; auto. cbn [flat_map]. rewrite IH by (intros x Hx; apply I; simpl; auto). unfold partner. destruct (pl_rest l) as (-> & ->); [apply in_app_iff; left; apply I; simpl; auto|]. reflexivity. }
  rewrite (E2 ra (incl_refl _)), app_nil_r. clear E2.
  assert (E1 : forall P, incl P ps -> flat_map (fun l => match partner hL l with Some l' => if inb l' (legs_of h tb) then [(l, l')] else [] | None => [] end) (map fst P) = P).
  { induction P as [|[l l'] P IH]; intros I; auto. cbn [map fst flat_map]. rewrite IH by (intros x Hx; apply I; simpl; auto).
    assert (Hp : In (l, l') ps) by (apply I; simpl; auto). assert (EP : partner hL l = Some l') by (apply partner_Some; apply (la_in _ _ _ LA _ _ Hp)). rewrite EP.
    replace (inb l' (legs_of h tb)) with true; [reflexivity|]. symmetry. apply inb_true. eapply Permutation_in; [symmetry; exact Pb|]. apply in_app_iff. left. apply (in_map snd) in Hp. exact Hp. }
  rewrite E1 by apply incl_refl. apply Permutation_refl.
Qed.
Lemma others_perm (cur cur' u v r : list lid) : Permutation cur (u ++ r) -> NoDup (u ++ r) -> Permutation u v -> Permutation (others cur v) r.
Proof.
  intros P N Q. unfold others. eapply Permutation_trans; [apply perm_filter; exact P|]. rewrite filter_app.
  assert (E1 : filter (fun l => negb (inb l v)) u = []).
  { assert (forall w, incl w v -> filter (fun l => negb (inb l v)) w = []) as K.
    { induction w as [|x w IH]; intros I; auto. cbn [filter]. assert (inb x v = true) as -> by (apply inb_true, I; simpl; auto). cbn [negb]. apply IH. intros y Hy. apply I. simpl; auto. }
    apply K. intros x Hx. eapply Permutation_in; eauto. }
  rewrite E1. cbn [app].
  assert (K : forall w, (forall x, In x w -> ~ In x v) -> filter (fun l => negb (inb l v)) w = w).
  { induction w as [|x w IH]; intros I; auto. cbn [filter]. assert (inb x v = false) as -> by (apply inb_false, I; simpl; auto). cbn [negb]. f_equal. apply IH. intros y Hy. apply I. simpl; auto. }
  rewrite K; [apply Permutation_refl|]. intros x Hx Hv. apply (NoDup_app_disj _ _ x N); auto. eapply Permutation_in; [symmetry; exact Q|exact Hv].
Qed.
Lemma pl_restA : Permutation (restA hL ta tb) ra.
Proof.
  unfold restA. rewrite pl_legs. apply (others_perm _ [] (map fst ps)); [exact Pa| |apply Permutation_map; symmetry; exact pl_shared].
  eapply Permutation_NoDup; [exact Pa|]. now apply NoDup_app_l in ND.
Qed.
Lemma pl_restB : Permutation (restB hL ta tb) rb.
Proof.
  unfold restB. rewrite pl_legs. apply (others_perm _ [] (map snd ps)); [exact Pb| |apply Permutation_map; symmetry; exact pl_shared].
  eapply Permutation_NoDup; [exact Pb|]. now apply NoDup_app_r in ND.
Qed.
Lemma pair_value : exists h' tc, contractTwoTensors ta tb hL = (h', Ok tc) /\ contracted hL h' ta tb tc (restA hL ta tb ++ restB hL ta tb) /\ dense h' tc /\
  Permutation (legs_of h' tc) (ra ++ rb) /\ (forall l, In l (ra ++ rb) -> l_name (legs h' l) = l_name (legs h l) /\ dim_of h' l = dim_of h l /\ l_bond (legs h' l) = None) /\
  forall s, in_bounds h (ra ++ rb) s -> entry h' tc s = sumpairs (dim_of h) ps (fun s => rmul (entry h ta s) (entry h tb s)) s.
Proof.
  destruct (contract_dense hL ta tb pl_pair) as (h' & tc & E & C & F1 & F2 & V); try (rewrite (la_tens _ _ _ LA); first [apply Da|apply Db]).
  exists h', tc. split; [exact E|]. split; [exact C|]. split; [split; [apply C|split; auto]|]. pose proof (Permutation_app pl_restA pl_restB) as PR.
  split; [rewrite (ct_legs _ _ _ _ _ _ C); exact PR|]. split.
  - intros l Hl. assert (Hl' : In l (restA hL ta tb ++ restB hL ta tb)) by (eapply Permutation_in; [symmetry; exact PR|exact Hl]).
    pose proof (ct_in _ _ _ _ _ _ C l Hl') as X. unfold dim_of. rewrite X. cbn [l_name l_dim l_bond]. destruct (pl_rest l Hl) as (E1 & E2). rewrite E1, E2. auto.
  - intros s Bs. rewrite V.
    + unfold einsum.
      assert (RS : respects (fun s => rmul (entry hL ta s) (entry hL tb s))) by (intros x y Exy; f_equal; apply entry_ext; intros; apply Exy).
      assert (SH : NoDup (map fst (shared hL ta tb) ++ map snd (shared hL ta tb))).
      { eapply Permutation_NoDup; [|apply (NoDup_app_l _ _ pl_nodup)]. symmetry. apply Permutation_app; apply Permutation_map; exact pl_shared. }
      rewrite (sumpairs_perm _ _ ps _ RS pl_shared SH).
      assert (EX : forall P s, sumpairs (dim_of hL) P (fun s => rmul (entry hL ta s) (entry hL tb s)) s = sumpairs (dim_of h) P (fun s => rmul (entry h ta s) (entry h tb s)) s).
      { induction P as [|[l l'] P IH]; intros s1; cbn [sumpairs]; [now rewrite !pl_entry|]. rewrite pl_dim. apply sumN_ext. intros i _. apply IH. }
      apply EX.
    + intros l Hl. rewrite pl_dim. apply Bs. eapply Permutation_in; [exact PR|exact Hl].
Qed.
End Two.
End Pl.
