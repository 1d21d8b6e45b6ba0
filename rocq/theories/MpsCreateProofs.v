(** createMPSFromTensor (examples/MPS.py 487-544): the loop that splits off the legs. *)
From Coq Require Import List Arith Bool Lia String ZArith Permutation.
From Verif Require Import Base Sums NdModel NdProofs HeapModel FuncsModel FuncsProofs TensorModel TensorSpec TensorProofs
  ContractModel NetSpec ShareProofs LinkProofs SumpairsProofs ContractProofs NetProofs PairProofs GroupSpec GroupProofs GroupMadeProofs SvdModel SvdSpec SvdProofs
  MpsModel MpsSpec MpsPairProofs MpsCreateModel MpsCreateSpec MatrixSchmidtProofs MpsCreateStepProofs SchmidtProofs.
Import ListNotations.
Local Open Scope list_scope.
Local Open Scope nat_scope.

Section Cr.
Context {A : Type} {HA : SR A}.
Notation heap := (heap A).
Variable lib : linalg A.

Definition one_leg (h : heap) (d : nat) (n : pname) : heap :=
  mkHeap (upd (legs h) (nleg h) (mkLeg None d n None)) (bonds h) (tens h) (S (nleg h)) (nbond h) (ntens h) (rng h) (rpos h).
Lemma newLeg1 {X} (h : heap) d n (F : lid -> @M A X) : (x <- newLeg None d n ;; F x) h = F (nleg h) (one_leg h d n).
Proof. reflexivity. Qed.
Lemma one_old (h : heap) d n l : l < nleg h -> legs (one_leg h d n) l = legs h l.
Proof. intros Hl. unfold one_leg. cbn [legs]. now rewrite upd_other by lia. Qed.
Lemma one_new (h : heap) d n : legs (one_leg h d n) (nleg h) = mkLeg None d n None.
Proof. unfold one_leg. cbn [legs]. now rewrite upd_same. Qed.

(** the sites [ts] with the outgoing legs [ls] hang on the leg [r], through their new leg [x]; [N] are the other new legs *)
Record made (h h' : heap) (r x : lid) (ls : list lid) (ts : list tid) (N : list lid) : Prop := {
  md_wf : forall t, In t ts -> wf_tensor h' t;
  md_own : forall t, In t ts -> owned h' t;
  md_kind : forall t, In t ts -> t_diag (tens h' t) = false /\ t_like (tens h' t) = false;
  md_nd : NoDup ts; md_ids : forall t, In t ts -> ntens h <= t < ntens h';
  md_legs : Permutation (all_legs h' ts) (ls ++ x :: N);
  md_N : NoDup (x :: N); md_new : forall l, In l (x :: N) -> nleg h <= l < nleg h';
  md_link : forall l, In l N -> exists l' b, In l' N /\ l_bond (legs h' l) = Some b /\ l_bond (legs h' l') = Some b /\
    b < nbond h' /\ ends h' b l l' /\ dim_of h' l = dim_of h' l' /\ l_tensor (legs h' l) <> l_tensor (legs h' l');
  md_b : exists b, nbond h <= b < nbond h' /\ legs h' r = with_bond (legs h r) b /\ l_bond (legs h' x) = Some b /\ ends h' b x r;
  md_dim : dim_of h' x = dim_of h r;
  md_F : forall l, In l ls -> l_bond (legs h' l) = l_bond (legs h l) /\ dim_of h' l = dim_of h l;
  md_o : forall l, l < nleg h -> ~ In l ls -> l <> r -> legs h' l = legs h l;
  md_bonds : forall b, b < nbond h -> bonds h' b = bonds h b;
  md_tens : forall t, t < ntens h -> tens h' t = tens h t;
  md_nleg : nleg h <= nleg h'; md_nbond : nbond h <= nbond h'; md_ntens : ntens h <= ntens h' }.

(** the order of the sites *)
Fixpoint links_up (h : heap) (chi : option nat) (x : lid) (ls : list lid) (ts : list tid) : Prop :=
  match ls, ts with
  | l :: ls', t :: ts' =>
      match ls' with
      | [] => ts' = [] /\ legs_of h t = [x; l]
      | _ => exists r x', legs_of h t = [x; l; r] /\ linked h r x' /\ (bounded chi (dim_of h r) /\ dim_of h r <= dim_of h x * dim_of h l /\ dim_of h r <= prodn (map (dim_of h) ls') /\ dim_of h x' = dim_of h r) /\ links_up h chi x' ls' ts'
      end
  | _, _ => False
  end.

Lemma rank_bounded chi (m : arr A) r c : bounded chi (rank lib chi m r c).
Proof. destruct chi; cbn; auto. apply rank_chi. Qed.

Lemma last_site (h h2 : heap) r l d : d = dim_of h r -> l < nleg h -> r < nleg h -> r <> l ->
  site_made (one_leg h d (NStr "l")) h2 [nleg h; l] (nleg h) r -> made h h2 r (nleg h) [l] [ntens h] [].
Proof.
  intros -> Ll Lr RL SM. set (h1 := one_leg h (dim_of h r) (NStr "l")) in *.
  assert (NX : nleg h <> l) by lia. assert (L2 : legs_of h2 (ntens h) = [nleg h; l]) by apply (si_legs _ _ _ _ _ SM).
  assert (X2 : legs h2 (nleg h) = mkLeg (Some (ntens h)) (dim_of h r) (NStr "l") (Some (nbond h))).
  { rewrite (si_x _ _ _ _ _ SM). unfold h1. rewrite one_new. reflexivity. }
  assert (E2 : legs h2 l = mkLeg (Some (ntens h)) (l_dim (legs h l)) (l_name (legs h l)) (l_bond (legs h l))).
  { rewrite (si_L _ _ _ _ _ SM) by (simpl; auto). unfold h1. rewrite one_old by auto. reflexivity. }
  assert (R2 : legs h2 r = with_bond (legs h r) (nbond h)).
  { rewrite (si_r _ _ _ _ _ SM). unfold h1. rewrite one_old by auto. reflexivity. }
  pose proof (si_nleg _ _ _ _ _ SM) as N1. pose proof (si_ntens _ _ _ _ _ SM) as N2. pose proof (si_nbond _ _ _ _ _ SM) as N3.
  cbn in N1, N2, N3.
  constructor.
  - intros t [<-|[]]. apply SM.
  - intros t [<-|[]]. apply (si_own _ _ _ _ _ SM).
  - intros t [<-|[]]. apply (si_kind _ _ _ _ _ SM).
  - repeat constructor; auto.
  - intros t [<-|[]]. lia.
  - unfold all_legs. cbn [flat_map]. rewrite L2, app_nil_r. cbn. apply perm_swap.
  - repeat constructor; auto.
  - intros z [<-|[]]. lia.
  - intros z [].
  - exists (nbond h). split; [lia|]. split; auto. rewrite X2. split; auto. left. apply (si_new _ _ _ _ _ SM).
  - unfold dim_of at 1. now rewrite X2.
  - intros z [<-|[]]. unfold dim_of. rewrite E2. auto.
  - intros z Hz Nz Nr. rewrite (si_o _ _ _ _ _ SM); auto.
    + unfold h1. now apply one_old.
    + intros [E|[E|[]]]; [lia|]. apply Nz. simpl; auto.
  - intros b Hb. apply (si_bonds _ _ _ _ _ SM). exact Hb.
  - intros t Ht. apply (si_tens _ _ _ _ _ SM). exact Ht.
  - lia.
  - lia.
  - lia.
Qed.

Section Mid.
Variables (h h3 h' : heap) (r l x' : lid) (ls : list lid) (ts : list tid) (N : list lid) (k : nat).
Hypothesis Ll : l < nleg h. Hypothesis Lr : r < nleg h. Hypothesis RL : r <> l.
Hypothesis ND : NoDup (l :: ls). Hypothesis AL : forall z, In z ls -> z < nleg h. Hypothesis NR : ~ In r ls.
Hypothesis SM : site_made (one_leg (one_leg h (dim_of h r) (NStr "l")) k (NStr "r")) h3 [nleg h; l; S (nleg h)] (nleg h) r.
Hypothesis MD : made h3 h' (S (nleg h)) x' ls ts N.
Notation h2 := (one_leg (one_leg h (dim_of h r) (NStr "l")) k (NStr "r")).

Lemma mid_old z : z < nleg h -> legs h2 z = legs h z.
Proof. intros Hz. rewrite one_old by (cbn; lia). now apply one_old. Qed.
Lemma mid_x2 : legs h2 (nleg h) = mkLeg None (dim_of h r) (NStr "l") None.
Proof. rewrite one_old by (cbn; lia). apply one_new. Qed.
Lemma mid_r2 : legs h2 (S (nleg h)) = mkLeg None k (NStr "r") None.
Proof. apply (one_new (one_leg h (dim_of h r) (NStr "l"))). Qed.
Lemma mid_counts : nleg h3 = S (S (nleg h)) /\ ntens h3 = S (ntens h) /\ nbond h3 = S (nbond h).
Proof. rewrite (si_nleg _ _ _ _ _ SM), (si_ntens _ _ _ _ _ SM), (si_nbond _ _ _ _ _ SM). auto. Qed.
Lemma mid_x3 : legs h3 (nleg h) = mkLeg (Some (ntens h)) (dim_of h r) (NStr "l") (Some (nbond h)).
Proof. rewrite (si_x _ _ _ _ _ SM), mid_x2. reflexivity. Qed.
Lemma mid_l3 : legs h3 l = mkLeg (Some (ntens h)) (l_dim (legs h l)) (l_name (legs h l)) (l_bond (legs h l)).
Proof. rewrite (si_L _ _ _ _ _ SM) by (simpl; auto; lia). rewrite mid_old by auto. reflexivity. Qed.
Lemma mid_r3 : legs h3 (S (nleg h)) = mkLeg (Some (ntens h)) k (NStr "r") None.
Proof. rewrite (si_L _ _ _ _ _ SM) by (simpl; auto; lia). rewrite mid_r2. reflexivity. Qed.
Lemma mid_out z : z < nleg h -> z <> l -> z <> r -> legs h3 z = legs h z.
Proof. intros Hz N1 N2. rewrite (si_o _ _ _ _ _ SM); auto; [now apply mid_old|]. intros [E|[E|[E|[]]]]; try lia. Qed.
Lemma mid_x' : legs h' (nleg h) = mkLeg (Some (ntens h)) (dim_of h r) (NStr "l") (Some (nbond h)).
Proof.
  destruct mid_counts as (C1 & _). rewrite (md_o _ _ _ _ _ _ _ MD); [apply mid_x3|lia| |lia]. intros H. apply AL in H. lia.
Qed.
Lemma mid_l' : legs h' l = mkLeg (Some (ntens h)) (l_dim (legs h l)) (l_name (legs h l)) (l_bond (legs h l)).
Proof. destruct mid_counts as (C1 & _). rewrite (md_o _ _ _ _ _ _ _ MD); [apply mid_l3|lia| |lia]. now inversion ND. Qed.
Lemma mid_r' : exists b, nbond h3 <= b < nbond h' /\ legs h' (S (nleg h)) = mkLeg (Some (ntens h)) k (NStr "r") (Some b) /\
  l_bond (legs h' x') = Some b /\ ends h' b x' (S (nleg h)) /\ dim_of h' x' = k.
Proof.
  destruct (md_b _ _ _ _ _ _ _ MD) as (b & B1 & B2 & B3 & B4). exists b. rewrite B2. unfold with_bond. rewrite mid_r3. cbn.
  repeat split; auto; try lia. rewrite (md_dim _ _ _ _ _ _ _ MD). unfold dim_of. now rewrite mid_r3.
Qed.
Lemma mid_legs3 : legs_of h3 (ntens h) = [nleg h; l; S (nleg h)]. Proof. exact (si_legs _ _ _ _ _ SM). Qed.
Lemma mid_t' : tens h' (ntens h) = tens h3 (ntens h).
Proof. destruct mid_counts as (_ & C2 & _). apply (md_tens _ _ _ _ _ _ _ MD). lia. Qed.
Lemma mid_legs' : legs_of h' (ntens h) = [nleg h; l; S (nleg h)].
Proof. unfold legs_of. rewrite mid_t'. apply (si_legs _ _ _ _ _ SM). Qed.
Lemma mid_wf' : wf_tensor h' (ntens h).
Proof.
  destruct mid_counts as (C1 & C2 & C3). apply (wf_same h3); [exact mid_t'| | | |apply SM].
  - intros z Hz. rewrite mid_legs3 in Hz. unfold dim_of. destruct mid_r' as (b & _ & B2 & _).
    destruct Hz as [<-|[<-|[<-|[]]]]; [rewrite mid_x', mid_x3|rewrite mid_l', mid_l3|rewrite B2, mid_r3]; reflexivity.
  - exact (md_nleg _ _ _ _ _ _ _ MD).
  - exact (md_ntens _ _ _ _ _ _ _ MD).
Qed.
Lemma mid_own' : owned h' (ntens h).
Proof.
  intros z Hz. rewrite mid_legs' in Hz. destruct mid_r' as (b & _ & B2 & _).
  destruct Hz as [<-|[<-|[<-|[]]]]; [now rewrite mid_x'|now rewrite mid_l'|now rewrite B2].
Qed.
Lemma mid_xnew : S (S (nleg h)) <= x'.
Proof. destruct mid_counts as (C1 & _). pose proof (md_new _ _ _ _ _ _ _ MD x' (or_introl eq_refl)). lia. Qed.
Lemma mid_xowner : exists t, In t ts /\ l_tensor (legs h' x') = Some t /\ ntens h < t.
Proof.
  assert (In x' (all_legs h' ts)) as H.
  { eapply Permutation_in; [symmetry; apply MD|]. apply in_app_iff. simpl; auto. }
  apply all_legs_In in H as (t & Ht & Hx). exists t. split; auto. split; [now apply (md_own _ _ _ _ _ _ _ MD t Ht)|].
  destruct mid_counts as (_ & C2 & _). pose proof (md_ids _ _ _ _ _ _ _ MD t Ht). lia.
Qed.
Lemma mid_link' : linked h' (S (nleg h)) x' /\ linked h' x' (S (nleg h)).
Proof.
  destruct mid_r' as (b & B1 & B2 & B3 & B4 & B5). split; exists b.
  - rewrite B2. split; auto. destruct B4 as [B4|B4]; [right|left]; exact B4.
  - split; auto.
Qed.

Lemma mid_made : made h h' r (nleg h) (l :: ls) (ntens h :: ts) (S (nleg h) :: x' :: N).
Proof.
  destruct mid_counts as (C1 & C2 & C3). destruct mid_r' as (b & B1 & B2 & B3 & B4 & B5). pose proof mid_xnew as XN.
  destruct mid_xowner as (tx & Tx1 & Tx2 & Tx3).
  pose proof (md_new _ _ _ _ _ _ _ MD) as MN.
  constructor.
  - intros t [<-|Ht]; [apply mid_wf'|now apply MD].
  - intros t [<-|Ht]; [apply mid_own'|now apply (md_own _ _ _ _ _ _ _ MD)].
  - intros t [<-|Ht]; [rewrite mid_t'; apply (si_kind _ _ _ _ _ SM)|now apply (md_kind _ _ _ _ _ _ _ MD)].
  - constructor; [|apply MD]. intros H. apply (md_ids _ _ _ _ _ _ _ MD) in H. lia.
  - pose proof (md_ntens _ _ _ _ _ _ _ MD). intros t [<-|Ht]; [lia|]. apply (md_ids _ _ _ _ _ _ _ MD) in Ht. lia.
  - unfold all_legs. cbn [flat_map]. fold (all_legs h' ts). rewrite mid_legs'. rewrite (md_legs _ _ _ _ _ _ _ MD).
    cbn [app]. etransitivity; [apply perm_swap|]. apply perm_skip.
    change (nleg h :: S (nleg h) :: ls ++ x' :: N) with ([nleg h; S (nleg h)] ++ (ls ++ x' :: N)).
    change (ls ++ nleg h :: S (nleg h) :: x' :: N) with (ls ++ [nleg h; S (nleg h)] ++ x' :: N).
    rewrite !app_assoc. apply Permutation_app_tail. apply Permutation_app_comm.
  - constructor; [|constructor; [|apply MD]].
    + intros [E|[E|H]]; [lia|lia|]. specialize (MN (nleg h)). simpl in MN. specialize (MN (or_intror H)). lia.
    + intros H. apply MN in H. lia.
  - intros z [<-|[<-|H]]; [| |apply MN in H; lia].
    + pose proof (md_nleg _ _ _ _ _ _ _ MD). lia.
    + pose proof (md_nleg _ _ _ _ _ _ _ MD). lia.
  - intros z [<-|[<-|H]].
    + exists x', b. rewrite B2. cbn. split; [auto|]. split; auto. split; auto. split; [lia|]. split.
      * destruct B4 as [B4|B4]; [right|left]; exact B4.
      * split; [unfold dim_of at 1; rewrite B2; cbn; auto|]. rewrite Tx2. intros E. injection E. lia.
    + exists (S (nleg h)), b. rewrite B2. cbn. split; [auto|]. split; auto. split; auto. split; [lia|]. split; [exact B4|].
      split; [unfold dim_of at 2; rewrite B2; cbn; auto|]. rewrite Tx2. intros E. injection E. lia.
    + destruct (md_link _ _ _ _ _ _ _ MD z H) as (z' & b' & I' & R'). exists z', b'. split; [simpl; auto|exact R'].
  - exists (nbond h). pose proof (md_nbond _ _ _ _ _ _ _ MD). split; [lia|]. split.
    + rewrite (md_o _ _ _ _ _ _ _ MD); [|lia|auto|lia]. rewrite (si_r _ _ _ _ _ SM). rewrite mid_old by auto. reflexivity.
    + rewrite mid_x'. split; auto. left. rewrite (md_bonds _ _ _ _ _ _ _ MD) by lia. apply (si_new _ _ _ _ _ SM).
  - unfold dim_of at 1. now rewrite mid_x'.
  - intros z [<-|Hz]; [unfold dim_of; rewrite mid_l'; auto|].
    destruct (md_F _ _ _ _ _ _ _ MD z Hz) as (F1 & F2). rewrite F1, F2. unfold dim_of.
    rewrite mid_out; auto; [intros ->; now inversion ND|intros ->; auto].
  - intros z Hz Nz Nr'. simpl in Nz. rewrite (md_o _ _ _ _ _ _ _ MD); [|lia|tauto|lia]. apply mid_out; auto.
  - intros b' Hb. rewrite (md_bonds _ _ _ _ _ _ _ MD) by lia. apply (si_bonds _ _ _ _ _ SM). exact Hb.
  - intros t Ht. rewrite (md_tens _ _ _ _ _ _ _ MD) by lia. apply (si_tens _ _ _ _ _ SM). exact Ht.
  - pose proof (md_nleg _ _ _ _ _ _ _ MD). lia.
  - pose proof (md_nbond _ _ _ _ _ _ _ MD). lia.
  - pose proof (md_ntens _ _ _ _ _ _ _ MD). lia.
Qed.

Hypothesis BB : forall z b, In z (l :: ls) -> l_bond (legs h z) = Some b -> b < nbond h.
Hypothesis LK : forall z z', In z (l :: ls) -> linked h z z' -> z' < nleg h /\ ~ In z' (l :: ls).

Lemma mid_linked3 z z' : In z ls -> linked h3 z z' <-> linked h z z'.
Proof.
  intros Hz. assert (E : legs h3 z = legs h z) by (apply mid_out; auto; [intros ->; now inversion ND|intros ->; auto]).
  unfold linked. rewrite E. split; intros (b & E1 & E2); exists b; split; auto; unfold ends in *;
    pose proof (BB z b (or_intror Hz) E1) as Hb; rewrite (si_bonds _ _ _ _ _ SM b Hb) in *; exact E2.
Qed.
Lemma mid_all z : In z (all_legs h' ts) -> In z ls \/ S (S (nleg h)) <= z.
Proof.
  intros H. apply (Permutation_in _ (md_legs _ _ _ _ _ _ _ MD)) in H. apply in_app_iff in H. destruct H as [H|H]; auto.
  right. apply (md_new _ _ _ _ _ _ _ MD) in H. destruct mid_counts as (C1 & _). lia.
Qed.
Lemma mid_pairs : pairs_between h' (legs_of h' (ntens h)) (all_legs h' ts) = [(S (nleg h), x')].
Proof.
  destruct mid_counts as (C1 & C2 & C3). rewrite mid_legs'. apply pairs_one.
  - constructor; [simpl; lia|]. constructor; [simpl; lia|]. repeat constructor; auto.
  - simpl; auto.
  - apply mid_link'.
  - eapply Permutation_in; [symmetry; apply MD|]. apply in_app_iff. simpl; auto.
  - intros z w [<-|[<-|[<-|[]]]] NE (b & E1 & E2) Hw; [| |lia]; apply mid_all in Hw.
    + rewrite mid_x' in E1. cbn in E1. injection E1 as <-. unfold ends in E2. rewrite (md_bonds _ _ _ _ _ _ _ MD) in E2 by lia.
      pose proof (si_new _ _ _ _ _ SM) as E3. change (bonds h3 (nbond h) = mkBond (nleg h) r) in E3. rewrite E3 in E2.
      assert (w = r) as -> by (destruct E2 as [E2|E2]; injection E2; intros; lia). destruct Hw; [auto|lia].
    + rewrite mid_l' in E1. cbn in E1. pose proof (BB l b (or_introl eq_refl) E1) as Hb. unfold ends in E2.
      rewrite (md_bonds _ _ _ _ _ _ _ MD) in E2 by lia. pose proof (si_bonds _ _ _ _ _ SM b Hb) as E3. cbn in E3. rewrite E3 in E2.
      destruct (LK l w (or_introl eq_refl)) as (W1 & W2); [exists b; auto|]. destruct Hw as [Hw|Hw]; [|lia]. apply W2. simpl; auto.
Qed.
Lemma mid_value s : netval h' (ntens h :: ts) s = sumN k (fun p => rmul (entry h' (ntens h) (upd (upd s (S (nleg h)) p) x' p))
  (netval h' ts (upd (upd s (S (nleg h)) p) x' p))).
Proof.
  rewrite (netval_cons1 h' (ntens h) ts (S (nleg h)) x'); [|apply MD|apply mid_pairs|].
  - destruct mid_r' as (b & _ & B2 & _). unfold dim_of at 1. rewrite B2. reflexivity.
  - intros z Hz Hw. rewrite mid_legs' in Hz. apply mid_all in Hw. destruct Hz as [<-|[<-|[<-|[]]]]; destruct Hw as [Hw|Hw]; try lia.
    + apply AL in Hw. lia.
    + now inversion ND.
    + apply AL in Hw. lia.
Qed.
End Mid.

Lemma ravel3 a b k x i p : x < a -> i < b -> p < k -> ravel [a; b; k] [x; i; p] = (x * b + i) * k + p.
Proof. intros. cbn [ravel prodn fold_right]. nia. Qed.

Hypothesis ST : svd_total lib.

Lemma split_ok chi : forall ls (h : heap) data d r, ls <> [] -> NoDup ls -> (forall z, In z ls -> z < nleg h /\ 0 < dim_of h z) ->
  r < nleg h -> ~ In r ls -> dim_of h r = d ->
  (forall z b, In z ls -> l_bond (legs h z) = Some b -> b < nbond h) ->
  (forall z z', In z ls -> linked h z z' -> z' < nleg h /\ ~ In z' ls) ->
  let dims := map (dim_of h) ls in List.length data = d * prodn dims ->
  (ranks_positive lib chi d dims data /\ (1 < List.length ls -> 0 < d) ->
     exists h' ts x N, splitLegs lib chi (mkArr [d; prodn dims] data) d r ls h = (h', Ok ts) /\ made h h' r x ls ts N /\ links_up h' chi x ls ts /\
       (splits_exact lib chi d dims data -> forall s, s x < d -> in_bounds h ls s -> 
          netval h' ts s = nth (ravel (d :: dims) (s x :: map s ls)) data r0)) /\
  (~ (ranks_positive lib chi d dims data /\ (1 < List.length ls -> 0 < d)) ->
     exists h', splitLegs lib chi (mkArr [d; prodn dims] data) d r ls h = (h', Err ValueError)).
Proof.
  induction ls as [|l ls IH]; intros h data d r NE ND AL Lr NR ED BB LK dims HL; [congruence|].
  destruct (AL l (or_introl eq_refl)) as (Ll & Pl). assert (RL : r <> l) by (intros ->; apply NR; simpl; auto).
  destruct ls as [|l2 ls2].
  - split.
    2:{ intros X. exfalso. apply X. split; [exact I|]. cbn. lia. }
    intros _. cbn [splitLegs]. rewrite newLeg1. set (h1 := one_leg h d (NStr "l")).
    assert (DX : dim_of h1 (nleg h) = d) by (unfold dim_of, h1; now rewrite one_new).
    assert (DL : dim_of h1 l = dim_of h l) by (unfold dim_of, h1; now rewrite one_old).
    assert (DR : dim_of h1 r = d) by (rewrite <- ED; unfold dim_of, h1; now rewrite one_old).
    unfold bind at 1, reads at 1. change (legdim h1 l) with (dim_of h1 l).
    destruct (site_ok h1 [nleg h; l] (nleg h) r (mkArr [d; prodn dims] data) [d; dim_of h1 l] (fun t => ret [t])) as (h2 & E2 & SM & V2).
    + constructor; [simpl; lia|]. repeat constructor; auto.
    + intros z Hz. cbn. destruct Hz as [<-|[<-|[]]]; lia.
    + simpl; auto.
    + simpl. lia.
    + now rewrite DX, DR.
    + unfold wfa. cbn [ashape adata]. rewrite HL. unfold dims. cbn. lia.
    + unfold dims. cbn [ashape map prodn fold_right]. rewrite DX, DL. cbn. lia.
    + cbn [map]. now rewrite DX.
    + exists h2, [ntens h], (nleg h), []. split; [exact E2|]. split; [|split].
      * apply (last_site h h2 r l d); auto.
      * cbn. split; auto. exact (si_legs _ _ _ _ _ SM).
      * intros _ s Hs Bs. rewrite netval_single. pose proof (V2 s) as V. change (ntens h1) with (ntens h) in V. rewrite V. cbn [map]. rewrite DX, DL. reflexivity.
  - set (ls := l2 :: ls2) in *. assert (NEs : ls <> []) by discriminate.
    set (dl := dim_of h l) in *. set (c := prodn (map (dim_of h) ls)).
    assert (EC : prodn dims = dl * c) by reflexivity. rewrite EC in *.
    assert (ES : forall a, splitLegs lib chi a d r (l :: ls) = (d0 <- reads (fun h => legdim h l) ;;
      '(u, v) <- liftR (matrixSchimdt lib a d0 chi) ;; let k := last (ashape u) 0 in
      left <- newLeg None d (NStr "l") ;; right <- newLeg None k (NStr "r") ;;
      t <- mkDense (Some [d; d0; k]) None (Some u) None (Some [left; l; right]) false ;;
      makeLink [RLeg left] [RLeg r] None None ;;;
      ts <- splitLegs lib chi v k right ls ;; ret (t :: ts))) by reflexivity.
    set (m := mkArr [d * dl; c] data). set (k := rank lib chi m (d * dl) c).
    destruct (next_schimdt lib data d dl c chi Pl HL) as (Z0 & Z1). fold m in Z1.
    assert (RP : ranks_positive lib chi d dims data <-> ((1 < List.length ls -> 0 < k) /\ ranks_positive lib chi k (map (dim_of h) ls) (remainder lib m k c))) by (rewrite <- (map_length (dim_of h) ls); reflexivity).
    assert (SX : splits_exact lib chi d dims data <-> ((svd_exact lib m (d * dl) c /\ lossless lib m k) /\ splits_exact lib chi k (map (dim_of h) ls) (remainder lib m k c))) by reflexivity.
    destruct (Nat.eq_dec d 0) as [D0|D0].
    { assert (EQ : splitLegs lib chi (mkArr [d; dl * c] data) d r (l :: ls) h = (h, Err ValueError)).
      { rewrite ES. erewrite bind_ok by reflexivity. change (legdim h l) with dl. rewrite (Z0 D0). reflexivity. }
      rewrite EQ. split.
      - intros (_ & X). exfalso. assert (0 < d) by (apply X; cbn; lia). lia.
      - intros _. exists h. reflexivity. }
    destruct Z1 as (u & EU & Wu & Su & Gu); [lia|apply ST; [unfold wfa, m, prodn; cbn [ashape adata fold_right]; rewrite HL; lia|reflexivity]|]. fold k in EU, Su, Gu.
    set (h2 := one_leg (one_leg h d (NStr "l")) k (NStr "r")).
    assert (EQ : splitLegs lib chi (mkArr [d; dl * c] data) d r (l :: ls) h = 
      (t <- mkDense (Some [d; dl; k]) None (Some u) None (Some [nleg h; l; S (nleg h)]) false ;;
       makeLink [RLeg (nleg h)] [RLeg r] None None ;;;
       ts <- splitLegs lib chi (mkArr [k; c] (remainder lib m k c)) k (S (nleg h)) ls ;; ret (t :: ts)) h2).
    { rewrite ES. erewrite bind_ok by reflexivity. change (legdim h l) with dl. rewrite EU. erewrite bind_ok by reflexivity.
      cbv zeta beta iota. rewrite Su. cbn [last]. rewrite !newLeg1. reflexivity. }
    rewrite EQ. clear EQ ES.
    assert (O2 : forall z, z < nleg h -> legs h2 z = legs h z) by (intros z Hz; unfold h2; rewrite one_old by (cbn; lia); now apply one_old).
    assert (DX : dim_of h2 (nleg h) = d) by (unfold dim_of, h2; rewrite one_old by (cbn; lia); now rewrite one_new).
    assert (DK : dim_of h2 (S (nleg h)) = k) by (unfold dim_of, h2; now rewrite (one_new (one_leg h d (NStr "l")))).
    assert (DL : dim_of h2 l = dl) by (unfold dim_of; now rewrite O2).
    assert (DR : dim_of h2 r = d) by (rewrite <- ED; unfold dim_of; now rewrite O2).
    destruct (site_ok h2 [nleg h; l; S (nleg h)] (nleg h) r u [d; dl; k] (fun t => ts <- splitLegs lib chi (mkArr [k; c] (remainder lib m k c)) k (S (nleg h)) ls ;; ret (t :: ts))) as (h3 & E3 & SM & V3).
    + constructor; [simpl; lia|]. constructor; [simpl; lia|]. repeat constructor; auto.
    + intros z Hz. cbn. destruct Hz as [<-|[<-|[<-|[]]]]; lia.
    + simpl; auto.
    + simpl. lia.
    + now rewrite DX, DR.
    + exact Wu.
    + rewrite Su. cbn [map]. now rewrite DX, DL, DK.
    + cbn [map]. now rewrite DX, DL, DK.
    + rewrite E3. change (ntens h2) with (ntens h). 
      assert (SM' : site_made (one_leg (one_leg h (dim_of h r) (NStr "l")) k (NStr "r")) h3 [nleg h; l; S (nleg h)] (nleg h) r) by (rewrite ED; exact SM).
      assert (ND' : NoDup ls) by now inversion ND. assert (Nl : ~ In l ls) by now inversion ND.
      assert (AL' : forall z, In z ls -> z < nleg h) by (intros z Hz; apply AL; simpl; auto).
      assert (NR' : ~ In r ls) by (intros H; apply NR; simpl; auto).
      destruct (mid_counts h h3 r l k SM') as (C1 & C2 & C3).
      assert (L3 : forall z, In z ls -> legs h3 z = legs h z).
      { intros z Hz. apply (mid_out h h3 r l k Ll Lr RL SM'); auto; [intros ->; auto|intros ->; auto]. }
      assert (D3 : map (dim_of h3) ls = map (dim_of h) ls) by (apply map_ext_in; intros z Hz; unfold dim_of; now rewrite L3).
      assert (K3 : dim_of h3 (S (nleg h)) = k) by (unfold dim_of; now rewrite (mid_r3 h h3 r l k SM')).
      destruct (IH h3 (remainder lib m k c) k (S (nleg h))) as (P1 & P2); auto.
      { intros z Hz. rewrite C1. unfold dim_of. rewrite (L3 z Hz). split; [apply AL' in Hz; lia|]. apply AL. simpl; auto. }
      { lia. }
      { intros H. apply AL' in H. lia. }
      { intros z b Hz. rewrite (L3 z Hz). intros E. rewrite C3. specialize (BB z b (or_intror Hz) E). lia. }
      { intros z z' Hz. rewrite (mid_linked3 h h3 r l ls k Ll Lr RL ND AL' NR' SM' BB z z' Hz). intros H. destruct (LK z z' (or_intror Hz) H) as (X1 & X2).
        split; [lia|]. intros Y. apply X2. simpl; auto. }
      { rewrite D3. fold c. pose proof (remainder_wf lib m k c) as RW. unfold wfa, prodn in RW. cbn [ashape adata fold_right] in RW. lia. }
      rewrite D3 in P1, P2. fold c in P1, P2. clear IH. split.
      * intros (R0 & _). apply RP in R0 as (R1 & R2). destruct P1 as (h' & ts & x' & N & EE & MD & LU & VV); [auto|].
        exists h', (ntens h :: ts), (nleg h), (S (nleg h) :: x' :: N). 
        split; [unfold bind; now rewrite EE|].
        assert (MD' : made h h' r (nleg h) (l :: ls) (ntens h :: ts) (S (nleg h) :: x' :: N)) by (apply (mid_made h h3 h' r l x' ls ts N k); auto).
        split; [exact MD'|].
        assert (LS' : legs_of h' (ntens h) = [nleg h; l; S (nleg h)]) by (apply (mid_legs' h h3 h' r l x' ls ts N k); auto).
        destruct (mid_r' h h3 h' r l x' ls ts N k Ll Lr RL SM' MD) as (b & _ & B2 & _).
        split.
        { change (exists r0 x'0, legs_of h' (ntens h) = [nleg h; l; r0] /\ linked h' r0 x'0 /\ (bounded chi (dim_of h' r0) /\ dim_of h' r0 <= dim_of h' (nleg h) * dim_of h' l /\ dim_of h' r0 <= prodn (map (dim_of h') ls) /\ dim_of h' x'0 = dim_of h' r0) /\ links_up h' chi x'0 ls ts).
          exists (S (nleg h)), x'. split; auto. split; [apply (mid_link' h h3 h' r l x' ls ts N k Ll Lr RL SM' MD)|]. split; [|exact LU].
          assert (EK : dim_of h' (S (nleg h)) = k) by (unfold dim_of; now rewrite B2).
          assert (EMD : map (dim_of h') ls = map (dim_of h) ls) by (apply map_ext_in; intros z Hz; apply (md_F _ _ _ _ _ _ _ MD'); simpl; auto).
          assert (EDL : dim_of h' l = dl) by (apply (md_F _ _ _ _ _ _ _ MD'); simpl; auto).
          rewrite EK, EMD, EDL, (md_dim _ _ _ _ _ _ _ MD'), ED. pose proof (rank_le lib chi m (d * dl) c) as RK. fold k in RK. fold c.
          split; [unfold k; apply rank_bounded|]. rewrite (md_dim _ _ _ _ _ _ _ MD), K3. lia. }
        intros SX0 s Hs Bs. apply SX in SX0 as ((SX1 & SX2) & SX3).
        rewrite (mid_value h h3 h' r l x' ls ts N k); auto.
        pose proof (mid_xnew h h3 h' r l x' ls ts N k Ll Lr RL SM' MD) as XN.
        assert (Hl : s l < dl) by (apply Bs; simpl; auto).
        assert (Hc : ravel (map (dim_of h) ls) (map s ls) < c) by (apply ravel_lt, inrange_map; intros z Hz; apply Bs; simpl; auto).
        assert (U : forall p z, z < S (nleg h) -> upd (upd s (S (nleg h)) p) x' p z = s z) by (intros p z Hz; now rewrite !upd_other by lia).
        transitivity (aget m [s (nleg h) * dl + s l; ravel (map (dim_of h) ls) (map s ls)]).
        2:{ unfold aget. cbn [adata m ashape]. f_equal. unfold dims, c. cbn [map ravel prodn fold_right]. fold dl. change (fold_right Nat.mul 1 (map (dim_of h) ls)) with c. lia. }
        rewrite <- (uv_exact lib m (d * dl) c k _ _ SX1 (rank_le _ _ _ _ _) SX2); [|nia|exact Hc].
        apply sumN_ext. intros p Hp. f_equal.
        { unfold entry. rewrite (mid_t' h h3 h' r l x' ls ts N k Ll Lr RL SM' MD). pose proof (V3 (upd (upd s (S (nleg h)) p) x' p)) as V.
          change (ntens h2) with (ntens h) in V. unfold entry in V. rewrite V. cbn [map]. rewrite !U by lia. rewrite (upd_other _ x') by lia. rewrite upd_same. 
          rewrite DX, DL, DK. rewrite <- Gu by auto. unfold aget. now rewrite Su. }
        { rewrite (VV SX3).
          - rewrite upd_same. assert (EM : map (upd (upd s (S (nleg h)) p) x' p) ls = map s ls) by (apply map_ext_in; intros z Hz; apply U; apply AL' in Hz; lia).
            rewrite EM. unfold aget. cbn [adata ashape]. f_equal. cbn [ravel prodn fold_right]. change (fold_right Nat.mul 1 (map (dim_of h) ls)) with c. lia.
          - now rewrite upd_same.
          - intros z Hz. rewrite U by (apply AL' in Hz; lia). unfold dim_of. rewrite L3 by auto. apply Bs. simpl; auto. }
      * intros X. destruct P2 as (h' & EE).
        { intros (Y1 & Y2). apply X. split; [apply RP; split; auto|lia]. }
        exists h'. unfold bind. now rewrite EE.
Qed.
End Cr.
