(** The statements that build the three tensors u, s, v of a truncated decomposition and link them. *)
From Coq Require Import List Arith Bool Lia String ZArith Permutation.
From Verif Require Import Base Sums NdModel NdProofs HeapModel FuncsModel FuncsProofs TensorModel TensorSpec
  ContractModel NetSpec TensorProofs ShareProofs LinkProofs SumpairsProofs ContractProofs DiagContractProofs NetProofs GroupSpec GroupProofs GroupMadeProofs PairProofs.
Import ListNotations.
Local Open Scope list_scope.
Local Open Scope nat_scope.

Section Tp.
Context {A : Type} {HA : SR A}.
Notation heap := (heap A).

(** [h'] is [h] with the new tensors u (legs La ++ [x0]), s (legs x1, x2) and v (legs x3 :: Lb), with new bonds x0 - x1 and x2 - x3;
    the legs of La and Lb are now called [nm] *)
Record triple_made (h h' : heap) (La Lb : list lid) (k : nat) (na nb : pname) (nm : lid -> pname) (u s v : tid) (x0 x1 x2 x3 : lid) : Prop := {
  tr_t : u = ntens h /\ s = S u /\ v = S s; tr_x : x0 = nleg h /\ x1 = S x0 /\ x2 = S x1 /\ x3 = S x2;
  tr_ntens : ntens h' = S v; tr_nleg : nleg h' = S x3; tr_nbond : nbond h' = S (S (nbond h));
  tr_x0 : legs h' x0 = mkLeg (Some u) k na (Some (nbond h));
  tr_x1 : legs h' x1 = mkLeg (Some s) k nb (Some (nbond h));
  tr_x2 : legs h' x2 = mkLeg (Some s) k na (Some (S (nbond h)));
  tr_x3 : legs h' x3 = mkLeg (Some v) k nb (Some (S (nbond h)));
  tr_b0 : bonds h' (nbond h) = mkBond x0 x1;
  tr_b1 : bonds h' (S (nbond h)) = mkBond x3 x2;
  tr_bonds : forall b, b < nbond h -> bonds h' b = bonds h b;
  tr_A : forall l, In l La -> legs h' l = mkLeg (Some u) (l_dim (legs h l)) (nm l) (l_bond (legs h l));
  tr_B : forall l, In l Lb -> legs h' l = mkLeg (Some v) (l_dim (legs h l)) (nm l) (l_bond (legs h l));
  tr_o : forall l, l < nleg h -> ~ In l (La ++ Lb) -> legs h' l = legs h l;
  tr_tens : forall t, t < ntens h -> tens h' t = tens h t;
  tr_u : legs_of h' u = La ++ [x0]; tr_s : legs_of h' s = [x1; x2]; tr_v : legs_of h' v = x3 :: Lb;
  tr_wu : wf_tensor h' u; tr_ws : wf_tensor h' s; tr_wv : wf_tensor h' v }.

Definition four_legs (h : heap) (k : nat) (na nb : pname) : heap := two_legs (two_legs h k na nb) k na nb.
Lemma newLegs4 {X} (h : heap) k na nb (F : lid -> lid -> lid -> lid -> @M A X) :
  (x <- newLeg None k na ;; y <- newLeg None k nb ;; z <- newLeg None k na ;; w <- newLeg None k nb ;; F x y z w) h =
  F (nleg h) (S (nleg h)) (S (S (nleg h))) (S (S (S (nleg h)))) (four_legs h k na nb).
Proof. reflexivity. Qed.
Lemma four_old (h : heap) k na nb l : l < nleg h -> legs (four_legs h k na nb) l = legs h l.
Proof. intros Hl. unfold four_legs. rewrite !two_old; auto. simpl. lia. Qed.
Lemma four_x0 (h : heap) k na nb : legs (four_legs h k na nb) (nleg h) = mkLeg None k na None.
Proof. unfold four_legs. rewrite two_old by (simpl; lia). apply two_x. Qed.
Lemma four_x1 (h : heap) k na nb : legs (four_legs h k na nb) (S (nleg h)) = mkLeg None k nb None.
Proof. unfold four_legs. rewrite two_old by (simpl; lia). apply two_y. Qed.
Lemma four_x2 (h : heap) k na nb : legs (four_legs h k na nb) (S (S (nleg h))) = mkLeg None k na None.
Proof. apply (two_x (two_legs h k na nb)). Qed.
Lemma four_x3 (h : heap) k na nb : legs (four_legs h k na nb) (S (S (S (nleg h)))) = mkLeg None k nb None.
Proof. apply (two_y (two_legs h k na nb)). Qed.

(** ** building *)
Section Build.
Variables (h h2 h3 h4 h6 : heap) (La Lb : list lid) (k : nat) (na nb : pname) (nm : lid -> pname) (u s v : tid) (x0 x1 x2 x3 : lid).
Hypothesis ET : u = ntens h /\ s = S u /\ v = S s.
Hypothesis EX : x0 = nleg h /\ x1 = S x0 /\ x2 = S x1 /\ x3 = S x2.
Hypothesis ND : NoDup (La ++ Lb).
Hypothesis AL : forall l, In l (La ++ Lb) -> l < nleg h.
Hypothesis N2 : new_tensor (four_legs h k na nb) h2 u (Some (La ++ [x0])).
Hypothesis N3 : new_tensor h2 h3 s (Some [x1; x2]).
Hypothesis N4 : new_tensor h3 h4 v (Some (x3 :: Lb)).
Hypothesis L2 : legs_of h2 u = La ++ [x0].
Hypothesis L3 : legs_of h3 s = [x1; x2].
Hypothesis L4 : legs_of h4 v = x3 :: Lb.
Hypothesis W2 : wf_tensor h2 u.
Hypothesis W3 : wf_tensor h3 s.
Hypothesis W4 : wf_tensor h4 v.
Hypothesis ON : only_names h4 h6 (La ++ Lb) nm.
Let h7 := linked_heap h6 x0 x1.
Let h8 := linked_heap h7 x3 x2.

Lemma bd_old l : l < nleg h -> ~ In l La -> ~ In l Lb -> legs h4 l = legs h l.
Proof.
  intros Hl NA NB. destruct (nt_legs _ _ _ _ N4) as (_ & O4). rewrite O4 by (intros [E|H]; [lia|tauto]).
  destruct (nt_legs _ _ _ _ N3) as (_ & O3). rewrite O3 by (intros [E|[E|[]]]; lia).
  destruct (nt_legs _ _ _ _ N2) as (_ & O2). rewrite O2. { now apply four_old. }
  rewrite in_app_iff. intros [H|[E|[]]]; [tauto|lia].
Qed.
Lemma bd_A l : In l La -> legs h4 l = mkLeg (Some u) (l_dim (legs h l)) (l_name (legs h l)) (l_bond (legs h l)).
Proof.
  intros Hl. assert (l < nleg h) as LT by (apply AL, in_app_iff; auto).
  destruct (nt_legs _ _ _ _ N4) as (_ & O4). rewrite O4 by (intros [E|H]; [lia|apply (NoDup_app_disj _ _ l ND); auto]).
  destruct (nt_legs _ _ _ _ N3) as (_ & O3). rewrite O3 by (intros [E|[E|[]]]; lia).
  destruct (nt_legs _ _ _ _ N2) as (I2 & _). rewrite I2 by (apply in_app_iff; auto). now rewrite four_old.
Qed.
Lemma bd_B l : In l Lb -> legs h4 l = mkLeg (Some v) (l_dim (legs h l)) (l_name (legs h l)) (l_bond (legs h l)).
Proof.
  intros Hl. assert (l < nleg h) as LT by (apply AL, in_app_iff; auto).
  destruct (nt_legs _ _ _ _ N4) as (I4 & _). rewrite I4 by (simpl; auto).
  destruct (nt_legs _ _ _ _ N3) as (_ & O3). rewrite !O3 by (intros [E|[E|[]]]; lia).
  destruct (nt_legs _ _ _ _ N2) as (_ & O2). rewrite !O2 by (rewrite in_app_iff; intros [H|[E|[]]]; [apply (NoDup_app_disj _ _ l ND); auto|lia]).
  now rewrite four_old.
Qed.
Lemma bd_x : legs h4 x0 = mkLeg (Some u) k na None /\ legs h4 x1 = mkLeg (Some s) k nb None /\
  legs h4 x2 = mkLeg (Some s) k na None /\ legs h4 x3 = mkLeg (Some v) k nb None.
Proof.
  assert (AA : forall l, In l La -> l < nleg h) by (intros; apply AL, in_app_iff; auto).
  assert (BB : forall l, In l Lb -> l < nleg h) by (intros; apply AL, in_app_iff; auto).
  destruct (nt_legs _ _ _ _ N4) as (I4 & O4). destruct (nt_legs _ _ _ _ N3) as (I3 & O3). destruct (nt_legs _ _ _ _ N2) as (I2 & O2).
  destruct EX as (E0 & E1 & E2 & E3).
  assert (Q0 := four_x0 h k na nb). assert (Q1 := four_x1 h k na nb). assert (Q2 := four_x2 h k na nb). assert (Q3 := four_x3 h k na nb).
  rewrite <- E0 in Q0, Q1, Q2, Q3. rewrite <- E1 in Q1, Q2, Q3. rewrite <- E2 in Q2, Q3. rewrite <- E3 in Q3.
  split; [|split; [|split]].
  - rewrite O4 by (intros [E|H]; [lia|apply BB in H; lia]). rewrite O3 by (intros [E|[E|[]]]; lia).
    rewrite I2 by (apply in_app_iff; simpl; auto). now rewrite Q0.
  - rewrite O4 by (intros [E|H]; [lia|apply BB in H; lia]). rewrite I3 by (simpl; auto).
    rewrite O2 by (rewrite in_app_iff; intros [H|[E|[]]]; [apply AA in H; lia|lia]). now rewrite Q1.
  - rewrite O4 by (intros [E|H]; [lia|apply BB in H; lia]). rewrite I3 by (simpl; auto).
    rewrite O2 by (rewrite in_app_iff; intros [H|[E|[]]]; [apply AA in H; lia|lia]). now rewrite Q2.
  - rewrite I4 by (simpl; auto). rewrite O3 by (intros [E|[E|[]]]; lia).
    rewrite O2 by (rewrite in_app_iff; intros [H|[E|[]]]; [apply AA in H; lia|lia]). now rewrite Q3.
Qed.
Lemma bd_n : nleg h4 = S x3 /\ nbond h4 = nbond h /\ ntens h4 = S v /\ bonds h4 = bonds h.
Proof.
  rewrite (nt_nleg _ _ _ _ N4), (nt_nleg _ _ _ _ N3), (nt_nleg _ _ _ _ N2), (nt_nbond _ _ _ _ N4), (nt_nbond _ _ _ _ N3), (nt_nbond _ _ _ _ N2).
  rewrite (nt_ntens _ _ _ _ N4), (nt_ntens _ _ _ _ N3), (nt_ntens _ _ _ _ N2), (nt_bonds _ _ _ _ N4), (nt_bonds _ _ _ _ N3), (nt_bonds _ _ _ _ N2).
  cbn [nleg nbond ntens bonds four_legs two_legs]. split; [lia|]. split; [reflexivity|]. split; [lia|reflexivity].
Qed.
Lemma bd_tens : tens h4 u = tens h2 u /\ tens h4 s = tens h3 s /\ forall t, t < ntens h -> tens h4 t = tens h t.
Proof.
  assert (X2 : ntens h2 = S (ntens h)) by (rewrite (nt_ntens _ _ _ _ N2); reflexivity).
  assert (X3 : ntens h3 = S (S (ntens h))) by (rewrite (nt_ntens _ _ _ _ N3); lia).
  split; [|split].
  - rewrite (nt_tens _ _ _ _ N4) by lia. rewrite (nt_tens _ _ _ _ N3) by lia. reflexivity.
  - rewrite (nt_tens _ _ _ _ N4) by lia. reflexivity.
  - intros t Ht. rewrite (nt_tens _ _ _ _ N4) by lia. rewrite (nt_tens _ _ _ _ N3) by lia. rewrite (nt_tens _ _ _ _ N2) by (simpl; lia). reflexivity.
Qed.
Lemma bd_6 : (forall l, ~ In l (La ++ Lb) -> legs h6 l = legs h4 l) /\ legs h6 x0 = mkLeg (Some u) k na None /\ legs h6 x1 = mkLeg (Some s) k nb None /\
  legs h6 x2 = mkLeg (Some s) k na None /\ legs h6 x3 = mkLeg (Some v) k nb None.
Proof.
  destruct bd_x as (Q0 & Q1 & Q2 & Q3). pose proof (on_out _ _ _ _ ON) as O. split; auto.
  rewrite !O by (intros H; apply AL in H; lia). auto.
Qed.
Lemma bd_8 l : l <> x0 -> l <> x1 -> l <> x2 -> l <> x3 -> legs h8 l = legs h6 l.
Proof. intros. unfold h8, h7, linked_heap. cbn [legs]. now rewrite !upd_other by auto. Qed.
Lemma bd_8x : legs h8 x0 = mkLeg (Some u) k na (Some (nbond h)) /\ legs h8 x1 = mkLeg (Some s) k nb (Some (nbond h)) /\
  legs h8 x2 = mkLeg (Some s) k na (Some (S (nbond h))) /\ legs h8 x3 = mkLeg (Some v) k nb (Some (S (nbond h))).
Proof.
  destruct bd_6 as (_ & Q0 & Q1 & Q2 & Q3). assert (NB : nbond h6 = nbond h) by (rewrite (on_nbond _ _ _ _ ON); apply bd_n).
  assert (NB7 : nbond h7 = S (nbond h)) by (unfold h7, linked_heap; cbn [nbond]; now rewrite NB).
  assert (Q7 : forall l, l <> x0 -> l <> x1 -> legs h7 l = legs h6 l) by (intros; unfold h7, linked_heap; cbn [legs]; now rewrite !upd_other by auto).
  assert (Z0 : legs h7 x0 = mkLeg (Some u) k na (Some (nbond h))).
  { unfold h7, linked_heap. cbn [legs]. rewrite upd_other by lia. rewrite upd_same. unfold with_bond. now rewrite Q0, NB. }
  assert (Z1 : legs h7 x1 = mkLeg (Some s) k nb (Some (nbond h))).
  { unfold h7, linked_heap. cbn [legs]. rewrite upd_same. rewrite upd_other by lia. unfold with_bond. now rewrite Q1, NB. }
  unfold h8, linked_heap. cbn [legs]. rewrite NB7. split; [|split; [|split]].
  - now rewrite !upd_other by lia.
  - now rewrite !upd_other by lia.
  - rewrite upd_same. rewrite upd_other by lia. unfold with_bond. rewrite Q7 by lia. now rewrite Q2.
  - rewrite upd_other by lia. rewrite upd_same. unfold with_bond. rewrite Q7 by lia. now rewrite Q3.
Qed.
Lemma bd_dim l : dim_of h8 l = dim_of h4 l.
Proof.
  destruct bd_8x as (Z0 & Z1 & Z2 & Z3), bd_x as (Q0 & Q1 & Q2 & Q3). unfold dim_of.
  destruct (Nat.eq_dec l x0) as [->|M0]; [now rewrite Z0, Q0|]. destruct (Nat.eq_dec l x1) as [->|M1]; [now rewrite Z1, Q1|].
  destruct (Nat.eq_dec l x2) as [->|M2]; [now rewrite Z2, Q2|]. destruct (Nat.eq_dec l x3) as [->|M3]; [now rewrite Z3, Q3|].
  rewrite bd_8 by auto. destruct (in_dec Nat.eq_dec l (La ++ Lb)) as [H|H]; [rewrite (on_in _ _ _ _ ON) by auto; reflexivity|now rewrite (on_out _ _ _ _ ON)].
Qed.
Lemma bd_links {X} (F : @M A X) : (makeLink [RLeg x0] [RLeg x1] None None ;;; makeLink [RLeg x3] [RLeg x2] None None ;;; F) h6 = F h8.
Proof.
  destruct bd_6 as (_ & Q0 & Q1 & Q2 & Q3). unfold bind at 1. rewrite makeLink1 by (unfold dim_of; now rewrite Q0, Q1). fold h7.
  unfold bind at 1. rewrite makeLink1. { reflexivity. }
  unfold dim_of, h7, linked_heap. cbn [legs]. rewrite !upd_other by lia. now rewrite Q2, Q3.
Qed.
Lemma bd_made : triple_made h h8 La Lb k na nb nm u s v x0 x1 x2 x3 /\ tens h8 = tens h4.
Proof.
  destruct bd_n as (E1 & E2 & E3 & E4). destruct bd_8x as (Z0 & Z1 & Z2 & Z3). destruct bd_tens as (T1 & T2 & T3).
  assert (T8 : tens h8 = tens h4) by (unfold h8, h7, linked_heap; cbn [tens]; apply ON).
  assert (NB : nbond h6 = nbond h) by (rewrite (on_nbond _ _ _ _ ON); auto).
  assert (N8 : nleg h8 = nleg h4) by (unfold h8, h7, linked_heap; cbn [nleg]; apply ON).
  assert (M8 : ntens h8 = ntens h4) by (unfold h8, h7, linked_heap; cbn [ntens]; apply ON).
  assert (D2 : forall l, In l (La ++ [x0]) -> dim_of h4 l = dim_of h2 l).
  { intros l Hl. unfold dim_of. destruct (nt_legs _ _ _ _ N2) as (I2 & _). rewrite I2 by auto. apply in_app_iff in Hl. destruct Hl as [Hl|[<-|[]]].
    - rewrite bd_A by auto. rewrite four_old by (apply AL, in_app_iff; auto). reflexivity.
    - destruct bd_x as (-> & _). destruct EX as (-> & _). now rewrite four_x0. }
  assert (D3 : forall l, In l [x1; x2] -> dim_of h4 l = dim_of h3 l).
  { intros l Hl. unfold dim_of. destruct (nt_legs _ _ _ _ N4) as (_ & O4). rewrite O4; auto. intros H.
    assert (l < nleg h \/ l = x3) as X by (destruct H as [->|H]; [auto|left; apply AL, in_app_iff; auto]). simpl in Hl. lia. }
  split; [|exact T8]. constructor; auto.
  - lia.
  - lia.
  - unfold h8, h7, linked_heap. cbn [nbond]. now rewrite NB.
  - unfold h8, h7, linked_heap. cbn [bonds nbond]. rewrite NB. rewrite upd_other by lia. now rewrite upd_same.
  - unfold h8, h7, linked_heap. cbn [bonds nbond]. rewrite NB. now rewrite upd_same.
  - intros b Hb. unfold h8, h7, linked_heap. cbn [bonds nbond]. rewrite NB. rewrite !upd_other by lia. rewrite (on_bonds _ _ _ _ ON). now rewrite E4.
  - intros l Hl. assert (In l (La ++ Lb)) as Hl' by (apply in_app_iff; auto). pose proof (AL l Hl'). rewrite bd_8 by lia. rewrite (on_in _ _ _ _ ON) by auto. rewrite bd_A by auto. reflexivity.
  - intros l Hl. assert (In l (La ++ Lb)) as Hl' by (apply in_app_iff; auto). pose proof (AL l Hl'). rewrite bd_8 by lia. rewrite (on_in _ _ _ _ ON) by auto. rewrite bd_B by auto. reflexivity.
  - intros l Hl NI. rewrite bd_8 by lia. rewrite (on_out _ _ _ _ ON) by auto. rewrite in_app_iff in NI. apply bd_old; tauto.
  - intros t Ht. rewrite T8. auto.
  - unfold legs_of in *. now rewrite T8, T1.
  - unfold legs_of in *. now rewrite T8, T2.
  - unfold legs_of in *. now rewrite T8.
  - apply (wf_same h2 h8); auto; [now rewrite T8| | |].
    + rewrite L2. intros l Hl. rewrite bd_dim. auto.
    + rewrite N8, E1, (nt_nleg _ _ _ _ N2). cbn [nleg four_legs two_legs]. lia.
    + rewrite M8, E3, (nt_ntens _ _ _ _ N2). cbn [ntens four_legs two_legs]. lia.
  - apply (wf_same h3 h8); auto; [now rewrite T8| | |].
    + rewrite L3. intros l Hl. rewrite bd_dim. auto.
    + rewrite N8, E1, (nt_nleg _ _ _ _ N3), (nt_nleg _ _ _ _ N2). cbn [nleg four_legs two_legs]. lia.
    + rewrite M8, E3, (nt_ntens _ _ _ _ N3), (nt_ntens _ _ _ _ N2). cbn [ntens four_legs two_legs]. lia.
  - apply (wf_same h4 h8); auto; [now rewrite T8| | |]; [|lia|lia].
    intros l _. apply bd_dim.
Qed.
End Build.

(** ** consequences *)
Section TR.
Variables (h h' : heap) (La Lb : list lid) (k : nat) (na nb : pname) (nm : lid -> pname) (u s v : tid) (x0 x1 x2 x3 : lid) (G rest : list tid).
Hypothesis TR : triple_made h h' La Lb k na nb nm u s v x0 x1 x2 x3.
Hypothesis WO : wf_open h (G ++ rest).
Hypothesis HP : Permutation (La ++ Lb) (free_legs h G).
Hypothesis NL : forall l l', In l (La ++ Lb) -> In l' (La ++ Lb) -> ~ linked h l l'.

Lemma tr_group : group_made h h' (La ++ Lb) [u; s; v] [x0; x1; x2; x3].
Proof.
  pose proof (tr_x _ _ _ _ _ _ _ _ _ _ _ _ _ _ _ TR) as EX. pose proof (tr_t _ _ _ _ _ _ _ _ _ _ _ _ _ _ _ TR) as ET.
  pose proof (tr_x0 _ _ _ _ _ _ _ _ _ _ _ _ _ _ _ TR) as Z0. pose proof (tr_x1 _ _ _ _ _ _ _ _ _ _ _ _ _ _ _ TR) as Z1.
  pose proof (tr_x2 _ _ _ _ _ _ _ _ _ _ _ _ _ _ _ TR) as Z2. pose proof (tr_x3 _ _ _ _ _ _ _ _ _ _ _ _ _ _ _ TR) as Z3.
  pose proof (tr_b0 _ _ _ _ _ _ _ _ _ _ _ _ _ _ _ TR) as B0. pose proof (tr_b1 _ _ _ _ _ _ _ _ _ _ _ _ _ _ _ TR) as B1.
  pose proof (tr_u _ _ _ _ _ _ _ _ _ _ _ _ _ _ _ TR) as LU. pose proof (tr_s _ _ _ _ _ _ _ _ _ _ _ _ _ _ _ TR) as LS.
  pose proof (tr_v _ _ _ _ _ _ _ _ _ _ _ _ _ _ _ TR) as LV. pose proof (tr_nbond _ _ _ _ _ _ _ _ _ _ _ _ _ _ _ TR) as NB.
  pose proof (tr_nleg _ _ _ _ _ _ _ _ _ _ _ _ _ _ _ TR) as NG. pose proof (tr_ntens _ _ _ _ _ _ _ _ _ _ _ _ _ _ _ TR) as NT.
  constructor.
  - intros t [<-|[<-|[<-|[]]]]; apply TR.
  - intros t Ht l Hl. destruct Ht as [<-|[<-|[<-|[]]]].
    + rewrite LU in Hl. apply in_app_iff in Hl. destruct Hl as [Hl|[<-|[]]]; [now rewrite (tr_A _ _ _ _ _ _ _ _ _ _ _ _ _ _ _ TR)|now rewrite Z0].
    + rewrite LS in Hl. destruct Hl as [<-|[<-|[]]]; [now rewrite Z1|now rewrite Z2].
    + rewrite LV in Hl. destruct Hl as [<-|Hl]; [now rewrite Z3|now rewrite (tr_B _ _ _ _ _ _ _ _ _ _ _ _ _ _ _ TR)].
  - repeat constructor; simpl; lia.
  - simpl. intros t Ht. lia.
  - unfold all_legs. cbn [flat_map]. rewrite LU, LS, LV, app_nil_r. rewrite <- !app_assoc. apply Permutation_app_head. cbn [app].
    change (x0 :: x1 :: x2 :: x3 :: Lb) with ([x0; x1; x2; x3] ++ Lb). apply Permutation_app_comm.
  - repeat constructor; simpl; lia.
  - simpl. intros l Hl. lia.
  - unfold dim_of, ends. intros l Hl. simpl in Hl. destruct Hl as [<-|[<-|[<-|[<-|[]]]]].
    + exists x1, (nbond h). rewrite Z0, Z1, B0. simpl. repeat (split; [auto; lia|]). intros [=]. lia.
    + exists x0, (nbond h). rewrite Z0, Z1, B0. simpl. repeat (split; [auto; lia|]). intros [=]. lia.
    + exists x3, (S (nbond h)). rewrite Z2, Z3, B1. simpl. repeat (split; [auto; lia|]). intros [=]. lia.
    + exists x2, (S (nbond h)). rewrite Z2, Z3, B1. simpl. repeat (split; [auto; lia|]). intros [=]. lia.
  - intros l Hl. unfold dim_of. apply in_app_iff in Hl. destruct Hl as [Hl|Hl];
      [rewrite (tr_A _ _ _ _ _ _ _ _ _ _ _ _ _ _ _ TR) by auto|rewrite (tr_B _ _ _ _ _ _ _ _ _ _ _ _ _ _ _ TR) by auto]; auto.
  - apply (tr_o _ _ _ _ _ _ _ _ _ _ _ _ _ _ _ TR).
  - apply (tr_bonds _ _ _ _ _ _ _ _ _ _ _ _ _ _ _ TR).
  - apply (tr_tens _ _ _ _ _ _ _ _ _ _ _ _ _ _ _ TR).
  - lia.
  - lia.
  - lia.
Qed.

Lemma tr_lk : linked h' x0 x1 /\ linked h' x2 x3.
Proof.
  split; [exists (nbond h)|exists (S (nbond h))]; unfold ends.
  - rewrite (tr_x0 _ _ _ _ _ _ _ _ _ _ _ _ _ _ _ TR), (tr_b0 _ _ _ _ _ _ _ _ _ _ _ _ _ _ _ TR). auto.
  - rewrite (tr_x2 _ _ _ _ _ _ _ _ _ _ _ _ _ _ _ TR), (tr_b1 _ _ _ _ _ _ _ _ _ _ _ _ _ _ _ TR). auto.
Qed.
Lemma pairs_none (hh : heap) L1 L2 : (forall l l', In l L1 -> In l' L2 -> ~ linked hh l l') -> pairs_between hh L1 L2 = [].
Proof.
  induction L1 as [|l L IH]; intros X; auto. unfold pairs_between in *. cbn [flat_map]. rewrite IH by (intros; apply X; simpl; auto). rewrite app_nil_r.
  destruct (partner hh l) as [l'|] eqn:EP; auto. destruct (inb l' L2) eqn:EI; auto. exfalso.
  apply inb_true in EI. apply partner_Some in EP. apply (X l l'); simpl; auto.
Qed.
Lemma pairs_one (hh : heap) l l' L2 : linked hh l l' -> In l' L2 -> pairs_between hh [l] L2 = [(l, l')].
Proof. intros LK Hl. unfold pairs_between. cbn [flat_map]. apply partner_Some in LK. rewrite LK. apply inb_true in Hl. rewrite Hl. reflexivity. Qed.

Lemma tr_far l l' : In l (La ++ Lb) -> linked h' l l' -> ~ In l' [x0; x1; x2; x3] /\ ~ In l' (La ++ Lb).
Proof.
  intros Hl LK. pose proof tr_group as GM. apply (gm_linked _ _ _ _ _ _ _ GM WO) in LK; [|now apply (gm_all _ _ _ _ HP)].
  split.
  - intros H. apply (gm_new _ _ _ _ _ GM) in H. pose proof (wo_alloc _ _ WO l l' (gm_all _ _ _ _ HP l Hl) LK). lia.
  - intros H. now apply (NL l l').
Qed.
Lemma tr_inner : inner h' [u; s; v] = [(x0, x1); (x2, x3)].
Proof.
  destruct tr_lk as (K0 & K2). pose proof (tr_x _ _ _ _ _ _ _ _ _ _ _ _ _ _ _ TR) as EX.
  assert (AA : forall l, In l La -> In l (La ++ Lb)) by (intros; apply in_app_iff; auto).
  assert (BB : forall l, In l Lb -> In l (La ++ Lb)) by (intros; apply in_app_iff; auto).
  assert (BN : forall l, In l (La ++ Lb) -> l < nleg h) by (intros l Hl; apply (gm_lt _ _ _ _ WO HP _ Hl)).
  cbn [inner]. unfold all_legs. cbn [flat_map]. rewrite !app_nil_r.
  rewrite (tr_u _ _ _ _ _ _ _ _ _ _ _ _ _ _ _ TR), (tr_s _ _ _ _ _ _ _ _ _ _ _ _ _ _ _ TR), (tr_v _ _ _ _ _ _ _ _ _ _ _ _ _ _ _ TR).
  rewrite pairs_between_app. rewrite (pairs_none h' La).
  2:{ intros l l' Hl Hl' LK. destruct (tr_far l l' (AA l Hl) LK) as (F1 & F2). cbn [app In] in Hl'. destruct Hl' as [<-|[<-|[<-|H]]]; try (apply F1; simpl; auto; fail). apply F2; auto. }
  rewrite (pairs_one h' x0 x1) by (simpl; auto). change [x1; x2] with ([x1] ++ [x2]). rewrite (pairs_between_app h' [x1] [x2]).
  rewrite (pairs_none h' [x1]).
  2:{ intros l l' Hl Hl' LK. destruct Hl as [<-|[]]. assert (linked h' x1 x0) as K1.
      { exists (nbond h). unfold ends. rewrite (tr_x1 _ _ _ _ _ _ _ _ _ _ _ _ _ _ _ TR), (tr_b0 _ _ _ _ _ _ _ _ _ _ _ _ _ _ _ TR). auto. }
      pose proof (linked_fun _ _ _ _ LK K1) as ->. destruct Hl' as [E|H]; [lia|]. apply BB, BN in H. lia. }
  rewrite (pairs_one h' x2 x3) by (simpl; auto). rewrite (pairs_none h' (x3 :: Lb) []) by (intros; simpl in *; tauto). reflexivity.
Qed.

Lemma tr_shared_us : shared h' u s = [(x0, x1)] /\ shared h' s v = [(x2, x3)] /\ shared h' u v = [].
Proof.
  destruct tr_lk as (K0 & K2). pose proof (tr_x _ _ _ _ _ _ _ _ _ _ _ _ _ _ _ TR) as EX.
  assert (AA : forall l, In l La -> In l (La ++ Lb)) by (intros; apply in_app_iff; auto).
  assert (BB : forall l, In l Lb -> In l (La ++ Lb)) by (intros; apply in_app_iff; auto).
  assert (BN : forall l, In l (La ++ Lb) -> l < nleg h) by (intros l Hl; apply (gm_lt _ _ _ _ WO HP _ Hl)).
  unfold shared. rewrite (tr_u _ _ _ _ _ _ _ _ _ _ _ _ _ _ _ TR), (tr_s _ _ _ _ _ _ _ _ _ _ _ _ _ _ _ TR), (tr_v _ _ _ _ _ _ _ _ _ _ _ _ _ _ _ TR).
  split; [|split].
  - rewrite pairs_between_app. rewrite (pairs_none h' La); [now rewrite (pairs_one h' x0 x1) by (simpl; auto)|].
    intros l l' Hl Hl' LK. destruct (tr_far l l' (AA l Hl) LK) as (F1 & F2). apply F1. simpl in *. tauto.
  - change [x1; x2] with ([x1] ++ [x2]). rewrite (pairs_between_app h' [x1] [x2]).
    rewrite (pairs_none h' [x1]); [now rewrite (pairs_one h' x2 x3) by (simpl; auto)|].
    intros l l' Hl Hl' LK. destruct Hl as [<-|[]]. assert (linked h' x1 x0) as K1.
    { exists (nbond h). unfold ends. rewrite (tr_x1 _ _ _ _ _ _ _ _ _ _ _ _ _ _ _ TR), (tr_b0 _ _ _ _ _ _ _ _ _ _ _ _ _ _ _ TR). auto. }
    pose proof (linked_fun _ _ _ _ LK K1) as ->. destruct Hl' as [E|H]; [lia|]. apply BB, BN in H. lia.
  - rewrite pairs_between_app. rewrite (pairs_none h' La), (pairs_none h' [x0]); auto.
    + intros l l' Hl Hl' LK. destruct Hl as [<-|[]]. pose proof (linked_fun _ _ _ _ LK K0) as ->. destruct Hl' as [E|H]; [lia|]. apply BB, BN in H. lia.
    + intros l l' Hl Hl' LK. destruct (tr_far l l' (AA l Hl) LK) as (F1 & F2). destruct Hl' as [<-|H]; [apply F1; simpl; auto|apply F2; auto].
Qed.

(** the value of the three tensors together *)
Lemma tr_value (sA : arr A) a : t_diag (tens h' s) = true -> t_arr (tens h' s) = Some sA ->
  netval h' [u; s; v] a = sumN k (fun i => rmul (entry h' u (upd a x0 i)) (rmul (aget sA [i]) (entry h' v (upd a x3 i)))).
Proof.
  intros DS ES. pose proof (tr_x _ _ _ _ _ _ _ _ _ _ _ _ _ _ _ TR) as EX.
  assert (BN : forall l, In l (La ++ Lb) -> l < nleg h) by (intros l Hl; apply (gm_lt _ _ _ _ WO HP _ Hl)).
  unfold netval. rewrite tr_inner. cbn [sumpairs]. unfold dim_of at 1 2. rewrite (tr_x0 _ _ _ _ _ _ _ _ _ _ _ _ _ _ _ TR), (tr_x2 _ _ _ _ _ _ _ _ _ _ _ _ _ _ _ TR). cbn [l_dim].
  apply sumN_ext. intros i Hi. rewrite (sumN_single k _ i).
  - cbn [prod_entries]. rewrite (rmul_comm _ r1), rmul_1_l. f_equal.
    + apply entry_ext. rewrite (tr_u _ _ _ _ _ _ _ _ _ _ _ _ _ _ _ TR). intros l Hl. apply in_app_iff in Hl. destruct Hl as [Hl|[<-|[]]].
      * assert (l < nleg h) by (apply BN, in_app_iff; auto). now rewrite !upd_other by lia.
      * rewrite !upd_other by lia. now rewrite !upd_same.
    + f_equal.
      * apply entry_diag_all; auto; rewrite (tr_s _ _ _ _ _ _ _ _ _ _ _ _ _ _ _ TR); [discriminate|]. intros l [<-|[<-|[]]].
        -- rewrite !upd_other by lia. now rewrite upd_same.
        -- rewrite upd_other by lia. now rewrite upd_same.
      * apply entry_ext. rewrite (tr_v _ _ _ _ _ _ _ _ _ _ _ _ _ _ _ TR). intros l [<-|Hl].
        -- now rewrite !upd_same.
        -- assert (l < nleg h) by (apply BN, in_app_iff; auto). now rewrite !upd_other by lia.
  - auto.
  - intros j Hj NE. cbn [prod_entries]. rewrite (entry_diag_ne h' s sA _ x1 x2) ; auto.
    + rewrite rmul_0_l, (rmul_comm _ r0), rmul_0_l. reflexivity.
    + rewrite (tr_s _ _ _ _ _ _ _ _ _ _ _ _ _ _ _ TR); simpl; auto.
    + rewrite (tr_s _ _ _ _ _ _ _ _ _ _ _ _ _ _ _ TR); simpl; auto.
    + assert (upd (upd (upd (upd a x0 i) x1 i) x2 j) x3 j x1 = i) as -> by (rewrite !upd_other by lia; apply upd_same).
      assert (upd (upd (upd (upd a x0 i) x1 i) x2 j) x3 j x2 = j) as -> by (rewrite upd_other by lia; apply upd_same). auto.
Qed.
End TR.
End Tp.
