(** Histories of FiniteTensorNetwork objects: locking and shared name lists. *)
From Coq Require Import List Arith Bool String Lia Permutation.
From Verif Require Import Base NdModel HeapModel FuncsModel TensorModel ContractModel NetGraphModel FtnModel FtnSpec FuncsProofs TensorProofs.
Import ListNotations.
Local Open Scope nat_scope.

Section Fp.
Context {A : Type} {HA : SR A}.
Variable symdiff : list nat -> list nat -> list nat.
Variable fuel : nat.
Notation world := (world A).
Notation op := (op A).
Notation perform := (perform symdiff fuel).
Notation run := (run symdiff fuel).
Notation contract := (contract symdiff fuel).

Lemma locked_refuses (w : world) f o : f_locked (w_ftn w f) = true -> edits f o -> perform o w = (w, Err AssertionError).
Proof. intros L E. destruct E; cbn [FtnModel.perform]; unfold addTensor, removeTensor, addLink, addPre, addPost, removePre, removePost, addOut, wbind, checkLock, wbind, wreads; rewrite L; reflexivity. Qed.

(** ** What contract does to the network objects *)
Definition kept (f : nat) (w w' : world) : Prop :=
  w_names w' = w_names w /\ w_nnames w' = w_nnames w /\ w_nftn w' = w_nftn w /\ (forall g, g <> f -> w_ftn w' g = w_ftn w g) /\
  same_structure (w_ftn w f) (w_ftn w' f) /\ (f_locked (w_ftn w f) = true -> f_locked (w_ftn w' f) = true).
Lemma same_structure_refl r : same_structure r r. Proof. unfold same_structure. tauto. Qed.
Lemma same_structure_trans r r' r'' : same_structure r r' -> same_structure r' r'' -> same_structure r r''.
Proof. unfold same_structure. intuition congruence. Qed.
Lemma kept_refl f w : kept f w w. Proof. repeat split; auto. Qed.
Lemma kept_trans f w1 w2 w3 : kept f w1 w2 -> kept f w2 w3 -> kept f w1 w3.
Proof.
  intros (H1 & H2 & H3 & H4 & H5 & H6) (K1 & K2 & K3 & K4 & K5 & K6). split; [congruence|]. split; [congruence|]. split; [congruence|].
  split; [intros g Hg; rewrite K4, H4; auto|]. split; [eapply same_structure_trans; eauto|auto].
Qed.
Definition keeps {X} (f : nat) (m : @WM A X) : Prop := forall w, kept f w (fst (m w)).
Lemma keeps_bind {X Y} f (m : @WM A X) (k : X -> @WM A Y) : keeps f m -> (forall x, keeps f (k x)) -> keeps f (wbind m k).
Proof.
  intros Hm Hk w. unfold wbind. specialize (Hm w). destruct (m w) as (w' & [x|e]); simpl in *; auto. eapply kept_trans; eauto. apply Hk.
Qed.
Lemma keeps_ret {X} f (x : X) : keeps f (wret x). Proof. intros w. apply kept_refl. Qed.
Lemma keeps_reads {X} f (g : world -> X) : keeps f (wreads g). Proof. intros w. apply kept_refl. Qed.
Lemma keeps_assert f b : keeps f (@wassert A b). Proof. intros w. destruct b; apply kept_refl. Qed.
Lemma keeps_lift {X} f (m : @M A X) : keeps f (lift m).
Proof. intros w. unfold lift. destruct (m (w_heap w)) as (h & r). simpl. unfold kept. simpl. repeat split; auto. Qed.
Lemma keeps_setF f (g : ftn -> ftn) : (forall r, same_structure r (g r) /\ (f_locked r = true -> f_locked (g r) = true)) -> keeps f (@setF A f g).
Proof.
  intros H w. unfold setF, kept. simpl. repeat (split; [reflexivity|]). split; [intros g' Hg; now rewrite upd_other|]. rewrite upd_same. apply H.
Qed.
Ltac kb := repeat first [apply keeps_bind; [|intros ?] | apply keeps_ret | apply keeps_reads | apply keeps_assert | apply keeps_lift
  | apply keeps_setF; intros r'; split; [solve [repeat split]|solve [auto]] ].
Lemma keeps_contract f d b : keeps f (contract f d b).
Proof.
  unfold FtnModel.contract. kb.
  - apply keeps_setF. intros r'. destruct (loadBondDims _ _ _) as (m & ch). split; [solve [repeat split]|simpl; auto].
  - destruct (f_seq _) as [sq|]; [destruct (_ && _)|]; kb.
  - destruct b; kb.
Qed.
Lemma contract_locks f d b (w : world) : f_locked (w_ftn (fst (contract f d b w)) f) = true.
Proof.
  unfold FtnModel.contract. unfold wbind at 1. unfold lock at 1. unfold setF at 1.
  match goal with |- f_locked (w_ftn (fst (?m ?w1)) f) = true => set (K := m); set (w1' := w1) end.
  assert (keeps f K) as KK.
  { unfold K. kb.
    - apply keeps_setF. intros r'. destruct (loadBondDims _ _ _) as (m & ch). split; [solve [repeat split]|simpl; auto].
    - destruct (f_seq _) as [sq|]; [destruct (_ && _)|]; kb.
    - destruct b; kb. }
  apply (KK w1'). unfold w1'. simpl. now rewrite upd_same.
Qed.
Lemma contract_kept f d b (w : world) : kept f w (fst (contract f d b w)).
Proof. apply keeps_contract. Qed.
Lemma fst_void {X} (m : @WM A X) w : fst (wvoid m w) = fst (m w).
Proof. unfold wvoid, wbind. destruct (m w) as (w' & [x|e]); reflexivity. Qed.

(** ** One operation seen by network [f] *)
Definition aims (f : nat) (o : op) : Prop := edits f o \/ o = OUnlock f \/ o = OLock f \/ exists d b, o = OContract f d b.
Ltac edit_case := unfold wbind, checkLock, wreads, wassert, wbind, setNames, setF, wret, wraise.

Lemma checkLock_cases (w : world) f : checkLock f w = (w, if f_locked (w_ftn w f) then Err AssertionError else Ok tt).
Proof. unfold checkLock, wbind, wreads, wassert. destruct (f_locked (w_ftn w f)); reflexivity. Qed.

(** what an operation can do to the world *)
Inductive effect (w : world) (o : op) : world -> Prop :=
| ef_none : effect w o w
| ef_names g s l : (o = OAdd g s \/ o = ORemove g s) -> f_locked (w_ftn w g) = false ->
    effect w o (mkWorld (w_heap w) (upd (w_names w) (f_names (w_ftn w g)) l) (w_nnames w) (w_ftn w) (w_nftn w))
| ef_ftn g F : aims g o -> f_names (F (w_ftn w g)) = f_names (w_ftn w g) ->
    effect w o (mkWorld (w_heap w) (w_names w) (w_nnames w) (upd (w_ftn w) g (F (w_ftn w g))) (w_nftn w))
| ef_list l : effect w o (mkWorld (w_heap w) (upd (w_names w) (w_nnames w) l) (S (w_nnames w)) (w_ftn w) (w_nftn w))
| ef_new r : effect w o (mkWorld (w_heap w) (w_names w) (w_nnames w) (upd (w_ftn w) (w_nftn w) r) (S (w_nftn w)))
| ef_heap h : effect w o (mkWorld h (w_names w) (w_nnames w) (w_ftn w) (w_nftn w))
| ef_contract g d b w' : o = OContract g d b -> kept g w w' -> effect w o w'.
Lemma perform_effect (w : world) o : effect w o (fst (perform o w)).
Proof.
  destruct o; cbn [FtnModel.perform]; rewrite ?fst_void;
    unfold addTensor, removeTensor, addLink, addPre, addPost, removePre, removePost, addOut;
    try (match goal with |- context [checkLock ?g] => unfold wbind at 1; rewrite (checkLock_cases w g); destruct (f_locked (w_ftn w g)) eqn:EL; [apply ef_none|] end);
    unfold wbind, wreads, setNames, setF, newList, newFtn, lock, unlock, setF, wraise; simpl;
    try (match goal with |- context [remove_one ?a ?b] => destruct (remove_one a b); simpl; [|apply ef_none] end).
  - apply ef_list.
  - apply ef_new.
  - eapply ef_names; eauto.
  - eapply ef_names; eauto.
  - apply (ef_ftn w _ f (set_locked true)); auto. unfold aims; auto.
  - apply (ef_ftn w _ f (set_locked false)); auto. unfold aims; auto.
  - apply (ef_ftn w _ f (fun r => set_links (f_links r ++ _) r)); auto. left. constructor.
  - apply (ef_ftn w _ f (fun r => set_before (f_before r ++ _) r)); auto. left. constructor.
  - apply (ef_ftn w _ f (fun r => set_after (f_after r ++ _) r)); auto. left. constructor.
  - apply (ef_ftn w _ f (set_before l)); auto. left. constructor.
  - apply (ef_ftn w _ f (set_after l)); auto. left. constructor.
  - apply (ef_ftn w _ f (fun r => set_out (f_out r ++ _) r)); auto. left. constructor.
  - eapply ef_contract; [reflexivity|apply contract_kept].
  - apply ef_heap.
Qed.

(** edits of other networks leave the record of [f] alone *)
Lemma perform_other (w : world) f o : f < w_nftn w -> ~ aims f o -> w_ftn (fst (perform o w)) f = w_ftn w f /\ f < w_nftn (fst (perform o w)).
Proof.
  intros Hf NA. destruct (perform_effect w o) as [|g s l O L|g F AI N|l|r|h|g d b w' O K]; simpl; auto.
  - rewrite upd_other; auto. intros ->. auto.
  - rewrite upd_other by lia. auto.
  - destruct K as (_ & _ & E & K & _). rewrite E. split; auto. apply K. intros ->. apply NA. unfold aims. eauto 6.
Qed.

(** a network that is locked stays as it is until it is unlocked *)
Lemma perform_locked (w : world) f o : f < w_nftn w -> f_locked (w_ftn w f) = true -> o <> OUnlock f ->
  f < w_nftn (fst (perform o w)) /\ f_locked (w_ftn (fst (perform o w)) f) = true /\ same_structure (w_ftn w f) (w_ftn (fst (perform o w)) f).
Proof.
  intros Hf L NU.
  assert (D : aims f o \/ ~ aims f o).
  { assert (Y : forall g, g <> f -> forall o', (forall x, edits x o' -> x = g) -> (o' <> OUnlock f) -> (o' <> OLock f) -> (forall d b, o' <> OContract f d b) -> ~ aims f o').
    { intros g Ng o' H1 H2 H3 H4 [X|[X|[X|(d & b & X)]]]; auto. apply H1 in X. congruence. exact (H4 _ _ X). }
    destruct o; try (solve [right; intros [X|[X|[X|(d0 & b0 & X)]]]; [inversion X|discriminate X..]]);
    (destruct (Nat.eq_dec f0 f) as [->|N]; [left; unfold aims; eauto 6 using @edits|right; apply (Y f0 N); [intros x X; inversion X; auto|congruence..]]). }
  destruct D as [[E|[->|[->|(d & b & ->)]]]|NA].
  - rewrite (locked_refuses w f o L E). simpl. split; auto. split; auto. apply same_structure_refl.
  - congruence.
  - cbn [FtnModel.perform]. unfold lock, setF. simpl. rewrite upd_same. simpl. split; auto. split; auto. repeat split.
  - cbn [FtnModel.perform]. rewrite fst_void. destruct (contract_kept f d b w) as (_ & _ & E & _ & S1 & S2). rewrite E. auto.
  - destruct (perform_other w f o Hf NA) as (E & E2). rewrite E. split; auto. split; auto. apply same_structure_refl.
Qed.
Lemma run_cons o os (w : world) : run (o :: os) w = run os (fst (perform o w)). Proof. reflexivity. Qed.

Theorem locked_until_unlock (os : list op) f : forall w : world, f < w_nftn w -> f_locked (w_ftn w f) = true -> ~ In (OUnlock f) os ->
  f_locked (w_ftn (run os w) f) = true /\ same_structure (w_ftn w f) (w_ftn (run os w) f).
Proof.
  induction os as [|o os IH]; intros w Hf L N.
  - split; auto. apply same_structure_refl.
  - rewrite run_cons. destruct (perform_locked w f o Hf L) as (H1 & H2 & H3); [intros ->; apply N; simpl; auto|].
    destruct (IH _ H1 H2) as (H4 & H5); [intros X; apply N; simpl; auto|]. split; auto. eapply same_structure_trans; eauto.
Qed.

(** ** Lists of names *)
Lemma perform_names (w : world) o n : n < w_nnames w -> n < w_nnames (fst (perform o w)) /\
  (w_names (fst (perform o w)) n <> w_names w n ->
   exists g s, (o = OAdd g s \/ o = ORemove g s) /\ f_names (w_ftn w g) = n /\ f_locked (w_ftn w g) = false).
Proof.
  intros Hn. destruct (perform_effect w o) as [|g s l O L|g F AI N|l|r|h|g d b w' O K]; simpl; try (split; [auto; lia|congruence]).
  - split; auto. destruct (Nat.eq_dec n (f_names (w_ftn w g))) as [->|N]; [|rewrite upd_other by auto; congruence]. intros _. exists g, s. auto.
  - split; [lia|]. rewrite upd_other by lia. congruence.
  - destruct K as (E & E2 & _). rewrite E, E2. split; auto. congruence.
Qed.

Lemma run_nnames (os : list op) n : forall w : world, n < w_nnames w -> n < w_nnames (run os w).
Proof. induction os as [|o os IH]; intros w H; auto. rewrite run_cons. apply IH. now apply perform_names. Qed.
Lemma run_app os1 os2 (w : world) : run (os1 ++ os2) w = run os2 (run os1 w).
Proof. unfold FtnModel.run. apply fold_left_app. Qed.

(** who can have changed a list of names *)
Theorem names_changed (os : list op) n : forall w : world, n < w_nnames w -> w_names (run os w) n <> w_names w n ->
  exists os1 o os2 g s, os = os1 ++ o :: os2 /\ (o = OAdd g s \/ o = ORemove g s) /\ f_names (w_ftn (run os1 w) g) = n /\
    f_locked (w_ftn (run os1 w) g) = false.
Proof.
  induction os as [|o os IH]; intros w Hn D; [exfalso; apply D; reflexivity|]. rewrite run_cons in D.
  destruct (list_eq_dec string_dec (w_names (fst (perform o w)) n) (w_names w n)) as [E|N].
  - rewrite <- E in D. destruct (IH (fst (perform o w))) as (os1 & o' & os2 & g & s & E1 & E2 & E3 & E4); [now apply perform_names|auto|].
    exists (o :: os1), o', os2, g, s. rewrite E1. split; auto.
  - destruct (proj2 (perform_names w o n Hn) N) as (g & s & E1 & E2 & E3). exists [], o, os, g, s. split; auto.
Qed.

(** the list object of a network never changes *)
Lemma perform_fnames (w : world) f o : f < w_nftn w -> f < w_nftn (fst (perform o w)) /\ f_names (w_ftn (fst (perform o w)) f) = f_names (w_ftn w f).
Proof.
  intros Hf. destruct (perform_effect w o) as [|g s l O L|g F AI N|l|r|h|g d b w' O K]; simpl; auto.
  - split; auto. destruct (Nat.eq_dec f g) as [->|]; [now rewrite upd_same|now rewrite upd_other].
  - split; [lia|]. now rewrite upd_other by lia.
  - destruct K as (_ & _ & E & K & S1 & _). rewrite E. split; auto. destruct (Nat.eq_dec f g) as [->|NE]; [apply S1|now rewrite K].
Qed.
Lemma run_fnames (os : list op) f : forall w : world, f < w_nftn w -> f < w_nftn (run os w) /\ f_names (w_ftn (run os w) f) = f_names (w_ftn w f).
Proof.
  induction os as [|o os IH]; intros w H; auto. rewrite run_cons. destruct (perform_fnames w f o H) as (H1 & <-). now apply IH.
Qed.

(** networks made without a list of names share one for ever *)
Theorem default_shared (w0 : world) r1 t1 os r2 t2 os' :
  let w1 := fst (newFtn None r1 t1 w0) in let w2 := run os w1 in let w3 := fst (newFtn None r2 t2 w2) in let w4 := run os' w3 in
  let f := w_nftn w0 in let g := w_nftn w2 in
  f <> g /\ snd (newFtn None r1 t1 w0) = Ok f /\ snd (newFtn None r2 t2 w2) = Ok g /\ 
  namesOf w3 g = namesOf w2 f /\ namesOf w4 f = namesOf w4 g /\ f_names (w_ftn w4 f) = f_names (w_ftn w4 g).
Proof.
  intros w1 w2 w3 w4 f g.
  assert (Hf : f < w_nftn w1) by (unfold w1, f; simpl; lia).
  destruct (run_fnames os f w1 Hf) as (H2 & E2). fold w2 in H2, E2.
  assert (E1 : f_names (w_ftn w1 f) = 0) by (unfold w1, f; simpl; now rewrite upd_same).
  assert (H3 : f < w_nftn w3 /\ f_names (w_ftn w3 f) = 0 /\ g < w_nftn w3 /\ f_names (w_ftn w3 g) = 0).
  { unfold w3, g. simpl. rewrite upd_same, upd_other by lia. rewrite E2, E1. simpl. lia. }
  destruct H3 as (Hf3 & Ef3 & Hg3 & Eg3).
  destruct (run_fnames os' f w3 Hf3) as (_ & E4). destruct (run_fnames os' g w3 Hg3) as (_ & E5). fold w4 in E4, E5.
  split; [unfold g; lia|]. split; [reflexivity|]. split; [reflexivity|]. split.
  - unfold namesOf. rewrite Eg3, E2, E1. reflexivity.
  - unfold namesOf. rewrite E4, E5, Ef3, Eg3. auto.
Qed.

(** edits of an unlocked network *)
Theorem unlocked_edits (w : world) f : f_locked (w_ftn w f) = false ->
  (forall n, exists w', perform (OAdd f n) w = (w', Ok tt) /\ only_list w w' f (namesOf w f ++ [n])) /\
  (forall n u v, namesOf w f = u ++ n :: v -> ~ In n u -> exists w', perform (ORemove f n) w = (w', Ok tt) /\ only_list w w' f (u ++ v)) /\
  (forall n, ~ In n (namesOf w f) -> perform (ORemove f n) w = (w, Err AssertionError)) /\
  (forall a la b lb, exists w', perform (OLink f a la b lb) w = (w', Ok tt) /\
     only_ftn w w' f (set_links (f_links (w_ftn w f) ++ [((a, (a ++ "-" ++ la)%string), (b, (b ++ "-" ++ lb)%string))]) (w_ftn w f))) /\
  (forall n l m, exists w', perform (OPre f n l m) w = (w', Ok tt) /\ only_ftn w w' f (set_before (f_before (w_ftn w f) ++ [(n, l, m)]) (w_ftn w f))) /\
  (forall n l m, exists w', perform (OPost f n l m) w = (w', Ok tt) /\ only_ftn w w' f (set_after (f_after (w_ftn w f) ++ [(n, l, m)]) (w_ftn w f))) /\
  (forall l m, exists w', perform (OOut f l m) w = (w', Ok tt) /\ only_ftn w w' f (set_out (f_out (w_ftn w f) ++ [(l, m)]) (w_ftn w f))) /\
  (forall n l m u v, f_before (w_ftn w f) = u ++ (n, l, m) :: v -> ~ In (n, l, m) u ->
     exists w', perform (ORemPre f n l m) w = (w', Ok tt) /\ only_ftn w w' f (set_before (u ++ v) (w_ftn w f))) /\
  (forall n l m, ~ In (n, l, m) (f_before (w_ftn w f)) -> perform (ORemPre f n l m) w = (w, Err ValueError)) /\
  (forall n l m u v, f_after (w_ftn w f) = u ++ (n, l, m) :: v -> ~ In (n, l, m) u ->
     exists w', perform (ORemPost f n l m) w = (w', Ok tt) /\ only_ftn w w' f (set_after (u ++ v) (w_ftn w f))) /\
  (forall n l m, ~ In (n, l, m) (f_after (w_ftn w f)) -> perform (ORemPost f n l m) w = (w, Err ValueError)).
Proof.
  intros L.
  assert (CK : checkLock f w = (w, Ok tt)) by (rewrite checkLock_cases, L; reflexivity).
  assert (R1 : forall X (D : Dec X) (x : X) u v, ~ In x u -> remove_one x (u ++ x :: v) = Some (u ++ v)).
  { intros X D x u v. induction u as [|y u IH]; intros N; simpl.
    - destruct (dec x x); [auto|congruence].
    - destruct (dec x y) as [->|]; [exfalso; apply N; simpl; auto|]. rewrite IH by (intros Z; apply N; simpl; auto). reflexivity. }
  assert (R0 : forall X (D : Dec X) (x : X) l, ~ In x l -> remove_one x l = None).
  { intros X D x l. induction l as [|y l IH]; intros N; simpl; auto.
    destruct (dec x y) as [->|]; [exfalso; apply N; simpl; auto|]. rewrite IH by (intros Z; apply N; simpl; auto). reflexivity. }
  cbn [FtnModel.perform]; unfold addTensor, removeTensor, addLink, addPre, addPost, removePre, removePost, addOut.
  repeat (match goal with |- _ /\ _ => split end); intros; unfold wbind at 1; rewrite CK; unfold wbind, wreads, setNames, setF, wraise.
  - eexists. split; [reflexivity|]. unfold only_list. simpl. repeat (split; [reflexivity|]). split; [now rewrite upd_same|]. intros. now rewrite upd_other.
  - rewrite H, R1 by auto. eexists. split; [reflexivity|]. unfold only_list. simpl. repeat (split; [reflexivity|]). split; [now rewrite upd_same|]. intros. now rewrite upd_other.
  - rewrite R0 by auto. reflexivity.
  - eexists. split; [reflexivity|]. unfold only_ftn. simpl. repeat (split; [reflexivity|]). split; [now rewrite upd_same|]. intros. now rewrite upd_other.
  - eexists. split; [reflexivity|]. unfold only_ftn. simpl. repeat (split; [reflexivity|]). split; [now rewrite upd_same|]. intros. now rewrite upd_other.
  - eexists. split; [reflexivity|]. unfold only_ftn. simpl. repeat (split; [reflexivity|]). split; [now rewrite upd_same|]. intros. now rewrite upd_other.
  - eexists. split; [reflexivity|]. unfold only_ftn. simpl. repeat (split; [reflexivity|]). split; [now rewrite upd_same|]. intros. now rewrite upd_other.
  - rewrite H, R1 by auto. eexists. split; [reflexivity|]. unfold only_ftn. simpl. repeat (split; [reflexivity|]). split; [now rewrite upd_same|]. intros. now rewrite upd_other.
  - rewrite R0 by auto. reflexivity.
  - rewrite H, R1 by auto. eexists. split; [reflexivity|]. unfold only_ftn. simpl. repeat (split; [reflexivity|]). split; [now rewrite upd_same|]. intros. now rewrite upd_other.
  - rewrite R0 by auto. reflexivity.
Qed.

(** a dictionary whose keys are not the names is refused, after locking *)
Theorem wrong_keys (w : world) f d b : ~ Permutation (namesOf w f) (map fst d) ->
  exists w', contract f d b w = (w', Err AssertionError) /\ only_ftn w w' f (set_locked true (w_ftn w f)).
Proof.
  intros N. assert (compareLists (namesOf w f) (map fst d) = false) as E.
  { destruct (compareLists _ _) eqn:E; auto. exfalso. apply N. now apply compareLists_perm. }
  eexists. split.
  - unfold FtnModel.contract, wbind, lock, setF, wreads. unfold namesOf at 1. cbn [w_names w_ftn]. rewrite upd_same. cbn [f_names set_locked].
    fold (namesOf w f). rewrite E. reflexivity.
  - unfold only_ftn. simpl. repeat (split; [reflexivity|]). split; [now rewrite upd_same|]. intros. now rewrite upd_other.
Qed.
Theorem unlock_works (w : world) f : exists w', perform (OUnlock f) w = (w', Ok tt) /\
  only_ftn w w' f (set_locked false (w_ftn w f)) /\ f_locked (w_ftn w' f) = false.
Proof.
  eexists. split; [reflexivity|]. split; [|simpl; now rewrite upd_same]. unfold only_ftn. simpl. repeat (split; [reflexivity|]). split; [apply upd_same|].
  intros g Hg. now apply upd_other.
Qed.
Theorem add_shared (w : world) f g n : f_locked (w_ftn w f) = false -> f_names (w_ftn w g) = f_names (w_ftn w f) ->
  exists w', perform (OAdd f n) w = (w', Ok tt) /\ namesOf w' g = namesOf w g ++ [n] /\ w_ftn w' g = w_ftn w g.
Proof.
  intros L E. destruct (unlocked_edits w f L) as (H & _). destruct (H n) as (w' & E1 & (_ & _ & _ & E2 & E3 & _)). exists w'. split; auto.
  unfold namesOf in *. rewrite E2, E, E3. auto.
Qed.
End Fp.
