(** Declared links are found whenever contract returns; histories of a network with a cached sequence. *)
From Coq Require Import List Arith Bool String Ascii Lia Permutation.
From Verif Require Import Base Sums NdModel HeapModel FuncsModel TensorModel TensorSpec ContractModel NetSpec SearchModel SearchSpec GraphModel NetGraphModel NetGraphSpec FtnModel FtnSpec FtnNetSpec
  FuncsProofs NdProofs TensorProofs LabelProofs CopyProofs LinkProofs NetProofs SumpairsProofs MatrixProofs MergeProofs SeqProofs RetProofs NetRunProofs FrameProofs FtnProofs FtnCopyProofs FtnLinkProofs FtnNetProofs FtnRunProofs FtnPostProofs FtnMainProofs.
Import ListNotations.
Local Open Scope nat_scope.

Lemma map_split {X Y} (f : X -> Y) l u y v : map f l = u ++ y :: v -> exists l1 x l2, l = l1 ++ x :: l2 /\ map f l1 = u /\ f x = y /\ map f l2 = v.
Proof.
  revert u. induction l as [|x l IH]; intros [|a u] E; simpl in E; try discriminate.
  - injection E as E1 E2. exists [], x, l. auto.
  - injection E as E1 E2. destruct (IH u E2) as (l1 & x' & l2 & -> & H1 & H2 & H3). exists (x :: l1), x', l2. simpl. repeat split; congruence.
Qed.
Lemma complete_uses (ok : list nat -> list nat -> Prop) cost gs sq n : complete ok cost gs sq n -> 2 <= List.length gs ->
  forall g, In g gs -> exists p, In p sq /\ (fst p = fst g \/ snd p = fst g).
Proof.
  induction 1 as [G|gs rest s t G1 G2 sq n N P O C IH]; intros Hl g Hg; [simpl in Hl; lia|].
  apply (Permutation_in _ P) in Hg. destruct Hg as [<-|[<-|Hg]]; [exists (s, t); simpl; auto|exists (s, t); simpl; auto|].
  destruct (IH) with (g := g) as (p & H1 & H2); [destruct rest; [destruct Hg|simpl; lia]|simpl; auto|]. exists p. simpl; auto.
Qed.

Section Decl.
Context {A : Type} {HA : SR A}.
Notation heap := (heap A).
Variable h0 hT : heap.
Variable d loc : list (string * tid).
Variable pre : string * tid -> list pname.
Hypothesis Wd : forall p, In p d -> wf_tensor h0 (snd p).
Hypothesis Lo : locals h0 hT (fun p => map (tag_name (fst p)) (pre p)) d loc.
Notation Cof := (FtnLinkProofs.Cof loc).

Lemma role_from (before : list (string * string * string)) a la l (h : heap) : (forall p, pre p = pre_names h0 before p) -> In a (map fst loc) ->
  tens h = tens hT -> (forall l, l_name (legs h l) = l_name (legs hT l)) -> first_named h (Cof a) (NStr (tagged a la)) l -> exists r, role_named h0 before d a la r.
Proof.
  intros Ep Ha ET EN (u & v & E & El & Eu). rewrite (loc_keys h0 hT d loc pre Lo) in Ha. apply in_map_iff in Ha as ([a' t] & Ea & Ht). simpl in Ea. subst a'.
  destruct (Cof_mir h0 hT d loc pre Lo a t Ht) as (_ & M). unfold legs_of in E. rewrite ET in E. fold (legs_of hT (Cof a)) in E.
  assert (EC : map (fun x => l_name (legs hT x)) (u ++ l :: v) = map (fun p => tag_name a (snd p)) (combine (legs_of h0 t) (pre (a, t)))).
  { rewrite <- E. fold (names_of hT (Cof a)). rewrite (mi_names _ _ _ _ _ M). cbn [fst].
    assert (X : map snd (combine (legs_of h0 t) (pre (a, t))) = pre (a, t)).
    { apply FuncsProofs.map_snd_combine. pose proof (mi_names _ _ _ _ _ M) as Y. apply (f_equal (@List.length _)) in Y. unfold names_of in Y. rewrite !map_length in Y. rewrite <- Y. symmetry. apply (len_legs h0 hT d loc pre Lo a t Ht). }
    rewrite <- X at 1. now rewrite map_map. }
  rewrite map_app in EC. cbn [map] in EC. symmetry in EC. apply map_split in EC as (l1 & [x n] & l2 & E1 & E2 & E3 & E4). cbn [snd] in E3.
  rewrite <- EN, El in E3. apply tag_inj in E3. subst n. exists (a, x). exists t, l1, l2. split; [auto|]. split; [rewrite <- Ep; exact E1|]. split; [|reflexivity].
  intros X. apply in_map_iff in X as ([y n] & En & Hy). simpl in En. subst n. apply (in_map (fun p => tag_name a (snd p))) in Hy. rewrite E2 in Hy. cbn [snd tag_name] in Hy.
  apply in_map_iff in Hy as (z & Ez & Hz). apply (Eu z Hz). rewrite EN, Ez. reflexivity.
Qed.
Lemma linkAll_declares before links : (forall p, pre p = pre_names h0 before p) -> forall (h h' : heap), tens h = tens hT -> (forall l, l_name (legs h l) = l_name (legs hT l)) ->
  linkAll loc (map stored links) h = (h', Ok tt) -> exists ps, Forall2 (declares h0 before d) links ps.
Proof.
  intros Ep. induction links as [|[[a la] [b lb]] links IH]; intros h h' ET EN R; [exists []; constructor|].
  unfold linkAll in R. cbn [map iterM stored] in R. unfold bind at 1 in R.
  unfold bind at 1, localGet in R. destruct (dictGet loc a) as [ca|] eqn:Ea; [|discriminate]. cbn [ret] in R.
  unfold bind at 1 in R. destruct (dictGet loc b) as [cb|] eqn:Eb; [|discriminate]. cbn [ret] in R.
  assert (Cof a = ca) as <- by (unfold FtnLinkProofs.Cof; now rewrite Ea). assert (Cof b = cb) as <- by (unfold FtnLinkProofs.Cof; now rewrite Eb).
  apply dictGet_In, (in_map fst) in Ea, Eb. cbn [fst] in Ea, Eb.
  unfold bind at 1 in R. destruct (makeLink _ _ _ _ h) as (h1 & [bs|]) eqn:EM; [|discriminate]. cbn [ret] in R.
  destruct (getLeg h (Cof a) (NStr (tagged a la)) false) as [l1|] eqn:G1; pose proof (getLeg_first h (Cof a) (NStr (tagged a la))) as G1'; rewrite G1 in G1'; destruct (getLeg h (Cof b) (NStr (tagged b lb)) false) as [l2|] eqn:G2; pose proof (getLeg_first h (Cof b) (NStr (tagged b lb))) as G2'; rewrite G2 in G2'.
  2:{ rewrite (makeLink_read h _ _ _ _ [Some l1] [None]) in EM; [discriminate|constructor; [constructor; exact G1'|constructor]|constructor; [constructor; exact G2'|constructor]|reflexivity]. }
  2:{ rewrite (makeLink_read h _ _ _ _ [None] [Some l2]) in EM; [discriminate|constructor; [constructor; exact G1'|constructor]|constructor; [constructor; exact G2'|constructor]|reflexivity]. }
  2:{ rewrite (makeLink_read h _ _ _ _ [None] [None]) in EM; [discriminate|constructor; [constructor; exact G1'|constructor]|constructor; [constructor; exact G2'|constructor]|reflexivity]. }
  rewrite (makeLink_read h _ _ _ _ [Some l1] [Some l2]) in EM; [|constructor; [constructor; exact G1'|constructor]|constructor; [constructor; exact G2'|constructor]|reflexivity].
  cbn [combine mapM] in EM. unfold bind at 1 in EM. destruct (Nat.eq_dec (dim_of h l1) (dim_of h l2)) as [E|E].
  2:{ rewrite linkPair_dim in EM by exact E. discriminate. }
  rewrite linkPair_ok in EM by exact E. injection EM as <- _.
  apply getLeg_first_named in G1, G2.
  destruct (role_from before a la l1 h Ep Ea ET EN G1) as (ra & Ra). destruct (role_from before b lb l2 h Ep Eb ET EN G2) as (rb & Rb).
  apply IH in R as (ps & F); [exists ((ra, rb) :: ps); constructor; [split; assumption|exact F]|exact ET|].
  intros x. rewrite <- EN. cbn. unfold upd. repeat (match goal with |- context[Nat.eqb ?p ?q] => destruct (Nat.eqb_spec p q) end; subst; cbn; try reflexivity; try congruence).
Qed.
End Decl.

Section Hist.
Context {A : Type} {HA : SR A}.
Notation heap := (heap A).
Notation world := (world A).
Variable symdiff : list nat -> list nat -> list nat.
Variable fuel : nat.

Theorem contract_declares w f d b w' t links : contract symdiff fuel f d b w = (w', Ok t) -> (forall p, In p d -> wf_tensor (w_heap w) (snd p)) -> NoDup (map fst d) ->
  f_links (w_ftn w f) = map stored links -> Permutation (namesOf w f) (map fst d) /\ exists ps, Forall2 (declares (w_heap w) (f_before (w_ftn w f)) d) links ps.
Proof.
  intros R Wd ND EL. destruct (contract_inv _ _ _ _ _ _ _ _ R) as (loc & hT & hL & sq & CR). split; [apply CR|].
  pose proof (run_locals _ _ _ _ _ _ _ _ _ _ _ _ CR Wd ND) as Lo. pose proof (cr_links _ _ _ _ _ _ _ _ _ _ _ _ CR) as RL. rewrite EL in RL.
  eapply (linkAll_declares (w_heap w) hT d loc _ Lo); [| | |exact RL]; auto.
Qed.

(** fewer tensors than the cached sequence was made for *)
Lemma too_short w f d b w' t loc hT hL sq n (ok : list nat -> list nat -> Prop) cost c : contract_run symdiff fuel w f d b w' t loc hT hL sq ->
  complete ok cost (singles (seq 0 n)) sq c -> n <= List.length (namesOf w f).
Proof.
  intros CR C. destruct (le_lt_dec n (List.length (namesOf w f))) as [|Hn]; auto. exfalso.
  destruct (cr_run _ _ _ _ _ _ _ _ _ _ _ _ CR) as (hR & c1 & cur & h2 & h3 & E1 & _).
  destruct (namesOf w f) as [|n0 names] eqn:EN.
  - cbn [map] in E1. unfold contractWithSeq, bind, ret in E1. destruct (foldM seqStep sq ([], 0) hL) as (h4 & [[ts cc]|]) eqn:EF; [|discriminate].
    apply foldM_len in EF. destruct ts; [discriminate|discriminate EF].
  - unfold contractWithSeq, bind, ret in E1. destruct (foldM seqStep sq (map (Cof loc) (n0 :: names), 0) hL) as (h4 & [r|]) eqn:EF; [|discriminate].
    eapply contractWithSeq_beyond; [|exact EF]. cbn [List.length] in Hn. rewrite map_length. cbn [List.length].
    destruct (complete_uses _ _ _ _ _ C) with (g := (n - 1, [n - 1])) as (p & Hp & E).
    + unfold singles. rewrite combine_length, map_length, !seq_length. lia.
    + unfold singles. rewrite seq_length, combine_map_self. apply in_map_iff. exists (n - 1). split; [reflexivity|apply in_seq; lia].
    + exists p. split; auto. cbn [fst] in E. lia.
Qed.

(** with realCost off a stored sequence never changes, whatever is done *)
Definition frozen (f : nat) (sq : list (nat * nat)) (w : world) : Prop := f_real (w_ftn w f) = false /\ f_seq (w_ftn w f) = Some sq.
Lemma frozen_bind {X Y} f sq (m : @WM A X) (k : X -> @WM A Y) w : frozen f sq (fst (m w)) -> (forall w' x, m w = (w', Ok x) -> frozen f sq w' -> frozen f sq (fst (k x w'))) -> frozen f sq (fst (wbind m k w)).
Proof. intros H K. unfold wbind. destruct (m w) as (w' & [x|e]) eqn:E; auto. Qed.
Lemma frozen_lift {X} f sq (m : @M A X) w : frozen f sq w -> frozen f sq (fst (lift m w)).
Proof. intros H. unfold lift. destruct (m (w_heap w)). exact H. Qed.
Lemma frozen_setF f sq (g : ftn -> ftn) w : f_real (g (w_ftn w f)) = f_real (w_ftn w f) -> f_seq (g (w_ftn w f)) = f_seq (w_ftn w f) -> frozen f sq w -> frozen f sq (fst (@setF A f g w)).
Proof. intros E1 E2 (H1 & H2). unfold frozen, setF. simpl. rewrite upd_same. split; congruence. Qed.
Lemma frozen_reads {X Y} f sq (g : world -> X) (k : X -> @WM A Y) w : frozen f sq (fst (k (g w) w)) -> frozen f sq (fst (wbind (wreads g) k w)).
Proof. exact (fun H => H). Qed.
Ltac fb := repeat first [assumption | apply frozen_lift; assumption | apply frozen_setF; [reflexivity|reflexivity|assumption] | match goal with |- frozen _ _ (fst (wbind (wreads _) _ _)) => apply frozen_reads end | apply frozen_bind; [|intros ? ? _ ?]].
Lemma frozen_contract f sq d b w : frozen f sq w -> frozen f sq (fst (contract symdiff fuel f d b w)).
Proof.
  intros H. unfold contract. unfold lock. fb.
  - unfold wassert. destruct (compareLists _ _); assumption.
  - apply frozen_setF; [| |assumption]; destruct (loadBondDims _ _ _); reflexivity.
  - match goal with H : frozen f sq ?w |- context [f_seq (w_ftn ?w f)] => destruct H as (E1 & E2); rewrite E2, E1; split; assumption end.
  - destruct b; fb.
Qed.

(** what every operation leaves alone *)
Definition grown (f : nat) (w w' : world) : Prop :=
  f < w_nftn w' /\ f_real (w_ftn w' f) = f_real (w_ftn w f) /\ exists more, f_links (w_ftn w' f) = f_links (w_ftn w f) ++ map stored more.
Lemma grown_same f w w' : f < w_nftn w' -> f_real (w_ftn w' f) = f_real (w_ftn w f) -> f_links (w_ftn w' f) = f_links (w_ftn w f) -> grown f w w'.
Proof. intros H1 H2 H3. split; [|split]; auto. exists []. now rewrite app_nil_r. Qed.
Definition stays f sq w w' := frozen f sq w' /\ grown f w w'.
Lemma perform_grown f sq o w : f < w_nftn w -> frozen f sq w -> stays f sq w (fst (perform symdiff fuel o w)).
Proof.
  intros Hf (H1 & H2). destruct o; cbn [perform]; rewrite ?fst_void;
    unfold addTensor, removeTensor, addLink, addPre, addPost, removePre, removePost, addOut;
    try (match goal with |- context [checkLock ?g] => unfold wbind at 1; rewrite (checkLock_cases w g); destruct (f_locked (w_ftn w g)) eqn:EL;
      [split; [split; assumption|apply grown_same; auto]|] end);
    unfold wbind, wreads, setNames, setF, newList, newFtn, lock, unlock, setF, wraise; cbn [fst];
    try (match goal with |- context [remove_one ?a ?b] => destruct (remove_one a b); cbn [fst] end);
    try (solve [split; [split; assumption|apply grown_same; auto]]).
  - unfold stays, frozen. cbn. assert (f <> w_nftn w) as N by lia. rewrite upd_other by exact N. split; [auto|]. apply grown_same; cbn; rewrite ?upd_other by exact N; auto.
  - unfold stays, frozen. cbn. destruct (Nat.eq_dec f f0) as [<-|N]; [rewrite upd_same|rewrite upd_other by auto]; (split; [auto|apply grown_same; cbn; rewrite ?upd_same, ?upd_other by auto; auto]).
  - unfold stays, frozen. cbn. destruct (Nat.eq_dec f f0) as [<-|N]; [rewrite upd_same|rewrite upd_other by auto]; (split; [auto|apply grown_same; cbn; rewrite ?upd_same, ?upd_other by auto; auto]).
  - unfold stays, frozen. cbn. destruct (Nat.eq_dec f f0) as [<-|N]; [rewrite upd_same|rewrite upd_other by auto; split; [auto|apply grown_same; cbn; rewrite ?upd_other by auto; auto]].
    split; [auto|]. split; [auto|]. cbn. rewrite upd_same. split; [reflexivity|]. exists [((a, la), (b, lb))]. reflexivity.
  - unfold stays, frozen. cbn. destruct (Nat.eq_dec f f0) as [<-|N]; [rewrite upd_same|rewrite upd_other by auto]; (split; [auto|apply grown_same; cbn; rewrite ?upd_same, ?upd_other by auto; auto]).
  - unfold stays, frozen. cbn. destruct (Nat.eq_dec f f0) as [<-|N]; [rewrite upd_same|rewrite upd_other by auto]; (split; [auto|apply grown_same; cbn; rewrite ?upd_same, ?upd_other by auto; auto]).
  - unfold stays, frozen. cbn. destruct (Nat.eq_dec f f0) as [<-|N]; [rewrite upd_same|rewrite upd_other by auto]; (split; [auto|apply grown_same; cbn; rewrite ?upd_same, ?upd_other by auto; auto]).
  - unfold stays, frozen. cbn. destruct (Nat.eq_dec f f0) as [<-|N]; [rewrite upd_same|rewrite upd_other by auto]; (split; [auto|apply grown_same; cbn; rewrite ?upd_same, ?upd_other by auto; auto]).
  - unfold stays, frozen. cbn. destruct (Nat.eq_dec f f0) as [<-|N]; [rewrite upd_same|rewrite upd_other by auto]; (split; [auto|apply grown_same; cbn; rewrite ?upd_same, ?upd_other by auto; auto]).
  - destruct (contract_kept symdiff fuel f0 d removeTag w) as (_ & _ & E & K & S1 & _).
    destruct (Nat.eq_dec f f0) as [<-|N].
    + split; [apply frozen_contract; split; assumption|]. destruct S1 as (_ & S2 & _ & _ & _ & S3 & _). apply grown_same; auto. rewrite E. exact Hf.
    + unfold stays, frozen. rewrite K by auto. split; [auto|]. apply grown_same; rewrite ?K by auto; auto. rewrite E. exact Hf.
Qed.
Lemma run_grown f sq os : forall w, f < w_nftn w -> frozen f sq w -> frozen f sq (run symdiff fuel os w) /\ grown f w (run symdiff fuel os w).
Proof.
  induction os as [|o os IH]; intros w Hf HF; [split; [exact HF|apply grown_same; auto]|].
  rewrite run_cons. destruct (perform_grown f sq o w Hf HF) as (F1 & G1 & G2 & m1 & G3). destruct (IH _ G1 F1) as (F2 & K1 & K2 & m2 & K3).
  split; [exact F2|]. split; [exact K1|]. split; [congruence|]. exists (m1 ++ m2). now rewrite K3, G3, map_app, app_assoc.
Qed.

Hypothesis SD : symdiff_ok symdiff.

Lemma perm_dict_app (n1 n2 : list string) (d : list (string * tid)) : Permutation (n1 ++ n2) (map fst d) -> exists us xs, Permutation (us ++ xs) d /\ n1 = map fst us /\ n2 = map fst xs.
Proof.
  intros P. destruct (perm_dict _ _ P) as (us & Pu & E). symmetry in E.
  exists (firstn (List.length n1) us), (skipn (List.length n1) us). rewrite firstn_skipn. split; [exact Pu|].
  rewrite <- firstn_map, <- skipn_map, E, firstn_app, skipn_app, Nat.sub_diag, firstn_all, skipn_all. cbn. now rewrite app_nil_r.
Qed.
Lemma same_flags (h h2 : heap) (d d2 us : list (string * tid)) : forall us2, (forall nm t t2, In (nm, t) d -> In (nm, t2) d2 -> t_diag (tens h2 t2) = t_diag (tens h t)) ->
  incl us d -> incl us2 d2 -> map fst us = map fst us2 -> map (fun p => t_diag (tens h (snd p))) us = map (fun p => t_diag (tens h2 (snd p))) us2.
Proof.
  induction us as [|[nm t] us IH]; intros [|[nm2 t2] us2] F I1 I2 E; try discriminate; [reflexivity|]. cbn [map fst] in E. injection E as -> E. cbn [map snd]. f_equal.
  - symmetry. eapply F; [apply I1|apply I2]; simpl; auto.
  - apply IH; auto; intros x Hx; [apply I1|apply I2]; simpl; auto.
Qed.
(** the sequence stored by an earlier call, seen from a later one whose list of names starts with the old names *)
Lemma later_fits w f d b w1 t1 links ps (w2 : world) d2 more ps2 extra :
  contract symdiff fuel f d b w = (w1, Ok t1) -> usable (w_heap w) d -> f_links (w_ftn w f) = map stored links ->
  Forall2 (declares (w_heap w) (f_before (w_ftn w f)) d) links ps -> proper ps -> f_seq (w_ftn w f) = None ->
  Permutation (namesOf w2 f) (map fst d2) -> namesOf w2 f = namesOf w f ++ extra ->
  Forall2 (declares (w_heap w2) (f_before (w_ftn w2 f)) d2) (links ++ more) ps2 ->
  (forall nm t t2, In (nm, t) d -> In (nm, t2) d2 -> t_diag (tens (w_heap w2) t2) = t_diag (tens (w_heap w) t)) ->
  exists us xs sq, Permutation (us ++ xs) d2 /\ map fst us = namesOf w f /\ map fst xs = extra /\ f_seq (w_ftn w1 f) = Some sq /\ seq_fits (w_heap w2) us ps2 sq.
Proof.
  intros R (Wd & ND) EL FD PR ES P EN FD2 FL.
  destruct (contract_value symdiff SD fuel w f d b w1 t1 links ps R Wd ND EL FD PR) as (_ & us & sq & Pu & En & E1 & F1); [congruence|].
  rewrite EN in P. destruct (perm_dict_app _ _ _ P) as (us2 & xs2 & P2 & E2 & E3). exists us2, xs2, sq. repeat (split; [solve [auto]|]).
  apply Forall2_app_inv_l in FD2 as (pa & pb & FA & FB & ->).
  eapply fits_transfer; [|eapply same_flags; [exact FL| | |]|intros p Hp|exact F1].
  - congruence.
  - intros x Hx. eapply Permutation_in; [exact Pu|exact Hx].
  - intros x Hx. eapply Permutation_in; [exact P2|apply in_app_iff; auto].
  - congruence.
  - destruct (declares_names _ _ _ _ _ _ _ _ _ FD FA p Hp) as (p2 & H1 & H2). exists p2. split; auto. apply in_app_iff; auto.
Qed.

(** a later call with the stored sequence and the same names *)
Theorem contract_again w f d b w1 t1 links ps (w2 : world) d2 b2 w3 t3 more ps2 :
  contract symdiff fuel f d b w = (w1, Ok t1) -> usable (w_heap w) d -> f_links (w_ftn w f) = map stored links ->
  Forall2 (declares (w_heap w) (f_before (w_ftn w f)) d) links ps -> proper ps -> f_seq (w_ftn w f) = None ->
  f_seq (w_ftn w2 f) = f_seq (w_ftn w1 f) -> namesOf w2 f = namesOf w f -> f_links (w_ftn w2 f) = map stored (links ++ more) ->
  contract symdiff fuel f d2 b2 w2 = (w3, Ok t3) -> usable (w_heap w2) d2 ->
  Forall2 (declares (w_heap w2) (f_before (w_ftn w2 f)) d2) (links ++ more) ps2 -> proper ps2 ->
  (forall nm t t2, In (nm, t) d -> In (nm, t2) d2 -> t_diag (tens (w_heap w2) t2) = t_diag (tens (w_heap w) t)) ->
  exists items, result_items (w_heap w2) (f_before (w_ftn w2 f)) d2 ps2 (f_out (w_ftn w2 f)) (f_after (w_ftn w2 f)) b2 items /\
    represents (w_heap w2) (w_heap w3) t3 items (rval (w_heap w2) d2 ps2).
Proof.
  intros R U EL FD PR ES E2 EN EL2 R2 (Wd2 & ND2) FD2 PR2 FL.
  destruct (contract_inv _ _ _ _ _ _ _ _ R2) as (loc & hT & hL & sq' & CR). pose proof (cr_perm _ _ _ _ _ _ _ _ _ _ _ _ CR) as P. clear CR loc hT hL sq'.
  destruct (later_fits w f d b w1 t1 links ps w2 d2 more ps2 [] R U EL FD PR ES P) as (us & xs & sq & P1 & P2 & P3 & P4 & P5); auto; [now rewrite app_nil_r|].
  assert (xs = []) as -> by (destruct xs; [reflexivity|discriminate P3]). rewrite app_nil_r in P1.
  destruct (contract_value symdiff SD fuel w2 f d2 b2 w3 t3 (links ++ more) ps2 R2 Wd2 ND2 EL2 FD2 PR2) as (H & _); [|exact H].
  intros sq0 E. exists us. split; [exact P1|]. split; [congruence|]. congruence.
Qed.

(** histories with realCost off *)
Theorem history_added w f d b w1 t1 links ps os d2 b2 w3 t3 ps2 extra : let w2 := run symdiff fuel os w1 in
  f < w_nftn w -> contract symdiff fuel f d b w = (w1, Ok t1) -> usable (w_heap w) d -> f_links (w_ftn w f) = map stored links ->
  Forall2 (declares (w_heap w) (f_before (w_ftn w f)) d) links ps -> proper ps -> f_seq (w_ftn w f) = None -> f_real (w_ftn w f) = false ->
  namesOf w2 f = namesOf w f ++ extra -> contract symdiff fuel f d2 b2 w2 = (w3, Ok t3) -> usable (w_heap w2) d2 ->
  forall more, f_links (w_ftn w2 f) = map stored (links ++ more) ->
  Forall2 (declares (w_heap w2) (f_before (w_ftn w2 f)) d2) (links ++ more) ps2 -> proper ps2 ->
  (forall nm t t2, In (nm, t) d -> In (nm, t2) d2 -> t_diag (tens (w_heap w2) t2) = t_diag (tens (w_heap w) t)) ->
  exists us xs items, Permutation (us ++ xs) d2 /\ map fst us = namesOf w f /\ map fst xs = extra /\
    result_items (w_heap w2) (f_before (w_ftn w2 f)) us (within us ps2) (f_out (w_ftn w2 f)) (f_after (w_ftn w2 f)) b2 items /\
    represents (w_heap w2) (w_heap w3) t3 items (rval (w_heap w2) us (within us ps2)).
Proof.
  intros w2 Hf R U EL FD PR ES ER EN R2 (Wd2 & ND2) more EL2 FD2 PR2 FL.
  destruct (contract_inv _ _ _ _ _ _ _ _ R2) as (loc & hT & hL & sq' & CR). pose proof (cr_perm _ _ _ _ _ _ _ _ _ _ _ _ CR) as P. clear CR loc hT hL sq'.
  destruct (later_fits w f d b w1 t1 links ps w2 d2 more ps2 extra R U EL FD PR ES P) as (us & xs & sq & P1 & P2 & P3 & P4 & P5); auto.
  assert (K : kept f w w1) by (pose proof (contract_kept symdiff fuel f d b w) as K; now rewrite R in K). destruct K as (_ & _ & K1 & _ & (_ & _ & _ & _ & _ & K2 & _) & _).
  destruct (run_grown f sq os w1) as ((F1 & F2) & _); [rewrite K1; exact Hf|split; congruence|].
  destruct (contract_stale symdiff SD fuel w2 f d2 b2 w3 t3 (links ++ more) ps2 us xs sq R2) as (items & H1 & H2 & _); auto.
  - rewrite map_app. congruence.
  - left. exact F1.
  - exists us, xs, items. auto 6.
Qed.
Theorem history_removed w f d b w1 t1 links ps os d2 b2 : let w2 := run symdiff fuel os w1 in
  f < w_nftn w -> contract symdiff fuel f d b w = (w1, Ok t1) -> usable (w_heap w) d -> f_links (w_ftn w f) = map stored links ->
  Forall2 (declares (w_heap w) (f_before (w_ftn w f)) d) links ps -> proper ps -> f_seq (w_ftn w f) = None -> f_real (w_ftn w f) = false ->
  List.length (namesOf w2 f) < List.length (namesOf w f) -> forall w3 t3, contract symdiff fuel f d2 b2 w2 <> (w3, Ok t3).
Proof.
  intros w2 Hf R (Wd & ND) EL FD PR ES ER HL w3 t3 R2.
  destruct (contract_value symdiff SD fuel w f d b w1 t1 links ps R Wd ND EL FD PR) as (_ & us & sq & Pu & En & E1 & n & F1); [congruence|].
  assert (K : kept f w w1) by (pose proof (contract_kept symdiff fuel f d b w) as K; now rewrite R in K). destruct K as (_ & _ & K1 & _ & (_ & _ & _ & _ & _ & K2 & _) & _).
  destruct (run_grown f sq os w1) as ((G1 & G2) & _); [rewrite K1; exact Hf|split; congruence|].
  destruct (contract_inv _ _ _ _ _ _ _ _ R2) as (loc & hT & hL & sq' & CR). fold w2 in G1, G2.
  assert (sq' = sq) as ->.
  { destruct (cr_from _ _ _ _ _ _ _ _ _ _ _ _ CR) as [(X & _)|([X|(X & _)] & _)]; congruence. }
  pose proof (too_short _ _ _ _ _ _ _ _ _ _ _ _ _ _ CR F1) as L. rewrite En, map_length in HL. lia.
Qed.
(** the stored sequence itself never changes again *)
Theorem history_sequence w f sq os : f < w_nftn w -> f_real (w_ftn w f) = false -> f_seq (w_ftn w f) = Some sq -> f_seq (w_ftn (run symdiff fuel os w) f) = Some sq.
Proof. intros H1 H2 H3. apply (run_grown f sq os w H1). split; auto. Qed.
End Hist.
