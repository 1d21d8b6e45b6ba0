(** canonStep on a chain, and the sweeps of canonicalize. *)
From Coq Require Import List Arith Bool Lia String ZArith Permutation.
From Verif Require Import Base Sums NdModel NdProofs HeapModel FuncsModel FuncsProofs TensorModel TensorSpec TensorProofs
  ContractModel NetSpec NetProofs GroupSpec GroupProofs FtnNetSpec SvdModel SvdSpec SchmidtSpec MergeSvdProofs SchmidtProofs
  MpsModel MpsSpec MpsPairProofs MpsProofs MpsSwapProofs MpsMoveProofs CanonSpec CanonProofs CanonStepProofs.
Import ListNotations.
Local Open Scope list_scope.
Local Open Scope nat_scope.

Section Mp.
Context {A : Type} {HA : SR A}.
Notation heap := (heap A).
Variable lib : linalg A.
Hypothesis ST : svd_total lib.

Lemma canon_err (h h1 : heap) ts chi act a b : schimdt lib (nth a ts 0) (nth b ts 0) chi false [] [] h = (h1, Err ValueError) ->
  canonStep lib (Z.of_nat a) (Z.of_nat b) (mkMps ts chi act) h = (h1, Err ValueError).
Proof. intros E. unfold canonStep, site. cbn [m_ts m_chi]. rewrite !Nat2Z.id. unfold bind. now rewrite E. Qed.
Lemma canon_run (h h1 h2 : heap) ts chi act a b u s v w : schimdt lib (nth a ts 0) (nth b ts 0) chi false [] [] h = (h1, Ok (u, Some s, v)) ->
  contractTwoTensors s v h1 = (h2, Ok w) ->
  canonStep lib (Z.of_nat a) (Z.of_nat b) (mkMps ts chi act) h = (h2, Ok (mkMps (set_nth b w (set_nth a u ts)) chi act)).
Proof.
  intros E1 E2. unfold canonStep, site, setSite. cbn [m_ts m_chi m_active]. rewrite !Nat2Z.id. rewrite (bind_ok _ _ _ _ _ E1). cbv beta iota.
  rewrite (bind_ok _ _ _ _ _ E2). reflexivity.
Qed.

(** the tensors away from i and i + 1 are untouched *)
Definition away (h : heap) (ts : list tid) (h' : heap) (ts' : list tid) (i : nat) : Prop :=
  forall j, j < List.length ts -> j <> i -> j <> S i ->
    nth j ts' 0 = nth j ts 0 /\ tens h' (nth j ts 0) = tens h (nth j ts 0) /\ forall l, In l (legs_of h (nth j ts 0)) -> dim_of h' l = dim_of h l.

Definition leftDims (h : heap) (os : list lid) (lf : nat -> lid) (i : nat) : nat := prodn (map (dim_of h) (nth i os 0 :: opt (Nat.ltb 0 i) (lf i))).
Definition rightDims (h : heap) (n : nat) (os : list lid) (rt : nat -> lid) (i : nat) : nat := prodn (map (dim_of h) (nth i os 0 :: opt (Nat.ltb (S i) n) (rt i))).

Section Step.
Variables (h : heap) (X Y : list tid) (t1 t2 : tid) (Xo Yo : list lid) (o1 o2 : lid) (env : list tid) (lf rt : nat -> lid) (i : nat) (chi : Z).
Hypothesis LX : List.length X = i.
Hypothesis LXo : List.length Xo = i.
Notation ts := (X ++ t1 :: t2 :: Y).
Notation os := (Xo ++ o1 :: o2 :: Yo).
Hypothesis CH : chain h ts os env lf rt.
Notation n := (List.length ts).
Notation outL := (opt (Nat.ltb 0 i) (lf i)).
Notation outR := (opt (Nat.ltb (S (S i)) n) (rt (S i))).

Lemma away_two (h' : heap) w1 w2 : (forall t, In t ((X ++ Y) ++ env) -> tens h' t = tens h t) -> (forall l, In l (all_legs h ((X ++ Y) ++ env)) -> legs h' l = legs h l) ->
  away h ts h' (X ++ w1 :: w2 :: Y) i.
Proof.
  intros RT KR j Hj N1 N2. destruct (nth_away X Y t1 t2 w1 w2 0 i j LX N1 N2) as [E IN]. specialize (IN Hj). split; auto.
  assert (IN' : In (nth j ts 0) ((X ++ Y) ++ env)) by (apply in_app_iff; auto). split; [now apply RT|].
  intros l Hl. unfold dim_of. rewrite KR; auto. unfold all_legs. apply in_flat_map. eauto.
Qed.

Lemma canon_right act :
  ((chi < 0)%Z -> exists h', canonStep lib (Z.of_nat i) (Z.of_nat (S i)) (mkMps ts chi act) h = (h', Err ValueError)) /\
  ((0 <= chi)%Z -> exists h' ts' lf' rt', canonStep lib (Z.of_nat i) (Z.of_nat (S i)) (mkMps ts chi act) h = (h', Ok (mkMps ts' chi act)) /\
    exchanged h ts os env lf rt i chi h' ts' os lf' rt' /\ away h ts h' ts' i /\ dim_of h' (rt' i) <= leftDims h os lf i /\
    (forall cj, svd_orthonormal cj lib -> isometry cj h' (nth i ts' 0) (rt' i)) /\
    (nothing_cut lib h (nth i ts 0) (nth (S i) ts 0) chi -> same_value h (ts ++ env) h' (ts' ++ env)) /\
    (svd_faithful lib -> Z.le (Z.of_nat (leftDims h os lf i)) chi -> nothing_cut lib h (nth i ts 0) (nth (S i) ts 0) chi)).
Proof.
  pose proof (st_small X Y t1 t2 Xo i LX LXo) as SM. destruct (st_pos X Y t1 t2 Xo Yo o1 o2 i LX LXo) as (E1 & E2 & E3 & E4).
  destruct (st_open h X Y t1 t2 Xo Yo o1 o2 env lf rt CH) as [WO _]. destruct (st_links h X Y t1 t2 Xo Yo o1 o2 env lf rt i LX LXo CH) as [LK _].
  assert (PL1 := st_legs1 h X Y t1 t2 Xo Yo o1 o2 env lf rt i LX LXo CH). assert (PL2 := st_legs2 h X Y t1 t2 Xo Yo o1 o2 env lf rt i LX LXo CH).
  assert (NLK : forall l l', In l ((outL ++ [o1]) ++ outR ++ [o2]) -> In l' ((outL ++ [o1]) ++ outR ++ [o2]) -> ~ linked h l l').
  { intros l l' H1 H2. apply (st_apart h X Y t1 t2 Xo Yo o1 o2 env lf rt i LX LXo CH); rewrite !in_app_iff in *; simpl in *; tauto. }
  assert (NX : l_name (legs h (rt i)) = NStr "r" /\ l_name (legs h (lf (S i))) = NStr "l") by (split; [apply (ch_r _ _ _ _ _ _ CH)|apply (ch_l _ _ _ _ _ _ CH)]; auto).
  assert (DN : "l"%string <> "r"%string /\ "l"%string <> "o"%string /\ "r"%string <> "o"%string /\ after_dash "l" = None /\ after_dash "r" = None) by (repeat split; discriminate).
  assert (HL := st_outL h X Y t1 t2 Xo Yo o1 o2 env lf rt i LX LXo CH). assert (HR := st_outR h X Y t1 t2 Xo Yo o1 o2 env lf rt i CH). 
  assert (NO := st_o h X Y t1 t2 Xo Yo o1 o2 env lf rt i LX LXo CH).
  destruct (ch_kind _ _ _ _ _ _ CH t1) as [DA KA]; [rewrite in_app_iff; simpl; auto|].
  destruct (ch_kind _ _ _ _ _ _ CH t2) as [DB KB]; [rewrite in_app_iff; simpl; auto|].
  assert (KND : t_like (tens h t1) = false /\ t_like (tens h t2) = false /\ t_diag (tens h t1) = false /\ t_diag (tens h t2) = false) by auto.
  assert (PRA := two_restA h t1 t2 _ outL outR o1 o2 (rt i) (lf (S i)) WO PL1 PL2 LK NLK).
  assert (PRB := two_restB h t1 t2 _ outL outR o1 o2 (rt i) (lf (S i)) WO PL1 PL2 LK NLK).
  destruct (two_run lib h t1 t2 _ outL outR o1 o2 (rt i) (lf (S i)) "l" "r" WO PL1 PL2 LK NLK HL HR NO NX DN KND ST chi) as [R1 R2]. split.
  - intros HC. destruct (R1 HC) as (h' & E). exists h'. apply canon_err. now rewrite E1, E2.
  - intros HC. destruct (R2 HC) as (h1 & h2 & u & s & v & w & x & y & k & E & EC & CP & K0 & K1 & K2 & ISO & VAL & FF).
    assert (RD : prodn (map (dim_of h) (restA h t1 t2)) = leftDims h os lf i).
    { rewrite (prodn_perm' _ _ (Permutation_map (dim_of h) PRA)). unfold leftDims. rewrite E3. apply prodn_perm', Permutation_map. symmetry. apply Permutation_cons_append. }
    rewrite RD in K1, FF. 
    assert (KA1 : k <= prodn (map (dim_of h) (o1 :: outL))) by (unfold leftDims in K1; rewrite E3 in K1; exact K1).
    assert (KB1 : k <= prodn (map (dim_of h) (o2 :: outR))).
    { rewrite (prodn_perm' _ _ (Permutation_map (dim_of h) PRB)) in K2. rewrite (prodn_perm' (map (dim_of h) (o2 :: outR)) (map (dim_of h) (outR ++ [o2]))); [exact K2|].
      apply Permutation_map. apply Permutation_cons_append. }
    assert (WN : wf_open h2 ((X ++ u :: w :: Y) ++ env)) by (eapply wf_open_perm; [symmetry; apply perm_front|]; apply CP).
    assert (SF : same_free h (ts ++ env) h2 ((X ++ u :: w :: Y) ++ env)).
    { eapply same_free_perm; [symmetry; apply perm_front|symmetry; apply perm_front|apply WO|apply CP|]. eapply canon_same_free; eauto. }
    destruct (nth_two X Y u w 0 i LX) as [EU EW].
    exists h2, (X ++ u :: w :: Y), (upd lf (S i) y), (upd rt i x). split; [|split; [|split; [|split; [|split; [|split]]]]].
    + destruct (set_two X Y t1 t2 u w i LX) as [<- _]. eapply canon_run; [rewrite E1, E2; exact E|exact EC].
    + apply (st_finish h X Y t1 t2 Xo Yo o1 o2 env lf rt i chi LX LXo CH h2 u w x y k o1 o2); auto.
      * rewrite (cp_u _ _ _ _ _ _ _ _ _ _ _ _ _ _ CP), PRA, <- app_assoc. apply Permutation_app_head. apply perm_swap.
      * rewrite (cp_w _ _ _ _ _ _ _ _ _ _ _ _ _ _ CP), PRB. symmetry. apply Permutation_cons_append.
      * intros t [<-|[<-|[]]]; split; apply CP.
      * destruct (cp_names _ _ _ _ _ _ _ _ _ _ _ _ _ _ CP) as [-> ->]. auto.
      * apply CP.
      * apply CP.
      * apply CP.
      * apply CP.
      * intros l Hl. assert (In l (restA h t1 t2 ++ restB h t1 t2)) as HL'.
        { eapply Permutation_in; [symmetry; apply Permutation_app; [exact PRA|exact PRB]|]. rewrite !in_app_iff in *. simpl in *. tauto. }
        destruct (cp_legs _ _ _ _ _ _ _ _ _ _ _ _ _ _ CP l HL') as (H1 & H2 & H3). split; auto. split; auto. split; auto. intros l'.
        apply (cp_links _ _ _ _ _ _ _ _ _ _ _ _ _ _ CP). rewrite app_assoc. apply in_app_iff; auto.
      * intros l Hl. split; [now apply (cp_restlegs _ _ _ _ _ _ _ _ _ _ _ _ _ _ CP)|]. intros l'.
        apply (cp_links _ _ _ _ _ _ _ _ _ _ _ _ _ _ CP). rewrite app_assoc. apply in_app_iff; auto.
    + apply away_two; apply CP.
    + rewrite upd_same. destruct (cp_dims _ _ _ _ _ _ _ _ _ _ _ _ _ _ CP) as [-> _]. exact K1.
    + intros cj ON. rewrite EU, upd_same. auto.
    + rewrite E1, E2. intros NC. eapply same_value_perm; [symmetry; apply perm_front|symmetry; apply perm_front|apply WO|apply CP|]. now apply VAL.
    + rewrite E1, E2. intros SFF BIG. apply FF; auto.
Qed.

Lemma canon_left act :
  ((chi < 0)%Z -> exists h', canonStep lib (Z.of_nat (S i)) (Z.of_nat i) (mkMps ts chi act) h = (h', Err ValueError)) /\
  ((0 <= chi)%Z -> exists h' ts' lf' rt', canonStep lib (Z.of_nat (S i)) (Z.of_nat i) (mkMps ts chi act) h = (h', Ok (mkMps ts' chi act)) /\
    exchanged h ts os env lf rt i chi h' ts' os lf' rt' /\ away h ts h' ts' i /\ dim_of h' (rt' i) <= rightDims h n os rt (S i) /\
    (forall cj, svd_orthonormal cj lib -> isometry cj h' (nth (S i) ts' 0) (lf' (S i))) /\
    (nothing_cut lib h (nth (S i) ts 0) (nth i ts 0) chi -> same_value h (ts ++ env) h' (ts' ++ env)) /\
    (svd_faithful lib -> Z.le (Z.of_nat (rightDims h n os rt (S i))) chi -> nothing_cut lib h (nth (S i) ts 0) (nth i ts 0) chi)).
Proof.
  pose proof (st_small X Y t1 t2 Xo i LX LXo) as SM. destruct (st_pos X Y t1 t2 Xo Yo o1 o2 i LX LXo) as (E1 & E2 & E3 & E4).
  destruct (st_open h X Y t1 t2 Xo Yo o1 o2 env lf rt CH) as [_ WO]. destruct (st_links h X Y t1 t2 Xo Yo o1 o2 env lf rt i LX LXo CH) as [_ LK].
  assert (PL1 := st_legs1 h X Y t1 t2 Xo Yo o1 o2 env lf rt i LX LXo CH). assert (PL2 := st_legs2 h X Y t1 t2 Xo Yo o1 o2 env lf rt i LX LXo CH).
  assert (NLK : forall l l', In l ((outR ++ [o2]) ++ outL ++ [o1]) -> In l' ((outR ++ [o2]) ++ outL ++ [o1]) -> ~ linked h l l').
  { intros l l' H1 H2. apply (st_apart h X Y t1 t2 Xo Yo o1 o2 env lf rt i LX LXo CH); rewrite !in_app_iff in *; simpl in *; tauto. }
  assert (NX : l_name (legs h (lf (S i))) = NStr "l" /\ l_name (legs h (rt i)) = NStr "r") by (split; [apply (ch_l _ _ _ _ _ _ CH)|apply (ch_r _ _ _ _ _ _ CH)]; auto).
  assert (DN : "r"%string <> "l"%string /\ "r"%string <> "o"%string /\ "l"%string <> "o"%string /\ after_dash "r" = None /\ after_dash "l" = None) by (repeat split; discriminate).
  assert (HL := st_outL h X Y t1 t2 Xo Yo o1 o2 env lf rt i LX LXo CH). assert (HR := st_outR h X Y t1 t2 Xo Yo o1 o2 env lf rt i CH). 
  assert (NO : l_name (legs h o2) = NStr "o" /\ l_name (legs h o1) = NStr "o") by (destruct (st_o h X Y t1 t2 Xo Yo o1 o2 env lf rt i LX LXo CH); auto).
  destruct (ch_kind _ _ _ _ _ _ CH t1) as [DA KA]; [rewrite in_app_iff; simpl; auto|].
  destruct (ch_kind _ _ _ _ _ _ CH t2) as [DB KB]; [rewrite in_app_iff; simpl; auto|].
  assert (KND : t_like (tens h t2) = false /\ t_like (tens h t1) = false /\ t_diag (tens h t2) = false /\ t_diag (tens h t1) = false) by auto.
  assert (PRA := two_restA h t2 t1 _ outR outL o2 o1 (lf (S i)) (rt i) WO PL2 PL1 LK NLK).
  assert (PRB := two_restB h t2 t1 _ outR outL o2 o1 (lf (S i)) (rt i) WO PL2 PL1 LK NLK).
  destruct (two_run lib h t2 t1 _ outR outL o2 o1 (lf (S i)) (rt i) "r" "l" WO PL2 PL1 LK NLK HR HL NO NX DN KND ST chi) as [R1 R2]. split.
  - intros HC. destruct (R1 HC) as (h' & E). exists h'. apply canon_err. now rewrite E1, E2.
  - intros HC. destruct (R2 HC) as (h1 & h2 & u & s & v & w & x & y & k & E & EC & CP & K0 & K1 & K2 & ISO & VAL & FF).
    assert (RD : prodn (map (dim_of h) (restA h t2 t1)) = rightDims h n os rt (S i)).
    { rewrite (prodn_perm' _ _ (Permutation_map (dim_of h) PRA)). unfold rightDims. rewrite E4. apply prodn_perm', Permutation_map. symmetry. apply Permutation_cons_append. }
    rewrite RD in K1, FF. 
    assert (KA1 : k <= prodn (map (dim_of h) (o2 :: outR))) by (unfold rightDims in K1; rewrite E4 in K1; exact K1).
    assert (KB1 : k <= prodn (map (dim_of h) (o1 :: outL))).
    { rewrite (prodn_perm' _ _ (Permutation_map (dim_of h) PRB)) in K2. rewrite (prodn_perm' (map (dim_of h) (o1 :: outL)) (map (dim_of h) (outL ++ [o1]))); [exact K2|].
      apply Permutation_map. apply Permutation_cons_append. }
    assert (WN : wf_open h2 ((X ++ w :: u :: Y) ++ env)) by (eapply wf_open_perm; [symmetry; apply perm_front'|]; apply CP).
    assert (SF : same_free h (ts ++ env) h2 ((X ++ w :: u :: Y) ++ env)).
    { eapply same_free_perm; [symmetry; apply perm_front'|symmetry; apply perm_front'|apply WO|apply CP|]. eapply canon_same_free; eauto. }
    destruct (nth_two X Y w u 0 i LX) as [EW EU]. destruct (cp_dims _ _ _ _ _ _ _ _ _ _ _ _ _ _ CP) as [DX DY].
    exists h2, (X ++ w :: u :: Y), (upd lf (S i) x), (upd rt i y). split; [|split; [|split; [|split; [|split; [|split]]]]].
    + destruct (set_two X Y t1 t2 u w i LX) as [_ <-]. eapply canon_run; [rewrite E1, E2; exact E|exact EC].
    + apply (st_finish h X Y t1 t2 Xo Yo o1 o2 env lf rt i chi LX LXo CH h2 w u y x k o1 o2); auto.
      * rewrite (cp_w _ _ _ _ _ _ _ _ _ _ _ _ _ _ CP), PRB, <- app_assoc. apply Permutation_app_head. apply perm_swap.
      * rewrite (cp_u _ _ _ _ _ _ _ _ _ _ _ _ _ _ CP), PRA. symmetry. apply Permutation_cons_append.
      * intros t [<-|[<-|[]]]; split; apply CP.
      * destruct (cp_names _ _ _ _ _ _ _ _ _ _ _ _ _ _ CP) as [-> ->]. split; apply NX.
      * apply CP.
      * split; apply CP.
      * apply CP.
      * intros l Hl. assert (In l (restA h t2 t1 ++ restB h t2 t1)) as HL'.
        { eapply Permutation_in; [symmetry; apply Permutation_app; [exact PRA|exact PRB]|]. rewrite !in_app_iff in *. simpl in *. tauto. }
        destruct (cp_legs _ _ _ _ _ _ _ _ _ _ _ _ _ _ CP l HL') as (H1 & H2 & H3). split; auto. split; auto. split; auto. intros l'.
        apply (cp_links _ _ _ _ _ _ _ _ _ _ _ _ _ _ CP). rewrite app_assoc. apply in_app_iff; auto.
      * intros l Hl. split; [now apply (cp_restlegs _ _ _ _ _ _ _ _ _ _ _ _ _ _ CP)|]. intros l'.
        apply (cp_links _ _ _ _ _ _ _ _ _ _ _ _ _ _ CP). rewrite app_assoc. apply in_app_iff; auto.
    + apply away_two; apply CP.
    + rewrite upd_same, DY. exact K1.
    + intros cj ON. rewrite EU, upd_same. auto.
    + rewrite E1, E2. intros NC. eapply same_value_perm; [symmetry; apply perm_front'|symmetry; apply perm_front'|apply WO|apply CP|]. now apply VAL.
    + rewrite E1, E2. intros SFF BIG. apply FF; auto.
Qed.
End Step.
End Mp.
