(** The brute-force search is optimal (C25). *)
From Coq Require Import List Arith Bool Lia ZArith Permutation.
From Verif Require Import Base FuncsModel FuncsProofs SearchModel BitProofs SearchSpec SearchBase.
Import ListNotations.
Local Open Scope nat_scope.

(** the sequence of a tree: the result of a step is kept at the lowest vertex *)
Fixpoint tseq (t : tree) : list (nat * nat) :=
  match t with Leaf _ => [] | Node a b => tseq a ++ tseq b ++ [(lowest (leaves a), lowest (leaves b))] end.
Lemma leaves_nonempty t : leaves t <> [].
Proof. induction t as [|a IHa b IHb]; simpl; [discriminate|]. destruct (leaves a); [congruence|discriminate]. Qed.

Lemma updZ_same {X} (f : Z -> X) k v : updZ f k v k = v.
Proof. unfold updZ. now rewrite Z.eqb_refl. Qed.
Lemma updZ_other {X} (f : Z -> X) k v x : x <> k -> updZ f k v x = f x.
Proof. intros N. unfold updZ. destruct (Z.eqb_spec x k); congruence. Qed.

(** ** the initial tables *)
Definition init_from (l : list (nat * vres)) (st : sst) : sst :=
  fold_left (fun st '(i, r) =>
      let k := (2 ^ Z.of_nat i)%Z in
      mkSst (updZ (s_cost st) k (Some 0)) (updZ (s_seq st) k (Some [])) (updZ (s_res st) k (Some r))) l st.
Lemma init_none l : forall st x, (forall i r, In (i, r) l -> x <> (2 ^ Z.of_nat i)%Z) ->
  s_cost (init_from l st) x = s_cost st x /\ s_seq (init_from l st) x = s_seq st x /\ s_res (init_from l st) x = s_res st x.
Proof.
  induction l as [|[i r] l IH]; intros st x H; [simpl; auto|]. cbn [init_from fold_left]. fold (init_from l).
  edestruct IH as (I1 & I2 & I3); [intros j q Hj; apply (H j q); simpl; auto|].
  unfold init_from in *. rewrite I1, I2, I3. cbn [s_cost s_seq s_res]. rewrite !updZ_other by (apply (H i r); simpl; auto). auto.
Qed.
Lemma pow2_inj i j : (2 ^ Z.of_nat i)%Z = (2 ^ Z.of_nat j)%Z -> i = j.
Proof. intros E. apply Nat2Z.inj. apply (Z.pow_inj_r 2); lia. Qed.
Lemma init_some l : forall st i r, NoDup (map fst l) -> In (i, r) l ->
  s_cost (init_from l st) (2 ^ Z.of_nat i) = Some 0 /\ s_seq (init_from l st) (2 ^ Z.of_nat i) = Some [] /\ s_res (init_from l st) (2 ^ Z.of_nat i) = Some r.
Proof.
  induction l as [|[j q] l IH]; intros st i r ND Hi; [destruct Hi|]. inversion ND as [|? ? NI ND']; subst. destruct Hi as [E|Hi].
  - injection E as -> ->. cbn [init_from fold_left]. fold (init_from l).
    edestruct (init_none l) as (I1 & I2 & I3); [|unfold init_from in *; rewrite I1, I2, I3; cbn [s_cost s_seq s_res]; rewrite !updZ_same; auto].
    intros k s Hk E. apply pow2_inj in E. subst. apply NI. apply in_map_iff. exists (k, s). auto.
  - cbn [init_from fold_left]. fold (init_from l). apply IH; auto.
Qed.
Lemma combine_nth_In (l : list vres) i r k : In (i, r) (combine (seq k (List.length l)) l) <-> k <= i < k + List.length l /\ nth (i - k) l ([], [], false) = r.
Proof.
  revert k. induction l as [|a l IH]; intros k; simpl; [split; [tauto|lia]|]. rewrite IH. split.
  - intros [E|(H1 & H2)]; [injection E as -> ->; rewrite Nat.sub_diag; split; auto; lia|].
    split; [lia|]. replace (i - k) with (S (i - S k)) by lia. auto.
  - intros (H1 & H2). destruct (Nat.eq_dec i k) as [->|N]; [left; rewrite Nat.sub_diag in H2; now rewrite H2|]. right. split; [lia|].
    replace (i - k) with (S (i - S k)) in H2 by lia. auto.
Qed.

Section Bf.
Variable symdiff : list nat -> list nat -> list nat.
Hypothesis SD : symdiff_ok symdiff.
Variable verts : list vres.
Variable dim : nat -> nat.
Variable typ : option nat.
Hypothesis WG : wf_graph verts dim.
Notation n := (List.length verts).
Notation join_cost := (join_cost verts dim typ).
Notation tree_cost := (tree_cost verts dim typ).
Notation rep := (rep verts dim).
Notation grp := (grp verts).
Notation fits := (fits verts dim typ).
Notation mem := (members (List.length verts)).
Notation ok := (setok (List.length verts)).

Definition on (t : tree) (x : Z) : Prop := Permutation (leaves t) (mem x).
Lemma grp_mem x : grp (mem x).
Proof. split; [apply members_NoDup|apply members_incl]. Qed.
Lemma grp_two a b : Z.land a b = 0%Z -> grp (mem a ++ mem b).
Proof. intros D. eapply grp_perm; [apply members_union, D|apply grp_mem]. Qed.

Record inv0 (st : sst) : Prop := {
  i_res : forall x r, s_res st x = Some r -> ok x /\ rep r (mem x);
  i_cost : forall x c, s_cost st x = Some c -> ok x /\ (exists r, s_res st x = Some r) /\
           exists t, on t x /\ tree_cost t = c /\ s_seq st x = Some (tseq t);
  i_single : forall i, i < n -> s_cost st (2 ^ Z.of_nat i) <> None }.
Lemma init_inv : inv0 (init_st verts) /\ 
  (forall x, s_cost (init_st verts) x <> None -> exists i, i < n /\ x = (2 ^ Z.of_nat i)%Z) /\
  (forall i, i < n -> s_cost (init_st verts) (2 ^ Z.of_nat i) = Some 0).
Proof.
  unfold init_st. fold (init_from (combine (seq 0 n) verts) (mkSst (fun _ => None) (fun _ => None) (fun _ => None))).
  set (L := combine (seq 0 n) verts).
  assert (ND : NoDup (map fst L)).
  { unfold L. assert (forall (a : list nat) (b : list vres), List.length a = List.length b -> map fst (combine a b) = a) as G.
    { induction a as [|x a IH]; intros [|y b] E; try discriminate; auto. simpl. f_equal. apply IH. now injection E. }
    rewrite G by now rewrite seq_length. apply seq_NoDup. }
  assert (IN : forall i, i < n -> In (i, vert verts i) L).
  { intros i Hi. apply combine_nth_In. split; [lia|]. rewrite Nat.sub_0_r. reflexivity. }
  assert (OUT : forall x, (exists i, i < n /\ x = (2 ^ Z.of_nat i)%Z) \/ (forall i r, In (i, r) L -> x <> (2 ^ Z.of_nat i)%Z)).
  { intros x. destruct (in_dec Z.eq_dec x (map (fun p => (2 ^ Z.of_nat (fst p))%Z) L)) as [H|H].
    - left. apply in_map_iff in H. destruct H as ([i r] & E & H). exists i. apply combine_nth_In in H. simpl in E. split; [lia|auto].
    - right. intros i r Hi E. apply H. apply in_map_iff. exists (i, r). auto. }
  set (e := mkSst (fun _ => None) (fun _ => None) (fun _ => None)).
  assert (ALL : forall x, (exists i, i < n /\ x = (2 ^ Z.of_nat i)%Z /\ s_cost (init_from L e) x = Some 0 /\ s_seq (init_from L e) x = Some [] /\ s_res (init_from L e) x = Some (vert verts i)) \/
    (s_cost (init_from L e) x = None /\ s_res (init_from L e) x = None)).
  { intros x. destruct (OUT x) as [(i & Hi & ->)|H].
    - left. exists i. destruct (init_some L e i _ ND (IN i Hi)) as (I1 & I2 & I3). auto.
    - right. destruct (init_none L e x H) as (I1 & _ & I3). auto. }
  split; [constructor|split].
  - intros x r E. destruct (ALL x) as [(i & Hi & -> & _ & _ & E2)|(_ & E2)]; [|congruence]. split; [now apply single_setok|].
    rewrite members_single by auto. rewrite E2 in E. injection E as <-. apply rep_vert; auto. apply in_seq. lia.
  - intros x c E. destruct (ALL x) as [(i & Hi & -> & E1 & E3 & E2)|(E2 & _)]; [|congruence]. split; [now apply single_setok|]. split; [eauto|].
    exists (Leaf i). split; [unfold on; now rewrite members_single|]. rewrite E1 in E. injection E as <-. auto.
  - intros i Hi. destruct (init_some L e i _ ND (IN i Hi)) as (I1 & _). now rewrite I1.
  - intros x E. destruct (ALL x) as [(i & Hi & -> & _)|(E2 & _)]; [eauto|congruence].
  - intros i Hi. apply (init_some L e i _ ND (IN i Hi)).
Qed.

(** ** brute force *)
Hypothesis DU : typ = None -> diag_uniform verts dim.

Definition best_at (st : sst) (x : Z) : Prop := forall c t, s_cost st x = Some c -> on t x -> c <= tree_cost t.
Record inv (st : sst) : Prop := { iv_inv : inv0 st; iv_best : forall x, best_at st x }.
Record ext (st st' : sst) : Prop := {
  e_cost : forall x c, s_cost st x = Some c -> s_cost st' x = Some c;
  e_seq : forall x c, s_cost st x = Some c -> s_seq st' x = s_seq st x;
  e_res : forall x r, s_res st x = Some r -> s_res st' x = Some r }.
Lemma ext_refl st : ext st st. Proof. constructor; auto. Qed.
Lemma ext_trans a b c : ext a b -> ext b c -> ext a c.
Proof. intros [A1 A2 A3] [B1 B2 B3]. constructor; eauto. intros x v E. rewrite (B2 x v); auto. eauto. Qed.

Section Step.
Variable x : Z.
Hypothesis Hx : ok x.
Hypothesis single_no : forall i, mem x <> [i].

Definition splits (a : Z) : Prop := ok a /\ ok (x - a) /\ Z.land a (x - a) = 0%Z /\ Z.lor a (x - a) = x.
Lemma iter_splits a : In a (subsetIterator x) -> splits a.
Proof.
  intros Ha. destruct (splits_once x ltac:(unfold setok in Hx; lia)) as (_ & H & _). destruct (H a Ha) as (H1 & H2 & H3 & H4).
  unfold splits, setok in *. repeat split; auto; try lia.
Qed.
Lemma split_fits a : splits a -> fits (mem a) (mem (x - a)).
Proof.
  intros (H1 & H2 & H3 & H4). apply bf_fits; auto; [now apply grp_two|apply members_nonempty; auto|apply members_nonempty; auto].
Qed.
Definition val (st : sst) (a : Z) : option nat :=
  match s_cost st a, s_cost st (x - a) with
  | Some ca, Some cb => Some (ca + cb + join_cost (mem a) (mem (x - a)))
  | _, _ => None
  end.
Lemma val_ext st st' a v : ext st st' -> val st a = Some v -> val st' a = Some v.
Proof.
  intros E. unfold val. destruct (s_cost st a) eqn:E1; [|discriminate]. destruct (s_cost st (x - a)) eqn:E2; [|discriminate].
  now rewrite (e_cost _ _ E _ _ E1), (e_cost _ _ E _ _ E2).
Qed.
(** after the splits in [dn] have been tried *)
Definition tried (st : sst) (dn : list Z) (best : option (nat * Z * Z)) : Prop :=
  match best with
  | None => dn = []
  | Some (c, a, b) => In a dn /\ b = (x - a)%Z /\ val st a = Some c /\ (exists r, s_res st x = Some r) /\
                      forall a', In a' dn -> exists v, val st a' = Some v /\ c <= v
  end.

Definition body (f : nat) : sst * option (nat * Z * Z) -> Z -> res (sst * option (nat * Z * Z)) := fun '(st, best) tsA =>
  let tsB := (x - tsA)%Z in
  letr st := (match s_cost st tsA with Some _ => Ok st | None => solveSet symdiff typ f tsA st end) in
  letr st := (match s_cost st tsB with Some _ => Ok st | None => solveSet symdiff typ f tsB st end) in
  letr ra := need (s_res st tsA) in
  letr rb := need (s_res st tsB) in
  let st := (match s_res st x with
             | Some _ => st
             | None => mkSst (s_cost st) (s_seq st) (updZ (s_res st) x (Some (calculateContractRes symdiff ra rb)))
             end) in
  letr localCost := costFunc typ ra rb in
  letr ca := need (s_cost st tsA) in
  letr cb := need (s_cost st tsB) in
  let currCost := ca + cb + localCost in
  let better := match best with None => true | Some (m, _, _) => currCost <? m end in
  Ok (st, if better then Some (currCost, tsA, tsB) else best).

Definition solves (f : nat) : Prop := forall y st, (y < x)%Z -> inv st -> ok y -> List.length (mem y) <= f ->
  exists st', solveSet symdiff typ f y st = Ok st' /\ inv st' /\ ext st st' /\ s_cost st' y <> None /\
    forall z, (y < z)%Z -> s_cost st' z = s_cost st z.

Lemma maybe_solve f y st : solves f -> (y < x)%Z -> inv st -> ok y -> List.length (mem y) <= f ->
  exists st', match s_cost st y with Some _ => Ok st | None => solveSet symdiff typ f y st end = Ok st' /\ inv st' /\ ext st st' /\ s_cost st' y <> None /\
    forall z, (y < z)%Z -> s_cost st' z = s_cost st z.
Proof.
  intros SO L I Hy HL. destruct (s_cost st y) eqn:E; [|now apply SO]. exists st. split; auto. split; auto. split; [apply ext_refl|]. split; [congruence|auto].
Qed.
Lemma body_ok f st best dn a : solves f -> List.length (mem x) <= S f -> inv st -> s_cost st x = None -> In a (subsetIterator x) -> tried st dn best ->
  exists st' best', body f (st, best) a = Ok (st', best') /\ inv st' /\ ext st st' /\ (forall z, (x <= z)%Z -> s_cost st' z = s_cost st z) /\ tried st' (dn ++ [a]) best'.
Proof.
  intros SO HL I N Ha T. pose proof (iter_splits a Ha) as SPL. pose proof SPL as (Oa & Ob & D & U).
  assert (LA : (0 < a < x)%Z) by (unfold setok in *; lia).
  assert (LL : List.length (mem x) = List.length (mem a) + List.length (mem (x - a))).
  { rewrite <- U at 1. rewrite (Permutation_length (members_union n a (x - a) D)). apply app_length. }
  assert (NE1 : List.length (mem a) <> 0) by (intros E; apply length_zero_iff_nil in E; revert E; now apply members_nonempty).
  assert (NE2 : List.length (mem (x - a)) <> 0) by (intros E; apply length_zero_iff_nil in E; revert E; now apply members_nonempty).
  destruct (maybe_solve f a st SO) as (st1 & E1 & I1 & X1 & C1 & F1); auto; [lia|lia|].
  destruct (maybe_solve f (x - a)%Z st1 SO) as (st2 & E2 & I2 & X2 & C2 & F2); auto; [lia|lia|].
  destruct (s_cost st1 a) as [ca|] eqn:Ca; [|congruence]. destruct (s_cost st2 (x - a)) as [cb|] eqn:Cb; [|congruence].
  apply (e_cost _ _ X2) in Ca.
  destruct (i_cost _ (iv_inv _ I2) _ _ Ca) as (_ & (ra & Ra) & _). destruct (i_cost _ (iv_inv _ I2) _ _ Cb) as (_ & (rb & Rb) & _).
  destruct (i_res _ (iv_inv _ I2) _ _ Ra) as (_ & RA). destruct (i_res _ (iv_inv _ I2) _ _ Rb) as (_ & RB).
  set (st3 := match s_res st2 x with
             | Some _ => st2
             | None => mkSst (s_cost st2) (s_seq st2) (updZ (s_res st2) x (Some (calculateContractRes symdiff ra rb)))
             end).
  assert (C3 : s_cost st3 = s_cost st2) by (unfold st3; destruct (s_res st2 x); auto).
  assert (Q3 : s_seq st3 = s_seq st2) by (unfold st3; destruct (s_res st2 x); auto).
  assert (X3 : ext st2 st3).
  { unfold st3. destruct (s_res st2 x) eqn:E; [apply ext_refl|]. constructor; auto. intros z r Ez. cbn [s_res]. rewrite updZ_other; auto. congruence. }
  assert (R3 : exists r, s_res st3 x = Some r).
  { unfold st3. destruct (s_res st2 x) eqn:E; [eauto|]. cbn [s_res]. rewrite updZ_same. eauto. }
  assert (I3 : inv st3).
  { destruct I2 as [[J1 J2 J3] J4]. constructor; [constructor|].
    - intros z r. unfold st3. destruct (s_res st2 x) eqn:E; [apply J1|]. cbn [s_res]. unfold updZ. destruct (Z.eqb_spec z x) as [->|NZ]; [|apply J1].
      intros Er. injection Er as <-. split; auto. rewrite <- U at 1. eapply rep_perm; [symmetry; apply members_union, D|]. apply calc_rep; auto. now apply grp_two.
    - intros z c. rewrite C3, Q3. intros Ez. destruct (J2 z c Ez) as (K1 & (r & K2) & K3). split; auto. split; [exists r; apply X3; auto|auto].
    - rewrite C3. exact J3.
    - intros z c t. rewrite C3. apply J4. }
  assert (EC : costFunc typ ra rb = Ok (join_cost (mem a) (mem (x - a)))) by (apply fits_cost; auto using split_fits).
  set (v := ca + cb + join_cost (mem a) (mem (x - a))).
  assert (V : val st3 a = Some v) by (unfold val; now rewrite C3, Ca, Cb).
  assert (XX : ext st st3) by eauto using ext_trans.
  exists st3, (if match best with None => true | Some (m, _, _) => v <? m end then Some (v, a, (x - a)%Z) else best).
  split; [|split; [auto|split; [auto|split]]].
  - unfold body. rewrite E1. cbn [rbind]. rewrite E2. cbn [rbind]. rewrite Ra. cbn [need rbind]. rewrite Rb. cbn [need rbind]. fold st3.
    rewrite EC, C3. cbn [rbind]. rewrite Ca. cbn [need rbind]. rewrite Cb. reflexivity.
  - intros z Hz. rewrite C3, F2, F1; auto; lia.
  - destruct best as [[[m a0] b0]|].
    + destruct T as (T1 & T2 & T3 & T4 & T5). destruct (Nat.ltb_spec v m) as [L|L].
      * split; [apply in_app_iff; simpl; auto|]. split; auto. split; auto. split; auto. intros a' Ha'. apply in_app_iff in Ha'. destruct Ha' as [Ha'|[<-|[]]]; [|eauto].
        destruct (T5 a' Ha') as (v' & V1 & V2). exists v'. split; [eapply val_ext; eauto|lia].
      * split; [apply in_app_iff; auto|]. split; auto. split; [eapply val_ext; eauto|]. split; auto. intros a' Ha'. apply in_app_iff in Ha'. destruct Ha' as [Ha'|[<-|[]]]; [|eauto].
        destruct (T5 a' Ha') as (v' & V1 & V2). exists v'. split; [eapply val_ext; eauto|lia].
    + simpl in T. subst dn. simpl. repeat split; auto. intros a' [<-|[]]. eauto.
Qed.
Lemma loop_ok f : solves f -> List.length (mem x) <= S f -> forall L st best dn, incl L (subsetIterator x) -> inv st -> s_cost st x = None -> tried st dn best ->
  exists st' best', rfold (body f) L (st, best) = Ok (st', best') /\ inv st' /\ ext st st' /\ (forall z, (x <= z)%Z -> s_cost st' z = s_cost st z) /\ tried st' (dn ++ L) best'.
Proof.
  intros SO HL. induction L as [|a L IH]; intros st best dn HI I N T.
  - exists st, best. rewrite app_nil_r. split; auto. split; auto. split; [apply ext_refl|]. auto.
  - destruct (body_ok f st best dn a SO HL I N) as (st1 & b1 & E1 & I1 & X1 & F1 & T1); auto; [apply HI; simpl; auto|].
    destruct (IH st1 b1 (dn ++ [a])) as (st2 & b2 & E2 & I2 & X2 & F2 & T2); auto; [intros z Hz; apply HI; simpl; auto|rewrite F1; auto; lia|].
    exists st2, b2. split; [|split; [auto|split; [eauto using ext_trans|split]]].
    + cbn [rfold]. rewrite E1. cbn [rbind]. exact E2.
    + intros z Hz. rewrite F2, F1; auto.
    + now rewrite <- app_assoc in T2.
Qed.

Lemma split_of_tree l r : on (Node l r) x -> let a := mask (leaves l) in let b := mask (leaves r) in
  on l a /\ on r b /\ ok a /\ ok b /\ Z.land a b = 0%Z /\ Z.lor a b = x.
Proof.
  intros O a b. unfold on in O. simpl in O. assert (GG : grp (leaves l ++ leaves r)) by (eapply grp_perm; [symmetry; exact O|apply grp_mem]).
  pose proof (grp_app _ _ _ GG) as ((N1 & H1) & (N2 & H2)). destruct GG as (ND & HI).
  assert (A : Permutation (mem a) (leaves l)) by now apply members_mask. assert (B : Permutation (mem b) (leaves r)) by now apply members_mask.
  assert (Oa : ok a) by (apply mask_setok; auto using leaves_nonempty). assert (Ob : ok b) by (apply mask_setok; auto using leaves_nonempty).
  assert (D : Z.land a b = 0%Z).
  { apply (land_members n); auto. intros i Ha Hb. apply NoDup_app_inv in ND. destruct ND as (_ & _ & ND). apply (ND i).
    - exact (Permutation_in _ A Ha). - exact (Permutation_in _ B Hb). }
  split; [now apply Permutation_sym|]. split; [now apply Permutation_sym|]. split; auto. split; auto. split; auto.
  pose proof (lor_setok n a b Oa Ob) as OO. unfold setok in OO, Hx. apply (members_inj n); [lia|lia|].
  intros i. assert (P : Permutation (mem (Z.lor a b)) (mem x)).
  { rewrite (members_union n a b D), A, B. exact O. }
  split; apply Permutation_in; auto. now symmetry.
Qed.
Lemma solve_step f st : solves f -> List.length (mem x) <= S f -> inv st ->
  exists st', solveSet symdiff typ (S f) x st = Ok st' /\ inv st' /\ ext st st' /\ s_cost st' x <> None /\
    forall z, (x < z)%Z -> s_cost st' z = s_cost st z.
Proof.
  intros SO HL I. cbn [solveSet]. destruct (s_cost st x) as [c0|] eqn:EX.
  - exists st. split; auto. split; auto. split; [apply ext_refl|]. split; [congruence|auto].
  - destruct (loop_ok f SO HL (subsetIterator x) st None [] (incl_refl _) I EX eq_refl) as (st1 & best & E & I1 & X1 & F1 & T). simpl app in T.
    change (rfold (body f) (subsetIterator x) (st, None) = Ok (st1, best)) in E.
    assert (EX1 : s_cost st1 x = None) by (rewrite F1; auto; lia).
    (* there is a split *)
    assert (NE : subsetIterator x <> []).
    { pose proof (members_nonempty n x Hx) as NX. destruct (mem x) as [|i [|j L]] eqn:EM; [congruence|exfalso; now apply (single_no i)|].
      assert (O : on (Node (Leaf i) (fold_right (fun k t => Node (Leaf k) t) (Leaf j) L)) x).
      { unfold on. rewrite EM. simpl. constructor. clear. revert j. induction L as [|k L IH]; intros j; simpl; auto. rewrite perm_swap. constructor. apply IH. }
      destruct (split_of_tree _ _ O) as (_ & _ & Oa & Ob & D & U). 
      destruct (splits_once x ltac:(unfold setok in Hx; lia)) as (_ & _ & H). 
      assert (P1 := proj1 Oa). assert (P2 := proj1 Ob). destruct (H _ _ P1 P2 D U) as [(K & _)|(K & _)]; intros EE; rewrite EE in K; destruct K. }
    destruct best as [[[c a] b]|]; [|simpl in T; congruence]. destruct T as (Ha & -> & V & R & TB).
    pose proof (iter_splits a Ha) as SPL. pose proof SPL as (Oa & Ob & D & U).
    unfold val in V. destruct (s_cost st1 a) as [ca|] eqn:Ca; [|discriminate]. destruct (s_cost st1 (x - a)) as [cb|] eqn:Cb; [|discriminate]. injection V as <-.
    destruct (i_cost _ (iv_inv _ I1) _ _ Ca) as (_ & _ & ta & O1 & T1 & Q1). destruct (i_cost _ (iv_inv _ I1) _ _ Cb) as (_ & _ & tb & O2 & T2 & Q2).
    set (c := ca + cb + join_cost (mem a) (mem (x - a))).
    set (st2 := mkSst (updZ (s_cost st1) x (Some c)) (updZ (s_seq st1) x (Some (tseq ta ++ tseq tb ++ [(lowbitI a, lowbitI (x - a))]))) (s_res st1)).
    assert (FT := split_fits a SPL).
    assert (ON : on (Node ta tb) x). { unfold on in *. simpl. rewrite O1, O2. rewrite <- U at 2. symmetry. now apply members_union. }
    assert (TC : tree_cost (Node ta tb) = c).
    { simpl. rewrite T1, T2. unfold c. f_equal. symmetry. apply cost_perm; auto; now symmetry. }
    assert (TS : tseq (Node ta tb) = tseq ta ++ tseq tb ++ [(lowbitI a, lowbitI (x - a))]).
    { simpl. do 3 f_equal. rewrite (lowbitI_lowest n a Oa), (lowbitI_lowest n (x - a) Ob). now rewrite (lowest_perm _ _ O1), (lowest_perm _ _ O2). }
    exists st2. split; [|split; [|split; [|split]]].
    + match goal with |- rbind (rfold ?g _ _) _ = _ => change g with (body f) end. rewrite E. cbn [rbind need]. rewrite Q1. cbn [rbind need]. rewrite Q2. reflexivity.
    + destruct I1 as [[J1 J2 J3] J4]. constructor; [constructor|].
      * exact J1.
      * intros z c1 Ez. cbn [s_cost st2] in Ez. unfold updZ in Ez. destruct (Z.eqb_spec z x) as [->|NZ].
        -- injection Ez as <-. split; auto. split; [exact R|]. exists (Node ta tb). split; auto. split; auto. cbn [s_seq st2]. rewrite updZ_same. now rewrite TS.
        -- destruct (J2 z c1 Ez) as (K1 & K2 & K3). split; auto. split; auto. cbn [s_seq st2]. now rewrite updZ_other.
      * intros i Hi. cbn [s_cost st2]. unfold updZ. destruct (Z.eqb_spec (2 ^ Z.of_nat i) x); [discriminate|]. now apply J3.
      * intros z c1 t Ez Ot. cbn [s_cost st2] in Ez. unfold updZ in Ez. destruct (Z.eqb_spec z x) as [->|NZ]; [|eapply J4; eauto]. injection Ez as <-.
        destruct t as [i|l r].
        -- exfalso. apply (single_no i). unfold on in Ot. simpl in Ot. now apply Permutation_length_1_inv in Ot.
        -- destruct (split_of_tree _ _ Ot) as (Ol & Or & La & Lb & LD & LU). set (p := mask (leaves l)) in *. set (q := mask (leaves r)) in *.
           assert (EQ : (x = p + q)%Z) by (rewrite <- LU; apply disjoint_add; auto; unfold setok in *; lia).
           assert (Fpq : fits (mem p) (mem q)) by (apply bf_fits; auto; [now apply grp_two|now apply members_nonempty|now apply members_nonempty]).
           assert (JC : join_cost (leaves l) (leaves r) = join_cost (mem p) (mem q)). { symmetry. apply cost_perm; auto; now symmetry. }
           destruct (splits_once x ltac:(unfold setok in Hx; lia)) as (_ & _ & SO2).
           simpl. rewrite JC.
           destruct (SO2 p q (proj1 La) (proj1 Lb) LD LU) as [(K & _)|(K & _)].
           ++ destruct (TB p K) as (v & Ev & Lv). unfold val in Ev. replace (x - p)%Z with q in Ev by lia.
              destruct (s_cost st1 p) as [cp|] eqn:Ep; [|discriminate]. destruct (s_cost st1 q) as [cq|] eqn:Eq; [|discriminate]. injection Ev as <-.
              pose proof (J4 p cp l Ep Ol). pose proof (J4 q cq r Eq Or). unfold c. lia.
           ++ destruct (TB q K) as (v & Ev & Lv). unfold val in Ev. replace (x - q)%Z with p in Ev by lia.
              destruct (s_cost st1 q) as [cq|] eqn:Eq; [|discriminate]. destruct (s_cost st1 p) as [cp|] eqn:Ep; [|discriminate]. injection Ev as <-.
              pose proof (J4 p cp l Ep Ol). pose proof (J4 q cq r Eq Or). rewrite (cost_sym verts dim typ (mem q) (mem p)) in Lv by now apply fits_sym. unfold c. lia.
    + eapply ext_trans; [exact X1|]. constructor; cbn [s_cost s_seq s_res st2]; auto; intros z c1 Ez.
      * rewrite updZ_other; auto. congruence.
      * rewrite updZ_other; auto. congruence.
    + cbn [s_cost st2]. rewrite updZ_same. discriminate.
    + intros z Hz. cbn [s_cost st2]. rewrite updZ_other by lia. apply F1. lia.
Qed.
End Step.

Lemma solve_ok f : forall x st, inv st -> ok x -> List.length (mem x) <= f ->
  exists st', solveSet symdiff typ f x st = Ok st' /\ inv st' /\ ext st st' /\ s_cost st' x <> None /\
    forall z, (x < z)%Z -> s_cost st' z = s_cost st z.
Proof.
  induction f as [|f IH]; intros x st I Hx HL.
  - exfalso. apply (members_nonempty n x Hx). now apply length_zero_iff_nil; inversion HL.
  - assert (SO : solves x f) by (intros y st' _; apply IH).
    destruct (s_cost st x) as [c|] eqn:E.
    + exists st. cbn [solveSet]. rewrite E. split; auto. split; auto. split; [apply ext_refl|]. split; [congruence|auto].
    + apply solve_step; auto. intros i Ei. rewrite (single_inj n x i Hx Ei) in E.
      assert (In i (mem x)) as Hi by (rewrite Ei; simpl; auto). apply members_In in Hi. apply (i_single _ (iv_inv _ I) i); tauto.
Qed.

Lemma bruteForce_ok : 0 < n -> exists t, spans verts t /\ bruteForce symdiff verts typ = Ok (tseq t, tree_cost t) /\
  forall t', spans verts t' -> tree_cost t <= tree_cost t'.
Proof.
  intros Hn. destruct init_inv as (I0 & IC & IS).
  assert (I : inv (init_st verts)).
  { constructor; auto. intros x c t E O. destruct (IC x) as (i & Hi & ->); [congruence|]. rewrite IS in E by auto. injection E as <-. lia. }
  assert (FO := full_setok n Hn). fold (full verts) in FO. change (2 ^ Z.of_nat n - 1)%Z with (full verts) in FO.
  assert (MF : mem (full verts) = seq 0 n) by apply members_full.
  destruct (solve_ok (S n) (full verts) (init_st verts) I FO) as (st & E & I1 & _ & C & _); [rewrite MF, seq_length; lia|].
  destruct (s_cost st (full verts)) as [c|] eqn:EC; [|congruence]. destruct (i_cost _ (iv_inv _ I1) _ _ EC) as (_ & _ & t & O & T & Q).
  unfold on in O. rewrite MF in O. exists t. split; [exact O|]. split.
  - unfold bruteForce. change (SearchModel.n verts) with n. rewrite E. cbn [rbind]. rewrite Q. cbn [need rbind]. rewrite EC. cbn [need rbind]. now rewrite T.
  - intros t' O'. rewrite T. apply (iv_best _ I1 _ c t' EC). unfold on. now rewrite MF.
Qed.
End Bf.
