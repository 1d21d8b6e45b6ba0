(** The statements that build the two tensors of a truncated decomposition and link them. *)
From Coq Require Import List Arith Bool Lia String ZArith Permutation.
From Verif Require Import Base Sums NdModel NdProofs HeapModel FuncsModel FuncsProofs TensorModel TensorSpec
  ContractModel NetSpec ShareProofs LinkProofs SumpairsProofs ContractProofs NetProofs SplitProofs.
Import ListNotations.
Local Open Scope list_scope.
Local Open Scope nat_scope.

Section Pp.
Context {A : Type} {HA : SR A}.
Notation heap := (heap A).

Definition two_legs (h : heap) (k : nat) (na nb : pname) : heap :=
  mkHeap (upd (upd (legs h) (nleg h) (mkLeg None k na None)) (S (nleg h)) (mkLeg None k nb None))
    (bonds h) (tens h) (S (S (nleg h))) (nbond h) (ntens h) (rng h) (rpos h).

Lemma newLegs {X} (h : heap) k na nb (F : lid -> lid -> @M A X) :
  (x <- newLeg None k na ;; y <- newLeg None k nb ;; F x y) h = F (nleg h) (S (nleg h)) (two_legs h k na nb).
Proof. reflexivity. Qed.

Record tensors_made (h h' : heap) (La Lb : list lid) (k : nat) (na nb : pname) : Prop := {
  tm_ntens : ntens h' = S (S (ntens h)); tm_nleg : nleg h' = S (S (nleg h)); tm_nbond : nbond h' = nbond h;
  tm_bonds : bonds h' = bonds h;
  tm_x : legs h' (nleg h) = mkLeg (Some (ntens h)) k na None;
  tm_y : legs h' (S (nleg h)) = mkLeg (Some (S (ntens h))) k nb None;
  tm_A : forall l, In l La -> legs h' l = mkLeg (Some (ntens h)) (l_dim (legs h l)) (l_name (legs h l)) (l_bond (legs h l));
  tm_B : forall l, In l Lb -> legs h' l = mkLeg (Some (S (ntens h))) (l_dim (legs h l)) (l_name (legs h l)) (l_bond (legs h l));
  tm_o : forall l, l < nleg h -> ~ In l (La ++ Lb) -> legs h' l = legs h l;
  tm_tens : forall t, t < ntens h -> tens h' t = tens h t;
  tm_u : legs_of h' (ntens h) = La ++ [nleg h];
  tm_v : legs_of h' (S (ntens h)) = S (nleg h) :: Lb;
  tm_wu : wf_tensor h' (ntens h); tm_wv : wf_tensor h' (S (ntens h)) }.

Lemma two_old (h : heap) k na nb l : l < nleg h -> legs (two_legs h k na nb) l = legs h l.
Proof. intros Hl. simpl. rewrite !upd_other by lia. reflexivity. Qed.
Lemma two_x (h : heap) k na nb : legs (two_legs h k na nb) (nleg h) = mkLeg None k na None.
Proof. simpl. rewrite upd_other by lia. now rewrite upd_same. Qed.
Lemma two_y (h : heap) k na nb : legs (two_legs h k na nb) (S (nleg h)) = mkLeg None k nb None.
Proof. simpl. now rewrite upd_same. Qed.
Lemma two_dims (h : heap) k na nb L : (forall l, In l L -> l < nleg h) -> map (dim_of (two_legs h k na nb)) L = map (dim_of h) L.
Proof. intros H. apply map_ext_in. intros l Hl. unfold dim_of. rewrite two_old; auto. Qed.

Lemma made_intro (h h2 h3 : heap) La Lb k na nb : NoDup (La ++ Lb) -> (forall l, In l (La ++ Lb) -> l < nleg h) ->
  new_tensor (two_legs h k na nb) h2 (ntens h) (Some (La ++ [nleg h])) -> legs_of h2 (ntens h) = La ++ [nleg h] -> wf_tensor h2 (ntens h) ->
  new_tensor h2 h3 (S (ntens h)) (Some (S (nleg h) :: Lb)) -> legs_of h3 (S (ntens h)) = S (nleg h) :: Lb -> wf_tensor h3 (S (ntens h)) ->
  tensors_made h h3 La Lb k na nb /\ tens h3 (ntens h) = tens h2 (ntens h).
Proof.
  intros ND AL N2 L2 W2 N3 L3 W3.
  assert (TU : tens h3 (ntens h) = tens h2 (ntens h)).
  { apply (nt_tens _ _ _ _ N3). rewrite (nt_ntens _ _ _ _ N2). simpl. lia. }
  destruct (nt_legs _ _ _ _ N2) as (I2 & O2). destruct (nt_legs _ _ _ _ N3) as (I3 & O3).
  assert (BL : forall l, In l Lb -> l < nleg h) by (intros; apply AL, in_app_iff; auto).
  assert (AL' : forall l, In l La -> l < nleg h) by (intros; apply AL, in_app_iff; auto).
  assert (D : forall l, In l La -> ~ In l Lb) by (intros l H1 H2; apply (NoDup_app_disj _ _ l ND); auto).
  assert (E2 : nleg h2 = S (S (nleg h))) by (rewrite (nt_nleg _ _ _ _ N2); simpl; lia).
  assert (E3 : nleg h3 = S (S (nleg h))) by (rewrite (nt_nleg _ _ _ _ N3), E2; simpl; lia).
  assert (X3 : legs h3 (nleg h) = mkLeg (Some (ntens h)) k na None).
  { rewrite O3. 2:{ intros [E|H]; [lia|]. apply BL in H. lia. }
    rewrite I2 by (apply in_app_iff; simpl; auto). now rewrite two_x. }
  assert (A3 : forall l, In l La -> legs h3 l = mkLeg (Some (ntens h)) (l_dim (legs h l)) (l_name (legs h l)) (l_bond (legs h l))).
  { intros l Hl. rewrite O3. 2:{ intros [E|H]; [apply AL' in Hl; lia|]. now apply (D l). }
    rewrite I2 by (apply in_app_iff; auto). rewrite two_old by auto. reflexivity. }
  split; auto. constructor; auto.
  - rewrite (nt_ntens _ _ _ _ N3), (nt_ntens _ _ _ _ N2). reflexivity.
  - rewrite (nt_nbond _ _ _ _ N3), (nt_nbond _ _ _ _ N2). reflexivity.
  - rewrite (nt_bonds _ _ _ _ N3), (nt_bonds _ _ _ _ N2). reflexivity.
  - rewrite I3 by (simpl; auto). rewrite O2. 2:{ rewrite in_app_iff. intros [H|[E|[]]]; [apply AL' in H; lia|lia]. }
    rewrite two_y. reflexivity.
  - intros l Hl. rewrite I3 by (simpl; auto). rewrite O2. 2:{ rewrite in_app_iff. intros [H|[E|[]]]; [now apply (D l)|apply BL in Hl; lia]. }
    rewrite two_old by auto. reflexivity.
  - intros l Hl N. rewrite in_app_iff in N. rewrite O3. 2:{ intros [E|H]; [lia|tauto]. }
    rewrite O2. 2:{ rewrite in_app_iff. intros [H|[E|[]]]; [tauto|lia]. } now apply two_old.
  - intros t Ht. rewrite (nt_tens _ _ _ _ N3). 2:{ rewrite (nt_ntens _ _ _ _ N2). simpl. lia. } rewrite (nt_tens _ _ _ _ N2) by (simpl; lia). reflexivity.
  - unfold legs_of in *. now rewrite TU.
  - apply (wf_same h2 h3); auto; try lia.
    + intros l Hl. unfold dim_of. rewrite L2 in Hl. apply in_app_iff in Hl. destruct Hl as [Hl|[<-|[]]].
      * rewrite A3 by auto. rewrite I2 by (apply in_app_iff; auto). rewrite two_old by auto. reflexivity.
      * rewrite X3. rewrite I2 by (apply in_app_iff; simpl; auto). now rewrite two_x.
    + rewrite (nt_ntens _ _ _ _ N3). lia.
Qed.

Lemma dense_pair (h : heap) La Lb k na nb uS vS shU shV : NoDup (La ++ Lb) -> (forall l, In l (La ++ Lb) -> l < nleg h) ->
  wfa uS -> ashape uS = [prodn (map (dim_of h) La); k] -> wfa vS -> ashape vS = [k; prodn (map (dim_of h) Lb)] ->
  match shU with Some s => s = map (dim_of h) La ++ [k] | None => True end ->
  match shV with Some s => s = k :: map (dim_of h) Lb | None => True end ->
  exists h2 h3, mkDense shU None (Some uS) None (Some (La ++ [nleg h])) false (two_legs h k na nb) = (h2, Ok (ntens h)) /\
    mkDense shV None (Some vS) None (Some (S (nleg h) :: Lb)) false h2 = (h3, Ok (S (ntens h))) /\
    tensors_made h h3 La Lb k na nb /\
    t_diag (tens h3 (ntens h)) = false /\ t_like (tens h3 (ntens h)) = false /\
    t_diag (tens h3 (S (ntens h))) = false /\ t_like (tens h3 (S (ntens h))) = false /\
    (forall s, s (nleg h) < k -> in_bounds h La s -> entry h3 (ntens h) s = aget uS [ravel (map (dim_of h) La) (map s La); s (nleg h)]) /\
    (forall s, s (S (nleg h)) < k -> in_bounds h Lb s -> entry h3 (S (ntens h)) s = aget vS [s (S (nleg h)); ravel (map (dim_of h) Lb) (map s Lb)]).
Proof.
  intros ND AL WU SU WV SV HU HV. set (h1 := two_legs h k na nb).
  assert (BL : forall l, In l Lb -> l < nleg h) by (intros; apply AL, in_app_iff; auto).
  assert (AL' : forall l, In l La -> l < nleg h) by (intros; apply AL, in_app_iff; auto).
  assert (DX : dim_of h1 (nleg h) = k) by (unfold dim_of, h1; now rewrite two_x).
  assert (DU : map (dim_of h1) (La ++ [nleg h]) = map (dim_of h) La ++ [k]).
  { rewrite map_app. cbn [map]. rewrite DX. f_equal. now apply two_dims. }
  destruct (mkDense_legs h1 (La ++ [nleg h]) uS None shU) as (h2 & u & E2 & N2 & W2 & O2 & L2 & D2 & K2 & _ & V2); auto.
  { apply NoDup_app_intro; [apply (NoDup_app_l _ _ ND)|repeat constructor; auto|]. intros z Hz [<-|[]]. apply AL' in Hz. lia. }
  { intros l Hl. apply in_app_iff in Hl. simpl. destruct Hl as [Hl|[<-|[]]]; [apply AL' in Hl; lia|lia]. }
  { rewrite DU, SU, prodn_app. reflexivity. }
  { destruct shU; auto. now rewrite DU. }
  assert (EU : u = ntens h) by apply (nt_id _ _ _ _ N2). subst u.
  assert (DY : dim_of h2 (S (nleg h)) = k).
  { unfold dim_of. destruct (nt_legs _ _ _ _ N2) as (_ & O). rewrite O. { unfold h1. now rewrite two_y. }
    rewrite in_app_iff. intros [H|[E|[]]]; [apply AL' in H; lia|lia]. }
  assert (DV : map (dim_of h2) (S (nleg h) :: Lb) = k :: map (dim_of h) Lb).
  { cbn [map]. rewrite DY. f_equal. apply map_ext_in. intros l Hl. unfold dim_of. destruct (nt_legs _ _ _ _ N2) as (_ & O). rewrite O.
    - unfold h1. rewrite two_old; auto.
    - rewrite in_app_iff. intros [H|[E|[]]]; [apply (NoDup_app_disj _ _ l ND); auto|apply BL in Hl; lia]. }
  destruct (mkDense_legs h2 (S (nleg h) :: Lb) vS None shV) as (h3 & v & E3 & N3 & W3 & O3 & L3 & D3 & K3 & _ & V3); auto.
  { constructor; [|apply (NoDup_app_r _ _ ND)]. intros H. apply BL in H. lia. }
  { intros l Hl. rewrite (nt_nleg _ _ _ _ N2). simpl. destruct Hl as [<-|Hl]; [lia|apply BL in Hl; lia]. }
  { rewrite DV, SV. simpl. lia. }
  { destruct shV; auto. now rewrite DV. }
  assert (EV : v = S (ntens h)) by (rewrite (nt_id _ _ _ _ N3), (nt_ntens _ _ _ _ N2); reflexivity). subst v.
  destruct (made_intro h h2 h3 La Lb k na nb ND AL N2 L2 W2 N3 L3 W3) as (TM & TU).
  exists h2, h3. split; [exact E2|]. split; [exact E3|]. split; [exact TM|]. rewrite TU.
  split; [exact D2|]. split; [exact K2|]. split; [exact D3|]. split; [exact K3|]. split.
  - intros s Hs B. unfold entry at 1. rewrite TU. change (entry_of (tens h2 (ntens h)) s) with (entry h2 (ntens h) s). rewrite V2, DU.
    unfold aget. rewrite SU. f_equal. rewrite map_app, ravel_app by now rewrite !map_length. cbn [map ravel prodn fold_right]. lia.
  - intros s Hs B. rewrite V3, DV. unfold aget. rewrite SV. f_equal. cbn [map ravel prodn fold_right]. lia.
Qed.

Lemma like_pair (h : heap) La Lb k na nb shU shV : NoDup (La ++ Lb) -> (forall l, In l (La ++ Lb) -> l < nleg h) ->
  match shU with Some s => s = map (dim_of h) La ++ [k] | None => True end ->
  match shV with Some s => s = k :: map (dim_of h) Lb | None => True end ->
  exists h2 h3, mkDense shU None None None (Some (La ++ [nleg h])) true (two_legs h k na nb) = (h2, Ok (ntens h)) /\
    mkDense shV None None None (Some (S (nleg h) :: Lb)) true h2 = (h3, Ok (S (ntens h))) /\
    tensors_made h h3 La Lb k na nb /\
    t_diag (tens h3 (ntens h)) = false /\ t_like (tens h3 (ntens h)) = true /\
    t_diag (tens h3 (S (ntens h))) = false /\ t_like (tens h3 (S (ntens h))) = true.
Proof.
  intros ND AL HU HV. set (h1 := two_legs h k na nb).
  assert (BL : forall l, In l Lb -> l < nleg h) by (intros; apply AL, in_app_iff; auto).
  assert (AL' : forall l, In l La -> l < nleg h) by (intros; apply AL, in_app_iff; auto).
  assert (DX : dim_of h1 (nleg h) = k) by (unfold dim_of, h1; now rewrite two_x).
  assert (DU : map (dim_of h1) (La ++ [nleg h]) = map (dim_of h) La ++ [k]).
  { rewrite map_app. cbn [map]. rewrite DX. f_equal. now apply two_dims. }
  destruct (mkDense_legs_like h1 (La ++ [nleg h]) None shU) as (h2 & u & E2 & N2 & W2 & O2 & L2 & D2 & K2 & _); auto.
  { apply NoDup_app_intro; [apply (NoDup_app_l _ _ ND)|repeat constructor; auto|]. intros z Hz [<-|[]]. apply AL' in Hz. lia. }
  { intros l Hl. apply in_app_iff in Hl. simpl. destruct Hl as [Hl|[<-|[]]]; [apply AL' in Hl; lia|lia]. }
  { destruct shU; auto. now rewrite DU. }
  assert (EU : u = ntens h) by apply (nt_id _ _ _ _ N2). subst u.
  assert (DY : dim_of h2 (S (nleg h)) = k).
  { unfold dim_of. destruct (nt_legs _ _ _ _ N2) as (_ & O). rewrite O. { unfold h1. now rewrite two_y. }
    rewrite in_app_iff. intros [H|[E|[]]]; [apply AL' in H; lia|lia]. }
  assert (DV : map (dim_of h2) (S (nleg h) :: Lb) = k :: map (dim_of h) Lb).
  { cbn [map]. rewrite DY. f_equal. apply map_ext_in. intros l Hl. unfold dim_of. destruct (nt_legs _ _ _ _ N2) as (_ & O). rewrite O.
    - unfold h1. rewrite two_old; auto.
    - rewrite in_app_iff. intros [H|[E|[]]]; [apply (NoDup_app_disj _ _ l ND); auto|apply BL in Hl; lia]. }
  destruct (mkDense_legs_like h2 (S (nleg h) :: Lb) None shV) as (h3 & v & E3 & N3 & W3 & O3 & L3 & D3 & K3 & _); auto.
  { constructor; [|apply (NoDup_app_r _ _ ND)]. intros H. apply BL in H. lia. }
  { intros l Hl. rewrite (nt_nleg _ _ _ _ N2). simpl. destruct Hl as [<-|Hl]; [lia|apply BL in Hl; lia]. }
  { destruct shV; auto. now rewrite DV. }
  assert (EV : v = S (ntens h)) by (rewrite (nt_id _ _ _ _ N3), (nt_ntens _ _ _ _ N2); reflexivity). subst v.
  destruct (made_intro h h2 h3 La Lb k na nb ND AL N2 L2 W2 N3 L3 W3) as (TM & TU).
  exists h2, h3. rewrite TU. auto 10.
Qed.

Lemma makeLink1 (h : heap) x y : dim_of h x = dim_of h y -> makeLink [RLeg x] [RLeg y] None None h = (linked_heap h x y, Ok [nbond h]).
Proof.
  intros E. unfold makeLink, bind, readsR, reads. cbn [rmapM linkLeg rbind List.length Nat.eqb assert combine mapM].
  unfold ret, bind. rewrite linkPair_ok by auto. reflexivity.
Qed.

Lemma link_made (h h3 h4 : heap) La Lb k na nb nm : NoDup (La ++ Lb) -> (forall l, In l (La ++ Lb) -> l < nleg h) ->
  tensors_made h h3 La Lb k na nb -> only_names h3 h4 (La ++ Lb) nm ->
  makeLink [RLeg (nleg h)] [RLeg (S (nleg h))] None None h4 = (linked_heap h4 (nleg h) (S (nleg h)), Ok [nbond h]) /\
  pair_made h (linked_heap h4 (nleg h) (S (nleg h))) La Lb k na nb nm /\
  tens (linked_heap h4 (nleg h) (S (nleg h))) = tens h3.
Proof.
  intros ND AL TM ON. set (x := nleg h). set (y := S (nleg h)). set (h5 := linked_heap h4 x y).
  assert (NX : ~ In x (La ++ Lb)) by (intros H; apply AL in H; unfold x in H; lia).
  assert (NY : ~ In y (La ++ Lb)) by (intros H; apply AL in H; unfold y in H; lia).
  assert (X4 : legs h4 x = mkLeg (Some (ntens h)) k na None) by (rewrite (on_out _ _ _ _ ON) by auto; apply TM).
  assert (Y4 : legs h4 y = mkLeg (Some (S (ntens h))) k nb None) by (rewrite (on_out _ _ _ _ ON) by auto; apply TM).
  assert (NB : nbond h4 = nbond h) by (rewrite (on_nbond _ _ _ _ ON); apply TM).
  assert (XY : x <> y) by (unfold x, y; lia).
  assert (L5 : forall l, l <> x -> l <> y -> legs h5 l = legs h4 l).
  { intros l N1 N2. unfold h5, linked_heap. cbn [legs]. now rewrite !upd_other by auto. }
  assert (X5 : legs h5 x = mkLeg (Some (ntens h)) k na (Some (nbond h))).
  { unfold h5, linked_heap. cbn [legs]. rewrite upd_other by auto. rewrite upd_same. unfold with_bond. rewrite X4, NB. reflexivity. }
  assert (Y5 : legs h5 y = mkLeg (Some (S (ntens h))) k nb (Some (nbond h))).
  { unfold h5, linked_heap. cbn [legs]. rewrite upd_same. rewrite upd_other by auto. unfold with_bond. rewrite Y4, NB. reflexivity. }
  assert (T5 : tens h5 = tens h3) by (unfold h5, linked_heap; cbn [tens]; apply ON).
  assert (D5 : forall l, dim_of h5 l = dim_of h3 l).
  { intros l. unfold dim_of. destruct (Nat.eq_dec l x) as [->|N1]; [rewrite X5; unfold x; now rewrite (tm_x _ _ _ _ _ _ _ TM)|].
    destruct (Nat.eq_dec l y) as [->|N2]; [rewrite Y5; unfold y; now rewrite (tm_y _ _ _ _ _ _ _ TM)|]. rewrite L5 by auto.
    destruct (in_dec Nat.eq_dec l (La ++ Lb)) as [H|H]; [rewrite (on_in _ _ _ _ ON) by auto; reflexivity|now rewrite (on_out _ _ _ _ ON)]. }
  split; [rewrite <- NB; apply (makeLink1 h4 x y); change (l_dim (legs h4 x) = l_dim (legs h4 y)); rewrite X4, Y4; reflexivity|]. split; [|exact T5].
  assert (OLD : forall l, l < nleg h -> legs h5 l = legs h4 l) by (intros; apply L5; unfold x, y; lia).
  constructor; auto.
  - unfold h5, linked_heap. cbn [ntens]. rewrite (on_ntens _ _ _ _ ON). apply TM.
  - unfold h5, linked_heap. cbn [nleg]. rewrite (on_nleg _ _ _ _ ON). apply TM.
  - unfold h5, linked_heap. cbn [nbond]. now rewrite NB.
  - unfold h5, linked_heap. cbn [bonds]. rewrite NB, upd_same. reflexivity.
  - intros b Hb. unfold h5, linked_heap. cbn [bonds]. rewrite NB, upd_other by lia. rewrite (on_bonds _ _ _ _ ON). now rewrite (tm_bonds _ _ _ _ _ _ _ TM).
  - intros l Hl. assert (In l (La ++ Lb)) as Hl' by (apply in_app_iff; auto). rewrite OLD by auto. rewrite (on_in _ _ _ _ ON) by auto.
    rewrite (tm_A _ _ _ _ _ _ _ TM) by auto. reflexivity.
  - intros l Hl. assert (In l (La ++ Lb)) as Hl' by (apply in_app_iff; auto). rewrite OLD by auto. rewrite (on_in _ _ _ _ ON) by auto.
    rewrite (tm_B _ _ _ _ _ _ _ TM) by auto. reflexivity.
  - intros l Hl N. rewrite OLD by auto. rewrite (on_out _ _ _ _ ON) by auto. now apply TM.
  - intros t Ht. change (tens h5 t = tens h t). rewrite T5. now apply TM.
  - change (t_legs (tens h5 (ntens h)) = La ++ [nleg h]). rewrite T5. apply TM.
  - change (t_legs (tens h5 (S (ntens h))) = S (nleg h) :: Lb). rewrite T5. apply TM.
  - apply (wf_same h3 h5); auto; [now rewrite T5|apply Nat.eq_le_incl; unfold h5, linked_heap; cbn [nleg]; now rewrite (on_nleg _ _ _ _ ON)| |apply TM].
    apply Nat.eq_le_incl; unfold h5, linked_heap; cbn [ntens]; now rewrite (on_ntens _ _ _ _ ON).
  - apply (wf_same h3 h5); auto; [now rewrite T5|apply Nat.eq_le_incl; unfold h5, linked_heap; cbn [nleg]; now rewrite (on_nleg _ _ _ _ ON)| |apply TM].
    apply Nat.eq_le_incl; unfold h5, linked_heap; cbn [ntens]; now rewrite (on_ntens _ _ _ _ ON).
Qed.
Lemma only_names_refl (h : heap) L : only_names h h L (fun l => l_name (legs h l)).
Proof. constructor; auto. intros l _. now destruct (legs h l). Qed.
End Pp.
