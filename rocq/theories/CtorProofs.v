(** Proofs about the constructors and copies. *)
From Coq Require Import List Arith Bool Lia String Permutation.
From Verif Require Import Base Sums NdModel HeapModel FuncsModel FuncsSpec TensorModel TensorSpec
  FuncsProofs NdProofs TensorProofs LabelProofs MatrixProofs MergeProofs.
Import ListNotations.
Local Open Scope nat_scope.

Section Ct.
Context {A : Type} {HA : SR A}.
Add Ring Aring6 : (@SR_theory A HA).
Notation heap := (heap A).

(** [h'] is [h] with new legs only *)
Record more_legs (h h' : heap) : Prop := {
  ml_legs : forall l, l < nleg h -> legs h' l = legs h l;
  ml_bonds : bonds h' = bonds h; ml_tens : tens h' = tens h;
  ml_nleg : nleg h <= nleg h'; ml_nbond : nbond h' = nbond h; ml_ntens : ntens h' = ntens h;
  ml_rng : rng h' = rng h; ml_rpos : rpos h' = rpos h }.

Lemma makeLegs_ok t : forall labs sh (h : heap), List.length labs = List.length sh ->
  exists h', makeLegs t labs sh h = (h', Ok (seq (nleg h) (List.length labs))) /\ more_legs h h' /\
    nleg h' = nleg h + List.length labs /\
    forall k, k < List.length labs ->
      legs h' (nleg h + k) = mkLeg (Some t) (nth k sh 0) (nth k labs NNone) None.
Proof.
  induction labs as [|n labs IH]; intros [|d sh] h L; simpl in L; try discriminate.
  - exists h. simpl. split; [reflexivity|]. split; [constructor; auto|]. split; [lia|]. intros; lia.
  - cbn [makeLegs]. unfold bind at 1, newLeg, allocs, alloc_leg.
    set (h1 := mkHeap (upd (legs h) (nleg h) (mkLeg (Some t) d n None)) (bonds h) (tens h) (S (nleg h)) (nbond h) (ntens h) (rng h) (rpos h)).
    destruct (IH sh h1) as (h' & E & ML & En & Hk); [lia|].
    unfold bind. rewrite E. unfold ret. exists h'. split; [reflexivity|]. destruct ML as [Mlegs]. simpl in *.
    split; [constructor; auto; try lia|].
    + intros l Hl. rewrite Mlegs by lia. rewrite upd_other by lia. reflexivity.
    + split; [lia|]. intros [|k] Hk'.
      * rewrite Nat.add_0_r. rewrite Mlegs by lia. now rewrite upd_same.
      * replace (nleg h + S k) with (S (nleg h) + k) by lia. apply Hk. lia.
Qed.

(** [h'] is [h] with the legs [ls] handed to tensor [t] *)
Record adopted (h h' : heap) (ls : list lid) (t : tid) : Prop := {
  ad_in : forall l, In l ls -> legs h' l = mkLeg (Some t) (l_dim (legs h l)) (l_name (legs h l)) (l_bond (legs h l));
  ad_out : forall l, ~ In l ls -> legs h' l = legs h l;
  ad_bonds : bonds h' = bonds h; ad_tens : tens h' = tens h;
  ad_nleg : nleg h' = nleg h; ad_nbond : nbond h' = nbond h; ad_ntens : ntens h' = ntens h;
  ad_rng : rng h' = rng h; ad_rpos : rpos h' = rpos h }.

Lemma adopt_ok t : forall ls (h : heap), 
  exists h', iterM (fun l => setLegTensor l (Some t)) ls h = (h', Ok tt) /\ adopted h h' ls t.
Proof.
  induction ls as [|x ls IH]; intros h; cbn [iterM].
  - exists h. split; [reflexivity|]. constructor; auto. intros l [].
  - unfold bind, setLegTensor at 1, modify.
    set (h1 := set_leg h x (mkLeg (Some t) (l_dim (legs h x)) (l_name (legs h x)) (l_bond (legs h x)))).
    destruct (IH h1) as (h' & E & AD). exists h'. split; [exact E|].
    destruct AD as [Ain Aout]. simpl in *.
    constructor; auto.
    + intros l Hl. destruct (in_dec Nat.eq_dec l ls) as [i|i].
      * rewrite Ain by auto. unfold upd. destruct (Nat.eqb_spec l x); subst; reflexivity.
      * destruct Hl as [->|]; [|contradiction]. rewrite Aout by auto. now rewrite upd_same.
    + intros l Hl. simpl in Hl. rewrite Aout by tauto. rewrite upd_other; auto.
Qed.

Lemma map_seq_nth {X} (f : nat -> X) b (l : list X) d : (forall k, k < List.length l -> f (b + k) = nth k l d) ->
  map f (seq b (List.length l)) = l.
Proof.
  revert b. induction l as [|x l IH]; intros b H; simpl; auto. f_equal.
  - specialize (H 0). simpl in H. rewrite <- H by lia. f_equal. lia.
  - apply IH. intros k Hk. specialize (H (S k)). simpl in H. rewrite <- H by lia. f_equal. lia.
Qed.

Lemma generateLabels_spec n : 
  match generateLabels n with Ok l => List.length l = n /\ n <= 26 | Err e => e = AssertionError /\ n > 26 end.
Proof.
  unfold generateLabels. destruct (Nat.leb_spec n 26).
  - rewrite map_length, seq_length. auto.
  - auto.
Qed.

(** the data stored, given the data passed in (None: random numbers) *)
Lemma generateData_ok (h : heap) sh (data : option (arr A)) like :
  match data with Some a => wfa a /\ prodn (ashape a) = prodn sh | None => True end ->
  exists h' r, generateData sh data like h = (h', Ok r) /\
    legs h' = legs h /\ bonds h' = bonds h /\ tens h' = tens h /\ nleg h' = nleg h /\ nbond h' = nbond h /\
    ntens h' = ntens h /\ rng h' = rng h /\
    match like with true => r = None | false => exists a, r = Some a /\ wfa a /\ ashape a = sh /\
       match data with Some a0 => adata a = adata a0 | None => True end end.
Proof.
  intros Hd. unfold generateData. destruct like.
  - exists h, None. unfold ret. auto 20.
  - destruct data as [a|].
    + destruct Hd as [Wa Es]. destruct (dec (ashape a) sh) as [e|e].
      * exists h, (Some a). unfold ret. repeat (split; [reflexivity|]). exists a. auto.
      * unfold bind, liftR. unfold np_reshape. rewrite <- Es, <- Wa, Nat.eqb_refl.
        eexists h, _. unfold ret. repeat (split; [reflexivity|]). eexists. split; [reflexivity|].
        split; [|split; reflexivity]. unfold wfa. simpl. congruence.
    + unfold bind, allocs, draw, ret. eexists _, _. repeat (split; [reflexivity|]). eexists. split; [reflexivity|].
      split; [|split; auto]. unfold wfa. simpl. now rewrite map_length, seq_length.
Qed.

(** well-formed arguments *)

Lemma mkDense_spec (h : heap) sh labs data name ls like : args_wf h data ls ->
  match mkDense sh labs data name ls like h with
  | (h', Ok t) => dense_args_ok h sh labs data ls /\ new_tensor h h' t ls /\ wf_tensor h' t /\ owned h' t /\
      t_diag (tens h' t) = false /\ t_like (tens h' t) = like /\ t_name (tens h' t) = name /\
      (forall l, ls = Some l -> legs_of h' t = l) /\
      (forall l, labs = Some l -> names_of h' t = l) /\
      (forall l, sh = Some l -> dims_of h' t = l) /\
      (forall a, data = Some a -> sh = None -> ls = None -> dims_of h' t = ashape a) /\
      (forall a, data = Some a -> like = false -> exists a', t_arr (tens h' t) = Some a' /\ adata a' = adata a)
  | (h', Err e) => h' = h /\ ~ (dense_args_ok h sh labs data ls) /\
      (e = ValueError \/ e = AssertionError \/ e = OutOfFuel /\ labs <> None /\ sh = None /\ ls = None /\ data = None)
  end.
Proof.
  intros [AD AL]. unfold mkDense.
  (* phase 1: deduction *)
  match goal with |- match bind ?m _ h with _ => _ end => set (ded := m) end.
  assert (Hded : match ded h with
    | (h1, Ok (sh', labs')) => h1 = h /\ dense_args_ok h sh labs data ls /\ List.length labs' = List.length sh' /\
        match data with Some a => prodn (ashape a) = prodn sh' | None => True end /\
        (forall l, sh = Some l -> sh' = l) /\ (forall l, labs = Some l -> labs' = l) /\
        (forall a, data = Some a -> sh = None -> ls = None -> sh' = ashape a) /\
        (forall l, ls = Some l -> sh' = map (dim_of h) l /\ labs' = map (fun x => l_name (legs h x)) l)
    | (h1, Err e) => h1 = h /\ ~ dense_args_ok h sh labs data ls /\
      (e = ValueError \/ e = AssertionError \/ e = OutOfFuel /\ labs <> None /\ sh = None /\ ls = None /\ data = None)
    end).
  { unfold ded, dense_args_ok. destruct ls as [l|].
    - unfold bind, reads, check, checkLegsLabelsCompatible, checkLegsShapeCompatible.
      destruct (match labs with None => true | Some labs0 => if dec (map (legname h) l) labs0 then true else false end) eqn:E1.
      2:{ unfold raise. split; auto. split; auto. intros (H & _). destruct labs as [lb|]; [|discriminate].
          destruct (dec (map (legname h) l) lb); [discriminate|]. symmetry in H. apply n. apply H. }
      unfold ret at 1.
      destruct (match sh with None => true | Some sh0 => if dec (map (legdim h) l) sh0 then true else false end) eqn:E2.
      2:{ unfold raise. split; auto. split; auto. intros (_ & H & _). destruct sh as [s0|]; [|discriminate].
          destruct (dec (map (legdim h) l) s0); [discriminate|]. symmetry in H. apply n. apply H. }
      unfold ret at 1.
      destruct (checkShapeDataCompatible (map (legdim h) l) data) eqn:E3.
      2:{ unfold raise. split; auto. split; auto. intros (_ & _ & H). unfold checkShapeDataCompatible in E3.
          destruct data; [|discriminate]. apply Nat.eqb_neq in E3. apply E3. exact H. }
      unfold ret. split; auto. split.
      { split; [|split].
        - destruct labs; auto. destruct (dec (map (legname h) l) l0); [|discriminate]. symmetry. exact e.
        - destruct sh; auto. destruct (dec (map (legdim h) l) l0); [|discriminate]. symmetry. exact e.
        - unfold checkShapeDataCompatible in E3. destruct data; auto. now apply Nat.eqb_eq in E3. }
      split; [now rewrite !map_length|]. split.
      { unfold checkShapeDataCompatible in E3. destruct data; auto. now apply Nat.eqb_eq in E3. }
      split; [|split; [|split]].
      + intros s0 ->. destruct (dec (map (legdim h) l) s0); [auto|discriminate].
      + intros s0 ->. destruct (dec (map (legname h) l) s0); [auto|discriminate].
      + discriminate.
      + intros l' El'. injection El' as <-. split; reflexivity.
    - destruct sh as [s|].
      + unfold bind, reads, check, checkShapeLabelsCompatible.
        destruct (match labs with None => true | Some labs0 => Nat.eqb (List.length labs0) (List.length s) end) eqn:E1.
        2:{ unfold raise. split; auto. split; auto. intros (H & _). destruct labs as [lb|]; [|discriminate].
            apply Nat.eqb_neq in E1. auto. }
        unfold ret at 1.
        destruct (checkShapeDataCompatible s data) eqn:E3.
        * assert (match data with Some a => prodn (ashape a) = prodn s | None => True end) as E3'.
          { unfold checkShapeDataCompatible in E3. destruct data; auto. now apply Nat.eqb_eq in E3. }
          destruct labs as [lb|].
          -- unfold ret. apply Nat.eqb_eq in E1. repeat (split; [auto; congruence|]). discriminate.
          -- unfold liftR. pose proof (generateLabels_spec (List.length s)) as G.
             destruct (generateLabels (List.length s)) as [lb|e].
             ++ unfold ret. destruct G. repeat (split; [auto; congruence|]). discriminate.
             ++ destruct G as [-> G]. split; auto. split; auto. intros (H & _). lia.
        * assert (~ match data with Some a => prodn (ashape a) = prodn s | None => True end) as E3'.
          { unfold checkShapeDataCompatible in E3. destruct data; [|discriminate]. now apply Nat.eqb_neq in E3. }
          destruct labs as [lb|].
          -- unfold ret, raise. split; auto. split; auto. tauto.
          -- unfold liftR. pose proof (generateLabels_spec (List.length s)) as G.
             destruct (generateLabels (List.length s)) as [lb|e].
             ++ unfold raise. split; auto. split; auto. tauto.
             ++ destruct G as [-> G]. split; auto. split; auto. tauto.
      + destruct data as [a|].
        * unfold bind, reads, check, checkShapeLabelsCompatible.
          destruct (match labs with None => true | Some labs0 => Nat.eqb (List.length labs0) (List.length (ashape a)) end) eqn:E1.
          2:{ unfold raise. split; auto. split; auto. intros H. destruct labs as [lb|]; [|discriminate].
              apply Nat.eqb_neq in E1. auto. }
          unfold ret at 1. destruct labs as [lb|].
          -- unfold ret. apply Nat.eqb_eq in E1. repeat (split; [auto; congruence|]). discriminate.
          -- unfold liftR. change (ndim a) with (List.length (ashape a)). pose proof (generateLabels_spec (List.length (ashape a))) as G.
             destruct (generateLabels (List.length (ashape a))) as [lb|e].
             ++ unfold ret. destruct G. repeat (split; [auto; congruence|]). discriminate.
             ++ destruct G as [-> G]. split; auto. split; auto. lia.
        * destruct like, labs; unfold raise; split; auto; split; auto; right; right; repeat split; congruence. }
  unfold bind at 1. destruct (ded h) as [h1 [(sh', labs')|e]]; [|exact Hded].
  destruct Hded as (-> & Hok & HL & Hdat & Hsh & Hlabs & Hda & Hls). clear ded.
  destruct (generateData_ok h sh' data like) as (h2 & r & Eg & F1 & F2 & F3 & F4 & F5 & F6 & F7 & Hr).
  { destruct data; auto. }
  unfold bind at 1. rewrite Eg. unfold bind at 1, reads. rewrite F6.
  (* phase 3: legs *)
  assert (exists h3 ls', (match ls with
          | Some ls => iterM (fun l => setLegTensor l (Some (ntens h))) ls ;;; ret ls
          | None => makeLegs (ntens h) labs' sh'
          end) h2 = (h3, Ok ls') /\
          bonds h3 = bonds h /\ tens h3 = tens h /\ nbond h3 = nbond h /\ ntens h3 = ntens h /\ rng h3 = rng h /\
          nleg h <= nleg h3 /\ NoDup ls' /\ (forall l, In l ls' -> l < nleg h3) /\
          map (dim_of h3) ls' = sh' /\ map (fun l => l_name (legs h3 l)) ls' = labs' /\
          (forall l, In l ls' -> l_tensor (legs h3 l) = Some (ntens h)) /\
          match ls with
          | Some l0 => ls' = l0 /\ adopted h2 h3 l0 (ntens h) /\ nleg h3 = nleg h
          | None => ls' = seq (nleg h) (List.length ls') /\ nleg h3 = nleg h + List.length ls' /\
                    (forall l, l < nleg h -> legs h3 l = legs h l) /\
                    (forall l, In l ls' -> l_bond (legs h3 l) = None)
          end) as (h3 & ls' & E3 & B1 & B2 & B3 & B4 & B5 & B6 & B7 & B8 & B9 & B10 & B11 & B12).
  { destruct ls as [l0|].
    - destruct (adopt_ok (ntens h) l0 h2) as (h3 & E3 & AD3). unfold bind. rewrite E3. unfold ret.
      exists h3, l0. split; [reflexivity|]. pose proof AD3 as AD3'. destruct AD3' as [Ain Aout].
      repeat (split; [congruence || lia|]). destruct AL as [AL1 AL2]. split; auto. split.
      { intros l Hl. apply AL2 in Hl. congruence. }
      destruct (Hls l0 eq_refl) as [-> ->]. split; [|split; [|split]].
      + apply map_ext_in. intros l Hl. unfold dim_of. rewrite Ain by auto. simpl. now rewrite F1.
      + apply map_ext_in. intros l Hl. rewrite Ain by auto. simpl. now rewrite F1.
      + intros l Hl. now rewrite Ain.
      + repeat split; auto; congruence.
    - destruct (makeLegs_ok (ntens h) labs' sh' h2 HL) as (h3 & E3 & ML & En & Hk). rewrite E3.
      destruct ML as [M1 M2 M3 M4 M5 M6 M7 M8]. exists h3, (seq (nleg h2) (List.length labs')). split; [reflexivity|].
      repeat (split; [congruence || lia|]). split; [apply seq_NoDup|]. split; [|split; [|split; [|split]]].
      + intros l Hl. apply in_seq in Hl. lia.
      + rewrite HL. apply map_seq_nth with (d := 0). intros k Hk'. unfold dim_of. rewrite Hk by lia. reflexivity.
      + apply map_seq_nth with (d := NNone). intros k Hk'. rewrite Hk by lia. reflexivity.
      + intros l Hl. apply in_seq in Hl. replace l with (nleg h2 + (l - nleg h2)) by lia. rewrite Hk by lia. reflexivity.
      + rewrite seq_length. split; [congruence|]. split; [congruence|]. split.
        * intros l Hl. rewrite M1 by lia. now rewrite F1.
        * intros l Hl. apply in_seq in Hl. replace l with (nleg h2 + (l - nleg h2)) by lia. rewrite Hk by lia. reflexivity. }
  unfold bind at 1. rewrite E3. unfold allocs, alloc_tens. rewrite B4.
  match goal with |- _ /\ new_tensor _ ?hh _ _ /\ _ => set (h' := hh) end.
  assert (El' : legs_of h' (ntens h) = ls') by (unfold legs_of, h'; simpl; now rewrite upd_same).
  split; auto. split; [|split; [|split]].
  - constructor; auto.
    + intros t' Ht'. unfold h'. simpl. rewrite upd_other by lia. now rewrite B2.
    + rewrite El'. simpl. destruct ls as [l0|]; destruct B12 as (_ & B12 & B13); [lia|exact B12].
    + simpl. destruct ls as [l0|].
      * destruct B12 as (-> & [Ain Aout] & _). split.
        -- intros l Hl. rewrite Ain by auto. now rewrite F1.
        -- intros l Hl. rewrite Aout by auto. now rewrite F1.
      * destruct B12 as (C1 & C2 & C3 & C4). split; auto.
        rewrite El'. split; auto.
  - constructor.
    + simpl. lia.
    + now rewrite El'.
    + rewrite El'. simpl. auto.
    + unfold h'. simpl. rewrite upd_same. unfold data_ok. simpl. destruct like.
      * now subst r.
      * destruct Hr as (a & -> & Wa & Es & _). split; auto. rewrite Es, <- B9. reflexivity.
    + unfold h'. simpl. rewrite upd_same. discriminate.
  - unfold owned. rewrite El'. simpl. auto.
  - unfold h'. simpl. rewrite upd_same. simpl. split; auto. split; auto. split; auto. fold h'.
    rewrite El'. unfold names_of, dims_of. rewrite El'. simpl. change (map (dim_of h') ls') with (map (dim_of h3) ls').
    rewrite B9, B10.
    split; [|split; [|split; [|split]]].
    + intros l ->. destruct B12. auto.
    + intros l El. auto.
    + intros l El. auto.
    + auto.
    + intros a -> ->. destruct Hr as (a' & -> & _ & _ & Ed). eauto.
Qed.
End Ct.
