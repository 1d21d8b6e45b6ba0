(** Proofs about the DiagonalTensor constructor. *)
From Coq Require Import List Arith Bool Lia String Permutation.
From Verif Require Import Base Sums NdModel HeapModel FuncsModel FuncsSpec TensorModel TensorSpec
  FuncsProofs NdProofs TensorProofs LabelProofs MatrixProofs MergeProofs CtorProofs.
Import ListNotations.
Local Open Scope nat_scope.

Lemma all_eqb_spec l : all_eqb l = true <-> forall x y, In x l -> In y l -> x = y.
Proof.
  destruct l as [|x l]; simpl; [intuition|]. rewrite forallb_forall. split.
  - intros H a b Ha Hb.
    assert (forall c, x = c \/ In c l -> x = c) as G.
    { intros c [E|Hc]; auto. apply H in Hc. now apply Nat.eqb_eq in Hc. }
    rewrite <- (G a Ha), <- (G b Hb). reflexivity.
  - intros H a Ha. apply Nat.eqb_eq. apply H; auto.
Qed.
Lemma all_eqb_repeat d n : all_eqb (repeat d n) = true.
Proof. apply all_eqb_spec. intros x y Hx Hy. apply repeat_spec in Hx. apply repeat_spec in Hy. congruence. Qed.

Section Dg.
Context {A : Type} {HA : SR A}.
Notation heap := (heap A).


Lemma checkShapeLabels_iff (sh : list nat) (labs : option (list pname)) :
  checkShapeLabelsCompatible sh labs = true <-> match labs with Some n => List.length n = List.length sh | None => True end.
Proof. unfold checkShapeLabelsCompatible. destruct labs; [apply Nat.eqb_eq|]. tauto. Qed.

Lemma generateDataD_spec (sh : list nat) (data : option (arr A)) like r : generateDataD sh data like = Ok r ->
  match data with Some a => wfa a | None => True end -> all_eqb sh = true ->
  match like with
  | true => r = None
  | false => exists a', r = Some a' /\
     match data with
     | None => exists d rest, sh = d :: rest /\ a' = np_ones d
     | Some a => (exists n, ashape a = [n] /\ a' = a) \/
                 (List.length (ashape a) <> 1 /\ exists d rest, sh = d :: rest /\
                  wfa a' /\ ashape a' = d :: skipn (List.length sh) (ashape a) /\
                  (List.length (ashape a) = List.length sh ->
                   forall i, i < d -> aget a' [i] = aget a (repeat i (List.length sh))))
     end
  end.
Proof.
  unfold generateDataD. intros E Wd Ha. destruct like; [congruence|].
  destruct data as [a|].
  - destruct (Nat.eqb_spec (ndim a) 1) as [e|e].
    + injection E as <-. exists a. split; auto. left. unfold ndim in e.
      destruct (ashape a) as [|n [|]]; try discriminate. exists n. auto.
    + destruct sh as [|d sh0]; [discriminate|]. unfold np_diag_extract in E.
      destruct (Nat.ltb_spec (ndim a) (List.length (d :: sh0))); [discriminate|].
      destruct (negb (forallb (fun s : nat => d <=? s) (firstn (List.length (d :: sh0)) (ashape a)))); [discriminate|].
      cbn [rbind] in E. injection E as <-. eexists. split; [reflexivity|]. right. split; auto.
      exists d, sh0. split; auto. split; [apply tab_wfa|]. split; [reflexivity|].
      intros El i Hi. change (S (List.length sh0)) with (List.length (d :: sh0)). rewrite aget_tab.
      * cbn [nth skipn]. now rewrite app_nil_r.
      * destruct (ashape a) as [|x sa]; [discriminate|]. simpl in El. rewrite skipn_all2 by lia. constructor; auto; constructor.
  - destruct sh as [|d sh0]; [discriminate|]. injection E as <-. eexists. split; [reflexivity|]. eauto.
Qed.

Lemma checkShapeDataD_one sh (data : option (arr A)) : checkShapeDataCompatibleD sh data = true ->
  forall a x y, data = Some a -> ashape a = [x] -> sh = [y] -> x = y.
Proof.
  unfold checkShapeDataCompatibleD. intros H a x y -> Ea ->. rewrite Ea in H. simpl in H.
  apply orb_true_iff in H. destruct H as [H|H]; apply Nat.eqb_eq in H; lia.
Qed.

Lemma mkDiag_spec (h : heap) sh labs data name ls like : args_wf h data ls ->
  match mkDiag sh labs data name ls like h with
  | (h', Ok t) => new_tensor h h' t ls /\ owned h' t /\ NoDup (legs_of h' t) /\
      (forall l, In l (legs_of h' t) -> dim_of h' l = t_len (tens h' t)) /\
      t_diag (tens h' t) = true /\ t_like (tens h' t) = like /\ t_name (tens h' t) = name /\
      (forall l, ls = Some l -> legs_of h' t = l) /\
      (forall l, labs = Some l -> names_of h' t = l) /\
      (forall l, sh = Some (DList l) -> ls <> None \/ labs <> None \/ (forall a, data = Some a -> ashape a <> []) -> dims_of h' t = l) /\
      (forall n, sh = Some (DInt n) -> forall l, In l (legs_of h' t) -> dim_of h' l = n) /\
      (diag_data_sane h' t data like -> wf_tensor h' t /\
         (like = false -> exists a', t_arr (tens h' t) = Some a' /\
           match data with
           | None => a' = match legs_of h' t with [] => np_scalar r1 | _ => np_ones (t_len (tens h' t)) end
           | Some a => match ashape a with
                       | [] | [_] => a' = a
                       | _ => forall i, i < t_len (tens h' t) -> aget a' [i] = aget a (repeat i (List.length (legs_of h' t)))
                       end
           end))
  | (h', Err e) => h' = h
  end.
Proof.
  intros [AD AL]. unfold mkDiag.
  destruct (match ls, labs with None, None => is_scalar_shape sh || is_scalar_data data | _, _ => false end) eqn:SC.
  { destruct ls; [discriminate|]. destruct labs; [discriminate|].
    unfold allocs, alloc_tens.
    match goal with |- new_tensor _ ?hh _ _ /\ _ => set (h' := hh) end.
    assert (El : legs_of h' (ntens h) = []) by (unfold legs_of, h'; simpl; now rewrite upd_same).
    split; [|split; [|split; [|split]]].
    - constructor; auto.
      + intros t' Ht'. unfold h'. simpl. rewrite upd_other by lia. auto.
      + rewrite El. simpl. lia.
      + split; auto. rewrite El. split; auto. intros l [].
    - unfold owned. rewrite El. intros l [].
    - rewrite El. constructor.
    - rewrite El. intros l [].
    - unfold h' at 1 2 3. simpl. rewrite upd_same. simpl. split; auto. split; auto. split; auto.
      split; [discriminate|]. split; [discriminate|]. split; [|split].
      + intros l -> Hd. unfold dims_of. rewrite El. simpl in SC. destruct l; auto. simpl in SC.
        destruct data as [a|]; [|discriminate]. simpl in SC. exfalso.
        destruct Hd as [H|[H|H]]; try congruence. apply (H a); auto. destruct (ashape a); auto; discriminate.
      + intros n _ l. rewrite El. intros [].
      + unfold diag_data_sane. rewrite El. intros Sane.
        assert (Hdat : match data with Some a => ashape a = [] /\ like = false | None => True end).
        { destruct data as [a|]; auto. destruct Sane as [[Hx _]|[Hx Hy]]; [congruence|].
          split; auto. destruct (ashape a); auto; discriminate. }
        split.
        * constructor.
          -- simpl. lia.
          -- rewrite El. constructor.
          -- rewrite El. intros l [].
          -- unfold h'. simpl. rewrite upd_same. unfold data_ok. simpl. destruct data as [a|].
             ++ destruct Hdat as [E1 ->]. split; auto.
             ++ destruct like; simpl; auto.
          -- unfold h'. simpl. rewrite upd_same. simpl. intros _. split; auto. fold h'. rewrite El. intros l [].
        * intros ->. destruct data as [a|].
          -- destruct Hdat as [E1 _]. exists a. split; auto. rewrite E1. auto.
          -- eexists. split; reflexivity. }
  (* phase 1: deduction *)
  match goal with |- match bind ?m _ h with _ => _ end => set (ded := m) end.
  assert (Hded : match ded h with
    | (h1, Ok (sh', labs')) => h1 = h /\ List.length labs' = List.length sh' /\ all_eqb sh' = true /\
        (forall l, sh = Some (DList l) -> sh' = l) /\ (forall l, labs = Some l -> labs' = l) /\
        (forall n, sh = Some (DInt n) -> forall x, In x sh' -> x = n) /\
        (forall l, ls = Some l -> sh' = map (dim_of h) l /\ labs' = map (fun x => l_name (legs h x)) l) /\
        (forall a x y, data = Some a -> ashape a = [x] -> sh' = [y] -> x = y)
    | (h1, Err e) => h1 = h
    end).
  { unfold ded. destruct ls as [l|].
    - unfold bind, reads, check.
      destruct (checkLegsDiagonalCompatible h l) eqn:E0; [|reflexivity]. unfold ret at 1.
      unfold checkLegsLabelsCompatible, checkLegsShapeCompatibleD.
      destruct (match labs with None => true | Some labs0 => if dec (map (legname h) l) labs0 then true else false end) eqn:E1; [|reflexivity].
      unfold ret at 1.
      match goal with |- context [if ?b then _ else raise _] => destruct b eqn:E2 end; [|reflexivity].
      unfold ret at 1.
      destruct (checkShapeDataCompatibleD (map (legdim h) l) data) eqn:E3; [|reflexivity].
      unfold ret. split; auto. split; [now rewrite !map_length|]. split; [exact E0|].
      split; [|split; [|split; [|split]]].
      + intros s0 ->. destruct (dec (map (legdim h) l) s0); [auto|discriminate].
      + intros s0 ->. destruct (dec (map (legname h) l) s0); [auto|discriminate].
      + intros n -> x Hx. destruct (dec (map (legdim h) l) (repeat n (List.length l))) as [e|]; [|discriminate].
        rewrite e in Hx. now apply repeat_spec in Hx.
      + intros l' El'. injection El' as <-. split; reflexivity.
      + now apply checkShapeDataD_one.
    - destruct sh as [s|].
      + unfold bind at 1.
        assert (exists r, (match s with DInt n => dim <- liftR (deduceDimension data labs);; ret (repeat n dim) | DList l => ret l end) h = (h, r) /\
                 forall s', r = Ok s' -> match s with DInt n => exists k, s' = repeat n k | DList l => s' = l end) as (r & -> & Hr).
        { destruct s as [n|l].
          - unfold bind, liftR. destruct (deduceDimension data labs) as [k|e]; unfold ret; eexists; split; try reflexivity.
            + intros s' Es'. injection Es' as <-. eauto.
            + discriminate.
          - eexists. split; [reflexivity|]. intros s' Es'. congruence. }
        destruct r as [s'|e]; auto. specialize (Hr s' eq_refl).
        unfold bind, check. destruct (checkShapeDiagonalCompatible s') eqn:E1; [|reflexivity]. unfold ret at 1.
        destruct (checkShapeLabelsCompatible s' labs) eqn:E2; [|reflexivity]. unfold ret at 1. apply checkShapeLabels_iff in E2.
        assert (forall n, s = DInt n -> forall x, In x s' -> x = n) as Hn.
        { intros n -> x Hx. destruct Hr as (k & ->). now apply repeat_spec in Hx. }
        assert (forall l, Some s = Some (DList l) -> s' = l) as Hl by (intros l El; injection El as ->; auto).
        destruct labs as [lb|].
        * unfold ret at 1. destruct (checkShapeDataCompatibleD s' data) eqn:E3; [|reflexivity]. unfold ret.
          split; auto. split; auto. split; auto. split; auto. split; [congruence|]. split; [|split; [discriminate|now apply checkShapeDataD_one]].
          intros n En. injection En as ->. apply Hn. auto.
        * unfold liftR. pose proof (generateLabels_spec (List.length s')) as G.
          destruct (generateLabels (List.length s')) as [lb|e]; [|reflexivity].
          destruct (checkShapeDataCompatibleD s' data) eqn:E3; [|reflexivity]. unfold ret. destruct G.
          split; auto. split; auto. split; auto. split; auto. split; [discriminate|]. split; [|split; [discriminate|now apply checkShapeDataD_one]].
          intros n En. injection En as ->. apply Hn. auto.
      + destruct data as [a|]; [|reflexivity].
        unfold bind, check. destruct (checkShapeDiagonalCompatible (ashape a)) eqn:E1; [|reflexivity]. unfold ret at 1.
        unfold liftR at 1. destruct (deduceDimension (Some a) labs) as [k|e]; [|reflexivity].
        set (s' := match ashape a with [d] => if Nat.ltb 1 k then repeat d k else ashape a | _ => ashape a end).
        assert (all_eqb s' = true) as Es'.
        { unfold s'. destruct (ashape a) as [|d [|]]; auto. destruct (Nat.ltb 1 k); auto. apply all_eqb_repeat. }
        destruct (checkShapeLabelsCompatible s' labs) eqn:E2; [|reflexivity]. unfold ret at 1. apply checkShapeLabels_iff in E2.
        assert (forall a0 x y, Some a = Some a0 -> ashape a0 = [x] -> s' = [y] -> x = y) as E3.
        { intros a0 x y Ea Ex. injection Ea as <-. unfold s'. rewrite Ex.
          destruct (Nat.ltb_spec 1 k); [destruct k as [|[|k]]; try lia; discriminate|]. congruence. }
        destruct labs as [lb|].
        * unfold ret. split; auto. split; auto. split; auto. split; [discriminate|]. split; [congruence|].
          split; [discriminate|]. split; [discriminate|auto].
        * unfold liftR. pose proof (generateLabels_spec (List.length s')) as G.
          destruct (generateLabels (List.length s')) as [lb|e]; [|reflexivity]. destruct G.
          unfold ret. split; auto. split; auto. split; auto. split; [discriminate|]. split; [discriminate|].
          split; [discriminate|]. split; [discriminate|auto]. }
  unfold bind at 1. destruct (ded h) as [h1 [(sh', labs')|e]]; [|exact Hded].
  destruct Hded as (-> & HL & Hall & Hsh & Hlabs & Hint & Hls & Hone). clear ded.
  unfold bind at 1, liftR. destruct (generateDataD sh' data like) as [r|e] eqn:EgD; [|reflexivity].
  apply generateDataD_spec in EgD; auto.
  unfold bind at 1, reads.
  (* phase 3: legs *)
  assert (exists h3 ls', (match ls with
          | Some ls => iterM (fun l => setLegTensor l (Some (ntens h))) ls ;;; ret ls
          | None => makeLegs (ntens h) labs' sh'
          end) h = (h3, Ok ls') /\
          bonds h3 = bonds h /\ tens h3 = tens h /\ nbond h3 = nbond h /\ ntens h3 = ntens h /\ rng h3 = rng h /\
          nleg h <= nleg h3 /\ NoDup ls' /\ (forall l, In l ls' -> l < nleg h3) /\
          map (dim_of h3) ls' = sh' /\ map (fun l => l_name (legs h3 l)) ls' = labs' /\
          (forall l, In l ls' -> l_tensor (legs h3 l) = Some (ntens h)) /\
          match ls with
          | Some l0 => ls' = l0 /\ adopted h h3 l0 (ntens h) /\ nleg h3 = nleg h
          | None => ls' = seq (nleg h) (List.length ls') /\ nleg h3 = nleg h + List.length ls' /\
                    (forall l, l < nleg h -> legs h3 l = legs h l) /\
                    (forall l, In l ls' -> l_bond (legs h3 l) = None)
          end) as (h3 & ls' & E3 & B1 & B2 & B3 & B4 & B5 & B6 & B7 & B8 & B9 & B10 & B11 & B12).
  { destruct ls as [l0|].
    - destruct (adopt_ok (ntens h) l0 h) as (h3 & E3 & AD3). unfold bind. rewrite E3. unfold ret.
      exists h3, l0. split; [reflexivity|]. pose proof AD3 as AD3'. destruct AD3' as [Ain Aout].
      repeat (split; [congruence || lia|]). destruct AL as [AL1 AL2]. split; auto. split.
      { intros l Hl. apply AL2 in Hl. congruence. }
      destruct (Hls l0 eq_refl) as [-> ->]. split; [|split; [|split]].
      + apply map_ext_in. intros l Hl. unfold dim_of. rewrite Ain by auto. reflexivity.
      + apply map_ext_in. intros l Hl. rewrite Ain by auto. reflexivity.
      + intros l Hl. now rewrite Ain.
      + repeat split; auto; congruence.
    - destruct (makeLegs_ok (ntens h) labs' sh' h HL) as (h3 & E3 & ML & En & Hk). rewrite E3.
      destruct ML as [M1 M2 M3 M4 M5 M6 M7 M8]. exists h3, (seq (nleg h) (List.length labs')). split; [reflexivity|].
      repeat (split; [congruence || lia|]). split; [apply seq_NoDup|]. split; [|split; [|split; [|split]]].
      + intros l Hl. apply in_seq in Hl. lia.
      + rewrite HL. apply map_seq_nth with (d := 0). intros k Hk'. unfold dim_of. rewrite Hk by lia. reflexivity.
      + apply map_seq_nth with (d := NNone). intros k Hk'. rewrite Hk by lia. reflexivity.
      + intros l Hl. apply in_seq in Hl. replace l with (nleg h + (l - nleg h)) by lia. rewrite Hk by lia. reflexivity.
      + rewrite seq_length. split; [congruence|]. split; [congruence|]. split.
        * intros l Hl. now rewrite M1 by lia.
        * intros l Hl. apply in_seq in Hl. replace l with (nleg h + (l - nleg h)) by lia. rewrite Hk by lia. reflexivity. }
  unfold bind at 1. rewrite E3. unfold allocs, alloc_tens. rewrite B4.
  match goal with |- new_tensor _ ?hh _ _ /\ _ => set (h' := hh) end.
  assert (El' : legs_of h' (ntens h) = ls') by (unfold legs_of, h'; simpl; now rewrite upd_same).
  assert (Ed' : dims_of h' (ntens h) = sh') by (unfold dims_of; rewrite El'; exact B9).
  set (len := match sh' with [] => 1 | d :: _ => d end) in *.
  assert (Elen : t_len (tens h' (ntens h)) = len) by (unfold h'; simpl; now rewrite upd_same).
  assert (Hdim : forall l, In l ls' -> dim_of h' l = len).
  { intros l Hl. assert (In (dim_of h' l) sh') as Hin by (rewrite <- B9; apply (in_map (dim_of h')); auto).
    unfold len. destruct sh' as [|d sh0]; [contradiction|]. apply all_eqb_spec with (x := dim_of h' l) (y := d) in Hall; simpl; auto. }
  assert (Els : List.length ls' = List.length sh') by (rewrite <- B9; now rewrite map_length).
  split; [|split; [|split; [|split]]].
  - constructor; auto.
    + intros t' Ht'. unfold h'. simpl. rewrite upd_other by lia. now rewrite B2.
    + rewrite El'. simpl. destruct ls as [l0|]; destruct B12 as (_ & B12 & B13); [lia|exact B12].
    + simpl. destruct ls as [l0|].
      * destruct B12 as (-> & [Ain Aout] & _). split; auto.
      * destruct B12 as (C1 & C2 & C3 & C4). split; auto.
        rewrite El'. split; auto.
  - unfold owned. rewrite El'. simpl. auto.
  - now rewrite El'.
  - rewrite El', Elen. auto.
  - unfold h' at 1 2 3. simpl. rewrite upd_same. simpl. split; auto. split; auto. split; auto.
    rewrite El'. split; [|split; [|split; [|split]]].
    + intros l ->. destruct B12. auto.
    + intros l El. unfold names_of. rewrite El'. rewrite <- (Hlabs l El). exact B10.
    + intros l El _. rewrite Ed'. auto.
    + intros n En l Hl. apply (Hint n En). rewrite <- B9. apply (in_map (dim_of h3)). exact Hl.
    + intros Sane. unfold diag_data_sane in Sane. rewrite El', Elen in Sane.
      assert (Er : t_arr (tens h' (ntens h)) = r) by (unfold h'; simpl; now rewrite upd_same).
      split.
      * constructor.
        -- simpl. lia.
        -- now rewrite El'.
        -- rewrite El'. simpl. auto.
        -- unfold h'. simpl. rewrite upd_same. unfold data_ok. simpl. fold len. destruct like.
           ++ now subst r.
           ++ destruct EgD as (a' & -> & EgD). destruct data as [a|].
              ** destruct EgD as [(n & En & ->)|(En & d & rest & Esh & Wa' & Sa' & _)].
                 --- split; auto. destruct Sane as [[S1 S2]|[S1 S2]].
                     +++ destruct ls'; [congruence|exact S2].
                     +++ rewrite En in S1. destruct ls' as [|x [|]]; try discriminate.
                         (* one leg: data of length n but leg of dimension len *)
                         rewrite En. f_equal. destruct sh' as [|y [|]] eqn:Es; try discriminate.
                         exact (Hone a n y eq_refl En eq_refl).
                 --- split; auto. destruct Sane as [[S1 S2]|[S1 S2]].
                     +++ rewrite S2 in En. simpl in En. congruence.
                     +++ rewrite Sa', <- Els, <- S1, skipn_all. destruct ls'; [rewrite Esh in Els; discriminate|].
                         unfold len. now rewrite Esh.
              ** destruct EgD as (d & rest & -> & ->). split; [unfold np_ones; simpl; rewrite repeat_length; lia|].
                 destruct ls'; [discriminate|reflexivity].
        -- rewrite El', Elen. intros _. split; auto. intros ->. destruct sh'; [reflexivity|discriminate].
      * intros ->. destruct EgD as (a' & -> & EgD). exists a'. split; auto. destruct data as [a|].
        -- destruct EgD as [(n & En & ->)|(En & d & rest & Esh & Wa' & Sa' & Hget)].
           ++ rewrite En. auto.
           ++ destruct Sane as [[S1 S2]|[S1 S2]].
              ** rewrite S2 in En. simpl in En. congruence.
              ** destruct (ashape a) as [|x [|y sa]] eqn:Esa.
                 --- destruct ls'; [|discriminate]. rewrite Esh in Els. discriminate.
                 --- simpl in En. congruence.
                 --- intros i Hi. rewrite Els. apply Hget; [lia|]. unfold len in Hi. rewrite Esh in Hi. exact Hi.
        -- destruct EgD as (d & rest & -> & ->). destruct ls'; [discriminate|]. reflexivity.
Qed.
End Dg.
