(** The first half of a step: tagging, linking and contracting the two triangles. *)
From Coq Require Import List Arith Bool String Ascii Lia Permutation.
From Verif Require Import Base Sums NdModel HeapModel FuncsModel TensorModel TensorSpec ContractModel NetSpec SvdModel SvdSpec FtnModel FtnNetSpec NamedSpec NetsSpec NetsModel TrgModel TrgSpec TriTrgModel TriTrgSpec
  FuncsProofs NdProofs TensorProofs LabelProofs CopyProofs LinkProofs ShareProofs NetProofs SumpairsProofs MatrixProofs OuterProofs NamedMatProofs NamedProofs NetsProofs PairLinkProofs.
Import ListNotations.
Local Open Scope nat_scope.
Local Open Scope string_scope.
Local Open Scope list_scope.

Section Tp.
Context {A : Type} {HA : SR A}.
Notation heap := (heap A).

(** three named legs *)
Lemma three (h : heap) t n1 n2 n3 D : has_legs h t [(n1, D); (n2, D); (n3, D)] -> exists x1 x2 x3, Permutation (legs_of h t) [x1; x2; x3] /\
  (l_name (legs h x1) = NStr n1 /\ dim_of h x1 = D) /\ (l_name (legs h x2) = NStr n2 /\ dim_of h x2 = D) /\ (l_name (legs h x3) = NStr n3 /\ dim_of h x3 = D).
Proof.
  intros HL. destruct (legs_listed h t _ HL) as (ls & P & E). destruct ls as [|x1 [|x2 [|x3 [|]]]]; cbn in E; try discriminate. injection E as E1 E2 E3 E4 E5 E6. exists x1, x2, x3. auto.
Qed.
Lemma only_names_dense (h h' : heap) L f t : only_names h h' L f -> dense h t -> dense h' t.
Proof.
  intros O (W & E1 & E2). split; [|split; rewrite (on_tens _ _ _ _ O); auto].
  apply (wf_same h h'); auto; [now rewrite (on_tens _ _ _ _ O)| |rewrite (on_nleg _ _ _ _ O); lia|rewrite (on_ntens _ _ _ _ O); lia].
  intros l _. unfold dim_of. destruct (in_dec Nat.eq_dec l L) as [Hl|Hl]; [now rewrite (on_in _ _ _ _ O l Hl)|now rewrite (on_out _ _ _ _ O l Hl)].
Qed.
Lemma tag_three (h : heap) t tag D : dense h t -> forall x1 x2 x3, Permutation (legs_of h t) [x1; x2; x3] ->
  (l_name (legs h x1) = NStr "1" /\ dim_of h x1 = D) /\ (l_name (legs h x2) = NStr "2" /\ dim_of h x2 = D) /\ (l_name (legs h x3) = NStr "3" /\ dim_of h x3 = D) ->
  exists h', addTensorTag t tag h = (h', Ok tt) /\ only_names h h' [x1; x2; x3] (fun l => match l_name (legs h l) with NStr s => NStr (tag ++ "-" ++ s) | n => n end).
Proof.
  intros Dt x1 x2 x3 P ((N1 & _) & (N2 & _) & (N3 & _)). destruct (addTensorTag_ok h t tag) as (h' & E & O).
  - apply Dt.
  - intros l Hl. assert (In l [x1; x2; x3]) as X by (eapply Permutation_in; eauto). destruct X as [<-|[<-|[<-|[]]]]; [exists "1"|exists "2"|exists "3"]; split; auto.
  - exists h'. split; auto. destruct O as [o1 o2 o3 o4 o5 o6 o7 o8 o9]. constructor; auto.
    + intros l Hl. apply o8. eapply Permutation_in; [symmetry; exact P|exact Hl].
    + intros l Hl. apply o9. intros X. apply Hl. eapply Permutation_in; [exact P|exact X].
Qed.

Lemma getLeg_one (h : heap) t n x1 x2 x3 : Permutation (legs_of h t) [x1; x2; x3] -> l_name (legs h x1) = NStr n -> l_name (legs h x2) <> NStr n -> l_name (legs h x3) <> NStr n -> getLeg h t (NStr n) false = Some x1.
Proof.
  intros P E1 E2 E3. pose proof (getLeg_first h t (NStr n)) as G. destruct (getLeg h t (NStr n) false) as [l|].
  - destruct G as (u & v & E & En & _). assert (Hl : In l (legs_of h t)) by (rewrite E; apply in_app_iff; simpl; auto).
    eapply Permutation_in in Hl; [|exact P]. destruct Hl as [->|[<-|[<-|[]]]]; congruence.
  - exfalso. apply G. unfold names_of. rewrite <- E1. apply (in_map (fun l => l_name (legs h l))). eapply Permutation_in; [symmetry; exact P|simpl; auto].
Qed.

(** lines 62-67 of iterate *)
Definition joinPair (a b : tid) : M tid :=
  bind (addTensorTag a "a") (fun _ => bind (addTensorTag b "b") (fun _ =>
  bind (legArg a "a-1") (fun la => bind (legArg b "b-1") (fun lb =>
  bind (makeLink [RLeg la] [RLeg lb] None None) (fun _ => contractTwoTensors a b))))).

Lemma joinPair_ok (h : heap) a b D : triangle h a D -> triangle h b D -> bondless h a -> bondless h b -> apart h a b ->
  exists h' i, joinPair a b h = (h', Ok i) /\ i = ntens h /\ ntens h' = S (ntens h) /\ nleg h' = nleg h /\
    (forall t, t < ntens h -> t <> a -> t <> b -> tens h' t = tens h t) /\
    (forall l, l < nleg h -> ~ In l (legs_of h a) -> ~ In l (legs_of h b) -> legs h' l = legs h l) /\
    dense_legs h' i [("a-2", D); ("b-2", D); ("a-3", D); ("b-3", D)] /\
    forall p q r s, p < D -> q < D -> r < D -> s < D -> at_ h' i [("a-2", p); ("b-2", q); ("a-3", r); ("b-3", s)] =
      sumN D (fun z => rmul (entry3 h a z p r) (entry3 h b z q s)).
Proof.
  intros Ta Tb Ua Ub (Nab & AP). destruct (three _ _ _ _ _ _ (proj2 Ta)) as (x1 & x2 & x3 & Pa & Hx). destruct (three _ _ _ _ _ _ (proj2 Tb)) as (y1 & y2 & y3 & Pb & Hy).
  assert (ND : NoDup (legs_of h a ++ legs_of h b)) by (apply NoDup_app_intro; [apply Ta|apply Tb|exact AP]).
  assert (ND6 : NoDup [x1; x2; x3; y1; y2; y3]) by (eapply Permutation_NoDup; [|exact ND]; exact (Permutation_app Pa Pb)).
  destruct (tag_three h a "a" D (proj1 Ta) x1 x2 x3 Pa Hx) as (hA & RA & OA).
  assert (Lb : forall l, In l [y1; y2; y3] -> legs hA l = legs h l).
  { intros l Hl. apply (on_out _ _ _ _ OA). intros X. apply (NoDup_app_disj [x1; x2; x3] [y1; y2; y3] l ND6); auto. }
  assert (LA : forall t, legs_of hA t = legs_of h t) by (intros t; unfold legs_of; now rewrite (on_tens _ _ _ _ OA)).
  assert (PbA : Permutation (legs_of hA b) [y1; y2; y3]) by (now rewrite LA).
  assert (HyA : (l_name (legs hA y1) = NStr "1" /\ dim_of hA y1 = D) /\ (l_name (legs hA y2) = NStr "2" /\ dim_of hA y2 = D) /\ (l_name (legs hA y3) = NStr "3" /\ dim_of hA y3 = D)).
  { unfold dim_of in *. rewrite !Lb by (simpl; auto). exact Hy. }
  destruct (tag_three hA b "b" D (only_names_dense _ _ _ _ _ OA (proj1 Tb)) y1 y2 y3 PbA HyA) as (hB & RB & OB).
  assert (Dab : dense hB a /\ dense hB b) by (split; apply (only_names_dense _ _ _ _ _ OB), (only_names_dense _ _ _ _ _ OA); [apply Ta|apply Tb]). destruct Dab as (Da & Db).
  assert (LB : forall t, legs_of hB t = legs_of h t) by (intros t; unfold legs_of; now rewrite (on_tens _ _ _ _ OB), (on_tens _ _ _ _ OA)).
  assert (EB : forall t s, entry hB t s = entry h t s) by (intros t s; unfold entry; now rewrite (on_tens _ _ _ _ OB), (on_tens _ _ _ _ OA)).
  assert (XA : forall l, In l [x1; x2; x3] -> legs hB l = mkLeg (l_tensor (legs h l)) (l_dim (legs h l)) (match l_name (legs h l) with NStr s => NStr ("a" ++ "-" ++ s) | n => n end) (l_bond (legs h l))).
  { intros l Hl. rewrite (on_out _ _ _ _ OB); [apply (on_in _ _ _ _ OA); auto|]. intros X. apply (NoDup_app_disj [x1; x2; x3] [y1; y2; y3] l ND6); auto. }
  assert (XB : forall l, In l [y1; y2; y3] -> legs hB l = mkLeg (l_tensor (legs h l)) (l_dim (legs h l)) (match l_name (legs h l) with NStr s => NStr ("b" ++ "-" ++ s) | n => n end) (l_bond (legs h l))).
  { intros l Hl. rewrite (on_in _ _ _ _ OB) by auto. now rewrite !Lb by auto. }
  assert (UB : unlinked hB a /\ unlinked hB b).
  { split; intros l Hl; rewrite LB in Hl.
    - rewrite XA by (eapply Permutation_in; [exact Pa|exact Hl]). now apply Ua.
    - rewrite XB by (eapply Permutation_in; [exact Pb|exact Hl]). now apply Ub. }
  destruct UB as (UaB & UbB). destruct Hx as ((Nx1 & Dx1) & (Nx2 & Dx2) & (Nx3 & Dx3)), Hy as ((Ny1 & Dy1) & (Ny2 & Dy2) & (Ny3 & Dy3)).
  assert (NX : (l_name (legs hB x1) = NStr "a-1" /\ l_name (legs hB x2) = NStr "a-2" /\ l_name (legs hB x3) = NStr "a-3") /\
    (l_name (legs hB y1) = NStr "b-1" /\ l_name (legs hB y2) = NStr "b-2" /\ l_name (legs hB y3) = NStr "b-3")).
  { rewrite !XA, !XB by (simpl; auto). cbn [l_name]. rewrite Nx1, Nx2, Nx3, Ny1, Ny2, Ny3. cbn. repeat split; reflexivity. }
  destruct NX as ((M1 & M2 & M3) & (M4 & M5 & M6)).
  assert (DX : (dim_of hB x1 = D /\ dim_of hB x2 = D /\ dim_of hB x3 = D) /\ (dim_of hB y1 = D /\ dim_of hB y2 = D /\ dim_of hB y3 = D)).
  { unfold dim_of in *. rewrite !XA, !XB by (simpl; auto). cbn [l_dim]. auto 10. }
  destruct DX as ((F1 & F2 & F3) & (F4 & F5 & F6)).
  assert (GA : getLeg hB a (NStr "a-1") false = Some x1) by (apply (getLeg_one hB a "a-1" x1 x2 x3); [rewrite LB; exact Pa|exact M1|rewrite M2; discriminate|rewrite M3; discriminate]).
  assert (GB : getLeg hB b (NStr "b-1") false = Some y1) by (apply (getLeg_one hB b "b-1" y1 y2 y3); [rewrite LB; exact Pb|exact M4|rewrite M5; discriminate|rewrite M6; discriminate]).
  assert (Alx : forall l, In l [x1; x2; x3] -> l < nleg h) by (intros l Hl; apply (wt_alloc _ _ (proj1 (proj1 Ta))); eapply Permutation_in; [symmetry; exact Pa|exact Hl]).
  assert (Aly : forall l, In l [y1; y2; y3] -> l < nleg h) by (intros l Hl; apply (wt_alloc _ _ (proj1 (proj1 Tb))); eapply Permutation_in; [symmetry; exact Pb|exact Hl]).
  assert (NB : nleg hB = nleg h /\ ntens hB = ntens h) by (rewrite (on_nleg _ _ _ _ OB), (on_ntens _ _ _ _ OB), (on_nleg _ _ _ _ OA), (on_ntens _ _ _ _ OA); auto). destruct NB as (NB1 & NB2).
  destruct (makeLink_ok hB [RLeg x1] [RLeg y1] None None [(x1, y1)]) as (hL & bs & RL & LK).
  - constructor; constructor.
  - constructor; constructor.
  - split; [|split].
    + inversion ND6 as [|? ? K1 _]; subst. simpl in K1. constructor; [simpl; intuition|constructor; [intros []|constructor]].
    + intros l [<-|[<-|[]]]; rewrite NB1; split; [apply Alx; simpl; auto|apply UaB; rewrite LB; eapply Permutation_in; [symmetry; exact Pa|simpl; auto]|apply Aly; simpl; auto|apply UbB; rewrite LB; eapply Permutation_in; [symmetry; exact Pb|simpl; auto]].
    + intros p [<-|[]]. cbn [fst snd]. congruence.
  - destruct (pair_value hB hL a b [(x1, y1)] [x2; x3] [y2; y3] Da Db Nab) as (h' & i & RC & C & DI & PI & NI & VI); auto.
    + rewrite !LB. exact ND.
    + rewrite LB. exact Pa.
    + rewrite LB. exact Pb.
    + intros p [<-|[]]. cbn [fst snd]. congruence.
    + assert (HLI : has_legs h' i [("a-2", D); ("a-3", D); ("b-2", D); ("b-3", D)]).
      { apply (listed_legs h' i _ [x2; x3; y2; y3] PI). cbn [map fst snd]. repeat match goal with |- context [l_name (legs h' ?x)] => destruct (NI x ltac:(simpl; auto 10)) as (-> & -> & _) end. rewrite M2, M3, M5, M6, F2, F3, F5, F6. reflexivity. }
      exists h', i. split; [|split; [|split; [|split; [|split; [|split; [|split]]]]]].
      * unfold joinPair. unfold bind at 1. rewrite RA. unfold bind at 1. rewrite RB. unfold bind at 1, legArg at 1, readsR at 1. rewrite GA. unfold bind at 1, legArg at 1, readsR at 1. rewrite GB. unfold bind at 1. rewrite RL. exact RC.
      * rewrite (ct_id _ _ _ _ _ _ C), (la_ntens _ _ _ LK). exact NB2.
      * rewrite (ct_ntens _ _ _ _ _ _ C), (la_ntens _ _ _ LK). now rewrite NB2.
      * rewrite (ct_nleg _ _ _ _ _ _ C), (la_nleg _ _ _ LK). exact NB1.
      * intros t Ht Hta Htb. rewrite (ct_tens _ _ _ _ _ _ C); auto; [|rewrite (la_ntens _ _ _ LK); lia]. now rewrite (la_tens _ _ _ LK), (on_tens _ _ _ _ OB), (on_tens _ _ _ _ OA).
      * intros l Hl Hla Hlb.
        assert (Nx : ~ In l [x1; x2; x3]) by (intros X; apply Hla; eapply Permutation_in; [symmetry; exact Pa|exact X]).
        assert (Ny : ~ In l [y1; y2; y3]) by (intros X; apply Hlb; eapply Permutation_in; [symmetry; exact Pb|exact X]).
        assert (PR : Permutation (restA hL a b ++ restB hL a b) [x2; x3; y2; y3]) by (rewrite <- (ct_legs _ _ _ _ _ _ C); exact PI).
        rewrite (ct_out _ _ _ _ _ _ C); [|rewrite (la_nleg _ _ _ LK); lia|].
        -- rewrite (la_out _ _ _ LK) by (simpl in *; intuition). rewrite (on_out _ _ _ _ OB) by auto. now apply (on_out _ _ _ _ OA).
        -- intros X. eapply Permutation_in in X; [|exact PR]. simpl in *. intuition.
      * split; [exact DI|]. eapply Permutation_trans; [exact HLI|]. cbn [map]. apply perm_skip. apply perm_swap.
      * intros p q r s Hp Hq Hr Hs. set (m := [("a-2", p); ("b-2", q); ("a-3", r); ("b-3", s)]).
        assert (IX : forall l, In l [x2; x3; y2; y3] -> l_name (legs h' l) = l_name (legs hB l)) by (intros l Hl; apply NI; exact Hl).
        unfold at_, at_names. set (S := fun l => index_in m (l_name (legs h' l))).
        assert (S2 : S x2 = p /\ S x3 = r /\ S y2 = q /\ S y3 = s).
        { unfold S. rewrite !IX by (simpl; auto 10). rewrite M2, M3, M5, M6. repeat split; reflexivity. }
        destruct S2 as (S2 & S3 & S4 & S5). rewrite VI.
        -- cbn [sumpairs]. rewrite F1. apply sumN_ext. intros z Hz. rewrite !EB. 
           assert (U : forall l, upd (upd S x1 z) y1 z l = if Nat.eqb l y1 then z else if Nat.eqb l x1 then z else S l) by (intros l; unfold upd; reflexivity).
           assert (NE : x2 <> x1 /\ x3 <> x1 /\ x1 <> y1 /\ x2 <> y1 /\ x3 <> y1 /\ y2 <> y1 /\ y3 <> y1 /\ y2 <> x1 /\ y3 <> x1).
           { clear -ND6. repeat match goal with H : NoDup (_ :: _) |- _ => inversion H; subst; clear H end. simpl in *. intuition congruence. }
           destruct NE as (Q1 & Q2 & Q3 & Q4 & Q5 & Q6 & Q7 & Q8 & Q9).
           f_equal.
           ++ apply (entry_at h a [x1; x2; x3]); [exact Pa|]. intros l [<-|[<-|[<-|[]]]]; rewrite U.
              ** rewrite Nx1, (proj2 (Nat.eqb_neq _ _) Q3), Nat.eqb_refl. reflexivity.
              ** rewrite Nx2, (proj2 (Nat.eqb_neq _ _) Q4), (proj2 (Nat.eqb_neq _ _) Q1), S2. reflexivity.
              ** rewrite Nx3, (proj2 (Nat.eqb_neq _ _) Q5), (proj2 (Nat.eqb_neq _ _) Q2), S3. reflexivity.
           ++ apply (entry_at h b [y1; y2; y3]); [exact Pb|]. intros l [<-|[<-|[<-|[]]]]; rewrite U.
              ** rewrite Ny1, Nat.eqb_refl. reflexivity.
              ** rewrite Ny2, (proj2 (Nat.eqb_neq _ _) Q6), (proj2 (Nat.eqb_neq _ _) Q8), S4. reflexivity.
              ** rewrite Ny3, (proj2 (Nat.eqb_neq _ _) Q7), (proj2 (Nat.eqb_neq _ _) Q9), S5. reflexivity.
        -- intros l [<-|[<-|[<-|[<-|[]]]]]; rewrite ?S2, ?S3, ?S4, ?S5; lia.
Qed.
End Tp.
