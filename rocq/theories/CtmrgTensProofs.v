(** Tensors whose legs are given by name, diagonal or dense: copies, new diagonal tensors, division, sums over a leg. *)
From Coq Require Import List Arith Bool String Lia Permutation.
From Verif Require Import Base Sums NdModel NdProofs HeapModel FuncsModel TensorModel TensorSpec TensorProofs MatrixProofs CtorProofs DiagCtorProofs CopyProofs MergeProofs ContractModel SvdModel SvdSpec SvdProofs CanonModel
  SearchSpec NetSpec FtnModel FtnNetSpec FtnProofs FtnFrameProofs NamedSpec NetsSpec NamedProofs NetsModel NetsProofs NamedMatProofs TorusProofs TrgModel TrgSpec TrgProofs DiagNetSpec.
Import ListNotations.
Local Open Scope nat_scope.
Local Open Scope string_scope.
Local Open Scope list_scope.

Section Tens.
Context {A B : Type} {HA : SR A}.
Notation heap := (heap A).
Variable num : numerics A B.

Lemma dense_as (h : heap) t m : dense_legs h t m <-> legs_as false h t m. Proof. reflexivity. Qed.
Lemma named_legs (h : heap) t m : has_legs h t m -> exists ls, Permutation (legs_of h t) ls /\ map (fun l => l_name (legs h l)) ls = map NStr (map fst m) /\ map (dim_of h) ls = map snd m.
Proof.
  intros HL. unfold has_legs, names_of, dims_of in HL. rewrite combine_map_same in HL.
  symmetry in HL. apply Permutation_map_inv in HL. destruct HL as (ls & E & P). exists ls. split; [exact P|]. split.
  - apply (f_equal (map fst)) in E. rewrite !map_map in E. rewrite map_map. symmetry. exact E.
  - apply (f_equal (map snd)) in E. rewrite !map_map in E. symmetry. exact E.
Qed.
Lemma legs_named (h : heap) t m ls : Permutation (legs_of h t) ls -> map (fun l => l_name (legs h l)) ls = map NStr (map fst m) -> map (dim_of h) ls = map snd m -> has_legs h t m.
Proof.
  intros P E1 E2. unfold has_legs, names_of, dims_of. rewrite combine_map_same.
  apply Permutation_trans with (map (fun l => (l_name (legs h l), dim_of h l)) ls); [exact (Permutation_map _ P)|]. apply Permutation_refl'.
  etransitivity; [symmetry; exact (combine_map_same (fun l => l_name (legs h l)) (dim_of h) ls)|]. rewrite E1, E2. clear. induction m as [|p m IH]; cbn; congruence.
Qed.
Lemma grown_as b (h h' : heap) t m : grown h h' -> legs_as b h t m -> legs_as b h' t m /\ (forall g, at_ h' t g = at_ h t g) /\ tens h' t = tens h t.
Proof.
  intros [a b0 c d] (([i nd al da dg] & NL & ND) & HL). assert (Et : tens h' t = tens h t) by auto.
  assert (El : legs_of h' t = legs_of h t) by (unfold legs_of; now rewrite Et).
  assert (Eg : forall l, In l (legs_of h t) -> legs h' l = legs h l) by auto.
  split; [split; [split|]|split; auto].
  - split; rewrite ?El, ?Et; auto; try lia.
    + intros l Hl. apply al in Hl. lia.
    + unfold data_ok in *. destruct (t_like _), (t_arr _); auto. destruct da as (d1 & d2). split; auto. destruct (t_diag (tens h t)); [exact d2|]. rewrite d2. apply map_ext_in. intros l Hl. unfold dim_of. now rewrite Eg.
    + intros E. destruct (dg E) as (X & Y). split; [exact X|]. intros l Hl. unfold dim_of. rewrite Eg by exact Hl. apply Y, Hl.
  - now rewrite Et.
  - unfold has_legs in *. replace (names_of h' t) with (names_of h t); [replace (dims_of h' t) with (dims_of h t); auto|].
    + unfold dims_of, dim_of. rewrite El. apply map_ext_in. intros l Hl. now rewrite Eg.
    + unfold names_of. rewrite El. apply map_ext_in. intros l Hl. now rewrite Eg.
  - intros g. unfold at_, at_names, entry, entry_of. rewrite Et. destruct (t_arr _); auto. destruct (t_diag (tens h t)).
    + change (t_legs (tens h t)) with (legs_of h t). destruct (legs_of h t) as [|l ls]; [reflexivity|]. rewrite (Eg l) by (left; reflexivity).
      assert (X : forall x, In x ls -> legs h' x = legs h x) by (intros x Hx; apply Eg; right; exact Hx). clear -X.
      assert (Y : forall n, forallb (fun l' => Nat.eqb (index_in g (l_name (legs h' l'))) n) ls = forallb (fun l' => Nat.eqb (index_in g (l_name (legs h l'))) n) ls).
      { intros n. induction ls as [|x ls IH]; cbn [forallb]; [reflexivity|]. rewrite X by (left; reflexivity). f_equal. apply IH. intros y Hy. apply X. right. exact Hy. }
      rewrite Y. reflexivity.
    + f_equal. apply map_ext_in. intros l Hl. change (In l (legs_of h t)) in Hl. now rewrite Eg.
Qed.
Lemma no_legs (h : heap) t m : has_legs h t m -> m <> [] -> legs_of h t <> [].
Proof. intros HL Ne E. apply named_legs in HL. destruct HL as (ls & P & _ & E2). rewrite E in P. apply Permutation_nil in P. subst ls. destruct m; [congruence|discriminate]. Qed.
Lemma copy_as b (h : heap) t m : legs_as b h t m -> m <> [] -> exists h' c, copy t h = (h', Ok c) /\ new_tensor h h' c None /\ legs_as b h' c m /\ forall g, at_ h' c g = at_ h t g.
Proof.
  intros ((WF & NL & ND) & HL) Ne. destruct (copy_ok h t WF) as (h' & c & E & [NT W O EN ED FD FN] & FL & V); [intros (_ & _ & E); revert E; eapply no_legs; eauto|].
  exists h', c. split; auto. split; auto. split; [split; [split; [auto|]|]|].
  - split; congruence.
  - unfold has_legs. now rewrite EN, ED.
  - intros g. unfold at_, at_names. apply V. rewrite <- !(map_map (fun l => l_name (legs _ l)) (index_in g)). f_equal. exact EN.
Qed.
(** ** Diagonal tensors with two legs *)
Lemma two_legs (h : heap) t p k q k' : has_legs h t [(p, k); (q, k')] -> exists l1 l2, (legs_of h t = [l1; l2] \/ legs_of h t = [l2; l1]) /\
  l_name (legs h l1) = NStr p /\ l_name (legs h l2) = NStr q /\ dim_of h l1 = k /\ dim_of h l2 = k'.
Proof.
  intros HL. apply named_legs in HL. destruct HL as (ls & P & E1 & E2). destruct ls as [|l1 [|l2 [|]]]; try discriminate. cbn in E1, E2. injection E1 as A1 A2. injection E2 as B1 B2.
  exists l1, l2. split; [|auto]. apply Permutation_length_2_inv in P || (apply Permutation_sym, Permutation_length_2_inv in P). exact P.
Qed.
Lemma diag_two (h : heap) t p k q k' : diag_legs h t [(p, k); (q, k')] -> p <> q -> exists a, t_arr (tens h t) = Some a /\ wfa a /\ ashape a = [k] /\ k' = k /\ t_len (tens h t) = k /\
  forall g, at_ h t g = if Nat.eqb (look g 0 p) (look g 0 q) then aget a [look g 0 p] else r0.
Proof.
  intros ((WF & NL & DG) & HL) Npq. destruct (two_legs h t p k q k' HL) as (l1 & l2 & EL & N1 & N2 & D1 & D2).
  pose proof (wt_data _ _ WF) as DO. unfold data_ok in DO. rewrite NL, DG in DO. destruct (t_arr (tens h t)) as [a|] eqn:Ea; [|destruct DO]. destruct DO as (Wa & Sa).
  destruct (wt_diag _ _ WF DG) as (_ & LD).
  assert (K1 : t_len (tens h t) = k) by (rewrite <- D1; symmetry; apply LD; destruct EL as [-> | ->]; cbn; auto).
  assert (K2 : t_len (tens h t) = k') by (rewrite <- D2; symmetry; apply LD; destruct EL as [-> | ->]; cbn; auto).
  exists a. split; [reflexivity|]. split; [exact Wa|]. split; [|split; [congruence|split; [exact K1|]]].
  - rewrite Sa. unfold legs_of in EL. destruct EL as [-> | ->]; congruence.
  - intros g. unfold at_, at_names, entry, entry_of. rewrite Ea, DG. unfold legs_of in EL. destruct EL as [-> | ->]; cbn [forallb]; rewrite N1, N2; cbn [index_in]; rewrite andb_true_r.
    + rewrite Nat.eqb_sym. reflexivity.
    + destruct (Nat.eqb_spec (look g 0 p) (look g 0 q)) as [->|]; reflexivity.
Qed.
Lemma diag_off (h : heap) t p k q k' x y : diag_legs h t [(p, k); (q, k')] -> p <> q -> at_ h t [(p, x); (q, y)] = if Nat.eqb x y then at_ h t [(p, x); (q, x)] else r0.
Proof.
  intros D Npq. destruct (diag_two h t p k q k' D Npq) as (a & _ & _ & _ & _ & _ & G). rewrite !G. cbn [look].
  destruct (dec p p); [|congruence]. destruct (dec q p); [congruence|]. destruct (dec q q); [|congruence]. rewrite Nat.eqb_refl. reflexivity.
Qed.
Lemma new_diag (h h' : heap) t p q (s : arr A) k : mkDiag None (Some (map NStr [p; q])) (Some s) None None false h = (h', Ok t) -> wfa s -> ashape s = [k] -> p <> q ->
  new_tensor h h' t None /\ diag_legs h' t [(p, k); (q, k)] /\ forall x, at_ h' t [(p, x); (q, x)] = aget s [x].
Proof.
  intros R Ws Ss Npq. assert (AW : args_wf h (Some s) None) by (constructor; [exact Ws|exact I]).
  assert (R' : mkDiag (Some (DList [k; k])) (Some (map NStr [p; q])) (Some s) None None false h = (h', Ok t)).
  { rewrite <- R. unfold mkDiag. cbn [map]. unfold checkShapeDiagonalCompatible, checkShapeDataCompatibleD, deduceDimension, generateDataD, ndim. rewrite Ss. cbn.
    unfold bind, check, liftR, ret. cbn. rewrite ?Nat.eqb_refl. cbn. reflexivity. }
  clear R. pose proof (mkDiag_spec h (Some (DList [k; k])) (Some (map NStr [p; q])) (Some s) None None false AW) as Sp. rewrite R' in Sp.
  destruct Sp as (NT & O & ND & HD & E1 & E2 & E3 & _ & E4 & E5 & _ & E6). specialize (E4 _ eq_refl). assert (Hne : Some (map NStr [p; q]) <> None) by discriminate. specialize (E5 [k; k] eq_refl (or_intror (or_introl Hne))).
  assert (EL : exists l1 l2, legs_of h' t = [l1; l2] /\ dim_of h' l1 = k).
  { unfold dims_of in E5. destruct (legs_of h' t) as [|l1 [|l2 [|]]]; try discriminate. cbn in E5. injection E5 as X _. exists l1, l2. auto. }
  destruct EL as (l1 & l2 & EL & D1). assert (K : t_len (tens h' t) = k) by (rewrite <- D1; symmetry; apply HD; rewrite EL; left; reflexivity).
  destruct E6 as (WF & DA). { left. split; [rewrite EL; discriminate|]. rewrite Ss, K. reflexivity. }
  assert (D : diag_legs h' t [(p, k); (q, k)]).
  { split; [split; [exact WF|auto]|]. unfold has_legs. rewrite E4, E5. reflexivity. }
  split; [exact NT|]. split; [exact D|]. intros x. destruct (DA eq_refl) as (a' & Ea & Eq). rewrite Ss in Eq. subst a'.
  destruct (diag_two h' t p k q k D Npq) as (a & Ea2 & _ & _ & _ & _ & G). rewrite G. rewrite Ea in Ea2. injection Ea2 as <-. cbn [look].
  destruct (dec p p); [|congruence]. destruct (dec q p); [congruence|]. destruct (dec q q); [|congruence]. rewrite Nat.eqb_refl. reflexivity.
Qed.
(** dividing a diagonal tensor in place *)
Lemma divide_diag (h : heap) t p q k : diag_legs h t [(p, k); (q, k)] -> p <> q -> exists h' n, divideByNorm num t h = (h', Ok n) /\ normalized num h' t n /\ diag_legs h' t [(p, k); (q, k)] /\
  (forall t', t' <> t -> tens h' t' = tens h t') /\ legs h' = legs h /\ nleg h' = nleg h /\ ntens h' = ntens h /\
  forall x, x < k -> at_ h' t [(p, x); (q, x)] = nu_div num (at_ h t [(p, x); (q, x)]) n.
Proof.
  intros D Npq. pose proof D as ((WF & NL & DG) & HL). destruct (diag_two h t p k q k D Npq) as (a & Ea & Wa & Sa & _ & K & G).
  unfold divideByNorm. unfold bind at 1, reads at 1. rewrite NL. cbn [negb]. unfold assert, bind at 1, ret at 1. rewrite Ea. unfold bind at 1, setArr, modify. cbn [ret].
  set (n := nu_norm num a). set (a' := mkArr (ashape a) (map (fun x => nu_div num x n) (adata a))). set (h' := set_tens h t _).
  assert (Et : tens h' t = mkTensor (t_legs (tens h t)) (Some a') (t_diag (tens h t)) (t_like (tens h t)) (t_len (tens h t)) (t_name (tens h t))) by (unfold h'; cbn; now rewrite upd_same).
  assert (Ek : forall t', t' <> t -> tens h' t' = tens h t') by (intros t' Ht; unfold h'; cbn; now rewrite upd_other).
  assert (El : legs_of h' t = legs_of h t) by (unfold legs_of; now rewrite Et).
  assert (D' : diag_legs h' t [(p, k); (q, k)]).
  { split; [split; [|rewrite Et; auto]|unfold has_legs, names_of, dims_of, dim_of in *; rewrite El; exact HL].
    destruct WF as [i nd al da dg]. split; [exact i|now rewrite El|rewrite El; exact al| |].
    + unfold data_ok in *. rewrite Et. cbn [t_like t_arr t_diag t_legs t_len]. rewrite NL, DG, Ea in *. unfold a'. cbn [adata ashape]. rewrite map_length. exact da.
    + rewrite Et, El. cbn [t_diag t_len]. exact dg. }
  exists h', n. split; [reflexivity|]. split; [exists (ashape a), (adata a); rewrite Et; split; [unfold n; now destruct a|reflexivity]|]. split; [exact D'|]. repeat (split; [auto; fail|]).
  intros x Hx. destruct (diag_two h' t p k q k D' Npq) as (b & Eb & _ & _ & _ & _ & G'). rewrite G, G'. rewrite Et in Eb. cbn [t_arr] in Eb. injection Eb as <-. cbn [look].
  destruct (dec p p); [|congruence]. destruct (dec q p); [congruence|]. destruct (dec q q); [|congruence]. rewrite Nat.eqb_refl. unfold a', aget. cbn [ashape adata].
  rewrite (nth_indep _ r0 (nu_div num r0 n)); [apply (map_nth (fun x => nu_div num x n))|]. rewrite map_length, Wa, Sa. cbn. lia.
Qed.
(** ** Summing over a leg *)
Lemma sumOut_named (h : heap) t m1 n d m2 : dense_legs h t (m1 ++ (n, d) :: m2) -> NoDup (map fst (m1 ++ (n, d) :: m2)) ->
  exists h', sumOutLegByLabel t (NStr n) false None h = (h', Ok tt) /\ only_tensor h h' t /\ dense_legs h' t (m1 ++ m2) /\
    forall g, (forall p, In p (m1 ++ m2) -> look g 0 (fst p) < snd p) -> at_ h' t g = sumN d (fun i => at_ h t ((n, i) :: g)).
Proof.
  intros ((WF & NL & DG) & HL) ND. destruct (named_legs h t _ HL) as (ls & P & En & Ed). rewrite !map_app in En, Ed. cbn [map fst snd] in En, Ed. rewrite map_app in En. cbn [map] in En.
  apply map_eq_app in En. destruct En as (l1 & ls2 & -> & En1 & En2). destruct ls2 as [|l l2]; [discriminate|]. injection En2 as En En2.
  assert (L1 : List.length l1 = List.length m1) by (apply (f_equal (@List.length _)) in En1; now rewrite !map_length in En1).
  rewrite map_app in Ed. cbn [map] in Ed. assert (Ed' : map (dim_of h) l1 = map snd m1 /\ dim_of h l :: map (dim_of h) l2 = d :: map snd m2).
  { apply app_inj_tail_iff || idtac. assert (X : List.length (map (dim_of h) l1) = List.length (map snd m1)) by (now rewrite !map_length).
    split; [apply (f_equal (firstn (List.length (map snd m1)))) in Ed; rewrite <- X in Ed at 1; rewrite !firstn_app, !firstn_all, X, !Nat.sub_diag in Ed; cbn in Ed; now rewrite !app_nil_r in Ed|].
    apply (f_equal (skipn (List.length (map snd m1)))) in Ed. rewrite <- X in Ed at 1. rewrite !skipn_app, !skipn_all, X, !Nat.sub_diag in Ed. exact Ed. }
  destruct Ed' as (Ed1 & Ed2). injection Ed2 as Ed0 Ed2. clear Ed.
  assert (NDl : NoDup (l1 ++ l :: l2)) by (eapply Permutation_NoDup; [exact P|apply WF]).
  assert (Hl : In l (legs_of h t)) by (eapply Permutation_in; [symmetry; exact P|]; apply in_elt).
  assert (NDn : NoDup (names_of h t)).
  { unfold names_of. eapply Permutation_NoDup; [apply Permutation_map; symmetry; exact P|]. rewrite map_app. cbn [map]. rewrite En1, En, En2, <- (map_cons NStr), <- map_app. apply FinFun.Injective_map_NoDup; [intros x y; congruence|].
    rewrite map_app in ND. exact ND. }
  destruct (sumOutLeg_ok h t l None WF NL Hl I) as (h' & E & OT & WF' & EL' & DG' & NL' & EV).
  exists h'. unfold sumOutLegByLabel, bind, reads. rewrite (proj2 (getLeg_first_named h t (NStr n) l)) by (apply first_of_name; auto). split; [exact E|]. split; [exact OT|].
  assert (P' : Permutation (legs_of h' t) (l1 ++ l2)).
  { rewrite EL'. unfold others. etransitivity.
    - assert (X : forall L L' : list lid, Permutation L L' -> forall f, Permutation (filter f L) (filter f L')).
      { clear. induction 1; intros f; cbn; repeat match goal with |- context [f ?x] => destruct (f x) end; auto using perm_swap; eauto using Permutation_trans. }
      apply X. exact P.
    - apply Permutation_refl'. etransitivity; [apply filter_app|]. cbn [filter]. replace (negb (inb l [l])) with false by (cbn; destruct (dec l l); [reflexivity|congruence]).
      assert (Q : forall L, ~ In l L -> filter (fun l0 => negb (inb l0 [l])) L = L).
      { clear. induction L as [|x L IH]; cbn [filter In]; intros H; [reflexivity|]. replace (negb (inb x [l])) with true; [f_equal; apply IH; tauto|]. cbn. destruct (dec x l) as [->|]; [exfalso; auto|reflexivity]. }
      apply NoDup_remove_2 in NDl. apply (f_equal2 (@app lid)); apply Q; intros C; apply NDl; apply in_or_app; auto. }
  split.
  - split; [split; [exact WF'|split; congruence]|]. destruct OT as [OL _ _ _ _ _ _ _]. apply (legs_named h' t _ (l1 ++ l2)); [exact P'| |].
    + rewrite OL, !map_app. congruence.
    + unfold dim_of in *. rewrite OL, !map_app. congruence.
  - intros g Hg. unfold at_ at 1, at_names. destruct OT as [OL _ _ _ _ _ _ _]. rewrite OL. rewrite EV.
    + rewrite Ed0. apply sumN_ext. intros i Hi. cbn [weight]. rewrite mul_one_l || rewrite rmul_1_l. unfold at_, at_names. apply entry_same_idx; [reflexivity|reflexivity|].
      apply map_ext_in. intros x Hx. unfold upd. eapply Permutation_in in Hx; [|exact P]. destruct (Nat.eqb_spec x l) as [->|Nx].
      * rewrite En. cbn. destruct (dec n n); [reflexivity|congruence].
      * destruct (l_name (legs h x)) eqn:Ex; cbn; auto. match type of Ex with _ = NStr ?v => rename v into y end. destruct (dec y n) as [->|]; [|reflexivity]. exfalso.
        assert (Y : first_named h t (NStr n) l) by (apply first_of_name; auto). assert (Y' : first_named h t (NStr n) x) by (apply first_of_name; auto; eapply Permutation_in; [symmetry; exact P|exact Hx]).
        apply getLeg_first_named in Y, Y'. congruence.
    + intros x Hx. rewrite <- EL' in Hx. eapply Permutation_in in Hx; [|exact P'].
      assert (Z : exists p, In p (m1 ++ m2) /\ l_name (legs h x) = NStr (fst p) /\ dim_of h x = snd p).
      { assert (X : forall (l0 : list lid) (m0 : list (string * nat)), map (fun l => l_name (legs h l)) l0 = map NStr (map fst m0) -> map (dim_of h) l0 = map snd m0 -> In x l0 -> exists p, In p m0 /\ l_name (legs h x) = NStr (fst p) /\ dim_of h x = snd p).
        { clear. induction l0 as [|y l0 IH]; intros [|p m0] A1 A2 Hx; try discriminate; try (destruct Hx; fail); destruct Hx as [->|Hx].
          - injection A1 as A1 _. injection A2 as A2 _. exists p. split; [left; reflexivity|auto].
          - injection A1 as _ A1. injection A2 as _ A2. destruct (IH m0 A1 A2 Hx) as (p' & I' & R'). exists p'. split; [right; exact I'|exact R']. }
        apply (X (l1 ++ l2)); [rewrite !map_app; congruence|rewrite !map_app; congruence|exact Hx]. }
      destruct Z as (p & Hp & Ex & Dx). rewrite Ex, Dx. cbn [index_in]. apply Hg, Hp.
Qed.
End Tens.
