(** Proofs about contractTwoTensors with diagonal tensors, and outer products. *)
From Coq Require Import List Arith Bool Lia Permutation.
From Verif Require Import Base Sums NdModel HeapModel FuncsModel TensorModel TensorSpec ContractModel NetSpec
  FuncsProofs NdProofs TensorProofs LabelProofs MatrixProofs MergeProofs CtorProofs DiagCtorProofs
  ShareProofs SumpairsProofs ContractProofs.
Import ListNotations.
Local Open Scope nat_scope.

Section Dc.
Context {A : Type} {HA : SR A}.
Add Ring DcRing : (SR_theory (A := A)).
Notation heap := (heap A).

(** ** the diagonal tensor that takes over legs *)
Lemma mkDiag_legs (h : heap) L (a : arr A) labs n : NoDup L -> (forall l, In l L -> l < nleg h) -> L <> [] ->
  (forall l, In l L -> dim_of h l = n) -> wfa a -> ashape a = [n] ->
  match labs with Some ns => ns = map (fun x => l_name (legs h x)) L | None => True end ->
  exists h' tc, mkDiag (Some (DList (map (dim_of h) L))) labs (Some a) None (Some L) false h = (h', Ok tc) /\
    new_tensor h h' tc (Some L) /\ wf_tensor h' tc /\ owned h' tc /\ legs_of h' tc = L /\
    t_diag (tens h' tc) = true /\ t_like (tens h' tc) = false /\ t_len (tens h' tc) = n /\ t_arr (tens h' tc) = Some a.
Proof.
  intros HN HL NE Hd Wa Sa Hlab.
  assert (AW : args_wf h (Some a) (Some L)) by (constructor; auto).
  pose proof (mkDiag_spec h (Some (DList (map (dim_of h) L))) labs (Some a) None (Some L) false AW) as M.
  assert (exists h' tc, mkDiag (Some (DList (map (dim_of h) L))) labs (Some a) None (Some L) false h = (h', Ok tc)) as (h' & tc & E).
  { unfold mkDiag. unfold bind at 1.
    unfold bind at 1, reads at 1.
    assert (all_eqb (map (dim_of h) L) = true) as EA.
    { apply all_eqb_spec. intros x y Hx Hy. apply in_map_iff in Hx. apply in_map_iff in Hy.
      destruct Hx as (l & <- & Hl), Hy as (l' & <- & Hl'). rewrite !Hd; auto. }
    unfold checkLegsDiagonalCompatible. change (legdim h) with (dim_of h). rewrite EA. unfold check at 1. unfold bind at 1, ret at 1.
    unfold bind at 1, reads at 1.
    assert (checkLegsLabelsCompatible h L labs = true) as ->.
    { unfold checkLegsLabelsCompatible. destruct labs as [ns|]; auto. subst. destruct (dec _ _) as [|nn]; auto; exfalso; now apply nn. }
    unfold check at 1. unfold bind at 1, ret at 1. unfold bind at 1, reads at 1.
    unfold checkLegsShapeCompatibleD. change (legdim h) with (dim_of h). destruct (dec (map (dim_of h) L) (map (dim_of h) L)); [|congruence].
    unfold check at 1. unfold bind at 1, ret at 1. unfold bind at 1, reads at 1.
    destruct L as [|l0 L0]; [congruence|]. change (legdim h) with (dim_of h). cbn [map]. 
    assert (checkShapeDataCompatibleD (dim_of h l0 :: map (dim_of h) L0) (Some a) = true) as ->.
    { unfold checkShapeDataCompatibleD. rewrite Sa. rewrite (Hd l0) by (simpl; auto). now rewrite Nat.eqb_refl. }
    unfold check at 1. unfold bind at 1, ret at 1. unfold bind at 1, reads at 1. unfold ret at 1.
    unfold bind at 1, liftR at 1. unfold generateDataD, ndim. rewrite Sa. cbn [List.length Nat.eqb].
    unfold bind at 1, reads at 1. unfold bind at 1.
    destruct (adopt_ok (ntens h) (l0 :: L0) h) as (h3 & E3 & _).
    unfold bind at 1. rewrite E3. unfold ret at 1. eexists. eexists. reflexivity. }
  rewrite E in M. exists h', tc. split; auto.
  destruct M as (NT & O & ND & Hdim & D & K & N & EL & _ & Esh & _ & Hs). specialize (EL L eq_refl).
  assert (Elen : t_len (tens h' tc) = n).
  { destruct L as [|l0 L0]; [congruence|]. rewrite <- (Hdim l0) by (rewrite EL; simpl; auto).
    unfold dim_of. destruct NT as [_ _ _ _ _ _ _ [n1 _]]. rewrite n1 by (simpl; auto). simpl. apply Hd. simpl; auto. }
  assert (diag_data_sane h' tc (Some a) false) as Sane.
  { left. rewrite EL, Elen. auto. }
  destruct (Hs Sane) as [W Ha]. destruct (Ha eq_refl) as (a' & Ea' & H). rewrite Sa in H. subst a'.
  repeat (split; [now auto|]). auto.
Qed.
Lemma mkDiag_legs_like (h : heap) L labs n : NoDup L -> (forall l, In l L -> l < nleg h) -> 
  (forall l, In l L -> dim_of h l = n) -> 
  match labs with Some ns => ns = map (fun x => l_name (legs h x)) L | None => True end ->
  exists h' tc, mkDiag (Some (DList (map (dim_of h) L))) labs None None (Some L) true h = (h', Ok tc) /\
    new_tensor h h' tc (Some L) /\ wf_tensor h' tc /\ owned h' tc /\ legs_of h' tc = L /\
    t_diag (tens h' tc) = true /\ t_like (tens h' tc) = true /\ (L <> [] -> t_len (tens h' tc) = n).
Proof.
  intros HN HL Hd Hlab.
  assert (AW : args_wf h (@None (arr A)) (Some L)) by (constructor; simpl; auto).
  pose proof (mkDiag_spec h (Some (DList (map (dim_of h) L))) labs None None (Some L) true AW) as M.
  assert (exists h' tc, mkDiag (Some (DList (map (dim_of h) L))) labs None None (Some L) true h = (h', Ok tc)) as (h' & tc & E).
  { unfold mkDiag. unfold bind at 1.
    unfold bind at 1, reads at 1.
    assert (all_eqb (map (dim_of h) L) = true) as EA.
    { apply all_eqb_spec. intros x y Hx Hy. apply in_map_iff in Hx. apply in_map_iff in Hy.
      destruct Hx as (l & <- & Hl), Hy as (l' & <- & Hl'). rewrite !Hd; auto. }
    unfold checkLegsDiagonalCompatible. change (legdim h) with (dim_of h). rewrite EA. unfold check at 1. unfold bind at 1, ret at 1.
    unfold bind at 1, reads at 1.
    assert (checkLegsLabelsCompatible h L labs = true) as ->.
    { unfold checkLegsLabelsCompatible. destruct labs as [ns|]; auto. subst. destruct (dec _ _) as [|nn]; auto; exfalso; now apply nn. }
    unfold check at 1. unfold bind at 1, ret at 1. unfold bind at 1, reads at 1.
    unfold checkLegsShapeCompatibleD. change (legdim h) with (dim_of h). destruct (dec (map (dim_of h) L) (map (dim_of h) L)); [|congruence].
    unfold check at 1. unfold bind at 1, ret at 1. unfold bind at 1, reads at 1.
    unfold checkShapeDataCompatibleD.
    unfold check at 1. unfold bind at 1, ret at 1. unfold bind at 1, reads at 1. unfold ret at 1.
    unfold bind at 1, liftR at 1. unfold generateDataD. 
    unfold bind at 1, reads at 1. unfold bind at 1.
    destruct (adopt_ok (ntens h) L h) as (h3 & E3 & _).
    unfold bind at 1. rewrite E3. unfold ret at 1. eexists. eexists. reflexivity. }
  rewrite E in M. exists h', tc. split; auto.
  destruct M as (NT & O & ND & Hdim & D & K & N & EL & _ & Esh & _ & Hs). specialize (EL L eq_refl).
  destruct (Hs I) as [W _].
  repeat (split; [now auto|]).
  intros NE. destruct L as [|l0 L0]; [congruence|]. rewrite <- (Hdim l0) by (rewrite EL; simpl; auto).
  unfold dim_of. destruct NT as [_ _ _ _ _ _ _ [n1 _]]. rewrite n1 by (simpl; auto). simpl. apply Hd. simpl; auto.
Qed.

(** ** entries of diagonal tensors *)
Lemma entry_diag (h : heap) t a l0 s : t_diag (tens h t) = true -> t_arr (tens h t) = Some a -> In l0 (legs_of h t) ->
  entry h t s = if all_eqb (map s (legs_of h t)) then aget a [s l0] else r0.
Proof.
  intros D E Hi. unfold entry, entry_of. rewrite E, D. fold (legs_of h t). destruct (legs_of h t) as [|l ls]; [contradiction|].
  rewrite <- all_eqb_map. destruct (all_eqb (map s (l :: ls))) eqn:EA; auto.
  rewrite all_eqb_spec in EA. f_equal. f_equal. apply EA; apply in_map; simpl; auto.
Qed.
Lemma entry_diag_all (h : heap) t a s j : t_diag (tens h t) = true -> t_arr (tens h t) = Some a -> legs_of h t <> [] ->
  (forall l, In l (legs_of h t) -> s l = j) -> entry h t s = aget a [j].
Proof.
  intros D E NE Hj. destruct (legs_of h t) as [|l0 ls] eqn:EL; [congruence|].
  rewrite (entry_diag h t a l0 s D E) by (rewrite EL; simpl; auto). rewrite EL.
  rewrite (Hj l0) by (simpl; auto).
  assert (all_eqb (map s (l0 :: ls)) = true) as ->; auto.
  apply all_eqb_spec. intros x y Hx Hy. apply in_map_iff in Hx. apply in_map_iff in Hy.
  destruct Hx as (l & <- & Hl), Hy as (l' & <- & Hl'). rewrite !Hj; auto.
Qed.
Lemma entry_diag_ne (h : heap) t a s l l' : t_diag (tens h t) = true -> t_arr (tens h t) = Some a -> In l (legs_of h t) ->
  In l' (legs_of h t) -> s l <> s l' -> entry h t s = r0.
Proof.
  intros D E H1 H2 N. rewrite (entry_diag h t a l s D E) by auto.
  destruct (all_eqb (map s (legs_of h t))) eqn:EA; auto. exfalso. rewrite all_eqb_spec in EA. apply N.
  apply EA; apply in_map; auto.
Qed.
Lemma forallb_false {X} (f : X -> bool) l : forallb f l = false -> exists x, In x l /\ f x = false.
Proof.
  induction l as [|x l IH]; simpl; [discriminate|]. destruct (f x) eqn:E; simpl; eauto.
  intros H. destruct (IH H) as (y & Hy & Ey). eauto.
Qed.

Lemma repeat_map_const {X Y} (f : X -> Y) c l : (forall x, In x l -> f x = c) -> map f l = repeat c (List.length l).
Proof. induction l as [|x l IH]; simpl; intros H; auto. rewrite H by auto. f_equal. auto. Qed.

(** the assignment that gives index j to all contracted legs *)
Definition allj (h : heap) ta tb (s : assignment) (j : nat) : assignment :=
  assign (shared h ta tb) (repeat j (List.length (shared h ta tb))) s.
Lemma allj_fst (h : heap) ta tb s j l : wf_pair h ta tb -> In l (map fst (shared h ta tb)) -> allj h ta tb s j l = j.
Proof.
  intros W Hl. destruct (assign_fst (shared h ta tb) (repeat j (List.length (shared h ta tb))) s (shared_NoDup _ _ _ W)) as [E _].
  { now rewrite repeat_length. }
  assert (In (allj h ta tb s j l) (map (allj h ta tb s j) (map fst (shared h ta tb)))) as Hi by (apply in_map; auto).
  unfold allj in *. rewrite E in Hi. now apply repeat_spec in Hi.
Qed.
Lemma allj_snd (h : heap) ta tb s j l : wf_pair h ta tb -> In l (map snd (shared h ta tb)) -> allj h ta tb s j l = j.
Proof.
  intros W Hl. destruct (assign_fst (shared h ta tb) (repeat j (List.length (shared h ta tb))) s (shared_NoDup _ _ _ W)) as [_ E].
  { now rewrite repeat_length. }
  assert (In (allj h ta tb s j l) (map (allj h ta tb s j) (map snd (shared h ta tb)))) as Hi by (apply in_map; auto).
  unfold allj in *. rewrite E in Hi. now apply repeat_spec in Hi.
Qed.
Lemma allj_rest (h : heap) ta tb s j l : wf_pair h ta tb -> In l (restA h ta tb) \/ In l (restB h ta tb) -> allj h ta tb s j l = s l.
Proof.
  intros W Hl. destruct (assign_rest h ta tb (repeat j (List.length (shared h ta tb))) s W) as [E1 E2].
  unfold allj. destruct Hl as [Hl|Hl]; [eapply map_ext_in_iff in E1|eapply map_ext_in_iff in E2]; eauto.
Qed.
Lemma legs_rest_shared (h : heap) ta tb l : In l (legs_of h ta) -> In l (restA h ta tb) \/ In l (map fst (shared h ta tb)).
Proof.
  intros Hl. unfold restA. rewrite others_In. destruct (in_dec Nat.eq_dec l (map fst (shared h ta tb))); auto.
Qed.
Lemma legs_rest_sharedB (h : heap) ta tb l : In l (legs_of h tb) -> In l (restB h ta tb) \/ In l (map snd (shared h ta tb)).
Proof.
  intros Hl. unfold restB. rewrite others_In. destruct (in_dec Nat.eq_dec l (map snd (shared h ta tb))); auto.
Qed.

Lemma diag_sum (h : heap) ta tb a (g : assignment -> A) s : wf_pair h ta tb -> t_diag (tens h ta) = true -> 
  t_arr (tens h ta) = Some a -> shared h ta tb <> [] ->
  sumpairs (dim_of h) (shared h ta tb) (fun s => rmul (entry h ta s) (g s)) s =
  sumN (t_len (tens h ta)) (fun j => if forallb (fun l => Nat.eqb (s l) j) (restA h ta tb)
     then rmul (aget a [j]) (g (allj h ta tb s j)) else r0).
Proof.
  intros W D E NE. rewrite sumpairs_indices.
  set (n := t_len (tens h ta)). set (P := shared h ta tb) in *.
  assert (Ed : map (fun p => dim_of h (fst p)) P = repeat n (List.length P)).
  { apply repeat_map_const. intros p Hp. destruct (wt_diag _ _ (wp_a _ _ _ W) D) as [_ H].
    apply H. apply (shared_fst h ta tb). apply in_map; auto. }
  rewrite Ed. destruct P as [|p0 P0] eqn:EP; [congruence|]. cbn [List.length].
  assert (EP' : shared h ta tb = p0 :: P0) by exact EP.
  assert (Hp0 : In (fst p0) (map fst (shared h ta tb))) by (rewrite EP'; simpl; auto).
  assert (Hl0 : In (fst p0) (legs_of h ta)) by (apply (shared_fst h ta tb); auto).
  rewrite sum_diag.
  - apply sumN_ext. intros j Hj.
    change (S (List.length P0)) with (List.length (p0 :: P0)). rewrite <- EP'. fold (allj h ta tb s j).
    destruct (forallb (fun l => Nat.eqb (s l) j) (restA h ta tb)) eqn:F.
    + f_equal. apply entry_diag_all; auto.
      { intros C. rewrite C in Hl0. contradiction. }
      intros l Hl. destruct (legs_rest_shared h ta tb l Hl) as [Hr|Hr].
      * rewrite allj_rest by auto. rewrite forallb_forall in F. specialize (F l Hr). now apply Nat.eqb_eq.
      * now apply allj_fst.
    + apply forallb_false in F. destruct F as (l & Hl & F). apply Nat.eqb_neq in F.
      rewrite (entry_diag_ne h ta a _ l (fst p0)); auto; [ring| |].
      * apply others_In in Hl. tauto.
      * rewrite allj_rest by auto. rewrite allj_fst by auto. auto.
  - intros idx Hi F.
    rewrite (entry_diag h ta a (fst p0) _ D E) by auto.
    destruct (all_eqb (map (assign (p0 :: P0) idx s) (legs_of h ta))) eqn:EA; [|ring].
    exfalso. assert (all_eqb idx = true); [|congruence].
    destruct (assign_fst (p0 :: P0) idx s) as [E1 _].
    { rewrite <- EP'. apply shared_NoDup; auto. }
    { apply inrange_length in Hi. now rewrite repeat_length in Hi. }
    rewrite <- E1. rewrite all_eqb_spec in EA |- *. intros x y Hx Hy. apply EA.
    + apply in_map_iff in Hx. destruct Hx as (l & <- & Hl). apply in_map. apply (shared_fst h ta tb). now rewrite EP'.
    + apply in_map_iff in Hy. destruct Hy as (l & <- & Hl). apply in_map. apply (shared_fst h ta tb). now rewrite EP'.
Qed.

Lemma wt_arr_diag (h : heap) t : wf_tensor h t -> t_like (tens h t) = false -> t_diag (tens h t) = true -> legs_of h t <> [] ->
  exists a, t_arr (tens h t) = Some a /\ wfa a /\ ashape a = [t_len (tens h t)].
Proof. apply wf_arr_diag. Qed.

(** what contractBonds computes first *)
Lemma complements (h h1 : heap) ta tb : wf_pair h ta tb -> only_bonds h h1 ->
  complementLegs h1 ta (map fst (shared h ta tb)) = Ok (restA h ta tb) /\
  complementLegs h1 tb (map snd (shared h ta tb)) = Ok (restB h ta tb).
Proof.
  intros W O. pose proof (wf_pair_ob _ _ _ _ O W) as W1. assert (ET : tens h1 = tens h) by apply O.
  unfold complementLegs. split.
  - change (tlegs h1 ta) with (legs_of h1 ta).
    rewrite listDifference_NoDup; [unfold restA, legs_of; now rewrite ET|apply wt_nodup, W1|apply shared_fst_NoDup; auto|].
    unfold legs_of. rewrite ET. apply shared_fst.
  - change (tlegs h1 tb) with (legs_of h1 tb).
    rewrite listDifference_NoDup; [unfold restB, legs_of; now rewrite ET|apply wt_nodup, W1|apply shared_snd_NoDup; auto|].
    unfold legs_of. rewrite ET. apply shared_snd.
Qed.
Lemma shared_ne_legs (h : heap) ta tb : shared h ta tb <> [] -> legs_of h ta <> [] /\ legs_of h tb <> [].
Proof.
  intros NE. destruct (shared h ta tb) as [|p P] eqn:E; [congruence|]. split; intros C.
  - pose proof (shared_fst h ta tb (fst p)) as H. rewrite E, C in H. apply H. simpl; auto.
  - pose proof (shared_snd h ta tb (snd p)) as H. rewrite E, C in H. apply H. simpl; auto.
Qed.
Lemma diag_dim (h : heap) t l : wf_tensor h t -> t_diag (tens h t) = true -> In l (legs_of h t) -> dim_of h l = t_len (tens h t).
Proof. intros W D Hl. now apply (proj2 (wt_diag _ _ W D)). Qed.
Lemma diag_len_eq (h : heap) ta tb : wf_pair h ta tb -> t_diag (tens h ta) = true -> t_diag (tens h tb) = true ->
  shared h ta tb <> [] -> t_len (tens h tb) = t_len (tens h ta).
Proof.
  intros W Da Db NE. destruct (shared h ta tb) as [|p P] eqn:E; [congruence|].
  rewrite <- (diag_dim h ta (fst p)), <- (diag_dim h tb (snd p)); auto; try apply W.
  - symmetry. apply (shared_dim h ta tb); auto. rewrite E. simpl; auto.
  - apply (shared_snd h ta tb). rewrite E. simpl; auto.
  - apply (shared_fst h ta tb). rewrite E. simpl; auto.
Qed.

(** ** diagonal times diagonal *)
Lemma forallb_app_eq (s : assignment) j l1 l2 : forallb (fun l => Nat.eqb (s l) j) (l1 ++ l2) =
  forallb (fun l => Nat.eqb (s l) j) l1 && forallb (fun l => Nat.eqb (s l) j) l2.
Proof. apply forallb_app. Qed.

Lemma wf_pair_sym (h : heap) ta tb : wf_pair h ta tb -> wf_pair h tb ta.
Proof.
  intros [a b c d e]. constructor; auto.
  - eapply Permutation_NoDup; [apply Permutation_app_comm|auto].
  - intros l bb Hl Hb. destruct (e l bb) as (l' & H1 & H2); auto.
    { apply in_app_iff in Hl. apply in_app_iff. tauto. }
    exists l'. split; auto. intros Hi. apply H2. apply in_app_iff in Hi. apply in_app_iff. tauto.
Qed.
Lemma shared_same (h : heap) ta tb : wf_pair h ta tb -> same_pairs (shared h ta tb) (shared h tb ta).
Proof.
  intros W x y H. right. unfold shared in *. rewrite pairs_In in *. destruct H as (H1 & H2 & H3). repeat split; auto.
  apply (links_sym h (legs_of h ta ++ legs_of h tb) x y); auto; try apply W; apply in_app_iff; auto.
Qed.
Lemma einsum_sym (h : heap) ta tb s : wf_pair h ta tb -> einsum h tb ta s = einsum h ta tb s.
Proof.
  intros W. unfold einsum. pose proof (wf_pair_sym _ _ _ W) as W'.
  rewrite (sumpairs_ext _ _ _ (fun s => rmul (entry h ta s) (entry h tb s))) by (intros; ring).
  apply sumpairs_same; auto using shared_NoDup, shared_same.
  - intros s1 s2 E. f_equal; apply entry_ext; auto.
  - intros x y Hxy. apply (shared_dim h tb ta (x, y)); auto.
Qed.
Lemma rest_sym (h : heap) ta tb : wf_pair h ta tb -> restA h tb ta = restB h ta tb /\ restB h tb ta = restA h ta tb.
Proof.
  intros W. pose proof (wf_pair_sym _ _ _ W) as W'. pose proof (shared_same _ _ _ W) as S1. pose proof (shared_same _ _ _ W') as S2.
  assert (forall t L L', (forall l, In l (legs_of h t) -> In l L <-> In l L') -> others (legs_of h t) L = others (legs_of h t) L') as G.
  { intros t L L' H. unfold others. apply filter_ext_in. intros l Hl. f_equal. 
    destruct (inb l L) eqn:E1, (inb l L') eqn:E2; auto.
    - apply inb_true in E1. apply H in E1; auto. apply inb_true in E1. congruence.
    - apply inb_true in E2. apply H in E2; auto. apply inb_true in E2. congruence. }
  assert (Hd : forall l, In l (legs_of h ta) -> In l (legs_of h tb) -> False) by (intros l H1 H2; exact (wp_disj _ _ _ l W H1 H2)).
  unfold restA, restB. split; apply G; intros l Hl; split; intros H; apply in_map_iff in H; destruct H as ([x y] & E & H); simpl in E; subst.
  - destruct (S2 _ _ H) as [C|C]; [|now apply (in_map snd) in C].
    exfalso. apply (Hd l); auto. apply (shared_fst h ta tb). now apply (in_map fst) in C.
  - destruct (S1 _ _ H) as [C|C]; [|now apply (in_map fst) in C].
    exfalso. apply (Hd l); auto. apply (shared_snd h tb ta). now apply (in_map snd) in C.
  - destruct (S2 _ _ H) as [C|C]; [|now apply (in_map fst) in C].
    exfalso. apply (Hd l); auto. apply (shared_snd h ta tb). now apply (in_map snd) in C.
  - destruct (S1 _ _ H) as [C|C]; [|now apply (in_map snd) in C].
    exfalso. apply (Hd l); auto. apply (shared_fst h tb ta). now apply (in_map fst) in C.
Qed.
Lemma contracted_sym (h h' : heap) ta tb tc L : contracted h h' ta tb tc L -> contracted h h' tb ta tc L.
Proof. intros []. constructor; auto. Qed.

Lemma mul_small_1 (a b : arr A) n : ashape a = [n] -> ashape b = [n] ->
  exists d, np_mul_small a b = Ok d /\ wfa d /\ ashape d = [n] /\ forall j, j < n -> aget d [j] = rmul (aget a [j]) (aget b [j]).
Proof.
  intros Ea Eb. unfold np_mul_small. rewrite Ea, Eb, Nat.eqb_refl. eexists. split; [reflexivity|]. split; [apply tab_wfa|].
  split; [reflexivity|]. intros j Hj. apply (aget_tab [n] (fun idx => rmul (aget a idx) (aget b idx)) [j]). repeat constructor; auto.
Qed.

Lemma all_eqb_forallb (s : assignment) L j : L <> [] -> 
  forallb (fun l => Nat.eqb (s l) j) L = true <-> (all_eqb (map s L) = true /\ exists l, In l L /\ s l = j).
Proof.
  intros NE. rewrite forallb_forall, all_eqb_spec. split.
  - intros H. split.
    + intros x y Hx Hy. apply in_map_iff in Hx. apply in_map_iff in Hy. destruct Hx as (l & <- & Hl), Hy as (l' & <- & Hl').
      apply H in Hl. apply H in Hl'. apply Nat.eqb_eq in Hl. apply Nat.eqb_eq in Hl'. congruence.
    + destruct L as [|l L]; [congruence|]. exists l. split; [simpl; auto|]. apply Nat.eqb_eq. apply H. simpl; auto.
  - intros [H (l & Hl & <-)] x Hx. apply Nat.eqb_eq. apply H; apply in_map; auto.
Qed.
(** picking the diagonal index out of a sum *)
Lemma sum_all_eq (s : assignment) L n (f : nat -> A) l0 : In l0 L -> s l0 < n ->
  sumN n (fun j => if forallb (fun l => Nat.eqb (s l) j) L then f j else r0) =
  if all_eqb (map s L) then f (s l0) else r0.
Proof.
  intros Hl Hn. assert (NE : L <> []) by (intros ->; contradiction).
  destruct (all_eqb (map s L)) eqn:E.
  - rewrite sumN_single with (k := s l0); auto.
    + assert (forallb (fun l => Nat.eqb (s l) (s l0)) L = true) as ->; auto. apply all_eqb_forallb; eauto.
    + intros i Hi N. destruct (forallb (fun l => Nat.eqb (s l) i) L) eqn:F; auto.
      rewrite forallb_forall in F. specialize (F l0 Hl). apply Nat.eqb_eq in F. congruence.
  - apply sumL_zero. intros j _. destruct (forallb (fun l => Nat.eqb (s l) j) L) eqn:F; auto.
    apply all_eqb_forallb in F; auto. destruct F. congruence.
Qed.

Lemma einsum_diag2 (h : heap) ta tb a b s : wf_pair h ta tb -> 
  t_diag (tens h ta) = true -> t_diag (tens h tb) = true -> t_arr (tens h ta) = Some a -> t_arr (tens h tb) = Some b -> 
  shared h ta tb <> [] ->
  einsum h ta tb s = sumN (t_len (tens h ta)) (fun j => if forallb (fun l => Nat.eqb (s l) j) (restA h ta tb ++ restB h ta tb)
     then rmul (aget a [j]) (aget b [j]) else r0).
Proof.
  intros W Da Db Ea Eb NE. unfold einsum. rewrite (diag_sum h ta tb a) by auto.
  apply sumN_ext. intros j Hj. rewrite forallb_app_eq.
  destruct (forallb (fun l => Nat.eqb (s l) j) (restA h ta tb)) eqn:F1; simpl; auto.
  destruct (shared h ta tb) as [|p P] eqn:EP; [congruence|].
  assert (Hp : In (snd p) (map snd (shared h ta tb))) by (rewrite EP; simpl; auto).
  assert (Hp' : In (snd p) (legs_of h tb)) by now apply (shared_snd h ta tb).
  destruct (forallb (fun l => Nat.eqb (s l) j) (restB h ta tb)) eqn:F2.
  - f_equal. apply entry_diag_all; auto; [intros C; rewrite C in Hp'; contradiction|].
    intros l Hl. destruct (legs_rest_sharedB h ta tb l Hl) as [Hr|Hr].
    + rewrite allj_rest by auto. rewrite forallb_forall in F2. specialize (F2 l Hr). now apply Nat.eqb_eq.
    + now apply allj_snd.
  - apply forallb_false in F2. destruct F2 as (l & Hl & F). apply Nat.eqb_neq in F.
    rewrite (entry_diag_ne h tb b _ l (snd p)); auto; [ring| |].
    + apply others_In in Hl. tauto.
    + rewrite allj_rest by auto. rewrite allj_snd by auto. auto.
Qed.

Lemma contracted_intro0 (h h1 h' : heap) ta tb tc : wf_pair h ta tb -> only_bonds h h1 ->
  new_tensor h1 h' tc None -> wf_tensor h' tc -> owned h' tc -> legs_of h' tc = [] -> 
  contracted h h' ta tb tc [].
Proof.
  intros [wa wb ne nd lk] O NT W Ow EL.
  pose proof (wf_ob _ _ _ O wa) as wa1. pose proof (wf_ob _ _ _ O wb) as wb1.
  pose proof (wf_new0 _ _ _ _ NT wa1) as wa2. pose proof (wf_new0 _ _ _ _ NT wb1) as wb2.
  destruct O as [o1 o2 o3 o4 o5 o6 o7 o8]. destruct NT as [a1 a2 a3 a4 a5 a6 a7 (a8 & a9 & a10)].
  rewrite EL in a7. simpl in a7.
  assert (T : forall t, t < ntens h -> tens h' t = tens h t).
  { intros t Ht. rewrite a5 by congruence. congruence. }
  constructor; auto; try congruence.
  - lia.
  - apply bonds_kept_trans with h1; auto. apply bonds_kept_eq. congruence.
  - intros l [].
  - intros l Hl _. rewrite a8 by congruence. congruence.
  - apply reordered_refl; auto. apply T. apply wa.
  - apply reordered_refl; auto. apply T. apply wb.
Qed.

Lemma np_sum_spec (a : arr A) n : wfa a -> ashape a = [n] -> np_sum a = sumN n (fun j => aget a [j]).
Proof.
  intros W S. unfold np_sum, sumN. unfold wfa in W. rewrite S in W. cbn [prodn fold_right] in W. rewrite Nat.mul_1_r in W.
  rewrite <- (sumL_map (fun j => aget a [j]) (seq 0 n) (fun x => x)). f_equal.
  apply nth_ext with (d := r0) (d' := r0).
  - now rewrite map_length, seq_length.
  - intros k Hk. rewrite (nth_indep (map (fun j => aget a [j]) (seq 0 n)) r0 (aget a [0])) by (rewrite map_length, seq_length; lia).
    rewrite (map_nth (fun j => aget a [j])). rewrite seq_nth by lia. unfold aget. rewrite S. cbn [ravel prodn fold_right].
    f_equal. lia.
Qed.

Lemma contractBonds_diag2 (h h1 : heap) ta tb bs : wf_pair h ta tb -> only_bonds h h1 ->
  t_like (tens h ta) = false -> t_like (tens h tb) = false -> t_diag (tens h ta) = true -> t_diag (tens h tb) = true ->
  map (fun b => b0 (bonds h1 b)) bs = map fst (shared h ta tb) ->
  map (fun b => b1 (bonds h1 b)) bs = map snd (shared h ta tb) -> shared h ta tb <> [] ->
  exists h' tc, contractBonds ta tb false bs h1 = (h', Ok tc) /\
    contracted h h' ta tb tc (restA h ta tb ++ restB h ta tb) /\ 
    t_diag (tens h' tc) = true /\ t_like (tens h' tc) = false /\
    forall s, in_bounds h (restA h ta tb ++ restB h ta tb) s -> entry h' tc s = einsum h ta tb s.
Proof.
  intros W O La Lb Da Db E0 E1 NE.
  pose proof (wf_pair_ob _ _ _ _ O W) as W1. assert (ET : tens h1 = tens h) by apply O.
  destruct (complements h h1 ta tb W O) as [F1 F2]. destruct (shared_ne_legs h ta tb NE) as [NA NB].
  destruct (wf_arr_diag h ta (wp_a _ _ _ W) La Da NA) as (a & Ea & Wa & Sa).
  destruct (wf_arr_diag h tb (wp_b _ _ _ W) Lb Db NB) as (b & Eb & Wb & Sb).
  rewrite (diag_len_eq h ta tb W Da Db NE) in Sb.
  destruct (mul_small_1 a b _ Sa Sb) as (d & Ed & Wd & Sd & Gd).
  unfold contractBonds. unfold bind at 1, reads at 1. unfold bind at 1, reads at 1. rewrite E0, E1.
  unfold bind at 1, readsR at 1. rewrite F1. unfold bind at 1, readsR at 1. rewrite F2.
  unfold bind at 1, reads at 1. unfold bind at 1, reads at 1. unfold bind at 1, reads at 1. rewrite ET, Da, Db. cbn [andb].
  unfold bind at 1. unfold getArr at 1. unfold bind at 1, reads at 1. rewrite ET, Ea. unfold ret at 1.
  unfold bind at 1. unfold getArr at 1. unfold bind at 1, reads at 1. rewrite ET, Eb. unfold ret at 1.
  unfold bind at 1, liftR at 1. rewrite Ed.
  destruct (rest_alloc h ta tb W) as [RN RL].
  assert (Edim : forall l, dim_of h1 l = dim_of h l) by (intros; unfold dim_of; now rewrite (ob_legs _ _ O)).
  set (L := restA h ta tb ++ restB h ta tb) in *.
  assert (HdL : forall l, In l L -> dim_of h l = t_len (tens h ta)).
  { intros l Hl. apply in_app_iff in Hl. destruct Hl as [Hl|Hl]; apply others_In in Hl; destruct Hl as [Hl _].
    - apply diag_dim; auto. apply W.
    - rewrite <- (diag_len_eq h ta tb); auto. apply diag_dim; auto. apply W. }
  destruct (Nat.eqb_spec (List.length L) 0) as [EL|NL].
  - assert (EL0 : L = []) by (destruct L; [auto|discriminate]).
    assert (AW : args_wf h1 (Some (np_scalar (np_sum d))) None) by (constructor; simpl; auto; reflexivity).
    pose proof (mkDiag_spec h1 None None (Some (np_scalar (np_sum d))) None None false AW) as M.
    cbn [mkDiag is_scalar_shape is_scalar_data ashape np_scalar orb] in *.
    unfold mkDiag in *. cbn [is_scalar_shape is_scalar_data ashape np_scalar orb] in *. unfold allocs at 1 in M. unfold allocs at 1.
    unfold alloc_tens in *.
    match goal with |- exists h' tc, (?hh, _) = _ /\ _ => set (h' := hh) in * end.
    destruct M as (NT & Ow & ND & Hdim & D & K & N & _ & _ & _ & _ & Hs).
    assert (ELc : legs_of h' (ntens h1) = []) by (unfold h', legs_of; simpl; now rewrite upd_same).
    destruct Hs as [Wc Hc].
    { right. rewrite ELc. split; auto. }
    exists h', (ntens h1). split; [reflexivity|]. rewrite EL0. split; [|split; [auto|split; [auto|]]].
    + eapply contracted_intro0; eauto.
    + intros s _. rewrite (einsum_diag2 h ta tb a b); auto. fold L. rewrite EL0. cbn [forallb].
      destruct (Hc eq_refl) as (a' & Ea' & ->). unfold entry, entry_of. rewrite Ea', D. fold (legs_of h' (ntens h1)). rewrite ELc.
      unfold aget, np_scalar. cbn [ravel ashape adata nth]. rewrite (np_sum_spec d _ Wd Sd). apply sumN_ext. auto.
  - assert (NL' : L <> []) by (intros C; rewrite C in NL; auto).
    change (map (legdim h1) L) with (map (dim_of h1) L).
    destruct (mkDiag_legs h1 L d None (t_len (tens h ta))) as (h' & tc & Ec & NT & Wc & Oc & Lc & Dc & Kc & Tc & Ac); auto.
    { intros l Hl. rewrite (ob_nleg _ _ O). auto. }
    { intros l Hl. rewrite Edim. auto. }
    rewrite Ec. exists h', tc. split; auto. split; [|split; [auto|split; [auto|]]].
    + eapply contracted_intro; eauto using only_tensor_refl. apply reordered_refl; [apply W1|auto].
    + intros s Hs. rewrite (einsum_diag2 h ta tb a b); auto. fold L.
      destruct L as [|l0 L0]; [congruence|].
      rewrite (sum_all_eq s (l0 :: L0) _ _ l0); [|simpl; auto|rewrite <- (HdL l0) by (simpl; auto); apply Hs; simpl; auto].
      rewrite (entry_diag h' tc d l0 s) by (auto; rewrite Lc; simpl; auto). rewrite Lc.
      destruct (all_eqb (map s (l0 :: L0))); auto. apply Gd. rewrite <- (HdL l0) by (simpl; auto). apply Hs; simpl; auto.
Qed.
End Dc.
