(** Proofs about outer products and contractTwoTensors as a whole. *)
From Coq Require Import List Arith Bool Lia Permutation.
From Verif Require Import Base Sums NdModel HeapModel FuncsModel TensorModel TensorSpec ContractModel NetSpec
  FuncsProofs NdProofs TensorProofs LabelProofs MatrixProofs MergeProofs CtorProofs DiagCtorProofs
  ShareProofs SumpairsProofs ContractProofs DiagContractProofs OneDiagProofs.
Import ListNotations.
Local Open Scope nat_scope.

Section Ou.
Context {A : Type} {HA : SR A}.
Add Ring OuRing : (SR_theory (A := A)).
Notation heap := (heap A).

Lemma shape_ob (h h1 : heap) t : only_bonds h h1 -> wf_tensor h t -> shape h1 t = map (dim_of h) (legs_of h t).
Proof.
  intros O W. rewrite wf_shape by (eapply wf_ob; eauto). unfold dims_of, legs_of, dim_of.
  now rewrite (ob_tens _ _ O), (ob_legs _ _ O).
Qed.
Lemma labels_ob (h h1 : heap) t : only_bonds h h1 -> labels h1 t = map (fun l => l_name (legs h l)) (legs_of h t).
Proof. intros O. unfold labels, legname, tlegs, legs_of. now rewrite (ob_tens _ _ O), (ob_legs _ _ O). Qed.
Lemma both_alloc (h h1 : heap) ta tb : wf_pair h ta tb -> only_bonds h h1 ->
  forall l, In l (legs_of h ta ++ legs_of h tb) -> l < nleg h1.
Proof.
  intros W O l Hl. rewrite (ob_nleg _ _ O). apply in_app_iff in Hl. destruct Hl as [Hl|Hl].
  - exact (wt_alloc _ _ (wp_a _ _ _ W) l Hl).
  - exact (wt_alloc _ _ (wp_b _ _ _ W) l Hl).
Qed.

Lemma outer_dense (h h1 : heap) ta tb : wf_pair h ta tb -> only_bonds h h1 ->
  t_like (tens h ta) = false -> t_like (tens h tb) = false -> t_diag (tens h ta) = false -> t_diag (tens h tb) = false ->
  exists h' tc, contractOuter ta tb false h1 = (h', Ok tc) /\
    contracted h h' ta tb tc (legs_of h ta ++ legs_of h tb) /\ 
    t_diag (tens h' tc) = false /\ t_like (tens h' tc) = false /\
    forall s, in_bounds h (legs_of h ta ++ legs_of h tb) s -> entry h' tc s = rmul (entry h ta s) (entry h tb s).
Proof.
  intros W O La Lb Da Db. pose proof (wf_pair_ob _ _ _ _ O W) as W1. assert (ET : tens h1 = tens h) by apply O.
  destruct (wf_arr_dense h ta (wp_a _ _ _ W) La Da) as (a & Ea & Wa & Sa).
  destruct (wf_arr_dense h tb (wp_b _ _ _ W) Lb Db) as (b & Eb & Wb & Sb).
  unfold contractOuter. unfold bind at 1, reads at 1. unfold bind at 1, reads at 1. unfold bind at 1, reads at 1.
  unfold bind at 1, reads at 1. unfold bind at 1, reads at 1. rewrite ET, Da, Db. cbn [andb].
  unfold bind at 1. unfold getArr at 1. unfold bind at 1, reads at 1. rewrite ET, Ea. unfold ret at 1.
  unfold bind at 1. unfold getArr at 1. unfold bind at 1, reads at 1. rewrite ET, Eb. unfold ret at 1.
  rewrite !(shape_ob h h1) by (auto; apply W). rewrite !(labels_ob h h1) by auto. unfold tlegs. rewrite ET.
  fold (legs_of h ta) (legs_of h tb).
  destruct (outer_spec a b) as (Wo & So & Go).
  destruct (mkDense_legs h1 (legs_of h ta ++ legs_of h tb) (np_outer a b) (Some (map (fun l => l_name (legs h l)) (legs_of h ta) ++ map (fun l => l_name (legs h l)) (legs_of h tb)))
     (Some (map (dim_of h) (legs_of h ta) ++ map (dim_of h) (legs_of h tb)))) as (h' & tc & Ec & NT & Wc & Oc & Lc & Dc & Kc & _ & Hc); auto.
  { apply W. }
  { apply both_alloc; auto. }
  { rewrite So, Sa, Sb, map_app. unfold dim_of. now rewrite (ob_legs _ _ O). }
  { rewrite map_app. unfold dim_of. now rewrite (ob_legs _ _ O). }
  { rewrite map_app. now rewrite (ob_legs _ _ O). }
  rewrite Ec. exists h', tc. split; auto. split; [|split; [auto|split; [auto|]]].
  - eapply contracted_intro; eauto using only_tensor_refl. apply reordered_refl; [apply W1|auto].
  - intros s Hs. rewrite Hc. assert (ES : map (dim_of h1) (legs_of h ta ++ legs_of h tb) = ashape (np_outer a b)).
    { rewrite So, Sa, Sb, map_app. unfold dim_of. now rewrite (ob_legs _ _ O). }
    rewrite ES. change (nth (ravel (ashape (np_outer a b)) (map s (legs_of h ta ++ legs_of h tb))) (adata (np_outer a b)) r0)
      with (aget (np_outer a b) (map s (legs_of h ta ++ legs_of h tb))).
    rewrite map_app, Go.
    + unfold entry, entry_of. rewrite Ea, Eb, Da, Db. reflexivity.
    + rewrite Sa. apply inrange_map. intros; apply Hs; apply in_app_iff; auto.
    + rewrite Sb. apply inrange_map. intros; apply Hs; apply in_app_iff; auto.
Qed.

Lemma embed_first_spec (o : arr A) sh n k : ashape o = n :: sh ->
  exists e, np_embed_first (repeat n (S k) ++ sh) (S k) o = Ok e /\ wfa e /\ ashape e = repeat n (S k) ++ sh /\
   forall j js idx, inrange (repeat n (S k)) (j :: js) -> inrange sh idx -> 
     aget e ((j :: js) ++ idx) = if all_eqb (j :: js) then aget o (j :: idx) else r0.
Proof.
  intros So. unfold np_embed_first. cbn [Nat.eqb].
  assert (EF : firstn (S k) (repeat n (S k) ++ sh) = repeat n (S k)).
  { rewrite <- (repeat_length n (S k)) at 1. apply firstn_app_at. }
  rewrite EF, all_eqb_repeat. cbn [negb]. eexists. split; [reflexivity|]. split; [apply tab_wfa|]. split; [reflexivity|].
  intros j js idx Hj Hi. rewrite aget_tab by now apply inrange_app.
  pose proof (inrange_length _ _ Hj) as El. rewrite repeat_length in El. rewrite <- El.
  rewrite firstn_app_at, skipn_app_at. reflexivity.
Qed.

Lemma outer_diag1 (h h1 : heap) ta tb : wf_pair h ta tb -> only_bonds h h1 ->
  t_like (tens h ta) = false -> t_like (tens h tb) = false -> t_diag (tens h ta) = true -> t_diag (tens h tb) = false ->
  legs_of h ta <> [] ->
  exists h' tc, contractOuter ta tb false h1 = (h', Ok tc) /\
    contracted h h' ta tb tc (legs_of h ta ++ legs_of h tb) /\ 
    t_diag (tens h' tc) = false /\ t_like (tens h' tc) = false /\
    forall s, in_bounds h (legs_of h ta ++ legs_of h tb) s -> entry h' tc s = rmul (entry h ta s) (entry h tb s).
Proof.
  intros W O La Lb Da Db NE. pose proof (wf_pair_ob _ _ _ _ O W) as W1. assert (ET : tens h1 = tens h) by apply O.
  destruct (wf_arr_diag h ta (wp_a _ _ _ W) La Da NE) as (a & Ea & Wa & Sa).
  destruct (wf_arr_dense h tb (wp_b _ _ _ W) Lb Db) as (b & Eb & Wb & Sb).
  set (n := t_len (tens h ta)) in *.
  unfold contractOuter. unfold bind at 1, reads at 1. unfold bind at 1, reads at 1. unfold bind at 1, reads at 1.
  unfold bind at 1, reads at 1. unfold bind at 1, reads at 1. rewrite ET, Da, Db. cbn [andb].
  unfold bind at 1. unfold getArr at 1. unfold bind at 1, reads at 1. rewrite ET, Ea. unfold ret at 1.
  unfold bind at 1. unfold getArr at 1. unfold bind at 1, reads at 1. rewrite ET, Eb. unfold ret at 1.
  unfold bind at 1, reads at 1. unfold bind at 1, liftR at 1. unfold tdim.
  rewrite !(shape_ob h h1) by (auto; apply W). rewrite !(labels_ob h h1) by auto. unfold tlegs. rewrite ET.
  fold (legs_of h ta) (legs_of h tb). rewrite map_length.
  destruct (outer_spec a b) as (Wo & So & Go). rewrite Sa, Sb in So. simpl in So.
  destruct (legs_of h ta) as [|l0 LA] eqn:ELA; [congruence|]. set (k := List.length LA).
  assert (EdA : map (dim_of h) (l0 :: LA) = repeat n (S k)).
  { apply (repeat_map_const (dim_of h) n (l0 :: LA)). intros l Hl. apply diag_dim; auto; [apply W|]. rewrite ELA; auto. }
  rewrite EdA. cbn [List.length]. fold k.
  destruct (embed_first_spec (np_outer a b) _ n k So) as (e & Ee & We & Se & Ge). rewrite Ee.
  assert (Edim : map (dim_of h1) ((l0 :: LA) ++ legs_of h tb) = repeat n (S k) ++ map (dim_of h) (legs_of h tb)).
  { rewrite map_app, <- EdA. unfold dim_of. now rewrite (ob_legs _ _ O). }
  destruct (mkDense_legs h1 ((l0 :: LA) ++ legs_of h tb) e (Some (map (fun l => l_name (legs h l)) (l0 :: LA) ++ map (fun l => l_name (legs h l)) (legs_of h tb)))
     (Some (repeat n (S k) ++ map (dim_of h) (legs_of h tb)))) as (h' & tc & Ec & NT & Wc & Oc & Lc & Dc & Kc & _ & Hc); auto.
  { rewrite <- ELA. apply W. }
  { rewrite <- ELA. apply both_alloc; auto. }
  { rewrite Se, Edim. auto. }
  { rewrite map_app. now rewrite (ob_legs _ _ O). }
  rewrite Ec. exists h', tc. split; auto. split; [|split; [auto|split; [auto|]]].
  - eapply contracted_intro; eauto using only_tensor_refl. apply reordered_refl; [apply W1|auto].
  - intros s Hs. rewrite Hc, Edim, (aget_nth _ _ _ Se), map_app.
    assert (I1 : inrange (repeat n (S k)) (map s (l0 :: LA))).
    { rewrite <- EdA. apply inrange_map. intros; apply Hs; apply in_app_iff; auto. }
    assert (I2 : inrange (map (dim_of h) (legs_of h tb)) (map s (legs_of h tb))).
    { apply inrange_map. intros; apply Hs; apply in_app_iff; auto. }
    cbn [map] in *. rewrite Ge by auto.
    rewrite (entry_diag h ta a l0 s) by (auto; rewrite ELA; simpl; auto). rewrite ELA. cbn [map].
    destruct (all_eqb (s l0 :: map s LA)); [|ring].
    change (s l0 :: map s (legs_of h tb)) with ([s l0] ++ map s (legs_of h tb)). rewrite Go.
    + f_equal. unfold entry, entry_of. rewrite Eb, Db. reflexivity.
    + rewrite Sa. inversion I1; subst. repeat constructor. auto.
    + now rewrite Sb.
Qed.

(** two diagonal tensors: not an outer product *)
Lemma outer_diag2 (h h1 : heap) ta tb : wf_pair h ta tb -> only_bonds h h1 ->
  t_like (tens h ta) = false -> t_like (tens h tb) = false -> t_diag (tens h ta) = true -> t_diag (tens h tb) = true ->
  legs_of h ta <> [] -> legs_of h tb <> [] -> t_len (tens h ta) = t_len (tens h tb) ->
  exists h' tc a b, contractOuter ta tb false h1 = (h', Ok tc) /\
    contracted h h' ta tb tc (legs_of h ta ++ legs_of h tb) /\ 
    t_diag (tens h' tc) = true /\ t_like (tens h' tc) = false /\
    t_arr (tens h ta) = Some a /\ t_arr (tens h tb) = Some b /\
    forall s, in_bounds h (legs_of h ta ++ legs_of h tb) s -> 
      entry h' tc s = match legs_of h ta with 
                      | [] => r0 
                      | l0 :: _ => if all_eqb (map s (legs_of h ta ++ legs_of h tb)) then rmul (aget a [s l0]) (aget b [s l0]) else r0 end.
Proof.
  intros W O La Lb Da Db NA NB EN. pose proof (wf_pair_ob _ _ _ _ O W) as W1. assert (ET : tens h1 = tens h) by apply O.
  destruct (wf_arr_diag h ta (wp_a _ _ _ W) La Da NA) as (a & Ea & Wa & Sa).
  destruct (wf_arr_diag h tb (wp_b _ _ _ W) Lb Db NB) as (b & Eb & Wb & Sb).
  rewrite <- EN in Sb. destruct (mul_small_1 a b _ Sa Sb) as (d & Ed & Wd & Sd & Gd).
  unfold contractOuter. unfold bind at 1, reads at 1. unfold bind at 1, reads at 1. unfold bind at 1, reads at 1.
  unfold bind at 1, reads at 1. unfold bind at 1, reads at 1. rewrite ET, Da, Db. cbn [andb].
  unfold bind at 1. unfold getArr at 1. unfold bind at 1, reads at 1. rewrite ET, Ea. unfold ret at 1.
  unfold bind at 1. unfold getArr at 1. unfold bind at 1, reads at 1. rewrite ET, Eb. unfold ret at 1.
  unfold bind at 1, liftR at 1. rewrite Ed.
  rewrite !(shape_ob h h1) by (auto; apply W). rewrite !(labels_ob h h1) by auto. unfold tlegs. rewrite ET.
  fold (legs_of h ta) (legs_of h tb). rewrite <- !map_app.
  assert (HdL : forall l, In l (legs_of h ta ++ legs_of h tb) -> dim_of h l = t_len (tens h ta)).
  { intros l Hl. apply in_app_iff in Hl. destruct Hl as [Hl|Hl]; [|rewrite EN]; apply diag_dim; auto; apply W. }
  assert (Edim : map (dim_of h1) (legs_of h ta ++ legs_of h tb) = map (dim_of h) (legs_of h ta ++ legs_of h tb)).
  { unfold dim_of. now rewrite (ob_legs _ _ O). }
  rewrite <- Edim.
  destruct (mkDiag_legs h1 (legs_of h ta ++ legs_of h tb) d (Some (map (fun l => l_name (legs h l)) (legs_of h ta ++ legs_of h tb))) (t_len (tens h ta))) 
     as (h' & tc & Ec & NT & Wc & Oc & Lc & Dc & Kc & Tc & Ac); auto.
  { apply W. } { apply both_alloc; auto. } { destruct (legs_of h ta); [congruence|discriminate]. }
  { intros l Hl. rewrite <- (HdL l Hl). unfold dim_of. now rewrite (ob_legs _ _ O). }
  { now rewrite (ob_legs _ _ O). }
  rewrite Ec. exists h', tc, a, b. split; auto. split; [|repeat (split; [now auto|])].
  - eapply contracted_intro; eauto using only_tensor_refl. apply reordered_refl; [apply W1|auto].
  - intros s Hs. destruct (legs_of h ta) as [|l0 LA] eqn:ELA; [congruence|].
    rewrite (entry_diag h' tc d l0 s) by (auto; rewrite Lc; simpl; auto). rewrite Lc.
    destruct (all_eqb _); auto. apply Gd. rewrite <- (HdL l0) by (simpl; auto). apply Hs. simpl; auto.
Qed.

Lemma outer_diag2_len (h h1 : heap) ta tb : wf_pair h ta tb -> only_bonds h h1 ->
  t_like (tens h ta) = false -> t_like (tens h tb) = false -> t_diag (tens h ta) = true -> t_diag (tens h tb) = true ->
  legs_of h ta <> [] -> legs_of h tb <> [] -> t_len (tens h ta) <> t_len (tens h tb) ->
  contractOuter ta tb false h1 = (h1, Err ValueError).
Proof.
  intros W O La Lb Da Db NA NB EN. pose proof (wf_pair_ob _ _ _ _ O W) as W1. assert (ET : tens h1 = tens h) by apply O.
  destruct (wf_arr_diag h ta (wp_a _ _ _ W) La Da NA) as (a & Ea & Wa & Sa).
  destruct (wf_arr_diag h tb (wp_b _ _ _ W) Lb Db NB) as (b & Eb & Wb & Sb).
  unfold contractOuter. unfold bind at 1, reads at 1. unfold bind at 1, reads at 1. unfold bind at 1, reads at 1.
  unfold bind at 1, reads at 1. unfold bind at 1, reads at 1. rewrite ET, Da, Db. cbn [andb].
  unfold bind at 1. unfold getArr at 1. unfold bind at 1, reads at 1. rewrite ET, Ea. unfold ret at 1.
  unfold bind at 1. unfold getArr at 1. unfold bind at 1, reads at 1. rewrite ET, Eb. unfold ret at 1.
  unfold bind at 1, liftR at 1.
  destruct (np_mul_small a b) as [d|e] eqn:Ed.
  - unfold mkDiag, bind at 1. unfold bind at 1, reads at 1.
    assert (checkLegsDiagonalCompatible h1 (tlegs h1 ta ++ tlegs h1 tb) = false) as ->; [|reflexivity].
    unfold checkLegsDiagonalCompatible. apply not_true_is_false. intros C. rewrite all_eqb_spec in C. apply EN.
    unfold tlegs in C. rewrite ET in C. fold (legs_of h ta) (legs_of h tb) in C.
    destruct (legs_of h ta) as [|la LA] eqn:E1; [congruence|]. destruct (legs_of h tb) as [|lb LB] eqn:E2; [congruence|].
    rewrite <- (diag_dim h ta la), <- (diag_dim h tb lb); auto; try apply W; try (rewrite ?E1, ?E2; simpl; auto).
    unfold dim_of. rewrite <- (ob_legs _ _ O). apply C; apply (in_map (legdim h1)); apply in_app_iff; simpl; auto.
  - unfold np_mul_small in Ed. rewrite Sa, Sb in Ed.
    destruct (Nat.eqb (t_len (tens h ta)) (t_len (tens h tb))); [discriminate|].
    destruct (Nat.eqb (t_len (tens h ta)) 1); [discriminate|].
    destruct (Nat.eqb (t_len (tens h tb)) 1); [discriminate|]. now injection Ed as <-.
Qed.

Lemma shared_nil_rest (h : heap) ta tb : shared h ta tb = [] -> restA h ta tb = legs_of h ta /\ restB h ta tb = legs_of h tb.
Proof.
  intros E. unfold restA, restB, others. rewrite E. simpl.
  assert (forall L : list lid, filter (fun l => negb (inb l [])) L = L) as G.
  { intros L. induction L; simpl; auto. now f_equal. }
  split; apply G.
Qed.

(** ** contractOrdered *)
Lemma shareBonds_pair (h : heap) ta tb : wf_pair h ta tb ->
  exists h1 bs, shareBonds ta tb h = (h1, Ok bs) /\ only_bonds h h1 /\
    map (fun b => b0 (bonds h1 b)) bs = map fst (shared h ta tb) /\
    map (fun b => b1 (bonds h1 b)) bs = map snd (shared h ta tb) /\ 
    List.length bs = List.length (shared h ta tb).
Proof.
  intros W. apply shareBonds_ok.
  - apply wt_nodup, W.
  - intros l. now apply wp_disj.
  - eapply links_ok_incl; [|apply W]. apply incl_appl, incl_refl.
Qed.

Lemma einsum_nil (h : heap) ta tb s : shared h ta tb = [] -> einsum h ta tb s = rmul (entry h ta s) (entry h tb s).
Proof. intros E. unfold einsum. now rewrite E. Qed.

Lemma ordered_step (h : heap) ta tb : wf_pair h ta tb -> t_like (tens h ta) = t_like (tens h tb) ->
  exists h1 bs, only_bonds h h1 /\
    map (fun b => b0 (bonds h1 b)) bs = map fst (shared h ta tb) /\
    map (fun b => b1 (bonds h1 b)) bs = map snd (shared h ta tb) /\ 
    contractOrdered ta tb h = if Nat.eqb (List.length (shared h ta tb)) 0 then contractOuter ta tb (t_like (tens h ta)) h1 
                              else contractBonds ta tb (t_like (tens h ta)) bs h1.
Proof.
  intros W EL. destruct (shareBonds_pair h ta tb W) as (h1 & bs & E & O & E0 & E1 & EN).
  exists h1, bs. split; auto. split; auto. split; auto.
  unfold contractOrdered. unfold bind at 1. rewrite E. unfold bind at 1, reads at 1. unfold bind at 1, reads at 1.
  rewrite (ob_tens _ _ O), <- EL, EN. rewrite eqb_reflx. cbn [negb]. now destruct (Nat.eqb (List.length (shared h ta tb)) 0).
Qed.

Lemma contract_dense (h : heap) ta tb : wf_pair h ta tb -> 
  t_like (tens h ta) = false -> t_like (tens h tb) = false -> t_diag (tens h ta) = false -> t_diag (tens h tb) = false ->
  contracts_to h (contractTwoTensors ta tb h) ta tb (restA h ta tb ++ restB h ta tb) false.
Proof.
  intros W La Lb Da Db. unfold contractTwoTensors, bind, reads. rewrite Da, Db. cbn [negb andb].
  destruct (ordered_step h ta tb W) as (h1 & bs & O & E0 & E1 & EO); [congruence|]. rewrite EO, La.
  destruct (Nat.eqb_spec (List.length (shared h ta tb)) 0) as [En|Nn].
  - assert (ES : shared h ta tb = []) by (destruct (shared h ta tb); [auto|discriminate]).
    destruct (shared_nil_rest h ta tb ES) as [R1 R2].
    destruct (outer_dense h h1 ta tb W O La Lb Da Db) as (h' & tc & E & C & D & K & G).
    exists h', tc. rewrite R1, R2. repeat (split; [now auto|]). intros s Hs. rewrite einsum_nil by auto. auto.
  - apply contractBonds_dense; auto. intros C. rewrite C in Nn. auto.
Qed.
Lemma contract_diag2 (h : heap) ta tb : wf_pair h ta tb -> 
  t_like (tens h ta) = false -> t_like (tens h tb) = false -> t_diag (tens h ta) = true -> t_diag (tens h tb) = true ->
  shared h ta tb <> [] ->
  contracts_to h (contractTwoTensors ta tb h) ta tb (restA h ta tb ++ restB h ta tb) true.
Proof.
  intros W La Lb Da Db NE. unfold contractTwoTensors, bind, reads. rewrite Da, Db. cbn [negb andb].
  destruct (ordered_step h ta tb W) as (h1 & bs & O & E0 & E1 & EO); [congruence|]. rewrite EO, La.
  destruct (Nat.eqb_spec (List.length (shared h ta tb)) 0) as [En|Nn].
  - exfalso. apply NE. destruct (shared h ta tb); [auto|discriminate].
  - apply contractBonds_diag2; auto.
Qed.
Lemma ordered_diag1 (h : heap) ta tb : wf_pair h ta tb -> 
  t_like (tens h ta) = false -> t_like (tens h tb) = false -> t_diag (tens h ta) = true -> t_diag (tens h tb) = false ->
  legs_of h ta <> [] ->
  contracts_to h (contractOrdered ta tb h) ta tb 
    (match shared h ta tb with [] => legs_of h ta ++ legs_of h tb | _ => restB h ta tb ++ restA h ta tb end) false.
Proof.
  intros W La Lb Da Db NE.
  destruct (ordered_step h ta tb W) as (h1 & bs & O & E0 & E1 & EO); [congruence|]. rewrite EO, La.
  destruct (Nat.eqb_spec (List.length (shared h ta tb)) 0) as [En|Nn].
  - assert (ES : shared h ta tb = []) by (destruct (shared h ta tb); [auto|discriminate]).
    destruct (shared_nil_rest h ta tb ES) as [R1 R2].
    destruct (outer_diag1 h h1 ta tb W O La Lb Da Db NE) as (h' & tc & E & C & D & K & G).
    exists h', tc. rewrite R1, R2. rewrite ES. repeat (split; [now auto|]). intros s Hs. rewrite einsum_nil by auto. auto.
  - assert (NS : shared h ta tb <> []) by (intros C; rewrite C in Nn; auto).
    destruct (contractBonds_diag1 h h1 ta tb bs) as (h' & tc & E & C & D & K & G); auto.
    exists h', tc. destruct (shared h ta tb); [congruence|]. auto.
Qed.
Lemma contract_diag_left (h : heap) ta tb : wf_pair h ta tb -> 
  t_like (tens h ta) = false -> t_like (tens h tb) = false -> t_diag (tens h ta) = true -> t_diag (tens h tb) = false ->
  legs_of h ta <> [] ->
  contracts_to h (contractTwoTensors ta tb h) ta tb 
    (match shared h ta tb with [] => legs_of h ta ++ legs_of h tb | _ => restB h ta tb ++ restA h ta tb end) false.
Proof.
  intros W La Lb Da Db NE. unfold contractTwoTensors, bind, reads. rewrite Da, Db. cbn [negb andb].
  apply ordered_diag1; auto.
Qed.
Lemma contract_diag_right (h : heap) ta tb : wf_pair h ta tb -> 
  t_like (tens h ta) = false -> t_like (tens h tb) = false -> t_diag (tens h ta) = false -> t_diag (tens h tb) = true ->
  legs_of h tb <> [] ->
  contracts_to h (contractTwoTensors ta tb h) ta tb 
    (match shared h ta tb with [] => legs_of h tb ++ legs_of h ta | _ => restA h ta tb ++ restB h ta tb end) false.
Proof.
  intros W La Lb Da Db NE. unfold contractTwoTensors, bind, reads. rewrite Da, Db. cbn [negb andb].
  pose proof (wf_pair_sym _ _ _ W) as W'. destruct (rest_sym h ta tb W) as [R1 R2].
  destruct (ordered_diag1 h tb ta W' Lb La Db Da NE) as (h' & tc & E & C & D & K & G).
  exists h', tc. split; auto. split; [|split; [auto|split; [auto|]]].
  - apply contracted_sym. rewrite R1, R2 in C.
    assert (ES : shared h ta tb = [] <-> shared h tb ta = []).
    { split; intros EE.
      - destruct (shared h tb ta) as [|[x y] Q] eqn:EQ; auto. destruct (shared_same h tb ta W' x y) as [H|H]; [rewrite EQ; simpl; auto| |]; rewrite EE in H; contradiction.
      - destruct (shared h ta tb) as [|[x y] Q] eqn:EQ; auto. destruct (shared_same h ta tb W x y) as [H|H]; [rewrite EQ; simpl; auto| |]; rewrite EE in H; contradiction. }
    destruct (shared h ta tb), (shared h tb ta); auto.
    + destruct ES as [ES _]. now discriminate ES.
    + destruct ES as [_ ES]. now discriminate ES.
  - intros s Hs. rewrite G; [now apply einsum_sym|]. rewrite R1, R2. intros l Hl. apply Hs. apply in_app_iff in Hl. apply in_app_iff. tauto.
Qed.

(** a diagonal tensor without legs times a dense one raises *)
Lemma contract_scalar_diag (h : heap) ta tb : wf_pair h ta tb -> 
  t_like (tens h ta) = false -> t_like (tens h tb) = false -> t_diag (tens h ta) = true -> t_diag (tens h tb) = false ->
  legs_of h ta = [] -> 
  exists h' h'', contractTwoTensors ta tb h = (h', Err ValueError) /\ contractTwoTensors tb ta h = (h'', Err ValueError) /\
    only_bonds h h' /\ only_bonds h h''.
Proof.
  intros W La Lb Da Db NE. unfold contractTwoTensors, bind, reads. rewrite Da, Db. cbn [negb andb].
  destruct (ordered_step h ta tb W) as (h1 & bs & O & E0 & E1 & EO); [congruence|].
  assert (ES : shared h ta tb = []) by (unfold shared; now rewrite NE). rewrite ES in EO. simpl in EO. rewrite La in EO.
  assert (contractOuter ta tb false h1 = (h1, Err ValueError)) as EE.
  { assert (ET : tens h1 = tens h) by apply O.
    destruct (wf_arr h ta (wp_a _ _ _ W) La) as (a & Ea & Wa & Sa).
    destruct (wf_arr h tb (wp_b _ _ _ W) Lb) as (b & Eb & Wb & Sb).
    unfold contractOuter. unfold bind at 1, reads at 1. unfold bind at 1, reads at 1. unfold bind at 1, reads at 1.
    unfold bind at 1, reads at 1. unfold bind at 1, reads at 1. rewrite ET, Da, Db. cbn [andb].
    unfold bind at 1. unfold getArr at 1. unfold bind at 1, reads at 1. rewrite ET, Ea. unfold ret at 1.
    unfold bind at 1. unfold getArr at 1. unfold bind at 1, reads at 1. rewrite ET, Eb. unfold ret at 1.
    unfold bind at 1, reads at 1. unfold bind at 1, liftR at 1. unfold tdim.
    rewrite !(shape_ob h h1) by (auto; apply W). rewrite NE. reflexivity. }
  rewrite EE in EO. exists h1, h1. auto.
Qed.

(** two diagonal tensors without a shared bond *)
Lemma contract_diag2_outer (h : heap) ta tb : wf_pair h ta tb -> 
  t_like (tens h ta) = false -> t_like (tens h tb) = false -> t_diag (tens h ta) = true -> t_diag (tens h tb) = true ->
  shared h ta tb = [] -> legs_of h ta <> [] -> legs_of h tb <> [] -> t_len (tens h ta) = t_len (tens h tb) ->
  exists h' tc, contractTwoTensors ta tb h = (h', Ok tc) /\
    contracted h h' ta tb tc (legs_of h ta ++ legs_of h tb) /\ 
    t_diag (tens h' tc) = true /\ t_like (tens h' tc) = false /\
    forall s, in_bounds h (legs_of h ta ++ legs_of h tb) s -> 
      ((forall l l', In l (legs_of h ta ++ legs_of h tb) -> In l' (legs_of h ta ++ legs_of h tb) -> s l = s l') ->
         entry h' tc s = rmul (entry h ta s) (entry h tb s)) /\
      (forall l l', In l (legs_of h ta ++ legs_of h tb) -> In l' (legs_of h ta ++ legs_of h tb) -> s l <> s l' -> entry h' tc s = r0).
Proof.
  intros W La Lb Da Db ES NA NB EN. unfold contractTwoTensors, bind, reads. rewrite Da, Db. cbn [negb andb].
  destruct (ordered_step h ta tb W) as (h1 & bs & O & E0 & E1 & EO); [congruence|]. rewrite EO, La, ES. cbn [List.length Nat.eqb].
  destruct (outer_diag2 h h1 ta tb W O La Lb Da Db NA NB EN) as (h' & tc & a & b & E & C & D & K & Ea & Eb & G).
  exists h', tc. split; auto. split; auto. split; auto. split; auto. intros s Hs. specialize (G s Hs). split.
  - intros All. destruct (legs_of h ta) as [|l0 LA] eqn:ELA; [congruence|]. rewrite G.
    rewrite (proj2 (all_eqb_spec _)).
    + rewrite (entry_diag_all h ta a s (s l0)); auto; [rewrite (entry_diag_all h tb b s (s l0)); auto|congruence|].
      * intros l Hl. apply All; [apply in_app_iff; auto|simpl; auto].
      * intros l Hl. apply All; [apply in_app_iff; left; rewrite <- ELA; auto|simpl; auto].
    + intros x y Hx Hy. apply in_map_iff in Hx. apply in_map_iff in Hy. destruct Hx as (l & <- & Hl), Hy as (l' & <- & Hl'). apply All; auto.
  - intros l l' Hl Hl' N. destruct (legs_of h ta) as [|l0 LA] eqn:ELA; [congruence|]. rewrite G.
    destruct (all_eqb (map s ((l0 :: LA) ++ legs_of h tb))) eqn:EE; auto. exfalso. apply N. rewrite all_eqb_spec in EE. apply EE; now apply in_map.
Qed.
Lemma contract_diag2_len (h : heap) ta tb : wf_pair h ta tb -> 
  t_like (tens h ta) = false -> t_like (tens h tb) = false -> t_diag (tens h ta) = true -> t_diag (tens h tb) = true ->
  legs_of h ta <> [] -> legs_of h tb <> [] -> t_len (tens h ta) <> t_len (tens h tb) ->
  exists h', contractTwoTensors ta tb h = (h', Err ValueError) /\ only_bonds h h'.
Proof.
  intros W La Lb Da Db NA NB EN. unfold contractTwoTensors, bind, reads. rewrite Da, Db. cbn [negb andb].
  destruct (ordered_step h ta tb W) as (h1 & bs & O & E0 & E1 & EO); [congruence|]. rewrite EO, La.
  destruct (shared h ta tb) as [|p Q] eqn:ES.
  - exists h1. split; auto. cbn [List.length Nat.eqb]. apply (outer_diag2_len h); auto.
  - exfalso. apply EN. symmetry. apply diag_len_eq; auto. rewrite ES. discriminate.
Qed.
Lemma contract_scalar_diag2 (h : heap) ta tb : wf_pair h ta tb -> 
  t_like (tens h ta) = false -> t_like (tens h tb) = false -> t_diag (tens h ta) = true -> t_diag (tens h tb) = true ->
  legs_of h ta = [] -> legs_of h tb = [] ->
  exists h', contractTwoTensors ta tb h = (h', Err IndexError) /\ only_bonds h h'.
Proof.
  intros W La Lb Da Db NA NB. unfold contractTwoTensors, bind, reads. rewrite Da, Db. cbn [negb andb].
  destruct (ordered_step h ta tb W) as (h1 & bs & O & E0 & E1 & EO); [congruence|]. rewrite EO, La.
  assert (ES : shared h ta tb = []) by (unfold shared; now rewrite NA). rewrite ES. cbn [List.length Nat.eqb].
  exists h1. split; auto. assert (ET : tens h1 = tens h) by apply O.
  destruct (wf_arr h ta (wp_a _ _ _ W) La) as (a & Ea & Wa & Sa). destruct (wf_arr h tb (wp_b _ _ _ W) Lb) as (b & Eb & Wb & Sb).
  unfold contractOuter. unfold bind at 1, reads at 1. unfold bind at 1, reads at 1. unfold bind at 1, reads at 1.
  unfold bind at 1, reads at 1. unfold bind at 1, reads at 1. rewrite ET, Da, Db. cbn [andb].
  unfold bind at 1. unfold getArr at 1. unfold bind at 1, reads at 1. rewrite ET, Ea. unfold ret at 1.
  unfold bind at 1. unfold getArr at 1. unfold bind at 1, reads at 1. rewrite ET, Eb. unfold ret at 1.
  rewrite Da, NA in Sa. rewrite Db, NB in Sb. unfold bind at 1, liftR at 1. unfold np_mul_small. rewrite Sa, Sb.
  rewrite !(shape_ob h h1) by (auto; apply W). rewrite !(labels_ob h h1) by auto. unfold tlegs. rewrite ET.
  fold (legs_of h ta) (legs_of h tb). rewrite NA, NB. destruct b as [shb db]. simpl in Sb. subst shb.
  unfold wfa in Wb. simpl in Wb. destruct db as [|y [|]]; try discriminate. reflexivity.
Qed.

Lemma contract_diag_first (h : heap) ta tb : wf_pair h ta tb -> 
  t_like (tens h ta) = false -> t_like (tens h tb) = false -> t_diag (tens h ta) = true -> t_diag (tens h tb) = false ->
  shared h ta tb <> [] ->
  contracts_to h (contractTwoTensors ta tb h) ta tb (restB h ta tb ++ restA h ta tb) false.
Proof.
  intros W La Lb Da Db NE. pose proof (contract_diag_left h ta tb W La Lb Da Db (proj1 (shared_ne_legs _ _ _ NE))) as C.
  destruct (shared h ta tb); [congruence|exact C].
Qed.
Lemma contract_diag_second (h : heap) ta tb : wf_pair h ta tb -> 
  t_like (tens h ta) = false -> t_like (tens h tb) = false -> t_diag (tens h ta) = false -> t_diag (tens h tb) = true ->
  shared h ta tb <> [] ->
  contracts_to h (contractTwoTensors ta tb h) ta tb (restA h ta tb ++ restB h ta tb) false.
Proof.
  intros W La Lb Da Db NE. pose proof (contract_diag_right h ta tb W La Lb Da Db (proj2 (shared_ne_legs _ _ _ NE))) as C.
  destruct (shared h ta tb); [congruence|exact C].
Qed.
Lemma contract_dense_outer (h : heap) ta tb : wf_pair h ta tb -> 
  t_like (tens h ta) = false -> t_like (tens h tb) = false -> t_diag (tens h ta) = false -> t_diag (tens h tb) = false ->
  shared h ta tb = [] ->
  exists h' tc, contractTwoTensors ta tb h = (h', Ok tc) /\
    contracted h h' ta tb tc (legs_of h ta ++ legs_of h tb) /\ 
    forall s, in_bounds h (legs_of h ta ++ legs_of h tb) s -> entry h' tc s = rmul (entry h ta s) (entry h tb s).
Proof.
  intros W La Lb Da Db ES. destruct (contract_dense h ta tb W La Lb Da Db) as (h' & tc & E & C & _ & _ & V).
  destruct (shared_nil_rest h ta tb ES) as [R1 R2]. rewrite R1, R2 in *. exists h', tc. split; auto. split; auto.
  intros s Hs. rewrite V by auto. now apply einsum_nil.
Qed.
Lemma shared_nil_sym (h : heap) ta tb : wf_pair h ta tb -> shared h ta tb = [] -> shared h tb ta = [].
Proof.
  intros W EE. pose proof (wf_pair_sym _ _ _ W) as W'. destruct (shared h tb ta) as [|[x y] Q] eqn:EQ; auto. 
  destruct (shared_same h tb ta W' x y) as [H|H]; [rewrite EQ; simpl; auto| |]; rewrite EE in H; contradiction.
Qed.
Lemma contract_diag_outer (h : heap) td tb : wf_pair h td tb -> 
  t_like (tens h td) = false -> t_like (tens h tb) = false -> t_diag (tens h td) = true -> t_diag (tens h tb) = false ->
  shared h td tb = [] -> legs_of h td <> [] ->
  (exists h' tc, contractTwoTensors td tb h = (h', Ok tc) /\
    contracted h h' td tb tc (legs_of h td ++ legs_of h tb) /\ 
    forall s, in_bounds h (legs_of h td ++ legs_of h tb) s -> entry h' tc s = rmul (entry h td s) (entry h tb s)) /\
  (exists h' tc, contractTwoTensors tb td h = (h', Ok tc) /\
    contracted h h' td tb tc (legs_of h td ++ legs_of h tb) /\ 
    forall s, in_bounds h (legs_of h td ++ legs_of h tb) s -> entry h' tc s = rmul (entry h td s) (entry h tb s)).
Proof.
  intros W La Lb Da Db ES NE. destruct (shared_nil_rest h td tb ES) as [R1 R2]. split.
  - destruct (contract_diag_left h td tb W La Lb Da Db NE) as (h' & tc & E & C & _ & _ & V). rewrite ES in C.
    rewrite R1, R2 in *. exists h', tc. split; auto. split; auto. intros s Hs. rewrite V by auto. now apply einsum_nil.
  - pose proof (wf_pair_sym _ _ _ W) as W'. pose proof (shared_nil_sym h td tb W ES) as ES'.
    destruct (shared_nil_rest h tb td ES') as [R1' R2'].
    destruct (contract_diag_right h tb td W' Lb La Db Da NE) as (h' & tc & E & C & _ & _ & V). rewrite ES' in C.
    rewrite R1', R2' in *. exists h', tc. split; auto. split; [now apply contracted_sym|]. intros s Hs. rewrite V.
    + rewrite einsum_nil by auto. ring.
    + intros l Hl. apply Hs. apply in_app_iff in Hl. apply in_app_iff. tauto.
Qed.
End Ou.
