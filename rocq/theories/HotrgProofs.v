(** Proofs about the higher-order tensor renormalization group. *)
From Coq Require Import List Arith Bool String Lia Permutation.
From Verif Require Import Base Sums NdModel NdProofs HeapModel FuncsModel TensorModel TensorSpec TensorProofs MatrixProofs CtorProofs CopyProofs ContractModel SvdModel SvdSpec SvdProofs CanonModel
  SearchSpec NetSpec FtnModel FtnNetSpec FtnFrameProofs NamedSpec NetsModel NetsSpec NetsProofs TorusSpec DoubleSpec TrgModel TrgSpec SumpairsProofs TorusProofs TorusIsoProofs DoubleProofs NamedMatProofs TrgProofs HotrgModel HotrgSpec.
Import ListNotations.
Local Open Scope nat_scope.
Local Open Scope string_scope.
Local Open Scope list_scope.

Section Turn.
Context {A : Type} {HA : SR A}.
Local Open Scope sr_scope.
Add Ring Aringh : (@SR_theory A HA).
(** the step in direction l *)
Lemma fuse_l (L : lattice) (T : nat -> nat -> nat -> nat -> A) P Q V H k : torus L -> lossless_projector V H k T P Q ->
  partition L k V (fun _ => fused V H T T P Q) = partition (stack L) H V (fun _ => T).
Proof.
  intros TL LL. apply (fuse_rows L TL T _ (fun a b => P (a * H + b)%nat) (fun a b => Q (a * H + b)%nat) H V k).
  - reflexivity.
  - intros. now apply LL.
Qed.
Lemma fuse_r (L : lattice) (T : nat -> nat -> nat -> nat -> A) P Q V H k : torus L -> lossless_projector V H k (mirrored T) P Q ->
  partition L k V (fun _ => mirrored (fused V H (mirrored T) (mirrored T) P Q)) = partition (stack L) H V (fun _ => T).
Proof.
  intros TL LL. rewrite <- (partition_mirror (stack L)) by now apply stack_torus. change (mirror (stack L)) with (stack (mirror L)).
  rewrite <- (fuse_l (mirror L) (mirrored T) P Q V H k (mirror_torus L TL) LL). symmetry.
  apply (partition_mirror L k V (mirrored (fused V H (mirrored T) (mirrored T) P Q)) TL).
Qed.
Lemma fuse_step (L : lattice) d (T : nat -> nat -> nat -> nat -> A) P Q V H k : torus L -> In d dirs ->
  lossless_projector (kept d V H) (cut d V H) k (turn d T) P Q ->
  partition L (newH d H k) (newV d V k) (fun _ => unturn d (fused (kept d V H) (cut d V H) (turn d T) (turn d T) P Q)) = partition (double d L) H V (fun _ => T).
Proof.
  intros TL [<-|[<-|[<-|[<-|[]]]]].
  - change (lossless_projector H V k (transposed T) P Q -> partition L H k (fun _ => transposed (fused H V (transposed T) (transposed T) P Q)) = partition (flip (stack (flip L))) H V (fun _ => T)). intros LL.
    rewrite <- (partition_flip (flip (stack (flip L)))). change (flip (flip (stack (flip L)))) with (stack (flip L)).
    rewrite <- (fuse_l (flip L) (transposed T) P Q H V k (flip_torus L TL) LL). symmetry. apply (partition_flip L H k (transposed (fused H V (transposed T) (transposed T) P Q))).
  - change (lossless_projector H V k (mirrored (transposed T)) P Q ->
      partition L H k (fun _ => transposed (mirrored (fused H V (mirrored (transposed T)) (mirrored (transposed T)) P Q))) = partition (flip (stack (flip L))) H V (fun _ => T)). intros LL.
    rewrite <- (partition_flip (flip (stack (flip L)))). change (flip (flip (stack (flip L)))) with (stack (flip L)).
    rewrite <- (fuse_r (flip L) (transposed T) P Q H V k (flip_torus L TL) LL). symmetry. apply (partition_flip L H k (transposed (mirrored (fused H V (mirrored (transposed T)) (mirrored (transposed T)) P Q)))).
  - apply (fuse_l L T P Q V H k TL).
  - apply (fuse_r L T P Q V H k TL).
Qed.
Lemma double_torus d L : torus L -> torus (double d L).
Proof. unfold double. destruct (rows d); [apply stack_torus|apply beside_torus]. Qed.
Lemma fine_torus ds L : torus L -> torus (fine ds L).
Proof. intros TL. induction ds; cbn [fine]; auto. now apply double_torus. Qed.
Lemma double_size d L : List.length (sites (double d L)) = (2 * List.length (sites L))%nat.
Proof. unfold double. destruct (rows d); cbn; rewrite app_length, !map_length; lia. Qed.
Lemma fine_size ds L : List.length (sites (fine ds L)) = (2 ^ List.length ds * List.length (sites L))%nat.
Proof. induction ds; cbn [fine List.length]. - cbn. lia. - rewrite double_size, IHds. cbn [Nat.pow]. lia. Qed.
Lemma fine_snoc ds d L : fine (ds ++ [d]) L = fine ds (double d L).
Proof. induction ds; cbn; congruence. Qed.
(** moving sums *)
Lemma pull2 a b e (f : nat -> nat -> nat -> A) : sumN a (fun x => sumN b (fun y => sumN e (fun z => f x y z))) = sumN e (fun z => sumN a (fun x => sumN b (fun y => f x y z))).
Proof. transitivity (sumN a (fun x => sumN e (fun z => sumN b (fun y => f x y z)))). { apply sumN_ext. intros x _. apply sumN_swap. } apply sumN_swap. Qed.
Lemma pull4 a b c d e (f : nat -> nat -> nat -> nat -> nat -> A) :
  sumN a (fun x => sumN b (fun y => sumN c (fun z => sumN d (fun w => sumN e (fun v => f x y z w v))))) = sumN e (fun v => sumN a (fun x => sumN b (fun y => sumN c (fun z => sumN d (fun w => f x y z w v))))).
Proof.
  rewrite <- (pull2 a b e (fun x y v => sumN c (fun z => sumN d (fun w => f x y z w v)))). apply sumN_ext. intros x _. apply sumN_ext. intros y _. apply pull2.
Qed.
Lemma sumN_prod n m (f g : nat -> A) : sumN n (fun x => sumN m (fun y => f x * g y)) = sumN n f * sumN m g.
Proof. rewrite <- sumN_mul_r. apply sumN_ext. intros x _. apply sumN_mul_l. Qed.
End Turn.

Section Eig.
Context {A B : Type} {HA : SR A}.
Variable eig : eigen A.
Variable num : numerics A B.
Lemma sumL_nth (l : list A) : sumL l (fun x => x) = sumN (List.length l) (fun i => nth i l r0).
Proof. pose proof (sumL_skip l (fun x => x) 0) as E. cbn [skipn] in E. rewrite Nat.sub_0_r in E. exact E. Qed.
Lemma sumN_rev n (f : nat -> A) : sumN n f = sumN n (fun i => f (n - 1 - i)).
Proof.
  revert f. induction n as [|n IH]; intros f; auto. rewrite sumN_S. change (S n) with (1 + n) at 1. rewrite sumN_add. rewrite radd_comm. f_equal.
  - unfold sumN. cbn [seq sumL]. rewrite radd_comm, radd_0_l. f_equal. lia.
  - rewrite IH. apply sumN_ext. intros i Hi. f_equal. lia.
Qed.
Lemma lastN_sum (l : list A) c : c <= List.length l -> sumL (lastN c l) (fun x => x) = sumN (if Nat.eqb c 0 then List.length l else c) (fun i => nth (List.length l - 1 - i) l r0).
Proof.
  intros Hc. unfold lastN. destruct (Nat.eqb c 0) eqn:E.
  - rewrite sumL_nth. apply sumN_rev.
  - rewrite sumL_skip. replace (List.length l - (List.length l - c)) with c by lia. rewrite sumN_rev. apply sumN_ext. intros i Hi. f_equal. lia.
Qed.
Lemma solveEnv_spec (m : arr A) n chi : ashape m = [n; n] -> eigh_shape eig m n ->
  exists P, solveEnv num eig m chi = Ok (P, env_error eig num m n chi) /\ wfa P /\ ashape P = [n; kept_count eig m n chi] /\
    forall i o, i < n -> o < kept_count eig m n chi -> aget P [i; o] = proj eig m n i o.
Proof.
  intros S (LV & WV & SV). unfold solveEnv. rewrite S, Nat.eqb_refl. unfold vals, vecs in *. destruct (ei_eigh eig m) as [vs ws] eqn:EE. cbn [fst snd] in *.
  assert (BC : big_count eig m = List.length (filter (ei_big eig) vs)) by (unfold big_count, vals; now rewrite EE).
  assert (BL : List.length (filter (ei_big eig) vs) <= n) by (rewrite <- LV; clear; induction vs as [|x vs IH]; cbn; auto; destruct (ei_big eig x); cbn; lia).
  exists (lastColsFlipped ws (Nat.min chi (List.length (filter (ei_big eig) vs)))). split; [|split; [apply tab_wfa|]].
  - f_equal. f_equal. unfold env_error. rewrite BC. destruct (Nat.ltb_spec (List.length (filter (ei_big eig) vs)) chi) as [Hc|Hc]; auto.
    f_equal. unfold vals. rewrite EE. cbn [fst]. f_equal; [|rewrite sumL_nth; now rewrite LV]. rewrite lastN_sum by lia. now rewrite LV.
  - assert (EK : kept_count eig m n chi = (if Nat.eqb (Nat.min chi (List.length (filter (ei_big eig) vs))) 0 then n else Nat.min (Nat.min chi (List.length (filter (ei_big eig) vs))) n)).
    { unfold kept_count. rewrite BC. destruct (Nat.eqb_spec (Nat.min chi (List.length (filter (ei_big eig) vs))) 0); auto. lia. }
    unfold lastColsFlipped. rewrite SV. cbn [nth]. rewrite <- EK. split; [reflexivity|]. intros i o Hi Ho. rewrite aget_tab by (repeat constructor; auto). cbn [nth]. unfold proj, vecs. now rewrite EE.
Qed.
Lemma solveEnv_error (m : arr A) chi : ~ (exists n, ashape m = [n; n]) -> solveEnv num eig m chi = Err ValueError.
Proof.
  intros N. unfold solveEnv. destruct (ashape m) as [|a [|b [|c l]]] eqn:E; auto. destruct (Nat.eqb_spec a b) as [->|]; auto. exfalso. apply N. now exists b.
Qed.
End Eig.

Section Orders.
Context {A : Type} {HA : SR A}.
Lemma ord_l n1 n2 n3 n4 (g : nat -> nat -> nat -> nat -> A) : sumN n1 (fun a => sumN n3 (fun c => sumN n2 (fun b => sumN n4 (fun e => g a b c e)))) = sumN n1 (fun a => sumN n2 (fun b => sumN n3 (fun c => sumN n4 (fun e => g a b c e)))).
Proof. apply sumN_ext. intros a _. apply sumN_swap. Qed.
Lemma ord_d n1 n2 n3 n4 (g : nat -> nat -> nat -> nat -> A) : sumN n3 (fun c => sumN n4 (fun e => sumN n1 (fun a => sumN n2 (fun b => g a b c e)))) = sumN n1 (fun a => sumN n2 (fun b => sumN n3 (fun c => sumN n4 (fun e => g a b c e)))).
Proof. rewrite (pull2 n3 n4 n1 (fun c e a => sumN n2 (fun b => g a b c e))). apply sumN_ext. intros a _. apply (pull2 n3 n4 n2 (fun c e b => g a b c e)). Qed.
Lemma ord_r n1 n2 n3 n4 (g : nat -> nat -> nat -> nat -> A) : sumN n3 (fun c => sumN n1 (fun a => sumN n4 (fun e => sumN n2 (fun b => g a b c e)))) = sumN n1 (fun a => sumN n2 (fun b => sumN n3 (fun c => sumN n4 (fun e => g a b c e)))).
Proof. rewrite sumN_swap. apply sumN_ext. intros a _. apply (pull2 n3 n4 n2 (fun c e b => g a b c e)). Qed.
End Orders.

Section Step.
Context {A B : Type} {HA : SR A}.
Notation heap := (heap A).
Notation world := (world A).
Notation hotrg := (hotrg A).
Variable symdiff : list nat -> list nat -> list nat.
Hypothesis Hsd : symdiff_ok symdiff.
Variable fuel : nat.
Variable num : numerics A B.
Variable eig : eigen A.
Add Ring Aringh2 : (@SR_theory A HA).

Lemma label_dim (h : heap) t m n d : dense_legs h t m -> NoDup (map fst m) -> In (n, d) m -> shapeOfLabel h t (NStr n) false = Some d.
Proof.
  intros (_ & HL) ND Hn. unfold has_legs, names_of, dims_of in HL. rewrite combine_map_same in HL. unfold shapeOfLabel. pose proof (LabelProofs.getLeg_first h t (NStr n)) as G.
  destruct (getLeg h t (NStr n) false) as [l|]; cbn [option_map].
  - destruct G as (u & v & E & En & _). f_equal. assert (Hl : In (NStr n, legdim h l) (map (fun p : string * nat => (NStr (fst p), snd p)) m)).
    { eapply Permutation_in; [exact HL|]. apply in_map_iff. exists l. split; [now rewrite En|]. rewrite E. apply in_or_app. right. now left. }
    apply in_map_iff in Hl. destruct Hl as ([n' d'] & Ep & Hp). cbn in Ep. injection Ep as -> Ed. rewrite <- Ed. clear -ND Hn Hp. induction m as [|[a b] m IH]; [destruct Hn|]. cbn in ND. inversion ND as [|? ? N1 N2]; subst.
    destruct Hn as [Hn|Hn], Hp as [Hp|Hp].
    + congruence. + exfalso. apply N1. injection Hn as -> ->. now apply (in_map fst) in Hp. + exfalso. apply N1. injection Hp as -> ->. now apply (in_map fst) in Hn. + auto.
  - exfalso. apply G. unfold names_of. apply (Permutation_map fst) in HL. rewrite !map_map in HL. cbn [fst] in HL. eapply Permutation_in; [symmetry; exact HL|]. apply in_map_iff. exists (n, d). auto.
Qed.
(** the two tensors made from a projector *)
Lemma prj_ok (h h' : heap) t c k (m : arr A) p q : mkDense (Some [c; c; k]) (Some (map NStr [p; q; "o"])) (Some m) None None false h = (h', Ok t) -> wfa m -> ashape m = [c * c; k] -> NoDup [p; q; "o"] ->
  new_tensor h h' t None /\ dense_legs h' t [(p, c); (q, c); ("o", k)] /\
  forall x y o, x < c -> y < c -> o < k -> at_ h' t [(p, x); (q, y); ("o", o)] = aget m [x * c + y; o].
Proof.
  intros R W S ND. destruct (new_named _ _ _ _ _ _ W R ND) as (NT & DL & _ & _ & G).
  split; auto. split; auto. intros x y o Hx Hy Ho. specialize (G [x; y; o]). cbn [combine] in G. rewrite G by (constructor; [exact Hx|constructor; [exact Hy|constructor; [exact Ho|constructor]]]).
  unfold aget. rewrite S. f_equal. cbn [ravel prodn fold_right]. lia.
Qed.
Lemma prj_conj_ok (h h' : heap) t c k (m mc : arr A) p q : transposeConjugate (nu_conj num) m = Ok mc -> mkDense (Some [k; c; c]) (Some (map NStr ["o"; p; q])) (Some mc) None None false h = (h', Ok t) -> ashape m = [c * c; k] -> NoDup ["o"; p; q] ->
  new_tensor h h' t None /\ dense_legs h' t [(p, c); (q, c); ("o", k)] /\
  forall x y o, x < c -> y < c -> o < k -> at_ h' t [(p, x); (q, y); ("o", o)] = nu_conj num (aget m [x * c + y; o]).
Proof.
  intros EC R S ND. unfold transposeConjugate in EC. rewrite S in EC. injection EC as <-. destruct (new_named _ _ _ _ _ _ (tab_wfa _ _) R ND) as (NT & DL & _ & _ & G).
  split; auto. cbn [combine] in DL. assert (PM : Permutation [("o", k); (p, c); (q, c)] [(p, c); (q, c); ("o", k)]).
  { change [("o", k); (p, c); (q, c)] with ([("o", k)] ++ [(p, c); (q, c)]). apply Permutation_app_comm. }
  split; [eapply legs_perm; [exact PM|exact DL]|]. intros x y o Hx Hy Ho.
  rewrite (at_same h' t [("o", k); (p, c); (q, c)] _ [("o", o); (p, x); (q, y)] (proj2 DL)).
  2:{ inversion ND as [|? ? N1 N2]; subst. inversion N2 as [|? ? N3 N4]; subst. assert (p <> "o" /\ q <> "o" /\ p <> q) as (X1 & X2 & X3) by (repeat split; intros ->; cbn in N1, N3; tauto).
      intros n [<-|[<-|[<-|[]]]]; cbn [look fst snd map]; repeat (match goal with |- context [dec ?a ?b] => destruct (dec a b) end); try congruence; auto. }
  specialize (G [o; x; y]). cbn [combine] in G. rewrite G by (constructor; [exact Ho|constructor; [exact Hx|constructor; [exact Hy|constructor]]]).
  transitivity (aget (tab [k; c * c] (fun idx => nu_conj num (aget m [nth 1 idx 0; nth 0 idx 0]))) [o; x * c + y]).
  - symmetry. unfold aget at 1. cbn [tab ashape]. f_equal. cbn [ravel prodn fold_right]. ring.
  - rewrite aget_tab; [reflexivity|]. constructor; [exact Ho|]. constructor; [|constructor]. nia.
Qed.

Lemma nets_same (w w' : world) (g : hotrg) : nets_ready w g -> w_ftn w' = w_ftn w -> w_names w' = w_names w -> w_nftn w' = w_nftn w -> nets_ready w' g.
Proof.
  intros [a b c d e f N] E1 E2 E3. assert (G : forall x X, is_net w x X -> is_net w' x X) by (intros x X I; eapply is_net_same; [exact I|now rewrite E1|intros; now rewrite E2|rewrite E3; apply I]).
  split; auto.
Qed.
Lemma nets_heap (w : world) (g : hotrg) h : nets_ready w g -> nets_ready (with_heap w h) g.
Proof. intros N. eapply nets_same; eauto. Qed.
Lemma nets_contract (w w' : world) (g : hotrg) f d b r N : nets_ready w g -> contract symdiff fuel f d b w = (w', r) -> is_net w' f N ->
  In (f, N) [(o_hi g, hotrg_h_net); (o_vi g, hotrg_v_net); (o_hl g, horizontal_l_net); (o_hr g, horizontal_r_net); (o_vu g, vertical_u_net); (o_vd g, vertical_d_net)] -> nets_ready w' g.
Proof.
  intros [a1 a2 a3 a4 a5 a6 ND] R IN Hf. assert (G : forall x X, is_net w x X -> f <> x -> is_net w' x X).
  { intros x X I Nx. pose proof (is_net_other A HA symdiff fuel w x f d b X I Nx) as K. now rewrite R in K. }
  assert (K : forall x X, In (x, X) [(o_hi g, hotrg_h_net); (o_vi g, hotrg_v_net); (o_hl g, horizontal_l_net); (o_hr g, horizontal_r_net); (o_vu g, vertical_u_net); (o_vd g, vertical_d_net)] -> is_net w x X -> is_net w' x X).
  { intros x X Hx I. destruct (Nat.eq_dec f x) as [<-|NE]; [|now apply G]. assert (E : N = X).
    { revert Hx Hf. generalize (eq_refl [(o_hi g, hotrg_h_net); (o_vi g, hotrg_v_net); (o_hl g, horizontal_l_net); (o_hr g, horizontal_r_net); (o_vu g, vertical_u_net); (o_vd g, vertical_d_net)]).
      generalize [(o_hi g, hotrg_h_net); (o_vi g, hotrg_v_net); (o_hl g, horizontal_l_net); (o_hr g, horizontal_r_net); (o_vu g, vertical_u_net); (o_vd g, vertical_d_net)] at 1 3 4. intros l El H1 H2.
      assert (NDl : NoDup (map fst l)) by (rewrite El; exact ND). clear -NDl H1 H2. induction l as [|[a b] l IH]; [destruct H1|]. cbn in NDl. inversion NDl as [|? ? N1 N2]; subst.
      destruct H1 as [H1|H1], H2 as [H2|H2]; [congruence| | |auto]; exfalso; apply N1.
      - injection H1 as -> ->. now apply (in_map fst) in H2. - injection H2 as -> ->. now apply (in_map fst) in H1. }
    now rewrite <- E. }
  split; auto; apply K; auto; cbn; auto 10.
Qed.
Lemma directed_ok (w w' : world) (g : hotrg) d prj t1 t2 V H k a : directedIterate symdiff fuel num g d prj t1 t2 w = (w', Ok a) -> nets_ready w g ->
  square (w_heap w) t1 V H -> square (w_heap w) t2 V H -> wfa prj -> ashape prj = [cut d V H * cut d V H; k] ->
  In d dirs /\ square (w_heap w') a (newV d V k) (newH d H k) /\ nets_ready w' g /\ grown (w_heap w) (w_heap w') /\ ntens (w_heap w) <= a /\
  forall u l dd r, u < newV d V k -> l < newH d H k -> dd < newV d V k -> r < newH d H k ->
    entry4 (w_heap w') a u l dd r = unturn d (fused (kept d V H) (cut d V H) (turn d (entry4 (w_heap w) t1)) (turn d (entry4 (w_heap w) t2)) (fun i o => aget prj [i; o]) (fun i o => nu_conj num (aget prj [i; o]))) u l dd r.
Proof.
  intros R NR Q1 Q2 W S. unfold directedIterate in R. apply wbind_inv in R. destruct R as (w1 & [] & R1 & R). apply liftR_inv in R1. destruct R1 as (-> & R1).
  assert (Hd : In d dirs). { unfold assertInSet in R1. destruct (inb d ["u"; "d"; "l"; "r"]) eqn:E; [|discriminate]. now apply FuncsProofs.inb_spec in E. }
  split; [exact Hd|]. clear R1.
  assert (ND4 : NoDup (map fst [("u", V); ("l", H); ("d", V); ("r", H)])) by now apply nodupb_ok.
  apply wbind_inv in R. destruct R as (w1 & cH & R1 & R). apply lift_inv in R1. destruct R1 as (h1 & R1 & ->). unfold dimOfLabel, readsR in R1. rewrite (label_dim _ _ _ "l" H Q1 ND4) in R1 by (cbn; auto). injection R1 as <- <-.
  apply wbind_inv in R. destruct R as (w1 & cV & R1 & R). apply lift_inv in R1. destruct R1 as (h1 & R1 & ->). cbn [with_heap w_heap] in R1. unfold dimOfLabel, readsR in R1. rewrite (label_dim _ _ _ "u" V Q1 ND4) in R1 by (cbn; auto). injection R1 as <- <-.
  rewrite S in R. cbn [nth] in R.
  assert (W0 : with_heap (with_heap w (w_heap w)) (w_heap w) = w) by (destruct w; reflexivity). rewrite W0 in R. clear W0.

  assert (PH : forall (h' : heap) t V' H', dense_legs h' t [("u", V'); ("d", V'); ("l", H'); ("r", H')] -> square h' t V' H').
  { intros h' t V' H' D. unfold square. eapply legs_perm; [|exact D]. apply perm_skip. apply perm_swap. }
  assert (EP : forall (h' : heap) t V' H' u l dd r, square h' t V' H' -> entry4 h' t u l dd r = at_ h' t [("u", u); ("d", dd); ("l", l); ("r", r)]).
  { intros h' t V' H' u l dd r Q. unfold entry4. apply (at_same h' t _ _ _ (proj2 Q)). intros n Hn. enum_in Hn ltac:(vm_compute; reflexivity). }
  (* the two tensors of the projector, with labels p and q *)
  assert (MK : forall p q c, NoDup [p; q; "o"] -> NoDup ["o"; p; q] -> ashape prj = [c * c; k] -> forall X (K : tid -> tid -> WM X) w' x,
    wbind (lift (mkDense (Some [c; c; k]) (Some (map NStr [p; q; "o"])) (Some prj) None None false)) (fun lt =>
      wbind (wliftR (transposeConjugate (nu_conj num) prj)) (fun tc => wbind (lift (mkDense (Some [k; c; c]) (Some (map NStr ["o"; p; q])) (Some tc) None None false)) (fun rt => K lt rt))) w = (w', Ok x) ->
    exists h' lt rt, K lt rt (with_heap w h') = (w', Ok x) /\ grown (w_heap w) h' /\ dense_legs h' lt [(p, c); (q, c); ("o", k)] /\ dense_legs h' rt [(p, c); (q, c); ("o", k)] /\
      (forall x y o, x < c -> y < c -> o < k -> at_ h' lt [(p, x); (q, y); ("o", o)] = aget prj [x * c + y; o]) /\
      (forall x y o, x < c -> y < c -> o < k -> at_ h' rt [(p, x); (q, y); ("o", o)] = nu_conj num (aget prj [x * c + y; o]))).
  { clear R PH EP. intros p q c N1 N2 S' X K w2 x R. apply wbind_inv in R. destruct R as (w1 & lt & R1 & R). apply lift_inv in R1. destruct R1 as (h1 & R1 & ->).
    apply wbind_inv in R. destruct R as (w1 & tc & R2 & R). apply liftR_inv in R2. destruct R2 as (-> & R2). apply wbind_inv in R. destruct R as (w1 & rt & R3 & R). apply lift_inv in R3. destruct R3 as (h3 & R3 & ->). cbn [with_heap w_heap] in R3.
    apply prj_ok in R1; auto. destruct R1 as (NT1 & D1 & G1). apply (prj_conj_ok _ _ _ _ _ _ _ _ _ R2) in R3; auto. destruct R3 as (NT3 & D3 & G3).
    pose proof (new_grown _ _ _ NT1) as W1. pose proof (new_grown _ _ _ NT3) as W3. destruct (grown_dense _ _ _ _ W3 D1) as (D1' & E1' & _).
    exists h3, lt, rt. split; [exact R|]. split; [eapply grown_trans; eauto|]. split; [exact D1'|]. split; [exact D3|]. split; auto. intros. rewrite E1'. auto. }
  assert (LAST : forall f N (h' : heap) dct, grown (w_heap w) h' -> contract symdiff fuel f dct true (with_heap w h') = (w', Ok a) -> is_net w' f N ->
    In (f, N) [(o_hi g, hotrg_h_net); (o_vi g, hotrg_v_net); (o_hl g, horizontal_l_net); (o_hr g, horizontal_r_net); (o_vu g, vertical_u_net); (o_vd g, vertical_d_net)] ->
    nets_ready w' g /\ grown (w_heap w) (w_heap w') /\ ntens (w_heap w) <= a).
  { intros f N h' dct GW RC I IN. split; [eapply nets_contract; [apply (nets_heap w g h' NR)|exact RC|exact I|exact IN]|]. pose proof (contract_grown _ _ _ _ _ _ _ _ RC) as G. pose proof (contract_frame _ _ _ _ _ _ _ _ RC) as (_ & _ & _ & (Ha & _)). cbn [with_heap w_heap] in G, Ha.
    split; [eapply grown_trans; eauto|]. destruct GW as [_ _ _ GT]. lia. }
  destruct Hd as [<-|[<-|[<-|[<-|[]]]]]; cbn in S.
  - (* u *) change (inb "u" ["l"; "r"]) with false in R. cbv iota in R. apply MK in R; [|now apply nodupb_ok|now apply nodupb_ok|exact S]. destruct R as (h' & ut & dt & R & GW & D1 & D2 & G1 & G2).
    change (if dec "u" "d" then (dt, ut) else (ut, dt)) with (ut, dt) in R. cbv iota in R.
    destruct (grown_dense _ _ _ _ GW Q1) as (Q1' & E1 & _). destruct (grown_dense _ _ _ _ GW Q2) as (Q2' & E2 & _).
    assert (IN : is_net (with_heap w h') (o_vi g) hotrg_v_net) by (apply (is_net_heap A w (o_vi g) hotrg_v_net h'); apply NR).
    destruct (hotrg_v_value symdiff Hsd fuel _ _ _ _ ut dt t1 t2 V V V V H k k H H R IN D1 D2 Q1' Q2') as (QA & IA & EV). cbn [with_heap w_heap] in EV.
    split; [now apply PH|]. destruct (LAST _ _ _ _ GW R IA) as (X1 & X2 & X3); [cbn; auto 10|]. split; [exact X1|]. split; [exact X2|]. split; [exact X3|].
    change (forall u l dd r, u < k -> l < H -> dd < k -> r < H -> entry4 (w_heap w') a u l dd r = fused H V (fun u l dd r => entry4 (w_heap w) t1 l u r dd) (fun u l dd r => entry4 (w_heap w) t2 l u r dd) (fun i o => aget prj [i; o]) (fun i o => nu_conj num (aget prj [i; o])) l u r dd).
    intros u l dd r Hu Hl Hdd Hr. rewrite (EP _ _ _ _ u l dd r (PH _ _ _ _ QA)), EV by auto. unfold fused, pillar.
    apply sumN_ext. intros x1 H1. apply sumN_ext. intros x2 H2. apply sumN_ext. intros x3 H3. apply sumN_ext. intros x4 H4. rewrite <- !sumN_mul_r. apply sumN_ext. intros x5 H5.
    rewrite G1, G2, E1, E2 by auto. unfold entry4. ring.
  - (* d *) change (inb "d" ["l"; "r"]) with false in R. cbv iota in R. apply MK in R; [|now apply nodupb_ok|now apply nodupb_ok|exact S]. destruct R as (h' & ut & dt & R & GW & D1 & D2 & G1 & G2).
    change (if dec "d" "d" then (dt, ut) else (ut, dt)) with (dt, ut) in R. cbv iota in R.
    destruct (grown_dense _ _ _ _ GW Q1) as (Q1' & E1 & _). destruct (grown_dense _ _ _ _ GW Q2) as (Q2' & E2 & _).
    assert (IN : is_net (with_heap w h') (o_vi g) hotrg_v_net) by (apply (is_net_heap A w (o_vi g) hotrg_v_net h'); apply NR).
    destruct (hotrg_v_value symdiff Hsd fuel _ _ _ _ dt ut t1 t2 V V V V H k k H H R IN D2 D1 Q1' Q2') as (QA & IA & EV). cbn [with_heap w_heap] in EV.
    split; [now apply PH|]. destruct (LAST _ _ _ _ GW R IA) as (X1 & X2 & X3); [cbn; auto 10|]. split; [exact X1|]. split; [exact X2|]. split; [exact X3|].
    change (forall u l dd r, u < k -> l < H -> dd < k -> r < H -> entry4 (w_heap w') a u l dd r = fused H V (fun u l dd r => entry4 (w_heap w) t1 r u l dd) (fun u l dd r => entry4 (w_heap w) t2 r u l dd) (fun i o => aget prj [i; o]) (fun i o => nu_conj num (aget prj [i; o])) l dd r u).
    intros u l dd r Hu Hl Hdd Hr. rewrite (EP _ _ _ _ u l dd r (PH _ _ _ _ QA)), EV by auto. unfold fused, pillar. rewrite <- ord_d.
    apply sumN_ext. intros x1 H1. apply sumN_ext. intros x2 H2. apply sumN_ext. intros x3 H3. apply sumN_ext. intros x4 H4. rewrite <- !sumN_mul_r. apply sumN_ext. intros x5 H5.
    rewrite G1, G2, E1, E2 by auto. unfold entry4. ring.
  - (* l *) change (inb "l" ["l"; "r"]) with true in R. cbv iota in R. apply MK in R; [|now apply nodupb_ok|now apply nodupb_ok|exact S]. destruct R as (h' & ut & dt & R & GW & D1 & D2 & G1 & G2).
    change (if dec "l" "r" then (dt, ut) else (ut, dt)) with (ut, dt) in R. cbv iota in R.
    destruct (grown_dense _ _ _ _ GW Q1) as (Q1' & E1 & _). destruct (grown_dense _ _ _ _ GW Q2) as (Q2' & E2 & _).
    assert (IN : is_net (with_heap w h') (o_hi g) hotrg_h_net) by (apply (is_net_heap A w (o_hi g) hotrg_h_net h'); apply NR).
    destruct (hotrg_h_value symdiff Hsd fuel _ _ _ _ t1 t2 ut dt H H H H V V V k k R IN Q1' Q2' D1 D2) as (QA & IA & EV). cbn [with_heap w_heap] in EV.
    split; [now apply PH|]. destruct (LAST _ _ _ _ GW R IA) as (X1 & X2 & X3); [cbn; auto 10|]. split; [exact X1|]. split; [exact X2|]. split; [exact X3|].
    change (forall u l dd r, u < V -> l < k -> dd < V -> r < k -> entry4 (w_heap w') a u l dd r = fused V H (entry4 (w_heap w) t1) (entry4 (w_heap w) t2) (fun i o => aget prj [i; o]) (fun i o => nu_conj num (aget prj [i; o])) u l dd r).
    intros u l dd r Hu Hl Hdd Hr. rewrite (EP _ _ _ _ u l dd r (PH _ _ _ _ QA)), EV by auto. unfold fused, pillar. rewrite <- ord_l.
    apply sumN_ext. intros x1 H1. apply sumN_ext. intros x2 H2. apply sumN_ext. intros x3 H3. apply sumN_ext. intros x4 H4. rewrite <- !sumN_mul_r. apply sumN_ext. intros x5 H5.
    rewrite G1, G2, E1, E2 by auto. unfold entry4. ring.
  - (* r *) change (inb "r" ["l"; "r"]) with true in R. cbv iota in R. apply MK in R; [|now apply nodupb_ok|now apply nodupb_ok|exact S]. destruct R as (h' & ut & dt & R & GW & D1 & D2 & G1 & G2).
    change (if dec "r" "r" then (dt, ut) else (ut, dt)) with (dt, ut) in R. cbv iota in R.
    destruct (grown_dense _ _ _ _ GW Q1) as (Q1' & E1 & _). destruct (grown_dense _ _ _ _ GW Q2) as (Q2' & E2 & _).
    assert (IN : is_net (with_heap w h') (o_hi g) hotrg_h_net) by (apply (is_net_heap A w (o_hi g) hotrg_h_net h'); apply NR).
    destruct (hotrg_h_value symdiff Hsd fuel _ _ _ _ t1 t2 dt ut H H H H V V V k k R IN Q1' Q2' D2 D1) as (QA & IA & EV). cbn [with_heap w_heap] in EV.
    split; [now apply PH|]. destruct (LAST _ _ _ _ GW R IA) as (X1 & X2 & X3); [cbn; auto 10|]. split; [exact X1|]. split; [exact X2|]. split; [exact X3|].
    change (forall u l dd r, u < V -> l < k -> dd < V -> r < k -> entry4 (w_heap w') a u l dd r = fused V H (fun u l dd r => entry4 (w_heap w) t1 u r dd l) (fun u l dd r => entry4 (w_heap w) t2 u r dd l) (fun i o => aget prj [i; o]) (fun i o => nu_conj num (aget prj [i; o])) u r dd l).
    intros u l dd r Hu Hl Hdd Hr. rewrite (EP _ _ _ _ u l dd r (PH _ _ _ _ QA)), EV by auto. unfold fused, pillar. symmetry. rewrite <- ord_r. symmetry.
    apply sumN_ext. intros x1 H1. apply sumN_ext. intros x2 H2. apply sumN_ext. intros x3 H3. apply sumN_ext. intros x4 H4. rewrite <- !sumN_mul_r. apply sumN_ext. intros x5 H5.
    rewrite G1, G2, E1, E2 by auto. unfold entry4. ring.
Qed.

(** the sums of a trial, brought into the order of the specification *)
Lemma env_rows V H (p q : nat -> nat -> nat -> nat -> nat -> A) :
  sumN V (fun x1 => sumN H (fun x2 => sumN V (fun x3 => sumN H (fun x4 => sumN V (fun x5 => sumN V (fun x6 => rmul (p x1 x2 x4 x5 x6) (q x3 x2 x4 x5 x6))))))) =
  sumN V (fun x5 => sumN V (fun x6 => sumN H (fun x2 => sumN H (fun x4 => rmul (sumN V (fun x1 => p x1 x2 x4 x5 x6)) (sumN V (fun x3 => q x3 x2 x4 x5 x6)))))).
Proof.
  rewrite (pull4 V H V H V (fun x1 x2 x3 x4 x5 => sumN V (fun x6 => rmul (p x1 x2 x4 x5 x6) (q x3 x2 x4 x5 x6)))). apply sumN_ext. intros x5 _.
  rewrite (pull4 V H V H V (fun x1 x2 x3 x4 x6 => rmul (p x1 x2 x4 x5 x6) (q x3 x2 x4 x5 x6))). apply sumN_ext. intros x6 _.
  rewrite sumN_swap. apply sumN_ext. intros x2 _. rewrite (pull2 V V H (fun x1 x3 x4 => rmul (p x1 x2 x4 x5 x6) (q x3 x2 x4 x5 x6))). apply sumN_ext. intros x4 _. apply sumN_prod.
Qed.
Lemma env_cols V H (p q : nat -> nat -> nat -> nat -> nat -> A) :
  sumN V (fun x1 => sumN H (fun x2 => sumN V (fun x3 => sumN H (fun x4 => sumN H (fun x5 => sumN H (fun x6 => rmul (p x2 x1 x3 x5 x6) (q x4 x1 x3 x5 x6))))))) =
  sumN H (fun x5 => sumN H (fun x6 => sumN V (fun x1 => sumN V (fun x3 => rmul (sumN H (fun x2 => p x2 x1 x3 x5 x6)) (sumN H (fun x4 => q x4 x1 x3 x5 x6)))))).
Proof.
  rewrite (pull4 V H V H H (fun x1 x2 x3 x4 x5 => sumN H (fun x6 => rmul (p x2 x1 x3 x5 x6) (q x4 x1 x3 x5 x6)))). apply sumN_ext. intros x5 _.
  rewrite (pull4 V H V H H (fun x1 x2 x3 x4 x6 => rmul (p x2 x1 x3 x5 x6) (q x4 x1 x3 x5 x6))). apply sumN_ext. intros x6 _.
  apply sumN_ext. intros x1 _. rewrite sumN_swap. apply sumN_ext. intros x3 _. apply sumN_prod.
Qed.
Lemma trial_ok (w w' : world) (g : hotrg) d V H e P : directedIterateTrial symdiff fuel num eig g d w = (w', Ok (e, P)) -> In d dirs -> nets_ready w g -> square (w_heap w) (o_a g) V H -> eigh_shape eig (env_of (w_heap w) g V H d) (cut d V H * cut d V H) ->
  let c := cut d V H in let m := env_of (w_heap w) g V H d in
  e = env_error eig num m (c * c) (chi_of g d) /\ wfa P /\ ashape P = [c * c; kept_count eig m (c * c) (chi_of g d)] /\
  (forall i o, i < c * c -> o < kept_count eig m (c * c) (chi_of g d) -> aget P [i; o] = proj eig m (c * c) i o) /\ nets_ready w' g /\ grown (w_heap w) (w_heap w').
Proof.
  intros R Hd NR Q ES c m.
  assert (MAT : forall (h' : heap) t n d' op T, dense_legs h' t [(d', n * n); (op, n * n)] -> d' <> op ->
    (forall a b a' b', a < n -> b < n -> a' < n -> b' < n -> at_ h' t [(d', a * n + b); (op, a' * n + b')] = T a b a' b') -> toMatrix h' t (Some [RStr d']) (Some [RStr op]) = Ok (mat4 n n T)).
  { intros h' t n d' op T DL NE EV. destruct (toMatrix_named h' t [(d', n * n)] [(op, n * n)] DL) as (m' & E & W & SS & G); [constructor; [cbn; intros [X|[]]; congruence|constructor; [intros []|constructor]]|discriminate|discriminate|].
    cbn [map fst snd] in E. rewrite E. f_equal. cbn [map snd prodn fold_right] in SS, G. rewrite Nat.mul_1_r in SS. apply mat4_unique; auto. intros x y z v Hx Hy Hz Hv.
    specialize (G [x * n + y] [z * n + v]). cbn [ravel prodn fold_right] in G. rewrite !Nat.mul_1_r, !Nat.add_0_r in G.
    rewrite G by (constructor; [apply pair_ravel; auto|constructor]). cbn [map combine app fst]. now apply EV. }
  unfold directedIterateTrial in R. apply wbind_inv in R. destruct R as (w1 & [] & R1 & R). apply liftR_inv in R1. destruct R1 as (-> & _).
  apply wbind_inv in R. destruct R as (w1 & t & RC & R).
  assert (GOAL : forall op f N, oppositeDirection d = Ok op -> d <> op -> contract symdiff fuel f (makeSquareTensorDict (o_a g) None) true w = (w1, Ok t) -> is_net w1 f N ->
    In (f, N) [(o_hi g, hotrg_h_net); (o_vi g, hotrg_v_net); (o_hl g, horizontal_l_net); (o_hr g, horizontal_r_net); (o_vu g, vertical_u_net); (o_vd g, vertical_d_net)] ->
    dense_legs (w_heap w1) t [(d, c * c); (op, c * c)] -> 
    (forall a b a' b', a < c -> b < c -> a' < c -> b' < c -> at_ (w_heap w1) t [(d, a * c + b); (op, a' * c + b')] =
      sumN (kept d V H) (fun u => sumN (kept d V H) (fun dd => sumN c (fun x => sumN c (fun y => rmul (pillar (kept d V H) (turn d (entry4 (w_heap w) (o_a g))) (turn d (entry4 (w_heap w) (o_a g))) u a b dd x y) (pillar (kept d V H) (turn d (entry4 (w_heap w) (o_a g))) (turn d (entry4 (w_heap w) (o_a g))) u a' b' dd x y)))))) ->
    (if dec d "l" then o_chiH g else if dec d "r" then o_chiH g else o_chiV g) = chi_of g d ->
    e = env_error eig num m (c * c) (chi_of g d) /\ wfa P /\ ashape P = [c * c; kept_count eig m (c * c) (chi_of g d)] /\
    (forall i o, i < c * c -> o < kept_count eig m (c * c) (chi_of g d) -> aget P [i; o] = proj eig m (c * c) i o) /\ nets_ready w' g /\ grown (w_heap w) (w_heap w')).
  { intros op f N EO NE RC' IA IN DL EV EC. apply wbind_inv in R. destruct R as (w2 & op' & R1 & R). apply liftR_inv in R1. destruct R1 as (-> & R1). rewrite EO in R1. injection R1 as <-.
    apply wbind_inv in R. destruct R as (w2 & m' & R1 & R). apply lift_inv in R1. destruct R1 as (h2 & R1 & ->). unfold readsR in R1. rewrite (MAT _ _ _ _ _ _ DL NE EV) in R1. injection R1 as <- <-.
    change (mat4 c c _) with m in R. rewrite EC in R. apply wbind_inv in R. destruct R as (w2 & pe & R1 & R). apply liftR_inv in R1. destruct R1 as (-> & R1).
    destruct (solveEnv_spec eig num m (c * c) (chi_of g d) eq_refl ES) as (P' & EP & WP & SP & GP). rewrite EP in R1. injection R1 as <-. cbn [fst snd] in R. injection R as <- <- <-.
    split; [reflexivity|]. split; [exact WP|]. split; [exact SP|]. split; [exact GP|]. split.
    - apply (nets_heap _ _ (w_heap w1)). eapply nets_contract; [exact NR|exact RC'|exact IA|exact IN].
    - cbn [with_heap w_heap]. eapply contract_grown. exact RC'. }
  destruct NR as [n1 n2 n3 n4 n5 n6 ND]. destruct Hd as [<-|[<-|[<-|[<-|[]]]]].
  - change (contract symdiff fuel (o_vu g) (makeSquareTensorDict (o_a g) None) true w = (w1, Ok t)) in RC.
    destruct (vertical_u_value symdiff Hsd fuel _ _ _ _ _ _ _ _ V H V H H H V V V V RC n5 Q Q Q Q) as (DL & IA & EV).
    assert (PM : dense_legs (w_heap w1) t [("u", V * V); ("d", V * V)]) by (eapply legs_perm; [apply perm_swap|exact DL]).
    apply (GOAL "d" (o_vu g) vertical_u_net); auto; [discriminate|cbn; auto 10|].
    intros a b a' b' Ha Hb Ha' Hb'. rewrite (at_same _ _ _ _ [("d", a' * V + b'); ("u", a * V + b)] (proj2 PM)) by (intros n Hn; enum_in Hn ltac:(vm_compute; reflexivity)).
    change (cut "u" V H) with V in *. rewrite EV by auto. 
    etransitivity; [|apply (env_cols V H (fun x2 x1 x3 x5 x6 => rmul (turn "u" (entry4 (w_heap w) (o_a g)) x5 a x2 x1) (turn "u" (entry4 (w_heap w) (o_a g)) x2 b x6 x3)) (fun x4 x1 x3 x5 x6 => rmul (turn "u" (entry4 (w_heap w) (o_a g)) x5 a' x4 x1) (turn "u" (entry4 (w_heap w) (o_a g)) x4 b' x6 x3)))].
    apply sumN_ext. intros x1 _. apply sumN_ext. intros x2 _. apply sumN_ext. intros x3 _. apply sumN_ext. intros x4 _. apply sumN_ext. intros x5 _. apply sumN_ext. intros x6 _.
    unfold turn, entry4. cbn [String.eqb Ascii.eqb Bool.eqb]. ring.
  - change (contract symdiff fuel (o_vd g) (makeSquareTensorDict (o_a g) None) true w = (w1, Ok t)) in RC.
    destruct (vertical_d_value symdiff Hsd fuel _ _ _ _ _ _ _ _ V H V H H H V V V V RC n6 Q Q Q Q) as (DL & IA & EV).
    assert (PM : dense_legs (w_heap w1) t [("d", V * V); ("u", V * V)]) by (eapply legs_perm; [apply perm_swap|exact DL]).
    apply (GOAL "u" (o_vd g) vertical_d_net); auto; [discriminate|cbn; auto 10|].
    intros a b a' b' Ha Hb Ha' Hb'. rewrite (at_same _ _ _ _ [("u", a' * V + b'); ("d", a * V + b)] (proj2 PM)) by (intros n Hn; enum_in Hn ltac:(vm_compute; reflexivity)).
    change (cut "d" V H) with V in *. rewrite EV by auto.
    etransitivity; [|apply (env_cols V H (fun x4 x1 x3 x5 x6 => rmul (turn "d" (entry4 (w_heap w) (o_a g)) x5 a x4 x1) (turn "d" (entry4 (w_heap w) (o_a g)) x4 b x6 x3)) (fun x2 x1 x3 x5 x6 => rmul (turn "d" (entry4 (w_heap w) (o_a g)) x5 a' x2 x1) (turn "d" (entry4 (w_heap w) (o_a g)) x2 b' x6 x3)))].
    apply sumN_ext. intros x1 _. symmetry. rewrite sumN_swap. symmetry. rewrite sumN_swap. apply sumN_ext. intros x3 _. rewrite sumN_swap. apply sumN_ext. intros x4 _. apply sumN_ext. intros x2 _. apply sumN_ext. intros x5 _. apply sumN_ext. intros x6 _.
    unfold turn, entry4. cbn [String.eqb Ascii.eqb Bool.eqb]. ring.
  - change (contract symdiff fuel (o_hl g) (makeSquareTensorDict (o_a g) None) true w = (w1, Ok t)) in RC.
    destruct (horizontal_l_value symdiff Hsd fuel _ _ _ _ _ _ _ _ V H V H V V H H H H RC n3 Q Q Q Q) as (DL & IA & EV).
    assert (PM : dense_legs (w_heap w1) t [("l", H * H); ("r", H * H)]) by (eapply legs_perm; [apply perm_swap|exact DL]).
    apply (GOAL "r" (o_hl g) horizontal_l_net); auto; [discriminate|cbn; auto 10|].
    intros a b a' b' Ha Hb Ha' Hb'. rewrite (at_same _ _ _ _ [("r", a' * H + b'); ("l", a * H + b)] (proj2 PM)) by (intros n Hn; enum_in Hn ltac:(vm_compute; reflexivity)).
    change (cut "l" V H) with H in *. rewrite EV by auto.
    etransitivity; [|apply (env_rows V H (fun x1 x2 x4 x5 x6 => rmul (turn "l" (entry4 (w_heap w) (o_a g)) x5 a x1 x2) (turn "l" (entry4 (w_heap w) (o_a g)) x1 b x6 x4)) (fun x3 x2 x4 x5 x6 => rmul (turn "l" (entry4 (w_heap w) (o_a g)) x5 a' x3 x2) (turn "l" (entry4 (w_heap w) (o_a g)) x3 b' x6 x4)))].
    apply sumN_ext. intros x1 _. apply sumN_ext. intros x2 _. apply sumN_ext. intros x3 _. apply sumN_ext. intros x4 _. apply sumN_ext. intros x5 _. apply sumN_ext. intros x6 _.
    unfold turn, entry4. cbn [String.eqb Ascii.eqb Bool.eqb]. ring.
  - change (contract symdiff fuel (o_hr g) (makeSquareTensorDict (o_a g) None) true w = (w1, Ok t)) in RC.
    destruct (horizontal_r_value symdiff Hsd fuel _ _ _ _ _ _ _ _ V H V H V V H H H H RC n4 Q Q Q Q) as (DL & IA & EV).
    assert (PM : dense_legs (w_heap w1) t [("r", H * H); ("l", H * H)]) by (eapply legs_perm; [apply perm_swap|exact DL]).
    apply (GOAL "l" (o_hr g) horizontal_r_net); auto; [discriminate|cbn; auto 10|].
    intros a b a' b' Ha Hb Ha' Hb'. rewrite (at_same _ _ _ _ [("l", a' * H + b'); ("r", a * H + b)] (proj2 PM)) by (intros n Hn; enum_in Hn ltac:(vm_compute; reflexivity)).
    change (cut "r" V H) with H in *. rewrite EV by auto.
    etransitivity; [|apply (env_rows V H (fun x1 x2 x4 x5 x6 => rmul (turn "r" (entry4 (w_heap w) (o_a g)) x5 a x1 x2) (turn "r" (entry4 (w_heap w) (o_a g)) x1 b x6 x4)) (fun x3 x2 x4 x5 x6 => rmul (turn "r" (entry4 (w_heap w) (o_a g)) x5 a' x3 x2) (turn "r" (entry4 (w_heap w) (o_a g)) x3 b' x6 x4)))].
    symmetry. rewrite sumN_swap. symmetry. rewrite sumN_swap. apply sumN_ext. intros x2 _. rewrite sumN_swap. apply sumN_ext. intros x3 _. apply sumN_ext. intros x1 _. apply sumN_ext. intros x4 _. apply sumN_ext. intros x5 _. apply sumN_ext. intros x6 _.
    unfold turn, entry4. cbn [String.eqb Ascii.eqb Bool.eqb]. ring.
Qed.

Lemma turn_ext d (T T' : nat -> nat -> nat -> nat -> A) : (forall u l dd r, T u l dd r = T' u l dd r) -> forall u l dd r, turn d T u l dd r = turn d T' u l dd r.
Proof. intros E u l dd r. unfold turn. destruct (String.eqb d "l"), (String.eqb d "r"), (String.eqb d "u"); auto. Qed.
Lemma env_ext V H (T T' : nat -> nat -> nat -> nat -> A) : (forall u l dd r, T u l dd r = T' u l dd r) -> env V H T = env V H T'.
Proof.
  intros E. unfold env. apply mat4_unique; [apply tab_wfa|reflexivity|]. intros x y z w Hx Hy Hz Hw. rewrite mat4_get by auto.
  assert (P : forall u a b d c e, pillar V T T u a b d c e = pillar V T' T' u a b d c e) by (intros; apply sumN_ext; intros; now rewrite !E).
  apply sumN_ext. intros. apply sumN_ext. intros. apply sumN_ext. intros. apply sumN_ext. intros. now rewrite !P.
Qed.
Lemma env_of_grown (h h' : heap) (g : hotrg) V H d : grown h h' -> square h (o_a g) V H -> env_of h' g V H d = env_of h g V H d.
Proof.
  intros G Q. unfold env_of. apply env_ext. apply turn_ext. intros u l dd r. unfold entry4. apply (grown_dense _ _ _ _ G Q).
Qed.
(** the loop over the directions *)
Fixpoint pick (err : string -> A) (ds : list string) (best : option string) : option string :=
  match ds with
  | [] => best
  | d :: ds' => pick err ds' (if match best with None => true | Some b => ei_neg eig (err b) || ei_less eig (err d) (err b) end then Some d else best)
  end.
Definition fits (h : heap) (g : hotrg) V H (best : option (A * string * arr A)) (b : option string) : Prop :=
  match best, b with
  | None, None => True
  | Some (e, d, P), Some d' => d = d' /\ In d dirs /\ e = err_of eig num h g V H d /\ wfa P /\ ashape P = [cut d V H * cut d V H; proj_dim eig h g V H d] /\
      forall i o, i < cut d V H * cut d V H -> o < proj_dim eig h g V H d -> aget P [i; o] = proj eig (env_of h g V H d) (cut d V H * cut d V H) i o
  | _, _ => False
  end.
Lemma try_ok (g : hotrg) V H h0 ds : forall w w' best b r, tryDirections symdiff fuel num eig g ds best w = (w', Ok r) -> (forall d, In d ds -> In d dirs) -> grown h0 (w_heap w) -> nets_ready w g -> square h0 (o_a g) V H -> eigh_ok eig h0 g V H ->
  fits h0 g V H best b -> fits h0 g V H r (pick (err_of eig num h0 g V H) ds b) /\ nets_ready w' g /\ grown h0 (w_heap w').
Proof.
  induction ds as [|d ds IH]; intros w w' best b r R Hd GR NR Q EO FT; cbn [tryDirections pick] in *.
  - injection R as <- <-. auto.
  - apply wbind_inv in R. destruct R as (w1 & [e P] & R1 & R). cbn [fst snd] in R. destruct (grown_dense _ _ _ _ GR Q) as (Q' & _ & _). assert (EE : env_of (w_heap w) g V H d = env_of h0 g V H d) by now apply env_of_grown.
    assert (Hd0 : In d dirs) by (apply Hd; now left).
    destruct (trial_ok w w1 g d V H e P R1 Hd0 NR Q') as (Ee & WP & SP & GP & NR1 & G1). { rewrite EE. now apply EO. }
    rewrite EE in Ee, SP, GP. eapply IH; [exact R|intros; apply Hd; now right|eapply grown_trans; eauto|exact NR1|exact Q|exact EO|].
    assert (NEW : fits h0 g V H (Some (e, d, P)) (Some d)) by (cbn; auto 10).
    destruct best as [[[e' d'] P']|], b as [b|]; cbn [fits] in FT; try tauto.
    + destruct FT as (-> & Hb & Eb & rest). cbn [better]. rewrite Eb, Ee. fold (err_of eig num h0 g V H d). destruct (ei_neg eig (err_of eig num h0 g V H b) || ei_less eig (err_of eig num h0 g V H d) (err_of eig num h0 g V H b)).
      * cbn [fits]. split; [reflexivity|]. split; [exact Hd0|]. split; [reflexivity|]. auto.
      * cbn [fits]. auto.
Qed.
Lemma pick_first err : order_ok eig -> forall ds done b, (forall d, In d (done ++ ds) -> ei_neg eig (err d) = false) ->
  (exists before after, done = before ++ b :: after /\ (forall d', In d' before -> ei_less eig (err b) (err d') = true) /\ (forall d', In d' after -> ei_less eig (err d') (err b) = false)) ->
  exists b', pick err ds (Some b) = Some b' /\
    exists before after, done ++ ds = before ++ b' :: after /\ (forall d', In d' before -> ei_less eig (err b') (err d') = true) /\ (forall d', In d' after -> ei_less eig (err d') (err b') = false).
Proof.
  intros [OI OT OC]. induction ds as [|d ds IH]; intros done b NN INV; cbn [pick].
  - exists b. split; auto. now rewrite app_nil_r.
  - destruct INV as (be & af & -> & IB & IA).
    rewrite (NN b) by (apply in_or_app; left; apply in_or_app; right; now left). cbn [orb]. replace ((be ++ b :: af) ++ d :: ds) with (((be ++ b :: af) ++ [d]) ++ ds) by (rewrite <- (app_assoc _ [d]); reflexivity).
    destruct (ei_less eig (err d) (err b)) eqn:E.
    + apply IH. { intros x Hx. apply NN. rewrite <- app_assoc in Hx. exact Hx. } exists (be ++ b :: af), []. split; [reflexivity|]. split; [|intros x []].
      intros x Hx. apply in_app_or in Hx. destruct Hx as [Hx|[<-|Hx]]; [|exact E|].
      * eapply OT; [exact E|now apply IB].
      * destruct (ei_less eig (err d) (err x)) eqn:E2; auto. rewrite (OC _ _ _ E2 (IA x Hx)) in E. discriminate.
    + apply IH. { intros x Hx. apply NN. rewrite <- app_assoc in Hx. exact Hx. } exists be, (af ++ [d]). split; [now rewrite <- app_assoc|]. split; [exact IB|].
      intros x Hx. apply in_app_or in Hx. destruct Hx as [Hx|[<-|[]]]; auto.
Qed.
Lemma appendH_ok (w w' : world) (g g' : hotrg) V H : appendToArchiveH num g w = (w', Ok g') -> square (w_heap w) (o_a g) V H ->
  exists n c, g' = mkHotrg (o_a g) (o_dof g) (o_chiH g) (o_chiV g) (o_hi g) (o_vi g) (o_hl g) (o_hr g) (o_vu g) (o_vd g) (o_norms g ++ [n]) (o_errors g) (o_archive g ++ [(c, o_dof g)]) (o_choices g) (o_projs g) /\
    w_names w' = w_names w /\ w_nnames w' = w_nnames w /\ w_ftn w' = w_ftn w /\ w_nftn w' = w_nftn w /\
    square (w_heap w') (o_a g) V H /\ normalized num (w_heap w') (o_a g) n /\ archived (w_heap w') (o_a g) c V H /\
    (forall h0, grown h0 (w_heap w) -> ntens h0 <= o_a g -> grown h0 (w_heap w')) /\
    forall u l d r, u < V -> l < H -> d < V -> r < H -> entry4 (w_heap w') (o_a g) u l d r = nu_div num (entry4 (w_heap w) (o_a g) u l d r) n.
Proof.
  intros R Q. unfold appendToArchiveH in R. apply wbind_inv in R. destruct R as (w2 & n & R2 & R). apply lift_inv in R2. destruct R2 as (h2 & R2 & ->).
  assert (NDm : NoDup (map fst [("u", V); ("l", H); ("d", V); ("r", H)])) by now apply nodupb_ok.
  destruct (divide_ok num (w_heap w) (o_a g) _ Q NDm) as (h' & n' & E & NZ & Q' & KT & KL & KN & KM & EV). rewrite R2 in E. injection E as <- <-.
  apply wbind_inv in R. destruct R as (w3 & c & R3 & R). apply lift_inv in R3. destruct R3 as (h3 & R3 & ->). injection R as <- <-. cbn [with_heap w_heap] in R3.
  destruct (copy_named h2 (o_a g) _ Q') as (h3' & c' & E & NT & Qc & EC). rewrite R3 in E. injection E as <- <-.
  pose proof (new_grown _ _ _ NT) as G. destruct (grown_dense _ _ _ _ G Q') as (Q3 & E3 & T3).
  exists n, c. split; auto. cbn [with_heap w_names w_nnames w_ftn w_nftn w_heap]. repeat (split; [reflexivity|]). split; [exact Q3|]. split; [|split; [|split]].
  - destruct NZ as (sh & d & En & Ed). exists sh, d. rewrite T3. auto.
  - split; [|split; [exact Qc|]].
    + intros ->. destruct Q' as ((W & _) & _). apply wt_id in W. pose proof (nt_id _ _ _ _ NT). lia.
    + intros u l d r. unfold entry4. rewrite EC, E3. reflexivity.
  - intros h0 [a b e f] Ht. eapply grown_trans; [|exact G]. split; [intros; rewrite KL; auto|intros t' Ht'; rewrite KT by lia; auto|lia|lia].
  - intros u l d r Hu Hl Hd Hr. unfold entry4. rewrite E3. apply (EV [u; l; d; r]). repeat (constructor; [assumption|]). constructor.
Qed.
Lemma iterateH_ok (w w' : world) (g g' : hotrg) V H : iterateH symdiff fuel num eig g w = (w', Ok g') -> hstate w g V H -> eigh_ok eig (w_heap w) g V H ->
  exists d P a n c, let k := proj_dim eig (w_heap w) g V H d in let cc := cut d V H * cut d V H in let m := env_of (w_heap w) g V H d in
    In d dirs /\ pick (err_of eig num (w_heap w) g V H) dirs None = Some d /\
    g' = mkHotrg a (2 * o_dof g) (o_chiH g) (o_chiV g) (o_hi g) (o_vi g) (o_hl g) (o_hr g) (o_vu g) (o_vd g) (o_norms g ++ [n]) (o_errors g ++ [err_of eig num (w_heap w) g V H d])
           (o_archive g ++ [(c, 2 * o_dof g)]) (o_choices g ++ [d]) (o_projs g ++ [P]) /\
    wfa P /\ ashape P = [cc; k] /\ (forall i o, i < cc -> o < k -> aget P [i; o] = proj eig m cc i o) /\
    hstate w' g' (newV d V k) (newH d H k) /\ normalized num (w_heap w') a n /\ archived (w_heap w') a c (newV d V k) (newH d H k) /\ grown (w_heap w) (w_heap w') /\
    forall u l dd r, u < newV d V k -> l < newH d H k -> dd < newV d V k -> r < newH d H k -> entry4 (w_heap w') a u l dd r =
      nu_div num (unturn d (fused (kept d V H) (cut d V H) (turn d (entry4 (w_heap w) (o_a g))) (turn d (entry4 (w_heap w) (o_a g))) (proj eig m cc) (proj_conj eig num m cc)) u l dd r) n.
Proof.
  intros R [NR Q] EO. unfold iterateH in R. apply wbind_inv in R. destruct R as (w1 & best & R1 & R).
  destruct (try_ok g V H (w_heap w) dirs w w1 None None best R1 (fun d Hd => Hd) (grown_refl _) NR Q EO I) as (FT & NR1 & G1).
  destruct best as [[[e d] P]|]; [|discriminate]. destruct (pick (err_of eig num (w_heap w) g V H) dirs None) as [b|] eqn:EP; [|destruct FT]. destruct FT as (<- & Hd & Ee & WP & SP & GP).
  destruct (grown_dense _ _ _ _ G1 Q) as (Q1 & E1 & _).
  apply wbind_inv in R. destruct R as (w2 & a & R2 & R). destruct (directed_ok _ _ _ _ _ _ _ V H _ _ R2 NR1 Q1 Q1 WP SP) as (_ & QA & NR2 & G2 & Ha & EV).
  apply wbind_inv in R. destruct R as (w3 & g3 & R3 & R). apply (appendH_ok _ _ _ _ _ _ R3) in QA. cbn [o_a o_dof o_chiH o_chiV o_hi o_vi o_hl o_hr o_vu o_vd o_norms o_errors o_archive o_choices o_projs] in QA.
  destruct QA as (n & c & -> & K1 & K2 & K3 & K4 & QF & NZ & AR & G3 & V3). cbn [o_a o_dof o_chiH o_chiV o_hi o_vi o_hl o_hr o_vu o_vd o_norms o_errors o_archive o_choices o_projs] in R. injection R as <- <-.
  exists d, P, a, n, c. cbv zeta. split; [exact Hd|]. split; [reflexivity|]. split; [rewrite (Nat.mul_comm 2), Ee; reflexivity|]. split; [exact WP|]. split; [exact SP|]. split; [exact GP|].
  split; [split; [|exact QF]|].
  { pose proof (nets_same w2 w3 g NR2 K3 K1 K4) as [a1 a2 a3 a4 a5 a6 a7]. split; assumption. }
  split; [exact NZ|]. split; [exact AR|]. split.
  { apply G3; [eapply grown_trans; eauto|]. destruct G1 as [_ _ _ GT]. lia. }
  intros u l dd r Hu Hl Hdd Hr. rewrite V3 by auto. f_equal. rewrite EV by auto.
  assert (FX : forall x1 x2 x3 x4, (x2 < proj_dim eig (w_heap w) g V H d)%nat -> (x4 < proj_dim eig (w_heap w) g V H d)%nat ->
    fused (kept d V H) (cut d V H) (turn d (entry4 (w_heap w1) (o_a g))) (turn d (entry4 (w_heap w1) (o_a g))) (fun i o => aget P [i; o]) (fun i o => nu_conj num (aget P [i; o])) x1 x2 x3 x4 =
    fused (kept d V H) (cut d V H) (turn d (entry4 (w_heap w) (o_a g))) (turn d (entry4 (w_heap w) (o_a g))) (proj eig (env_of (w_heap w) g V H d) (cut d V H * cut d V H)) (proj_conj eig num (env_of (w_heap w) g V H d) (cut d V H * cut d V H)) x1 x2 x3 x4).
  { intros x1 x2 x3 x4 H2 H4. unfold fused, proj_conj. apply sumN_ext. intros i1 I1. apply sumN_ext. intros i2 I2. apply sumN_ext. intros i3 I3. apply sumN_ext. intros i4 I4.
    rewrite !GP by (auto; apply pair_ravel; auto). f_equal. f_equal. unfold pillar. apply sumN_ext. intros i5 I5. f_equal; apply turn_ext; intros; apply E1. }
  clear -FX Hd Hu Hl Hdd Hr. destruct Hd as [<-|[<-|[<-|[<-|[]]]]]; unfold unturn, newV, newH in *; cbn in Hu, Hl, Hdd, Hr; apply FX; auto.
Qed.
End Step.
