(** Making one site of a matrix product state, and the value of a network one of whose tensors has a single bond to the others. *)
From Coq Require Import List Arith Bool Lia String ZArith Permutation.
From Verif Require Import Base Sums NdModel NdProofs HeapModel FuncsModel FuncsProofs TensorModel TensorSpec
  ContractModel NetSpec ShareProofs LinkProofs SumpairsProofs ContractProofs NetProofs PairProofs SvdModel MpsPairProofs.
Import ListNotations.
Local Open Scope list_scope.
Local Open Scope nat_scope.

Section St.
Context {A : Type} {HA : SR A}.
Notation heap := (heap A).

Lemma pairs_one (h : heap) L1 L2 x y : NoDup L1 -> In x L1 -> linked h x y -> In y L2 ->
  (forall z w, In z L1 -> z <> x -> linked h z w -> ~ In w L2) -> pairs_between h L1 L2 = [(x, y)].
Proof.
  intros ND Hx LK Hy O. unfold pairs_between. apply (flat_map_one _ _ x); auto.
  - apply partner_Some in LK. rewrite LK. assert (inb y L2 = true) as -> by now apply inb_true. reflexivity.
  - intros z Hz NE. destruct (partner h z) as [w|] eqn:E; auto. apply partner_Some in E. specialize (O z w Hz NE E).
    destruct (inb w L2) eqn:EI; auto. apply inb_true in EI. contradiction.
Qed.
Lemma pairs_none (h : heap) L1 L2 : (forall z w, In z L1 -> linked h z w -> ~ In w L2) -> pairs_between h L1 L2 = [].
Proof.
  intros O. unfold pairs_between. induction L1 as [|z L IH]; auto. cbn [flat_map]. rewrite IH by (intros; eapply O; [simpl; eauto|eauto]).
  destruct (partner h z) as [w|] eqn:E; auto. apply partner_Some in E. specialize (O z w (or_introl eq_refl) E).
  destruct (inb w L2) eqn:EI; auto. apply inb_true in EI. contradiction.
Qed.

Lemma netval_cons1 (h : heap) t ts x y s : NoDup ts -> pairs_between h (legs_of h t) (all_legs h ts) = [(x, y)] ->
  (forall l, In l (legs_of h t) -> ~ In l (all_legs h ts)) ->
  netval h (t :: ts) s = sumN (dim_of h x) (fun p => rmul (entry h t (upd (upd s x p) y p)) (netval h ts (upd (upd s x p) y p))).
Proof.
  intros ND EP D. unfold netval. cbn [inner]. rewrite EP. cbn [app sumpairs]. apply sumN_ext. intros p Hp.
  cbn [prod_entries]. apply sumpairs_mul_l. apply entry_indep. intros l Hl H. apply (D l Hl). now apply (inner_legs h ts ND).
Qed.

(** the tensor made of [a] with the legs [L]; its leg [x] is then linked to [r] *)
Record site_made (h h' : heap) (L : list lid) (x r : lid) : Prop := {
  si_nleg : nleg h' = nleg h; si_ntens : ntens h' = S (ntens h); si_nbond : nbond h' = S (nbond h);
  si_legs : legs_of h' (ntens h) = L;
  si_L : forall l, In l L -> l <> x -> legs h' l = mkLeg (Some (ntens h)) (l_dim (legs h l)) (l_name (legs h l)) (l_bond (legs h l));
  si_x : legs h' x = mkLeg (Some (ntens h)) (l_dim (legs h x)) (l_name (legs h x)) (Some (nbond h));
  si_r : legs h' r = with_bond (legs h r) (nbond h);
  si_o : forall l, ~ In l L -> l <> r -> legs h' l = legs h l;
  si_new : bonds h' (nbond h) = mkBond x r;
  si_bonds : forall b, b < nbond h -> bonds h' b = bonds h b;
  si_tens : forall t, t < ntens h -> tens h' t = tens h t;
  si_wf : wf_tensor h' (ntens h); si_own : owned h' (ntens h);
  si_kind : t_diag (tens h' (ntens h)) = false /\ t_like (tens h' (ntens h)) = false }.

Lemma site_ok {X} (h : heap) L x r (a : arr A) sh (F : tid -> @M A X) : NoDup L -> (forall l, In l L -> l < nleg h) -> In x L -> ~ In r L ->
  dim_of h x = dim_of h r -> wfa a -> prodn (ashape a) = prodn (map (dim_of h) L) -> sh = map (dim_of h) L ->
  exists h', (t <- mkDense (Some sh) None (Some a) None (Some L) false ;; makeLink [RLeg x] [RLeg r] None None ;;; F t) h = F (ntens h) h' /\
    site_made h h' L x r /\ 
    forall s, entry h' (ntens h) s = nth (ravel (map (dim_of h) L) (map s L)) (adata a) r0.
Proof.
  intros ND AL Hx Hr DE WA PA ->.
  destruct (mkDense_legs h L a None (Some (map (dim_of h) L)) ND AL WA PA eq_refl I) as (h1 & tc & E1 & NT & W1 & O1 & L1 & D1 & K1 & _ & V1).
  assert (ET : tc = ntens h) by apply (nt_id _ _ _ _ NT). subst tc. destruct (nt_legs _ _ _ _ NT) as (IN & OUT).
  assert (XR : x <> r) by congruence. assert (RX : r <> x) by congruence.
  assert (DE1 : dim_of h1 x = dim_of h1 r) by (unfold dim_of; rewrite IN by auto; rewrite (OUT r) by auto; exact DE).
  exists (linked_heap h1 x r). split.
  { unfold bind at 1. rewrite E1. unfold bind at 1. rewrite (makeLink1 h1 x r DE1). reflexivity. }
  assert (NB : nbond h1 = nbond h) by apply (nt_nbond _ _ _ _ NT).
  assert (LX : legs (linked_heap h1 x r) x = mkLeg (Some (ntens h)) (l_dim (legs h x)) (l_name (legs h x)) (Some (nbond h))).
  { unfold linked_heap. cbn [legs]. rewrite upd_other by auto. rewrite upd_same. unfold with_bond. rewrite IN by auto. now rewrite NB. }
  assert (LR : legs (linked_heap h1 x r) r = with_bond (legs h r) (nbond h)).
  { unfold linked_heap. cbn [legs]. rewrite upd_same. rewrite upd_other by auto. rewrite OUT by auto. now rewrite NB. }
  assert (LO : forall l, l <> x -> l <> r -> legs (linked_heap h1 x r) l = legs h1 l).
  { intros l N1 N2. unfold linked_heap. cbn [legs]. now rewrite !upd_other by auto. }
  assert (LL : forall l, In l L -> l <> x -> legs (linked_heap h1 x r) l = mkLeg (Some (ntens h)) (l_dim (legs h l)) (l_name (legs h l)) (l_bond (legs h l))).
  { intros l Hl N. rewrite LO; [now apply IN|auto|]. intros ->. auto. }
  assert (DL : forall l, In l L -> dim_of (linked_heap h1 x r) l = dim_of h1 l).
  { intros l Hl. unfold dim_of. destruct (Nat.eq_dec l x) as [->|N]; [rewrite LX, IN by auto; reflexivity|]. rewrite LL, IN by auto. reflexivity. }
  split; [|intros s; exact (V1 s)]. constructor; auto.
  - change (nleg h1 = nleg h). rewrite (nt_nleg _ _ _ _ NT). cbn. lia.
  - change (ntens h1 = S (ntens h)). apply NT.
  - change (S (nbond h1) = S (nbond h)). now rewrite NB.
  - intros l Hl N. rewrite LO; auto. intros ->. auto.
  - unfold linked_heap. cbn [bonds]. now rewrite NB, upd_same.
  - intros b Hb. unfold linked_heap. cbn [bonds]. rewrite upd_other by lia. now rewrite (nt_bonds _ _ _ _ NT).
  - intros t Ht. change (tens h1 t = tens h t). now apply NT.
  - apply (wf_same h1); auto. change (legs_of h1 (ntens h)) with (legs_of (linked_heap h1 x r) (ntens h)). intros l Hl. apply DL.
    change (In l (legs_of h1 (ntens h))) in Hl. now rewrite L1 in Hl.
  - intros l Hl. change (In l (legs_of h1 (ntens h))) in Hl. rewrite L1 in Hl.
    destruct (Nat.eq_dec l x) as [->|N]; [now rewrite LX|now rewrite LL].
Qed.
End St.
