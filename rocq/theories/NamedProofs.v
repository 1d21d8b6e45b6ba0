(** The value computed by FiniteTensorNetwork.contract in terms of names. *)
From Coq Require Import List Arith Bool String Lia Permutation.
From Verif Require Import Base Sums NdModel HeapModel TensorModel TensorSpec NetSpec ContractModel SearchModel SearchSpec GraphModel NetGraphModel FtnModel FtnSpec FtnNetSpec
  NamedSpec TensorProofs FtnProofs FtnMainProofs FtnStaleProofs SeqProofs.
Import ListNotations.
Local Open Scope nat_scope.

(** ** Lists *)
Lemma inb_iff {X} `{Dec X} (x : X) l : inb x l = true <-> In x l.
Proof. unfold inb. rewrite existsb_exists. split; [intros (y & Hy & E); destruct (dec x y); [now subst|discriminate]|intros I; exists x; destruct (dec x x); auto]. Qed.
Lemma inb_false_iff {X} `{Dec X} (x : X) l : inb x l = false <-> ~ In x l.
Proof. rewrite <- (inb_iff x l). destruct (inb x l); split; congruence. Qed.
Lemma map_combine_fst {X Y} (a : list X) : forall (b : list Y), List.length a = List.length b -> map fst (combine a b) = a.
Proof. induction a; destruct b; simpl; intros E; try discriminate; auto. f_equal. apply IHa. lia. Qed.
Lemma map_combine_snd {X Y} (a : list X) : forall (b : list Y), List.length a = List.length b -> map snd (combine a b) = b.
Proof. induction a; destruct b; simpl; intros E; try discriminate; auto. f_equal. apply IHa. lia. Qed.
Lemma NoDup_perm {X} (a b : list X) : Permutation a b -> NoDup a -> NoDup b.
Proof. intros P. apply Permutation_NoDup, P. Qed.
Lemma filter_perm {X} (f : X -> bool) a b : Permutation a b -> Permutation (filter f a) (filter f b).
Proof. induction 1; simpl; auto; repeat match goal with |- context [if ?c then _ else _] => destruct c end; auto; [apply perm_swap|eapply perm_trans; eauto]. Qed.
Lemma filter_map {X Y} (g : X -> Y) (f : Y -> bool) l : filter f (map g l) = map g (filter (fun x => f (g x)) l).
Proof. induction l; simpl; auto. destruct (f (g a)); simpl; rewrite IHl; auto. Qed.
Lemma filter_ext_in2 {X} (f g : X -> bool) l : (forall x, In x l -> f x = g x) -> filter f l = filter g l.
Proof. induction l; simpl; intros E; auto. rewrite (E a), IHl; auto. Qed.
Lemma filter_flat_map {X Y} (g : X -> list Y) (f : Y -> bool) l : filter f (flat_map g l) = flat_map (fun x => filter f (g x)) l.
Proof. induction l; simpl; auto. now rewrite filter_app, IHl. Qed.
Lemma flat_map_map {X Y Z} (g : X -> Y) (f : Y -> list Z) l : flat_map f (map g l) = flat_map (fun x => f (g x)) l.
Proof. induction l; simpl; auto. now rewrite IHl. Qed.
Lemma map_flat_map {X Y Z} (g : Y -> Z) (f : X -> list Y) l : map g (flat_map f l) = flat_map (fun x => map g (f x)) l.
Proof. induction l; simpl; auto. now rewrite map_app, IHl. Qed.

Lemma map_once {X Y} (f : X -> Y) l x y : NoDup (map f l) -> In x l -> In y l -> f x = f y -> x = y.
Proof.
  induction l as [|z l IH]; simpl; [tauto|]. intros ND [<-|Hx] [<-|Hy] E; inversion_clear ND as [|? ? N1 N2]; auto.
  - exfalso. apply N1. rewrite E. now apply in_map.
  - exfalso. apply N1. rewrite <- E. now apply in_map.
Qed.
Lemma key_once {X Y} (l : list (X * Y)) k y y' : NoDup (map fst l) -> In (k, y) l -> In (k, y') l -> y = y'.
Proof. intros ND H H'. pose proof (map_once fst l _ _ ND H H' eq_refl). congruence. Qed.

(** ** Renaming *)
Lemma replace_first_map {X} `{Dec X} (a b : X) N : NoDup N -> replace_first a b N = map (fun n => if dec n a then b else n) N.
Proof.
  induction 1 as [|x N Nx ND IH]; auto. cbn [replace_first map]. destruct (dec a x) as [E|E].
  - subst x. destruct (dec a a); [|congruence]. f_equal. rewrite <- (map_id N) at 1. apply map_ext_in. intros y Hy. destruct (dec y a) as [->|]; [contradiction|reflexivity].
  - destruct (dec x a) as [->|]; [congruence|]. f_equal. exact IH.
Qed.
Lemma rename_names es : forall I, distinct_rename I es -> map fst (rename_all I es) = post_names es (map fst I) /\ map snd (rename_all I es) = map snd I.
Proof.
  induction es as [|[[t a] b] es IH]; intros I Hd; [split; reflexivity|]. destruct Hd as [ND Hd]. destruct (IH _ Hd) as [E1 E2].
  unfold rename_all, post_names in *. cbn [fold_left]. rewrite E1, E2. rewrite !map_map. cbn [rename_item fst snd]. split; [|apply map_ext; reflexivity].
  f_equal. rewrite replace_first_map; auto. rewrite map_map. apply map_ext. intros x. reflexivity.
Qed.
Lemma combine_fst_snd {X Y} (l : list (X * Y)) : combine (map fst l) (map snd l) = l.
Proof. induction l as [|[x y] l IH]; simpl; f_equal; auto. Qed.
Lemma rename_all_perm es : forall I I', Permutation I I' -> Permutation (rename_all I es) (rename_all I' es).
Proof. induction es as [|e es IH]; intros I I' P; auto. apply (IH _ _ (Permutation_map _ P)). Qed.
Lemma distinct_rename_perm es : forall I I', Permutation I I' -> distinct_rename I es -> distinct_rename I' es.
Proof.
  induction es as [|e es IH]; intros I I' P [ND Hd]; split; auto; try (eapply NoDup_perm; [apply Permutation_map, P|exact ND]).
  eapply IH; [|exact Hd]. now apply Permutation_map.
Qed.

(** ** Outer products *)
Lemma pick_perm I I' lab : NoDup (map fst I) -> Permutation I I' -> pick I lab = pick I' lab.
Proof.
  intros ND P. unfold pick. assert (P2 := filter_perm (fun it : pitem => if dec (fst it) lab then true else false) _ _ P).
  assert (Hl : List.length (filter (fun it : pitem => if dec (fst it) lab then true else false) I) <= 1).
  { clear P P2. induction I as [|it I IH]; simpl; auto. inversion_clear ND as [|? ? N1 N2]. destruct (dec (fst it) lab) as [E|E]; [|auto].
    simpl. match goal with |- context [filter ?g I] => destruct (filter g I) as [|x r] eqn:EF end; simpl; auto. exfalso. assert (Hx : In x (x :: r)) by (left; auto). rewrite <- EF in Hx. apply filter_In in Hx.
    destruct Hx as [Hx Hn]. destruct (dec (fst x) lab) as [E2|]; [|discriminate]. apply N1. rewrite E, <- E2. now apply in_map. }
  match goal with |- context [filter ?g I] => destruct (filter g I) as [|x [|]] eqn:EF end; simpl in Hl; try lia.
  - apply Permutation_nil in P2. now rewrite P2.
  - apply Permutation_length_1_inv in P2. now rewrite P2.
Qed.
Lemma join_perm I I' o : NoDup (map fst I) -> Permutation I I' -> Permutation (join I o) (join I' o).
Proof.
  intros ND P. unfold join. rewrite (flat_map_ext (pick I) (pick I')) by (intros; now apply pick_perm). constructor. now apply filter_perm.
Qed.
Lemma join_all_perm os : forall I I', distinct_join I os -> Permutation I I' -> Permutation (join_all I os) (join_all I' os).
Proof. induction os as [|o os IH]; intros I I' Hd P; auto. destruct Hd as [ND Hd]. apply (IH _ _ Hd). now apply join_perm. Qed.
Lemma distinct_join_perm os : forall I I', Permutation I I' -> distinct_join I os -> distinct_join I' os.
Proof.
  induction os as [|o os IH]; intros I I' P [ND Hd]; split; auto; try (eapply NoDup_perm; [apply Permutation_map, P|exact ND]).
  eapply IH; [|exact Hd]. now apply join_perm.
Qed.

Lemma pick_nth I k lab ps : NoDup (map fst I) -> nth_error I k = Some (lab, ps) -> pick I lab = ps.
Proof.
  revert k. induction I as [|[n q] I IH]; intros [|k] ND E; simpl in *; try discriminate; inversion_clear ND as [|? ? N1 N2]; unfold pick; cbn [filter fst snd flat_map].
  - injection E as <- <-. destruct (dec n n); [|congruence]. cbn [flat_map snd]. match goal with |- context [filter ?g I] => replace (filter g I) with (@nil pitem) end; [simpl; apply app_nil_r|].
    symmetry. apply length_zero_iff_nil. clear -N1. induction I as [|[m r] I IH]; auto. simpl in *. destruct (dec m n) as [->|]; [tauto|]. apply IH. tauto.
  - destruct (dec n lab) as [->|]; [|exact (IH k N2 E)]. exfalso. apply N1. apply nth_error_In in E. now apply (in_map fst) in E.
Qed.
Lemma filter_positions {X} (P : X -> bool) ks (L : list X) : forall a,
  (forall k x, nth_error L k = Some x -> inb (a + k) ks = P x) ->
  map snd (filter (fun p => negb (inb (fst p) ks)) (combine (seq a (List.length L)) L)) = filter (fun x => negb (P x)) L.
Proof.
  induction L as [|x L IH]; intros a HP; auto. cbn [List.length seq combine filter fst].
  assert (E : inb a ks = P x) by (rewrite <- (HP 0 x eq_refl); f_equal; lia). rewrite E.
  specialize (IH (S a)). rewrite <- IH.
  - destruct (P x); reflexivity.
  - intros k y E2. rewrite <- (HP (S k) y E2). f_equal. lia.
Qed.

Section Conv.
Context {A : Type} {HA : SR A}.
Notation heap := (heap A).
Notation world := (world A).
Variable h : heap.

Definition port_of (r : role) : port := (fst r, match l_name (legs h (snd r)) with NStr x => x | _ => EmptyString end).
Definition conv (it : item) : pitem := (fst it, map port_of (snd it)).
Lemma conv_names items : map fst (map conv items) = map fst items.
Proof. rewrite map_map. reflexivity. Qed.

Lemma joined_conv items o items' : NoDup (map fst items) -> joined items o items' -> map conv items' = join (map conv items) o.
Proof.
  intros ND (ks & F & NK & _ & ->). unfold join. cbn [map conv fst snd].
  assert (PK : forall lab k, first_at items lab k -> pick (map conv items) lab = map port_of (snd (nth k items (NNone, [])))).
  { intros lab k [E _]. unfold item in *. rewrite nth_error_map in E. destruct (nth_error items k) as [it|] eqn:E2; [|discriminate]. injection E as E.
    apply (pick_nth _ k); [rewrite conv_names; exact ND|]. rewrite nth_error_map, E2. cbn [option_map]. unfold conv. rewrite E. now rewrite (nth_error_nth _ _ _ E2). }
  f_equal.
  - unfold conv at 1. cbn [fst snd]. f_equal. clear NK. induction F as [|lab k labs ks1 H1 F IH]; auto. cbn [flat_map]. now rewrite map_app, IH, (PK _ _ H1).
  - rewrite (filter_positions (fun it : item => inb (fst it) (map join_label (fst o)))).
    + rewrite filter_map. reflexivity.
    + intros k it E. unfold item in *. cbn [plus]. destruct (inb (fst it) (map join_label (fst o))) eqn:E2.
      * apply inb_iff in E2. apply inb_iff. destruct (In_nth_error _ _ E2) as [j Ej].
        assert (exists k', nth_error ks j = Some k' /\ first_at items (fst it) k') as (k' & Ek & [Fk _]).
        { clear -F Ej. revert j Ej. induction F; intros [|j] Ej; simpl in *; try discriminate; [injection Ej as ->; eauto|eauto]. }
        assert (k' = k) as ->; [|eapply nth_error_In; eauto].
        eapply (proj1 (NoDup_nth_error (map fst items)) ND).
        -- apply nth_error_Some. rewrite Fk. discriminate.
        -- rewrite Fk, nth_error_map, E. reflexivity.
      * apply inb_false_iff in E2. apply inb_false_iff. intros Hk. apply E2. destruct (In_nth_error _ _ Hk) as [j Ej].
        assert (exists lab, nth_error (map join_label (fst o)) j = Some lab /\ first_at items lab k) as (lab & El & [Fk _]).
        { clear -F Ej. revert j Ej. induction F; intros [|j] Ej; simpl in *; try discriminate; [injection Ej as ->; eauto|eauto]. }
        rewrite nth_error_map, E in Fk. injection Fk as ->. eapply nth_error_In; eauto.
Qed.
Lemma joined_all_conv os : forall items items', distinct_join (map conv items) os -> joined_all items os items' -> map conv items' = join_all (map conv items) os.
Proof.
  induction os as [|o os IH]; intros items items' Hd J; inversion J as [|? ? ? items1 ? J1 J2]; subst; auto. destruct Hd as [ND Hd].
  rewrite conv_names in ND. pose proof (joined_conv _ _ _ ND J1) as E. rewrite <- E in Hd. rewrite (IH _ _ Hd J2), E. reflexivity.
Qed.

(** ** Roles and ports *)
(** the legs of the tensor are called [ns], in this order, and no two of them alike *)
Definition labelled (t : tid) (ns : list string) : Prop := names_of h t = map NStr ns /\ NoDup ns.
Definition ordered (D : port -> nat) (d : list (string * tid)) (N : list (string * list string)) : Prop :=
  Forall2 (fun p q => fst p = fst q /\ labelled (snd p) (snd q) /\ dims_of h (snd p) = map (fun n => D (fst q, n)) (snd q)) d N.
Variable D : port -> nat.
Variable d : list (string * tid).
Variable N : list (string * list string).
Hypothesis HP : ordered D d N.
Hypothesis ND : NoDup (map fst d).

Lemma pre_nil p : pre_names h [] p = names_of h (snd p). Proof. reflexivity. Qed.
Lemma ports_in p : In p d -> exists ns, In (fst p, ns) N /\ labelled (snd p) ns /\ dims_of h (snd p) = map (fun n => D (fst p, n)) ns.
Proof.
  revert HP. generalize d N. induction 1 as [|p0 q dd NN (E & L & DD) F IH]; intros Hp; [contradiction|]. destruct Hp as [<-|Hp].
  - exists (snd q). rewrite E. split; [left; now destruct q|split; auto].
  - destruct (IH F Hp) as (ns & I & X). exists ns. split; [right; exact I|exact X].
Qed.
Lemma role_in r : In r (roles h d) -> exists t ns n, In (fst r, t) d /\ In (snd r) (legs_of h t) /\ labelled t ns /\ l_name (legs h (snd r)) = NStr n /\ In n ns /\ dim_of h (snd r) = D (fst r, n).
Proof.
  unfold roles. rewrite in_flat_map. intros ([nm t] & Hp & Hr). unfold roles1 in Hr. apply in_map_iff in Hr. destruct Hr as (l & <- & Hl). cbn [fst snd] in *.
  destruct (ports_in _ Hp) as (ns & _ & (L1 & L2) & DD). cbn [fst snd] in *. destruct (In_nth_error _ _ Hl) as [k Ek].
  pose proof (f_equal (fun l => nth_error l k) L1) as X1. cbn in X1. unfold names_of in X1. rewrite !nth_error_map, Ek in X1. cbn in X1.
  destruct (nth_error ns k) as [n|] eqn:En; [|discriminate]. injection X1 as X1.
  pose proof (f_equal (fun l => nth_error l k) DD) as X2. cbn in X2. unfold dims_of in X2. rewrite !nth_error_map, Ek, En in X2. injection X2 as X2.
  exists t, ns, n. repeat split; auto. eapply nth_error_In; eauto.
Qed.
Lemma role_dim r : In r (roles h d) -> rdim h r = D (port_of r).
Proof. intros Hr. destruct (role_in r Hr) as (t & ns & n & _ & _ & _ & E & _ & DD). unfold rdim, port_of. now rewrite E, DD. Qed.
Lemma port_inj r r' : In r (roles h d) -> In r' (roles h d) -> port_of r = port_of r' -> r = r'.
Proof.
  intros Hr Hr' E. destruct (role_in r Hr) as (t & ns & n & I1 & I2 & (L1 & L2) & E1 & _). destruct (role_in r' Hr') as (t' & ns' & n' & I1' & I2' & (L1' & L2') & E1' & _).
  unfold port_of in E. rewrite E1, E1' in E. injection E as Ea Eb. destruct r as [a l], r' as [a' l']. cbn [fst snd] in *. subst a' n'.
  assert (t' = t) as ->. { eapply key_once; eauto. } f_equal.
  assert (NN : NoDup (names_of h t)) by (rewrite L1; apply FinFun.Injective_map_NoDup; auto; intros x y Exy; congruence).
  unfold names_of in NN. apply (map_once (fun l => l_name (legs h l)) (legs_of h t)); auto. congruence.
Qed.

Definition plink_of (p : rlink) : plink := (port_of (fst p), port_of (snd p)).
Lemma named_port a leg r : role_named h [] d a leg r -> port_of r = (a, leg) /\ In r (roles h d).
Proof.
  intros (t & u & v & I & E & _ & Ea). rewrite pre_nil in E. cbn [snd] in E. assert (Hin : In (snd r, NStr leg) (combine (legs_of h t) (names_of h t))) by (rewrite E; apply in_elt).
  assert (E2 : l_name (legs h (snd r)) = NStr leg).
  { unfold names_of in Hin. clear -Hin. induction (legs_of h t) as [|l L IH]; simpl in Hin; [contradiction|]. destruct Hin as [Hin|Hin]; [now injection Hin as <- <-|auto]. }
  split; [unfold port_of; now rewrite E2, Ea|]. unfold roles. apply in_flat_map. exists (a, t). split; auto. unfold roles1. cbn [fst snd]. apply in_map_iff. exists (snd r).
  split; [rewrite <- Ea; now destruct r|]. eapply in_combine_l; eauto.
Qed.
Lemma declares_ports links ps : Forall2 (declares h [] d) links ps -> links = map plink_of ps /\ forall p, In p ps -> In (fst p) (roles h d) /\ In (snd p) (roles h d).
Proof.
  induction 1 as [|[[a la] [b lb]] p links ps [D1 D2] F [E IH]]; [split; [auto|intros p []]|]. cbn [fst snd] in *.
  destruct (named_port _ _ _ D1) as [E1 I1]. destruct (named_port _ _ _ D2) as [E2 I2]. split.
  - cbn [map]. unfold plink_of at 1. now rewrite E1, E2, <- E.
  - intros q [<-|Hq]; auto.
Qed.
Lemma ports_proper ps : plinks_ok (map plink_of ps) -> proper ps.
Proof.
  intros [N1 N2]. split.
  - apply (NoDup_map_inv port_of). rewrite map_app, !map_map in *. exact N1.
  - intros p Hp. exact (N2 _ (in_map plink_of _ _ Hp)).
Qed.

Definition agree (s : rassign) (s' : passign) : Prop := forall r, In r (roles h d) -> s r = s' (port_of r).
Lemma agree_upd s s' r i : In r (roles h d) -> agree s s' -> agree (rupd s r i) (pupd s' (port_of r) i).
Proof.
  intros Hr Ag r' Hr'. unfold rupd, pupd. destruct (dec r' r) as [->|n]; [destruct (dec (port_of r) (port_of r)); congruence|].
  destruct (dec (port_of r') (port_of r)) as [E|]; [|now apply Ag]. exfalso. apply n. now apply port_inj.
Qed.
Lemma rsum_psum ps : (forall p, In p ps -> In (fst p) (roles h d) /\ In (snd p) (roles h d)) -> forall f F, (forall s s', agree s s' -> f s = F s') ->
  forall s s', agree s s' -> rsum h ps f s = psum D (map plink_of ps) F s'.
Proof.
  induction ps as [|[a b] ps IH]; intros Hin f F HF s s' Ag; [now apply HF|]. cbn [rsum psum map plink_of fst snd].
  destruct (Hin (a, b) (or_introl eq_refl)) as [Ha Hb]. cbn [fst snd] in *. rewrite (role_dim a Ha). apply sumN_ext. intros i _.
  apply IH; [intros p Hp; apply Hin; now right|exact HF|]. apply agree_upd; auto. apply agree_upd; auto.
Qed.
Lemma rprod_pprod s s' : agree s s' -> rprod h d s = pprod h d s'.
Proof.
  unfold agree, roles. assert (HN : forall p, In p d -> exists ns, names_of h (snd p) = map NStr ns) by (intros p Hp; destruct (ports_in p Hp) as (ns & _ & (L & _) & _); eauto).
  revert HN. generalize d. induction d0 as [|[nm t] dd IH]; intros HN Ag; auto. cbn [rprod pprod]. f_equal.
  - unfold at_names. apply entry_ext. intros l Hl. rewrite (Ag (nm, l)).
    + unfold port_of. cbn [fst snd]. destruct (HN (nm, t) (or_introl eq_refl)) as (ns & E). cbn [snd] in E. unfold names_of in E.
      assert (In (l_name (legs h l)) (map NStr ns)) as Hn by (rewrite <- E; now apply (in_map (fun l => l_name (legs h l)))). apply in_map_iff in Hn. destruct Hn as (n & <- & _). reflexivity.
    + cbn [flat_map]. apply in_or_app. left. unfold roles1. now apply in_map.
  - apply IH; [intros p Hp; apply HN; now right|]. intros r Hr. apply Ag. cbn [flat_map]. apply in_or_app. now right.
Qed.

Definition item1 (p : role * pname) : item := (snd p, [fst p]).
Lemma items_ports : map conv (map item1 (role_names h [] d)) = port_items N.
Proof.
  clear ND. unfold role_names, port_items. induction HP as [|[nm t] [nm' ns] dd NN (E & (L & _) & _) F IH]; auto. cbn [flat_map fst snd] in *. subst nm'. rewrite !map_app, IH by exact F. f_equal.
  unfold roles1, pre_names. cbn [fold_left fst snd]. rewrite L. unfold names_of in L. clear -L. revert ns L. induction (legs_of h t) as [|l LL IH]; intros [|n ns] L; try discriminate; auto.
  injection L as L1 L2. cbn [map combine]. rewrite IH by exact L2. f_equal. unfold conv, item1, port_of. cbn [fst snd map tag_name]. now rewrite L1.
Qed.
Lemma role_names_in p : In p (role_names h [] d) -> In (fst p) (roles h d).
Proof.
  unfold role_names, roles. rewrite !in_flat_map. intros (q & Hq & Hp). exists q. split; auto. destruct p. cbn [fst]. eapply in_combine_l. exact Hp.
Qed.
Lemma free_conv ps : (forall p, In p ps -> In (fst p) (roles h d) /\ In (snd p) (roles h d)) ->
  map conv (map item1 (filter (fun p => free_role ps (fst p)) (role_names h [] d))) = free_items N (map plink_of ps).
Proof.
  intros Hin. unfold free_items. rewrite <- items_ports. rewrite !filter_map. do 2 f_equal. apply filter_ext_in2. intros p Hp. unfold free_role, conv, item1. cbn [fst snd map existsb].
  rewrite orb_false_r. f_equal. rewrite !map_map. pose proof (role_names_in p Hp) as Hr.
  assert (Q : forall L, incl L (roles h d) -> inb (fst p) L = inb (port_of (fst p)) (map port_of L)).
  { intros L HL. destruct (inb (port_of (fst p)) (map port_of L)) eqn:E.
    - apply inb_iff in E. apply in_map_iff in E. destruct E as (r & Er & Ir). apply inb_iff. rewrite (port_inj (fst p) r); auto.
    - apply inb_false_iff in E. apply inb_false_iff. intros I. apply E. now apply in_map. }
  rewrite Q.
  - now rewrite map_app, !map_map.
  - intros r Hr2. apply in_app_iff in Hr2. destruct Hr2 as [Hr2|Hr2]; apply in_map_iff in Hr2; destruct Hr2 as (q & <- & Hq); now apply Hin.
Qed.

Lemma renamed_conv es g items : distinct_rename (map conv items) es -> (forall n, g n = untag_name n) \/ (forall n, g n = n) ->
  map conv (renamed (fun n => map g (post_names es n)) items) = map (rename_item g) (rename_all (map conv items) es).
Proof.
  intros Hd Hg. destruct (rename_names es _ Hd) as [E1 E2]. rewrite <- (combine_fst_snd (rename_all (map conv items) es)), E1, E2, conv_names.
  unfold renamed. assert (Len : List.length (post_names es (map fst items)) = List.length items).
  { rewrite <- conv_names, <- E1, map_length. rewrite <- (map_length snd), E2, !map_length. reflexivity. }
  revert Len. generalize (post_names es (map fst items)). clear. induction items as [|[n r] items IH]; intros [|m M] Len; try discriminate; auto. cbn [map combine fst snd]. unfold conv at 1, rename_item at 1. cbn [fst snd]. f_equal. apply IH. simpl in Len. lia.
Qed.
Lemma flat_conv items : flat_map snd (map conv items) = map port_of (flat_map snd items).
Proof. rewrite flat_map_map, map_flat_map. reflexivity. Qed.

Lemma has_value_of links ps out after removeTag items (h' : heap) t : Forall2 (declares h [] d) links ps -> distinct_names N links out after ->
  result_items h [] d ps out after removeTag items -> represents h h' t items (rval h d ps) ->
  (forall r, In r (flat_map snd items) -> In r (roles h d)) ->
  has_value h' t D (expected N links out after removeTag) (psum D links (pprod h d)).
Proof.
  intros FD [DJ DR] (rs & items1 & P & J & Ei) RP Hroles. destruct (declares_ports _ _ FD) as [El Hin]. subst links.
  change (map (fun p => (snd p, [fst p])) rs) with (map item1 rs) in J.
  assert (P1 : Permutation (free_items N (map plink_of ps)) (map conv (map item1 rs))).
  { rewrite <- (free_conv ps Hin). apply Permutation_sym. now do 2 apply Permutation_map. }
  pose proof (joined_all_conv out _ _ (distinct_join_perm _ _ _ P1 DJ) J) as EJ.
  pose proof (join_all_perm out _ _ DJ P1) as P2. rewrite <- EJ in P2. pose proof (distinct_rename_perm _ _ _ P2 DR) as DR1.
  pose proof (rename_all_perm after _ _ P2) as P3.
  assert (P4 : Permutation (expected N (map plink_of ps) out after removeTag) (map conv items)).
  { unfold expected. rewrite Ei. destruct removeTag.
    - rewrite (renamed_conv after untag_name) by auto. now apply Permutation_map.
    - replace (renamed _ items1) with (renamed (fun n => map (fun x => x) (post_names after n)) items1) by (unfold renamed; now rewrite map_id).
      rewrite (renamed_conv after (fun x => x)) by auto. rewrite (map_ext (rename_item (fun x => x)) (fun x => x)) by (now intros []). now rewrite map_id. }
  assert (Dim : forall r, In r (flat_map snd items) -> rdim h r = D (port_of r)) by (intros r Hr; apply role_dim; auto).
  assert (Dims : forall it, In it items -> map (rdim h) (snd it) = map D (snd (conv it))).
  { intros it Hit. cbn [conv snd]. rewrite map_map. apply map_ext_in. intros r Hr. apply Dim. apply in_flat_map. eauto. }
  split.
  - apply RP.
  - apply Permutation_sym. eapply Permutation_trans; [apply Permutation_map, P4|]. rewrite (rp_names _ _ _ _ _ RP), (rp_dims _ _ _ _ _ RP). rewrite map_map.
    replace (combine (map fst items) _) with (map (fun it => (fst it, prodn (map (rdim h) (snd it)))) items).
    2:{ clear. induction items as [|[n r] items IH]; simpl; f_equal; auto. }
    apply Permutation_refl'. apply map_ext_in. intros it Hit. cbn [conv fst snd]. now rewrite (Dims it Hit).
  - intros s g Hs Hg. set (sr := fun r => s (port_of r)).
    assert (Ag : agree sr s) by (intros r _; reflexivity).
    rewrite <- (rsum_psum ps Hin (rprod h d) (pprod h d) rprod_pprod sr s Ag). unfold at_names. apply (rp_entry _ _ _ _ _ RP).
    + intros r Hr. rewrite (Dim r Hr). apply Hs. apply (Permutation_in (l := flat_map snd (map conv items))).
      * apply Permutation_flat_map. now apply Permutation_sym.
      * rewrite flat_conv. now apply in_map.
    + replace (map _ (legs_of h' t)) with (map g (names_of h' t)) by (unfold names_of; now rewrite map_map). rewrite (rp_names _ _ _ _ _ RP), map_map. apply map_ext_in. intros it Hit.
      pose proof (Hg (conv it)) as X. rewrite <- (Dims it Hit) in X. cbn [conv fst snd] in X. rewrite map_map in X. apply X. apply (Permutation_in _ (Permutation_sym P4)). now apply (in_map conv).
Qed.
End Conv.

Lemma joined_roles items o items' r : joined items o items' -> In r (flat_map snd items') -> In r (flat_map snd items).
Proof.
  intros (ks & _ & _ & _ & ->). cbn [flat_map snd]. rewrite in_app_iff. intros [H|H].
  - apply in_flat_map in H. destruct H as (k & _ & Hr). apply in_flat_map. destruct (nth_in_or_default k items (NNone, [])) as [I|E]; [eauto|rewrite E in Hr; destruct Hr].
  - apply in_flat_map in H. destruct H as (it & Hit & Hr). apply in_map_iff in Hit. destruct Hit as ([k it'] & <- & Hk). apply filter_In in Hk. destruct Hk as [Hk _]. apply in_combine_r in Hk. apply in_flat_map. eauto.
Qed.
Lemma joined_all_roles os : forall items items' r, joined_all items os items' -> In r (flat_map snd items') -> In r (flat_map snd items).
Proof.
  induction os as [|o os IH]; intros items items' r J H; inversion J; subst; auto. eapply joined_roles; [eassumption|]. eapply IH; eassumption.
Qed.

Section Main.
Context {A : Type} {HA : SR A}.
Notation heap := (heap A).
Notation world := (world A).
Variable symdiff : list nat -> list nat -> list nat.
Hypothesis Hsd : symdiff_ok symdiff.
Variable fuel : nat.

Lemma result_roles (h : heap) d ps out after b items : result_items h [] d ps out after b items -> forall r, In r (flat_map snd items) -> In r (roles h d).
Proof.
  intros (rs & items1 & P & J & ->) r Hr.
  assert (H1 : In r (flat_map snd items1)).
  { unfold renamed in Hr. apply in_flat_map in Hr. destruct Hr as ([n l] & Hp & Hr). apply in_combine_r in Hp. apply in_map_iff in Hp. destruct Hp as (it & <- & Hit). apply in_flat_map. eauto. }
  pose proof (joined_all_roles _ _ _ _ J H1) as H2. apply in_flat_map in H2. destruct H2 as (it & Hit & Hr2). apply in_map_iff in Hit. destruct Hit as (p & <- & Hp). cbn [snd] in Hr2. destruct Hr2 as [<-|[]].
  apply (Permutation_in _ P) in Hp. apply filter_In in Hp. apply role_names_in. apply Hp.
Qed.

(** a sequence for the same number of tensors fits all dense tensors *)
Lemma dense_fits (h h2 : heap) us us2 ps ps2 sq : List.length us = List.length us2 -> (forall p, In p us2 -> t_diag (tens h2 (snd p)) = false) ->
  seq_fits h us ps sq -> seq_fits h2 us2 ps2 sq.
Proof.
  intros Len Dn (n & C). exists n. rewrite <- Len. eapply complete_mono with (P := fun _ => True); [exact C|auto| |auto].
  intros I J _ _ O D1 D2. assert (Em : forall K, diag_at h2 us2 K = true -> K = []).
  { intros [|k K]; auto. unfold diag_at. cbn [forallb]. destruct (nth_error us2 k) eqn:E; [|discriminate]. apply nth_error_In in E. now rewrite (Dn _ E). }
  rewrite (Em I D1), (Em J D2) in *. destruct (O eq_refl eq_refl) as (a & b & _ & (i & _ & [] & _) & _).
Qed.

Lemma has_legs_order (h : heap) t m : has_legs h t m -> exists m', Permutation m' m /\ names_of h t = map (fun p => NStr (fst p)) m' /\ dims_of h t = map snd m'.
Proof.
  unfold has_legs. intros P. assert (Len : List.length (names_of h t) = List.length (dims_of h t)) by (unfold names_of, dims_of; now rewrite !map_length).
  destruct (Permutation_map_inv _ _ P) as (m' & E & P'). exists m'. split; [now apply Permutation_sym|]. split.
  - rewrite <- (map_combine_fst _ _ Len), E, map_map. reflexivity.
  - rewrite <- (map_combine_snd _ _ Len), E, map_map. reflexivity.
Qed.
Lemma map_pair_inv (D : string -> nat) ns m' : Permutation m' (map (fun n => (n, D n)) ns) -> exists ns', Permutation ns' ns /\ m' = map (fun n => (n, D n)) ns'.
Proof. intros P. destruct (Permutation_map_inv _ _ P) as (ns' & E & P'). exists ns'. split; [now apply Permutation_sym|exact E]. Qed.
Definition reordered (q q' : string * list string) : Prop := fst q = fst q' /\ Permutation (snd q) (snd q').
Lemma ports_ordered (h : heap) D d N : has_ports h D d N -> exists N', ordered h D d N' /\ Forall2 reordered N' N.
Proof.
  induction 1 as [|p q d N (E & HL & NDq) F (N' & O & R)]; [exists []; split; constructor|].
  destruct (has_legs_order _ _ _ HL) as (m' & P & En & Ed). destruct (map_pair_inv (fun n => D (fst q, n)) _ _ P) as (ns' & P' & ->).
  exists ((fst q, ns') :: N'). split; constructor; auto; [|now split]. cbn [fst snd]. rewrite !map_map in En, Ed. cbn [fst snd] in *. repeat split; auto.
  eapply NoDup_perm; [apply Permutation_sym, P'|exact NDq].
Qed.
Lemma free_items_perm N N' links : Forall2 reordered N' N -> Permutation (free_items N links) (free_items N' links).
Proof.
  intros R. apply filter_perm. unfold port_items. induction R as [|q' q N' N [E P] R IH]; auto. cbn [flat_map]. apply Permutation_app; [|exact IH].
  rewrite E. apply Permutation_map. now apply Permutation_sym.
Qed.
Lemma distinct_names_perm N N' links out after : Forall2 reordered N' N -> distinct_names N links out after -> distinct_names N' links out after.
Proof.
  intros R [D1 D2]. pose proof (free_items_perm _ _ links R) as P. split; [eapply distinct_join_perm; eauto|]. eapply distinct_rename_perm; [|exact D2]. now apply join_all_perm.
Qed.
Lemma expected_perm N N' links out after b : Forall2 reordered N' N -> distinct_names N links out after -> Permutation (expected N links out after b) (expected N' links out after b).
Proof.
  intros R [D1 _]. unfold expected. pose proof (rename_all_perm after _ _ (join_all_perm out _ _ D1 (free_items_perm _ _ links R))) as P. destruct b; auto. now apply Permutation_map.
Qed.
Lemma has_value_perm (h : heap) t D I I' F : Permutation I I' -> has_value h t D I' F -> has_value h t D I F.
Proof.
  intros P [W L E]. split; auto.
  - eapply Permutation_trans; [exact L|]. apply Permutation_map. now apply Permutation_sym.
  - intros s g Hs Hg. apply E.
    + intros p Hp. apply Hs. eapply Permutation_in; [|exact Hp]. apply Permutation_flat_map. now apply Permutation_sym.
    + intros it Hit. apply Hg. eapply Permutation_in; [|exact Hit]. now apply Permutation_sym.
Qed.

Theorem contract_named w f d b w' t names links out after D N : contract symdiff fuel f d b w = (w', Ok t) -> ftn_is w f names links out after ->
  usable (w_heap w) d -> has_ports (w_heap w) D d N -> plinks_ok links -> distinct_names N links out after ->
  (forall p, In p d -> t_diag (tens (w_heap w) (snd p)) = false) \/ f_seq (w_ftn w f) = None ->
  has_value (w_heap w') t D (expected N links out after b) (psum D links (pprod (w_heap w) d)) /\ ftn_is w' f names links out after /\
  t_like (tens (w_heap w') t) = false /\ t_diag (tens (w_heap w') t) = forallb (fun p => t_diag (tens (w_heap w) (snd p))) d.
Proof.
  intros R FI [Ud ND] HP0 PL DN0 Dense. destruct (ports_ordered _ _ _ _ HP0) as (N' & HP & RO). pose proof (distinct_names_perm _ _ _ _ _ RO DN0) as DN.
  destruct (contract_declares _ _ _ _ _ _ _ _ _ R (fun p Hp => proj1 (Ud p Hp)) ND (fi_links _ _ _ _ _ _ FI)) as [PN (ps & FD)].
  rewrite (fi_before _ _ _ _ _ _ FI) in FD. destruct (declares_ports _ _ _ _ FD) as [El Hin].
  assert (PR : proper ps) by (apply (ports_proper (w_heap w)); rewrite <- El; exact PL).
  assert (FD' := FD). rewrite <- (fi_before _ _ _ _ _ _ FI) in FD'.
  assert (CACHE : forall sq, f_seq (w_ftn w f) = Some sq -> exists us, Permutation us d /\ namesOf w f = map fst us /\ seq_fits (w_heap w) us ps sq).
  { intros sq Esq. destruct (perm_dict _ _ PN) as (us & PU & NU). exists us. split; [exact PU|]. split; [exact NU|].
    destruct (fi_seq _ _ _ _ _ _ FI sq Esq) as (h0 & us0 & ps0 & L0 & SF0). destruct Dense as [Dn|En]; [|congruence].
    eapply dense_fits; [|intros p Hp; apply Dn; eapply Permutation_in; eauto|exact SF0].
    rewrite L0, <- (fi_names _ _ _ _ _ _ FI), NU, map_length. reflexivity. }
  destruct (contract_value symdiff Hsd fuel w f d b w' t links ps R Ud ND (fi_links _ _ _ _ _ _ FI) FD' PR CACHE) as [(items & RI & RP) (us & sq & PU & NU & FS & SF)].
  pose proof (contract_flags symdiff Hsd fuel w f d b w' t links ps R Ud ND (fi_links _ _ _ _ _ _ FI) FD' PR CACHE) as FL.
  rewrite (fi_before _ _ _ _ _ _ FI), (fi_out _ _ _ _ _ _ FI), (fi_after _ _ _ _ _ _ FI) in RI. split; [|split; [|exact FL]].
  - eapply has_value_perm; [apply (expected_perm _ _ _ _ _ _ RO DN0)|]. eapply (has_value_of (w_heap w) D d N' HP ND links ps out after b items); eauto. eapply result_roles; eauto.
  - pose proof (contract_kept symdiff fuel f d b w) as K. rewrite R in K. cbn [fst] in K.
    destruct K as (K1 & K2 & K3 & K4 & SS & _). destruct SS as (S1 & S2 & S3 & S4 & S5 & _).
    destruct FI as [G1 G2 G3 G4 G5 G6 G7]. split.
    + now rewrite K3.
    + unfold namesOf in *. congruence.
    + congruence.
    + congruence.
    + congruence.
    + congruence.
    + intros sq' E'. rewrite FS in E'. injection E' as <-. exists (w_heap w), us, ps. split; [|exact SF]. rewrite <- (map_length fst us), <- NU, G2. reflexivity.
Qed.
End Main.
