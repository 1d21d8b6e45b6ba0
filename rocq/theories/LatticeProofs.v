(** Proofs about the lattice generators. *)
From Coq Require Import List Arith Bool Lia ZArith Permutation.
From Verif Require Import Base FuncsModel FuncsProofs SearchModel GraphModel GraphSpec GraphProofs.
Import ListNotations.
Local Open Scope nat_scope.

Section L.
Context {W : Type}.
Notation graph := (graph W).
Notation ent := (nat * nat * W)%type.
Definition two (e : ent) : nat * option nat * W := let '(a, b, w) := e in (a, Some b, w).

(** a piece of code that adds the edges [L] *)
Definition adds_list (n : nat) (f : graph -> res graph) (L : list ent) : Prop :=
  forall l g, ginv n l g -> exists g', f g = Ok g' /\ ginv n (l ++ map two L) g'.
Lemma adds_edge n i j w : i < n -> j < n -> adds_list n (fun g => addEdge g i j w) [(i, j, w)].
Proof.
  intros Hi Hj l g I. pose proof (ginv_addEdge n l g i j w I) as H. destruct (addEdge g i j w) as [g'|e].
  - exists g'. split; [reflexivity|apply H].
  - destruct H as (_ & H). exfalso. auto.
Qed.
Lemma adds_edge_at n i j w ri rj : ri = Ok i -> rj = Ok j -> i < n -> j < n -> adds_list n (fun g => addEdgeAt g ri rj w) [(i, j, w)].
Proof. intros -> ->. unfold addEdgeAt. cbn [rbind]. apply adds_edge. Qed.
Lemma adds_seq n f f' L L' : adds_list n f L -> adds_list n f' L' -> adds_list n (fun g => rbind (f g) f') (L ++ L').
Proof.
  intros H H' l g I. destruct (H l g I) as (g1 & E1 & I1). destruct (H' _ g1 I1) as (g2 & E2 & I2).
  exists g2. rewrite E1. cbn [rbind]. rewrite map_app, app_assoc. auto.
Qed.
Lemma adds_nil n : adds_list n (fun g => Ok g) [].
Proof. intros l g I. exists g. simpl. rewrite app_nil_r. auto. Qed.
Lemma adds_rfold n {X} (f : graph -> X -> res graph) (L : X -> list ent) : forall xs,
  (forall x, In x xs -> adds_list n (fun g => f g x) (L x)) -> adds_list n (fun g => rfold f xs g) (flat_map L xs).
Proof.
  induction xs as [|x xs IH]; intros H; [apply adds_nil|]. cbn [rfold flat_map].
  apply (adds_seq n (fun g => f g x) (fun g => rfold f xs g)); [apply H; simpl; auto|apply IH; intros; apply H; simpl; auto].
Qed.
Lemma adds_new n f L : adds_list n f L -> exists g, f (newGraph n) = Ok g /\ ginv n (map two L) g.
Proof. intros H. destruct (H [] _ (ginv_new n)) as (g & E & I). exists g. auto. Qed.

(** *** reading off the graph *)
Lemma joins_In n L g : ginv n (map two L) g -> forall k a b w, joins g k a b w <-> nth_error L k = Some (a, b, w) \/ nth_error L k = Some (b, a, w).
Proof.
  intros [_ Is _ _] k a b w.
  assert (D : forall e, nth_error (g_store g) k = Some e -> exists a b w, nth_error L k = Some (a, b, w) /\ e_a e = a /\ e_b e = Some b /\ e_w e = w).
  { intros e He. apply (map_nth_error desc) in He. rewrite Is in He.
    assert (K : exists x, nth_error L k = Some x /\ two x = desc e).
    { destruct (nth_error L k) as [x|] eqn:E; [exists x; split; auto; apply (map_nth_error two) in E; congruence|].
      apply nth_error_None in E. rewrite <- (map_length two) in E. apply nth_error_None in E. congruence. }
    destruct K as ([[a' b'] w'] & K1 & K2). exists a', b', w'. split; [exact K1|]. injection K2 as <- <- <-. auto. }
  assert (U : forall x, nth_error L k = Some x -> exists e, nth_error (g_store g) k = Some e /\ desc e = two x).
  { intros x Hx. apply (map_nth_error two) in Hx. rewrite <- Is in Hx. destruct (nth_error (g_store g) k) as [e|] eqn:E.
    - exists e. split; auto. apply (map_nth_error desc) in E. congruence.
    - apply nth_error_None in E. rewrite <- (map_length desc) in E. apply nth_error_None in E. congruence. }
  split.
  - intros (e & He & Hw & H). destruct (D e He) as (a' & b' & w' & H1 & H2 & H3 & H4). subst a' w' w. rewrite H3 in H. destruct H as [[<- [= <-]]|[<- [= <-]]]; auto.
  - intros [H|H]; destruct (U _ H) as (e & He & [= H1 H2 H3]); exists e; auto.
Qed.
Lemma store_length n L g : ginv n (map two L) g -> List.length (g_store g) = List.length L.
Proof. intros [_ Is _ _]. rewrite <- (map_length desc), Is, map_length. reflexivity. Qed.

Definition pair_of (e : ent) : nat * nat := fst e.
Lemma once_In n L g a b w : ginv n (map two L) g -> NoDup (map pair_of L) -> 
  (forall w', ~ In (b, a, w') L) -> In (a, b, w) L -> joined_once g a b w.
Proof.
  intros I ND As H. destruct (In_nth_error _ _ H) as (k & Hk). exists k. split; [apply (joins_In n L g I); auto|].
  intros k' w' J. apply (joins_In n L g I) in J. destruct J as [J|J]; [|exfalso; apply (As w'), (nth_error_In _ _ J)].
  apply (map_nth_error pair_of) in J, Hk. cbn in J, Hk. assert (k' < List.length (map pair_of L)) by (apply nth_error_Some; rewrite J; discriminate).
  apply (proj1 (NoDup_nth_error _) ND); congruence.
Qed.
Lemma once_sym (g : graph) a b w : joined_once g a b w -> joined_once g b a w.
Proof.
  assert (S : forall k a b w, joins g k a b w -> joins g k b a w) by (intros k a' b' w' (e & H1 & H2 & H3); exists e; tauto).
  intros (k & H1 & H2). exists k. split; [auto|]. intros k' w' H. apply (H2 k' w'). auto.
Qed.

(** *** lists over all coordinates *)
Lemma flat_map_prod {X Y Z} (f : X * Y -> list Z) (ys : list Y) : forall xs,
  flat_map (fun x => flat_map (fun y => f (x, y)) ys) xs = flat_map f (list_prod xs ys).
Proof.
  induction xs as [|x xs IH]; [reflexivity|]. cbn [flat_map list_prod]. rewrite flat_map_app, IH. f_equal.
  clear. induction ys as [|y ys IH]; [reflexivity|]. simpl. rewrite IH. reflexivity.
Qed.
Lemma NoDup_prod {X Y} (xs : list X) (ys : list Y) : NoDup xs -> NoDup ys -> NoDup (list_prod xs ys).
Proof.
  intros Hx Hy. induction xs as [|x xs IH]; [constructor|]. inversion Hx; subst. cbn [list_prod]. apply NoDup_app.
  - apply FinFun.Injective_map_NoDup; auto. intros y y' [= ->]. reflexivity.
  - auto.
  - intros [a b] Ha Hb. apply in_map_iff in Ha. destruct Ha as (y & [= <- <-] & _). apply in_prod_iff in Hb. tauto.
Qed.
Definition coords (n m : nat) : list (nat * nat) := list_prod (seq 0 n) (seq 0 m).
Lemma coords_In n m x y : In (x, y) (coords n m) <-> x < n /\ y < m.
Proof. unfold coords. rewrite in_prod_iff, !in_seq. lia. Qed.
Lemma coords_NoDup n m : NoDup (coords n m).
Proof. apply NoDup_prod; apply seq_NoDup. Qed.
Lemma coords_length n m : List.length (coords n m) = n * m.
Proof. unfold coords. rewrite prod_length, !seq_length. reflexivity. Qed.
Lemma NoDup_flat_map {X Y} (f : X -> list Y) l : NoDup l -> (forall x, In x l -> NoDup (f x)) ->
  (forall x x' y, In x l -> In x' l -> In y (f x) -> In y (f x') -> x = x') -> NoDup (flat_map f l).
Proof.
  induction l as [|x l IH]; intros ND H D; [constructor|]. inversion ND; subst. cbn [flat_map]. apply NoDup_app.
  - apply H; simpl; auto.
  - apply IH; auto; [intros; apply H; simpl; auto|]. intros a b y Ha Hb. apply D; simpl; auto.
  - intros y Hy Hy'. apply in_flat_map in Hy'. destruct Hy' as (x' & Hx' & Hy').
    rewrite (D x x' y) in H2; simpl; auto.
Qed.
Lemma flat_length {X Y} (f : X -> list Y) c l : (forall x, In x l -> List.length (f x) = c) -> List.length (flat_map f l) = List.length l * c.
Proof.
  induction l as [|x l IH]; intros H; [reflexivity|]. cbn [flat_map List.length]. rewrite app_length, (H x) by (simpl; auto).
  rewrite IH by (intros; apply H; simpl; auto). lia.
Qed.
Lemma map_flat_map {X Y Z} (f : Y -> Z) (h : X -> list Y) l : map f (flat_map h l) = flat_map (fun x => map f (h x)) l.
Proof. induction l as [|x l IH]; [reflexivity|]. cbn [flat_map]. rewrite map_app, IH. reflexivity. Qed.
Lemma site_inj m x y x' y' : y < m -> y' < m -> site m x y = site m x' y' -> x = x' /\ y = y'.
Proof. unfold site. intros H H' E. apply (Nat.div_mod_unique m); auto. lia. Qed.
Lemma site_lt n m x y : x < n -> y < m -> site m x y < n * m.
Proof. unfold site. intros. nia. Qed.
Lemma site_of n m i : i < n * m -> exists x y, x < n /\ y < m /\ i = site m x y.
Proof.
  intros H. assert (0 < m) by (destruct m; lia). exists (i / m), (i mod m). split; [apply Nat.div_lt_upper_bound; lia|].
  split; [apply Nat.mod_upper_bound; lia|]. unfold site. rewrite Nat.mul_comm. apply Nat.div_mod. lia.
Qed.

(** ** periodic square lattice *)
Definition nxt (k x : nat) : nat := if Nat.eqb (x + 1) k then 0 else x + 1.
Lemma nxt_ring k x y : x < k -> ring_next k x y <-> y = nxt k x.
Proof. unfold ring_next, nxt. intros H. destruct (Nat.eqb_spec (x + 1) k); lia. Qed.
Lemma nxt_lt k x : x < k -> nxt k x < k.
Proof. unfold nxt. intros H. destruct (Nat.eqb_spec (x + 1) k); lia. Qed.
Lemma nxt_inj k x y : x < k -> y < k -> nxt k x = nxt k y -> x = y.
Proof. unfold nxt. intros H H'. destruct (Nat.eqb_spec (x + 1) k), (Nat.eqb_spec (y + 1) k); lia. Qed.
Lemma nxt_onto k y : y < k -> exists x, x < k /\ nxt k x = y.
Proof.
  unfold nxt. intros H. destruct y as [|y].
  - exists (k - 1). split; [lia|]. destruct (Nat.eqb_spec (k - 1 + 1) k); lia.
  - exists y. split; [lia|]. destruct (Nat.eqb_spec (y + 1) k); lia.
Qed.
Lemma pbc_mod x m : x < m -> safeMod (Z.of_nat x) (Z.of_nat m) = Ok (Z.of_nat x).
Proof.
  intros H. unfold safeMod. destruct (Z.eqb_spec (Z.of_nat m) 0); [lia|]. f_equal.
  rewrite (Z.mod_small (Z.of_nat x)) by lia. rewrite <- (Z.mod_add _ (-1)) by lia. rewrite Z.mod_small; lia.
Qed.
Lemma pbc_mod_next x m : x < m -> safeMod (Z.of_nat (x + 1)) (Z.of_nat m) = Ok (Z.of_nat (nxt m x)).
Proof.
  intros H. unfold nxt. destruct (Nat.eqb_spec (x + 1) m) as [->|N]; [|apply pbc_mod; lia].
  unfold safeMod. destruct (Z.eqb_spec (Z.of_nat m) 0); [lia|]. rewrite Z_mod_same_full. cbn [Z.add]. rewrite Z_mod_same_full. reflexivity.
Qed.
Lemma pbc_site n m x y : x < n -> y < m -> getIndexPBC n m x y = Ok (site m x y) /\
  getIndexPBC n m x (y + 1) = Ok (site m x (nxt m y)) /\ getIndexPBC n m (x + 1) y = Ok (site m (nxt n x) y).
Proof.
  intros Hx Hy. unfold getIndexPBC. rewrite !pbc_mod, !pbc_mod_next by assumption. cbn [rbind]. unfold site.
  repeat split; f_equal; lia.
Qed.
Definition pbc_cell (n m : nat) (wV wH : W) (p : nat * nat) : list ent :=
  let '(x, y) := p in [(site m x y, site m x (nxt m y), wH); (site m x y, site m (nxt n x) y, wV)].
Definition pbc_list n m wV wH : list ent := flat_map (pbc_cell n m wV wH) (coords n m).
Lemma weights_eq w (w1 w2 : W) : weights_are w w1 w2 -> twoWeights w = (w1, w2).
Proof. intros [->|[-> ->]]; reflexivity. Qed.
Lemma width_eq mo n m : width_is mo n m -> orDefault mo n = m.
Proof. intros [->|[-> ->]]; reflexivity. Qed.
Lemma pbc_builds n mo m w wV wH : weights_are w wV wH -> width_is mo n m ->
  exists g, squareLatticePBC n mo w = Ok g /\ ginv (n * m) (map two (pbc_list n m wV wH)) g.
Proof.
  intros Ew Em. unfold squareLatticePBC. rewrite (weights_eq _ _ _ Ew), (width_eq _ _ _ Em).
  unfold pbc_list, coords. rewrite <- flat_map_prod.
  refine (adds_new (n * m) (fun g => rfold _ (seq 0 n) g) _ _).
  apply adds_rfold. intros x Hx. apply adds_rfold. intros y Hy. apply in_seq in Hx, Hy.
  destruct (pbc_site n m x y) as (E1 & E2 & E3); [lia|lia|].
  apply (adds_seq (n * m) _ _ [(site m x y, site m x (nxt m y), wH)] [(site m x y, site m (nxt n x) y, wV)]);
    apply adds_edge_at; auto; apply site_lt; try lia; apply nxt_lt; lia.
Qed.
Lemma pbc_In n m wV wH a b w : In (a, b, w) (pbc_list n m wV wH) <-> exists x y, x < n /\ y < m /\ a = site m x y /\
  ((b = site m x (nxt m y) /\ w = wH) \/ (b = site m (nxt n x) y /\ w = wV)).
Proof.
  unfold pbc_list. rewrite in_flat_map. split.
  - intros ([x y] & H & H'). apply coords_In in H. exists x, y. simpl in H'. destruct H' as [[= <- <- <-]|[[= <- <- <-]|[]]]; repeat split; try tauto; auto.
  - intros (x & y & Hx & Hy & -> & H). exists (x, y). split; [apply coords_In; auto|]. simpl. destruct H as [[-> ->]|[-> ->]]; auto.
Qed.
Lemma pbc_NoDup n m wV wH : 2 <= n -> 2 <= m -> NoDup (map pair_of (pbc_list n m wV wH)).
Proof.
  intros Hn Hm. unfold pbc_list. rewrite map_flat_map. apply NoDup_flat_map; [apply coords_NoDup| |].
  - intros [x y] H. apply coords_In in H. cbn. constructor; [|repeat constructor; simpl; tauto]. intros [[= E]|[]].
    destruct (site_inj m (nxt n x) y x (nxt m y)) as [E1 E2]; [tauto|apply nxt_lt; tauto|exact E|].
    unfold nxt in E1. destruct (Nat.eqb_spec (x + 1) n); lia.
  - intros [x y] [x' y'] [a b] H H' Hp Hp'. apply coords_In in H, H'. cbn in Hp, Hp'.
    assert (a = site m x y) by (destruct Hp as [[= <- _]|[[= <- _]|[]]]; reflexivity).
    assert (a = site m x' y') by (destruct Hp' as [[= <- _]|[[= <- _]|[]]]; reflexivity).
    destruct (site_inj m x y x' y') as [-> ->]; [tauto|tauto|congruence|reflexivity].
Qed.
Lemma pbc_asym n m wV wH a b w : 3 <= n -> 3 <= m -> In (a, b, w) (pbc_list n m wV wH) -> forall w', ~ In (b, a, w') (pbc_list n m wV wH).
Proof.
  intros Hn Hm H w' H'. apply pbc_In in H, H'. destruct H as (x & y & Hx & Hy & -> & H). destruct H' as (x' & y' & Hx' & Hy' & -> & H').
  pose proof (nxt_lt m y Hy). pose proof (nxt_lt n x Hx). pose proof (nxt_lt m y' Hy'). pose proof (nxt_lt n x' Hx').
  destruct H as [[H _]|[H _]], H' as [[H' _]|[H' _]]; apply site_inj in H, H'; auto; destruct H as [-> ->], H' as [E E'];
    unfold nxt in *; repeat match goal with |- context [Nat.eqb ?a ?b] => destruct (Nat.eqb_spec a b) | H : context [Nat.eqb ?a ?b] |- _ => destruct (Nat.eqb_spec a b) end; lia.
Qed.

(** degrees *)
Lemma incident_length i : forall (L : list ent) k,
  List.length (incident i k (map two L)) = count_occ Nat.eq_dec (map (fun e => fst (fst e)) L) i + count_occ Nat.eq_dec (map (fun e => snd (fst e)) L) i.
Proof.
  induction L as [|[[a b] w] L IH]; intros k; [reflexivity|]. cbn [map two incident fst snd]. rewrite !app_length, IH. cbn [count_occ].
  destruct (Nat.eqb_spec a i), (Nat.eqb_spec b i), (Nat.eq_dec a i), (Nat.eq_dec b i); try congruence; simpl; lia.
Qed.
Lemma count_flat2 {X} (f1 f2 : X -> nat) i l : count_occ Nat.eq_dec (flat_map (fun x => [f1 x; f2 x]) l) i = count_occ Nat.eq_dec (map f1 l) i + count_occ Nat.eq_dec (map f2 l) i.
Proof. induction l as [|x l IH]; [reflexivity|]. cbn [flat_map map app count_occ]. rewrite IH. destruct (Nat.eq_dec (f1 x) i), (Nat.eq_dec (f2 x) i); lia. Qed.
Lemma count_once {X} (f : X -> nat) i l : NoDup l -> (forall x x', In x l -> In x' l -> f x = f x' -> x = x') -> (exists x, In x l /\ f x = i) ->
  count_occ Nat.eq_dec (map f l) i = 1.
Proof.
  intros ND Inj (x & Hx & <-). apply NoDup_count_occ'.
  - clear Hx x. induction ND as [|x l Nx ND IH]; [constructor|]. cbn [map]. constructor.
    + intros H. apply in_map_iff in H. destruct H as (x' & E & H). apply Nx. rewrite (Inj x x'); simpl; auto.
    + apply IH. intros a b Ha Hb. apply Inj; simpl; auto.
  - apply in_map, Hx.
Qed.
Lemma pbc_degree n m wV wH g i : ginv (n * m) (map two (pbc_list n m wV wH)) g -> i < n * m -> degree g i = 4.
Proof.
  intros I Hi. unfold degree. rewrite (gi_v _ _ _ I), incident_length. unfold pbc_list. rewrite !map_flat_map.
  destruct (site_of n m i Hi) as (x0 & y0 & Hx0 & Hy0 & E).
  rewrite (flat_map_ext _ (fun p => [site m (fst p) (snd p); site m (fst p) (snd p)])) by (intros [x y]; reflexivity).
  rewrite (flat_map_ext (fun x => map (fun e : ent => snd (fst e)) (pbc_cell n m wV wH x))
            (fun p => [site m (fst p) (nxt m (snd p)); site m (nxt n (fst p)) (snd p)])) by (intros [x y]; reflexivity).
  rewrite !count_flat2. rewrite !count_once; [reflexivity| | | | | | | | |]; try apply coords_NoDup.
  - intros [x y] [x' y'] H H' Es. apply coords_In in H, H'. cbn [fst snd] in Es. apply site_inj in Es; try apply nxt_lt; try tauto.
    destruct Es as [E1 ->]. apply nxt_inj in E1; try tauto. subst. reflexivity.
  - destruct (nxt_onto n x0 Hx0) as (x & H1 & H2). exists (x, y0). split; [apply coords_In; auto|]. cbn [fst snd]. congruence.
  - intros [x y] [x' y'] H H' Es. apply coords_In in H, H'. cbn [fst snd] in Es. apply site_inj in Es; try apply nxt_lt; try tauto.
    destruct Es as [-> E1]. apply nxt_inj in E1; try tauto. subst. reflexivity.
  - destruct (nxt_onto m y0 Hy0) as (y & H1 & H2). exists (x0, y). split; [apply coords_In; auto|]. cbn [fst snd]. congruence.
  - intros [x y] [x' y'] H H' Es. apply coords_In in H, H'. cbn [fst snd] in Es. apply site_inj in Es; try tauto. destruct Es as [-> ->]. reflexivity.
  - exists (x0, y0). split; [apply coords_In; auto|]. auto.
Qed.

Lemma pbc_ok n mo m w (wV wH : W) : weights_are w wV wH -> width_is mo n m ->
  exists g, squareLatticePBC n mo w = Ok g /\ g_n g = n * m /\ List.length (g_store g) = 2 * (n * m) /\
    (forall k a b w, joins g k a b w -> exists x y x' y', x < n /\ y < m /\ x' < n /\ y' < m /\
       ((a = site m x y /\ b = site m x' y') \/ (a = site m x' y' /\ b = site m x y)) /\
       ((x' = x /\ ring_next m y y' /\ w = wH) \/ (ring_next n x x' /\ y' = y /\ w = wV))) /\
    (forall x y y', x < n -> y < m -> ring_next m y y' -> exists k, joins g k (site m x y) (site m x y') wH) /\
    (forall x x' y, x < n -> y < m -> ring_next n x x' -> exists k, joins g k (site m x y) (site m x' y) wV) /\
    (forall i, i < n * m -> degree g i = 4) /\
    (3 <= n -> 3 <= m -> (forall x y y', x < n -> y < m -> ring_next m y y' -> joined_once g (site m x y) (site m x y') wH) /\
                         (forall x x' y, x < n -> y < m -> ring_next n x x' -> joined_once g (site m x y) (site m x' y) wV)).
Proof.
  intros Ew Em. destruct (pbc_builds n mo m w wV wH Ew Em) as (g & E & I). exists g. split; [exact E|].
  split; [apply (gi_n _ _ _ I)|]. split; [|split; [|split; [|split; [|split]]]].
  - rewrite (store_length _ _ _ I). unfold pbc_list. rewrite (flat_length _ 2), coords_length by (intros [x y] _; reflexivity). lia.
  - intros k a b w0 J. apply (joins_In _ _ _ I) in J.
    assert (K : forall a b, nth_error (pbc_list n m wV wH) k = Some (a, b, w0) -> exists x y x' y', x < n /\ y < m /\ x' < n /\ y' < m /\
       (a = site m x y /\ b = site m x' y') /\ ((x' = x /\ ring_next m y y' /\ w0 = wH) \/ (ring_next n x x' /\ y' = y /\ w0 = wV))).
    { intros a' b' H. apply nth_error_In, pbc_In in H. destruct H as (x & y & Hx & Hy & -> & [[-> ->]|[-> ->]]).
      - exists x, y, x, (nxt m y). pose proof (nxt_lt m y Hy). repeat split; auto. left. repeat split; auto. apply nxt_ring; auto.
      - exists x, y, (nxt n x), y. pose proof (nxt_lt n x Hx). repeat split; auto. right. repeat split; auto. apply nxt_ring; auto. }
    destruct J as [J|J]; apply K in J; destruct J as (x & y & x' & y' & H1 & H2 & H3 & H4 & [-> ->] & H5); exists x, y, x', y'; tauto.
  - intros x y y' Hx Hy R. apply nxt_ring in R; auto. subst. assert (H : In (site m x y, site m x (nxt m y), wH) (pbc_list n m wV wH)).
    { apply pbc_In. exists x, y. auto 6. }
    destruct (In_nth_error _ _ H) as (k & Hk). exists k. apply (joins_In _ _ _ I). auto.
  - intros x x' y Hx Hy R. apply nxt_ring in R; auto. subst. assert (H : In (site m x y, site m (nxt n x) y, wV) (pbc_list n m wV wH)).
    { apply pbc_In. exists x, y. auto 6. }
    destruct (In_nth_error _ _ H) as (k & Hk). exists k. apply (joins_In _ _ _ I). auto.
  - intros i Hi. eapply pbc_degree; eauto.
  - intros Hn Hm. split.
    + intros x y y' Hx Hy R. apply nxt_ring in R; auto. subst. assert (H : In (site m x y, site m x (nxt m y), wH) (pbc_list n m wV wH)).
      { apply pbc_In. exists x, y. auto 6. }
      eapply once_In; eauto; [apply pbc_NoDup; lia|]. eapply pbc_asym; eauto.
    + intros x x' y Hx Hy R. apply nxt_ring in R; auto. subst. assert (H : In (site m x y, site m (nxt n x) y, wV) (pbc_list n m wV wH)).
      { apply pbc_In. exists x, y. auto 6. }
      eapply once_In; eauto; [apply pbc_NoDup; lia|]. eapply pbc_asym; eauto.
Qed.

(** ** open square lattice *)
Definition fbc_cell (n m : nat) (wV wH : W) (p : nat * nat) : list ent :=
  let '(x, y) := p in
  (if (Z.of_nat y <? Z.of_nat m - 1)%Z then [(site m x y, site m x (y + 1), wH)] else []) ++
  (if (Z.of_nat x <? Z.of_nat n - 1)%Z then [(site m x y, site m (x + 1) y, wV)] else []).
Definition fbc_list n m wV wH : list ent := flat_map (fbc_cell n m wV wH) (coords n m).
Lemma fbc_site n m x y : x < n -> y < m -> getIndexFBC n m x y = Ok (site m x y).
Proof. intros Hx Hy. unfold getIndexFBC. apply Nat.ltb_lt in Hx, Hy. rewrite Hx, Hy. reflexivity. Qed.
Lemma fbc_builds n mo m w wV wH : weights_are w wV wH -> width_is mo n m ->
  exists g, squareLatticeFBC n mo w = Ok g /\ ginv (n * m) (map two (fbc_list n m wV wH)) g.
Proof.
  intros Ew Em. unfold squareLatticeFBC. rewrite (weights_eq _ _ _ Ew), (width_eq _ _ _ Em).
  unfold fbc_list, coords. rewrite <- flat_map_prod.
  refine (adds_new (n * m) (fun g => rfold _ (seq 0 n) g) _ _).
  apply adds_rfold. intros x Hx. apply adds_rfold. intros y Hy. apply in_seq in Hx, Hy. cbn [fbc_cell].
  apply (adds_seq (n * m) (fun g => if (Z.of_nat y <? Z.of_nat m - 1)%Z then addEdgeAt g (getIndexFBC n m x y) (getIndexFBC n m x (y + 1)) wH else Ok g)
    (fun g => if (Z.of_nat x <? Z.of_nat n - 1)%Z then addEdgeAt g (getIndexFBC n m x y) (getIndexFBC n m (x + 1) y) wV else Ok g)).
  - destruct (Z.ltb_spec (Z.of_nat y) (Z.of_nat m - 1)); [|apply adds_nil].
    apply adds_edge_at; try (apply fbc_site; lia); apply site_lt; lia.
  - destruct (Z.ltb_spec (Z.of_nat x) (Z.of_nat n - 1)); [|apply adds_nil].
    apply adds_edge_at; try (apply fbc_site; lia); apply site_lt; lia.
Qed.
Lemma fbc_In n m wV wH a b w : In (a, b, w) (fbc_list n m wV wH) <-> exists x y, x < n /\ y < m /\ a = site m x y /\
  ((y + 1 < m /\ b = site m x (y + 1) /\ w = wH) \/ (x + 1 < n /\ b = site m (x + 1) y /\ w = wV)).
Proof.
  unfold fbc_list. rewrite in_flat_map. split.
  - intros ([x y] & H & H'). apply coords_In in H. exists x, y. cbn [fbc_cell] in H'. apply in_app_or in H'.
    destruct H' as [H'|H']; [destruct (Z.ltb_spec (Z.of_nat y) (Z.of_nat m - 1)); [|destruct H']|destruct (Z.ltb_spec (Z.of_nat x) (Z.of_nat n - 1)); [|destruct H']];
      destruct H' as [[= <- <- <-]|[]]; repeat split; try tauto; [left|right]; repeat split; lia.
  - intros (x & y & Hx & Hy & -> & H). exists (x, y). split; [apply coords_In; auto|]. cbn [fbc_cell]. apply in_or_app.
    destruct H as [(H & -> & ->)|(H & -> & ->)]; [left|right].
    + destruct (Z.ltb_spec (Z.of_nat y) (Z.of_nat m - 1)); [simpl; auto|lia].
    + destruct (Z.ltb_spec (Z.of_nat x) (Z.of_nat n - 1)); [simpl; auto|lia].
Qed.
Lemma fbc_NoDup n m wV wH : NoDup (map pair_of (fbc_list n m wV wH)).
Proof.
  unfold fbc_list. rewrite map_flat_map. apply NoDup_flat_map; [apply coords_NoDup| |].
  - intros [x y] H. apply coords_In in H. cbn [fbc_cell]. destruct (Z.ltb_spec (Z.of_nat y) (Z.of_nat m - 1)), (Z.ltb_spec (Z.of_nat x) (Z.of_nat n - 1)); cbn;
      repeat constructor; simpl; try tauto. intros [[= E]|[]]. destruct (site_inj m (x + 1) y x (y + 1)) as [E1 E2]; lia.
  - intros [x y] [x' y'] [a b] H H' Hp Hp'. apply coords_In in H, H'.
    assert (K : forall x y, In (a, b) (map pair_of (fbc_cell n m wV wH (x, y))) -> a = site m x y).
    { clear. intros x y Hp. cbn [fbc_cell] in Hp. destruct (Z.ltb_spec (Z.of_nat y) (Z.of_nat m - 1)), (Z.ltb_spec (Z.of_nat x) (Z.of_nat n - 1)); cbn in Hp;
        repeat (destruct Hp as [Hp|Hp]; [injection Hp as <- <-; reflexivity|]); destruct Hp. }
    apply K in Hp, Hp'. destruct (site_inj m x y x' y') as [-> ->]; [tauto|tauto|congruence|reflexivity].
Qed.
Lemma fbc_up n m wV wH a b w : In (a, b, w) (fbc_list n m wV wH) -> a < b.
Proof. rewrite fbc_In. intros (x & y & Hx & Hy & -> & [(H & -> & _)|(H & -> & _)]); unfold site; nia. Qed.
Lemma up_asym (L : list ent) : (forall a b w, In (a, b, w) L -> a < b) -> forall a b w, In (a, b, w) L -> forall w', ~ In (b, a, w') L.
Proof. intros U a b w H w' H'. apply U in H, H'. lia. Qed.
Lemma flat_map_sum {X Y} (f : X -> list Y) l : List.length (flat_map f l) = fold_right (fun x s => List.length (f x) + s) 0 l.
Proof. induction l as [|x l IH]; [reflexivity|]. cbn [flat_map fold_right]. rewrite app_length, IH. reflexivity. Qed.
Lemma fbc_count n m wV wH : 1 <= n -> 1 <= m -> List.length (fbc_list n m wV wH) = n * (m - 1) + m * (n - 1).
Proof.
  intros Hn Hm. unfold fbc_list, coords. rewrite <- flat_map_prod.
  assert (R : forall x b, (Z.of_nat x <? Z.of_nat n - 1)%Z = b -> forall k, k <= m -> 
    List.length (flat_map (fun y => fbc_cell n m wV wH (x, y)) (seq 0 k)) = Nat.min k (m - 1) + (if b then k else 0)).
  { intros x b Hb. induction k as [|k IH]; intros Hk; [destruct b; reflexivity|].
    rewrite seq_S, flat_map_app, app_length, IH by lia. cbn [flat_map fbc_cell Nat.add]. rewrite app_nil_r, app_length, Hb.
    destruct (Z.ltb_spec (Z.of_nat k) (Z.of_nat m - 1)); destruct b; cbn [List.length]; lia. }
  assert (C : forall k, k <= n -> List.length (flat_map (fun x => flat_map (fun y => fbc_cell n m wV wH (x, y)) (seq 0 m)) (seq 0 k)) = k * (m - 1) + m * Nat.min k (n - 1)).
  { induction k as [|k IH]; intros Hk; [simpl; lia|]. rewrite seq_S, flat_map_app, app_length, IH by lia. cbn [flat_map Nat.add]. rewrite app_nil_r.
    rewrite (R k _ eq_refl m) by lia. destruct (Z.ltb_spec (Z.of_nat k) (Z.of_nat n - 1)); nia. }
  rewrite C by lia. nia.
Qed.
Lemma fbc_ok n mo m w (wV wH : W) : weights_are w wV wH -> width_is mo n m ->
  exists g, squareLatticeFBC n mo w = Ok g /\ g_n g = n * m /\
    (1 <= n -> 1 <= m -> List.length (g_store g) = n * (m - 1) + m * (n - 1)) /\
    (forall k a b w, joins g k a b w -> exists x y x' y', x' < n /\ y' < m /\
       ((a = site m x y /\ b = site m x' y') \/ (a = site m x' y' /\ b = site m x y)) /\
       ((x' = x /\ y' = y + 1 /\ w = wH) \/ (x' = x + 1 /\ y' = y /\ w = wV))) /\
    (forall x y, x < n -> y + 1 < m -> joined_once g (site m x y) (site m x (y + 1)) wH) /\
    (forall x y, x + 1 < n -> y < m -> joined_once g (site m x y) (site m (x + 1) y) wV).
Proof.
  intros Ew Em. destruct (fbc_builds n mo m w wV wH Ew Em) as (g & E & I). exists g. split; [exact E|].
  split; [apply (gi_n _ _ _ I)|]. split; [|split; [|split]].
  - intros Hn Hm. rewrite (store_length _ _ _ I). apply fbc_count; auto.
  - intros k a b w0 J. apply (joins_In _ _ _ I) in J.
    assert (K : forall a b, nth_error (fbc_list n m wV wH) k = Some (a, b, w0) -> exists x y x' y', x' < n /\ y' < m /\
       (a = site m x y /\ b = site m x' y') /\ ((x' = x /\ y' = y + 1 /\ w0 = wH) \/ (x' = x + 1 /\ y' = y /\ w0 = wV))).
    { intros a' b' H. apply nth_error_In, fbc_In in H. destruct H as (x & y & Hx & Hy & -> & [(H & -> & ->)|(H & -> & ->)]).
      - exists x, y, x, (y + 1). auto 10.
      - exists x, y, (x + 1), y. auto 10. }
    destruct J as [J|J]; apply K in J; destruct J as (x & y & x' & y' & H3 & H4 & [-> ->] & H5); exists x, y, x', y'; tauto.
  - intros x y Hx Hy. assert (H : In (site m x y, site m x (y + 1), wH) (fbc_list n m wV wH)).
    { apply fbc_In. exists x, y. repeat split; auto; lia. }
    eapply once_In; eauto; [apply fbc_NoDup|]. eapply up_asym; eauto. apply fbc_up.
  - intros x y Hx Hy. assert (H : In (site m x y, site m (x + 1) y, wV) (fbc_list n m wV wH)).
    { apply fbc_In. exists x, y. repeat split; auto; lia. }
    eapply once_In; eauto; [apply fbc_NoDup|]. eapply up_asym; eauto. apply fbc_up.
Qed.

(** ** double square lattice *)
Definition dbl_cell (n m : nat) (wT wB : W) (p : nat * nat) : list ent :=
  let '(x, y) := p in
  [(vsite n m x y, hsite m x y, wB); (vsite n m x y, hsite m (x + 1) y, wT);
   (vsite n m x (y + 1), hsite m x y, wT); (vsite n m x (y + 1), hsite m (x + 1) y, wB)].
Definition dbl_list n m wT wB : list ent := flat_map (dbl_cell n m wT wB) (coords n m).
Lemma dbl_h n m x y : x <= n -> y < m -> getIndexDouble n m 0 x y = Ok (hsite m x y).
Proof. intros Hx Hy. unfold getIndexDouble. cbn -[Nat.leb Nat.ltb Nat.add Nat.mul]. apply Nat.leb_le in Hx. apply Nat.ltb_lt in Hy. rewrite Hx, Hy. reflexivity. Qed.
Lemma dbl_v n m x y : x < n -> y <= m -> getIndexDouble n m 1 x y = Ok (vsite n m x y).
Proof. intros Hx Hy. unfold getIndexDouble. cbn -[Nat.leb Nat.ltb Nat.add Nat.mul]. apply Nat.leb_le in Hy. apply Nat.ltb_lt in Hx. rewrite Hx, Hy. reflexivity. Qed.
Lemma hsite_lt n m x y : x <= n -> y < m -> hsite m x y < (n + 1) * m.
Proof. unfold hsite. nia. Qed.
Lemma vsite_lt n m x y : x < n -> y <= m -> vsite n m x y < n * (m + 1) + m * (n + 1).
Proof. unfold vsite. nia. Qed.
Lemma vsite_inj n m x y x' y' : y <= m -> y' <= m -> vsite n m x y = vsite n m x' y' -> x = x' /\ y = y'.
Proof. unfold vsite. intros H H' E. apply (site_inj (m + 1)); unfold site; lia. Qed.
Lemma dbl_builds n mo m w wT wB : weights_are w wT wB -> width_is mo n m ->
  exists g, doubleSquareLatticeFBC n mo w = Ok g /\ ginv (n * (m + 1) + m * (n + 1)) (map two (dbl_list n m wT wB)) g.
Proof.
  intros Ew Em. unfold doubleSquareLatticeFBC. rewrite (weights_eq _ _ _ Ew), (width_eq _ _ _ Em).
  unfold dbl_list, coords. rewrite <- flat_map_prod. set (nn := n * (m + 1) + m * (n + 1)).
  refine (adds_new nn (fun g => rfold _ (seq 0 n) g) _ _).
  apply adds_rfold. intros x Hx. apply adds_rfold. intros y Hy. apply in_seq in Hx, Hy. cbn [dbl_cell].
  assert (V : forall y, y <= m -> vsite n m x y < nn) by (intros; apply vsite_lt; lia).
  assert (H : forall x, x <= n -> hsite m x y < nn) by (intros; unfold nn; pose proof (hsite_lt n m x0 y); nia).
  apply (adds_seq nn (fun g => addEdgeAt g _ _ _) (fun g => rbind _ (fun g => rbind _ _)) [_] [_; _; _]);
    [apply adds_edge_at; [apply dbl_v; lia|apply dbl_h; lia|apply V; lia|apply H; lia]|].
  apply (adds_seq nn (fun g => addEdgeAt g _ _ _) (fun g => rbind _ _) [_] [_; _]);
    [apply adds_edge_at; [apply dbl_v; lia|apply dbl_h; lia|apply V; lia|apply H; lia]|].
  apply (adds_seq nn (fun g => addEdgeAt g _ _ _) (fun g => addEdgeAt g _ _ _) [_] [_]);
    (apply adds_edge_at; [apply dbl_v; lia|apply dbl_h; lia|apply V; lia|apply H; lia]).
Qed.
Lemma dbl_In n m wT wB a b w : In (a, b, w) (dbl_list n m wT wB) <-> exists x y i j, x < n /\ y < m /\ i <= 1 /\ j <= 1 /\
  a = vsite n m x (y + j) /\ b = hsite m (x + i) y /\ w = if Nat.eqb i j then wB else wT.
Proof.
  unfold dbl_list. rewrite in_flat_map. split.
  - intros ([x y] & H & H'). apply coords_In in H. destruct H as [Hx Hy]. cbn [dbl_cell] in H'.
    destruct H' as [[= <- <- <-]|[[= <- <- <-]|[[= <- <- <-]|[[= <- <- <-]|[]]]]].
    + exists x, y, 0, 0. rewrite !Nat.add_0_r. auto 10.
    + exists x, y, 1, 0. rewrite !Nat.add_0_r. auto 10.
    + exists x, y, 0, 1. rewrite !Nat.add_0_r. auto 10.
    + exists x, y, 1, 1. auto 10.
  - intros (x & y & i & j & Hx & Hy & Hi & Hj & -> & -> & ->). exists (x, y). split; [apply coords_In; auto|]. cbn [dbl_cell].
    destruct i as [|[|i]]; [| |lia]; (destruct j as [|[|j]]; [| |lia]); rewrite ?Nat.add_0_r; simpl; auto.
Qed.
Lemma dbl_NoDup n m wT wB : NoDup (map pair_of (dbl_list n m wT wB)).
Proof.
  unfold dbl_list. rewrite map_flat_map. apply NoDup_flat_map; [apply coords_NoDup| |].
  - intros [x y] H. apply coords_In in H. cbn. unfold vsite, hsite.
    repeat constructor; simpl; intros K; repeat (destruct K as [K|K]; [injection K; nia|]); exact K.
  - intros [x y] [x' y'] [a b] H H' Hp Hp'. apply coords_In in H, H'.
    assert (K : forall x y, x < n -> y < m -> In (a, b) (map pair_of (dbl_cell n m wT wB (x, y))) -> exists j i, j <= 1 /\ i <= 1 /\ a = vsite n m x (y + j) /\ b = hsite m (x + i) y).
    { clear. intros x y Hx Hy Hp. cbn in Hp. destruct Hp as [[= <- <-]|[[= <- <-]|[[= <- <-]|[[= <- <-]|[]]]]].
      - exists 0, 0. rewrite !Nat.add_0_r. auto. - exists 0, 1. rewrite !Nat.add_0_r. auto.
      - exists 1, 0. rewrite !Nat.add_0_r. auto. - exists 1, 1. auto. }
    apply K in Hp, Hp'; try tauto. destruct Hp as (j & i & Hj & Hi & -> & ->), Hp' as (j' & i' & Hj' & Hi' & E1 & E2).
    apply vsite_inj in E1; [|lia|lia]. apply (site_inj m) in E2; [|tauto|tauto]. f_equal; lia.
Qed.
Lemma dbl_asym n m wT wB a b w : In (a, b, w) (dbl_list n m wT wB) -> forall w', ~ In (b, a, w') (dbl_list n m wT wB).
Proof.
  assert (U : forall a b w, In (a, b, w) (dbl_list n m wT wB) -> b < a).
  { intros a' b' w'. rewrite dbl_In. intros (x & y & i & j & Hx & Hy & Hi & Hj & -> & -> & _). pose proof (hsite_lt n m (x + i) y). unfold vsite. lia. }
  intros H w' H'. apply U in H, H'. lia.
Qed.
Lemma dbl_ok n mo m w (wT wB : W) : weights_are w wT wB -> width_is mo n m ->
  exists g, doubleSquareLatticeFBC n mo w = Ok g /\ g_n g = n * (m + 1) + m * (n + 1) /\
    List.length (g_store g) = 4 * (n * m) /\
    (forall k a b w, joins g k a b w -> exists x y i j, x < n /\ y < m /\ i <= 1 /\ j <= 1 /\
       ((a = vsite n m x (y + j) /\ b = hsite m (x + i) y) \/ (b = vsite n m x (y + j) /\ a = hsite m (x + i) y)) /\
       w = if Nat.eqb i j then wB else wT) /\
    (forall x y i j, x < n -> y < m -> i <= 1 -> j <= 1 ->
       joined_once g (vsite n m x (y + j)) (hsite m (x + i) y) (if Nat.eqb i j then wB else wT)).
Proof.
  intros Ew Em. destruct (dbl_builds n mo m w wT wB Ew Em) as (g & E & I). exists g. split; [exact E|].
  split; [apply (gi_n _ _ _ I)|]. split; [|split].
  - rewrite (store_length _ _ _ I). unfold dbl_list. rewrite (flat_length _ 4), coords_length by (intros [x y] _; reflexivity). lia.
  - intros k a b w0 J. apply (joins_In _ _ _ I) in J. destruct J as [J|J]; apply nth_error_In, dbl_In in J;
      destruct J as (x & y & i & j & Hx & Hy & Hi & Hj & H1 & H2 & H3); exists x, y, i, j; repeat split; auto.
  - intros x y i j Hx Hy Hi Hj. assert (H : In (vsite n m x (y + j), hsite m (x + i) y, if Nat.eqb i j then wB else wT) (dbl_list n m wT wB)).
    { apply dbl_In. exists x, y, i, j. auto 10. }
    eapply once_In; eauto; [apply dbl_NoDup|]. eapply dbl_asym; eauto.
Qed.

(** ** complete graph *)
Definition cpl_list (n : nat) (w : W) : list ent := flat_map (fun x => flat_map (fun y => [(x, y, w)]) (seq (x + 1) (n - (x + 1)))) (seq 0 n).
Lemma cpl_builds n w : exists g, completeGraph n w = Ok g /\ ginv n (map two (cpl_list n w)) g.
Proof.
  unfold completeGraph, cpl_list. refine (adds_new n (fun g => rfold _ (seq 0 n) g) _ _).
  apply adds_rfold. intros x Hx. apply adds_rfold. intros y Hy. apply in_seq in Hx, Hy. apply adds_edge; lia.
Qed.
Lemma cpl_In n w a b w' : In (a, b, w') (cpl_list n w) <-> a < b /\ b < n /\ w' = w.
Proof.
  unfold cpl_list. rewrite in_flat_map. split.
  - intros (x & Hx & H). apply in_flat_map in H. destruct H as (y & Hy & [[= <- <- <-]|[]]). apply in_seq in Hx, Hy. repeat split; lia.
  - intros (H1 & H2 & ->). exists a. split; [apply in_seq; lia|]. apply in_flat_map. exists b. split; [apply in_seq; lia|simpl; auto].
Qed.
Lemma cpl_NoDup n w : NoDup (map pair_of (cpl_list n w)).
Proof.
  unfold cpl_list. rewrite map_flat_map.
  rewrite (flat_map_ext _ (fun x => map (pair x) (seq (x + 1) (n - (x + 1))))).
  2:{ intros x. rewrite map_flat_map. induction (seq (x + 1) (n - (x + 1))) as [|y l IH]; [reflexivity|]. cbn [flat_map map app pair_of fst]. f_equal. }
  apply NoDup_flat_map; [apply seq_NoDup| |].
  - intros x _. apply FinFun.Injective_map_NoDup; [intros y y' [= ->]; reflexivity|apply seq_NoDup].
  - intros x x' [a b] _ _ H H'. apply in_map_iff in H, H'. destruct H as (? & [= <- _] & _), H' as (? & [= <- _] & _). reflexivity.
Qed.
Lemma cpl_count n w : 2 * List.length (cpl_list n w) = n * (n - 1).
Proof.
  unfold cpl_list. assert (C : forall k, k <= n -> 2 * List.length (flat_map (fun x => flat_map (fun y => [(x, y, w)]) (seq (x + 1) (n - (x + 1)))) (seq 0 k)) + k * k + k = 2 * n * k).
  { induction k as [|k IH]; intros Hk; [simpl; lia|]. rewrite seq_S, flat_map_app, app_length. cbn [flat_map Nat.add]. rewrite app_nil_r.
    rewrite (flat_length (fun y => [(k, y, w)]) 1) by reflexivity. rewrite seq_length. specialize (IH ltac:(lia)). nia. }
  specialize (C n (Nat.le_refl n)). nia.
Qed.
Lemma cpl_ok n (w : W) : exists g, completeGraph n w = Ok g /\ g_n g = n /\ 2 * List.length (g_store g) = n * (n - 1) /\
  (forall k a b w', joins g k a b w' -> a <> b /\ a < n /\ b < n /\ w' = w) /\
  (forall a b, a < n -> b < n -> a <> b -> joined_once g a b w).
Proof.
  destruct (cpl_builds n w) as (g & E & I). exists g. split; [exact E|]. split; [apply (gi_n _ _ _ I)|].
  split; [rewrite (store_length _ _ _ I); apply cpl_count|]. 
  assert (U : forall a b w', In (a, b, w') (cpl_list n w) -> a < b) by (intros a b w'; rewrite cpl_In; tauto).
  assert (O : forall a b, a < b -> b < n -> joined_once g a b w).
  { intros a b H1 H2. assert (H : In (a, b, w) (cpl_list n w)) by (apply cpl_In; auto).
    eapply once_In; eauto; [apply cpl_NoDup|]. eapply up_asym; eauto. }
  split.
  - intros k a b w' J. apply (joins_In _ _ _ I) in J. destruct J as [J|J]; apply nth_error_In, cpl_In in J; lia || (destruct J as (? & ? & ->); repeat split; lia).
  - intros a b Ha Hb N. destruct (Nat.lt_ge_cases a b); [apply O; auto|apply once_sym, O; lia].
Qed.
End L.
