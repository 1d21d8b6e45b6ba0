(** Proofs about lattices of triangles. *)
From Coq Require Import List Arith Bool Lia Permutation.
From Verif Require Import Base Sums TorusSpec TorusProofs TrgSpec TrgProofs TriTrgSpec TriLatSpec.
Import ListNotations.
Local Open Scope nat_scope.

Lemma perm_mid {X} (x : X) l1 l2 : Permutation (l1 ++ x :: l2) (x :: l1 ++ l2). Proof. symmetry. apply Permutation_middle. Qed.
Lemma three_split {X Y} (f g h : X -> Y) ls : Permutation (flat_map (fun x => [f x; g x; h x]) ls) (map f ls ++ map g ls ++ map h ls).
Proof.
  induction ls as [|x ls IH]; [constructor|]. cbn [flat_map map app]. apply perm_skip.
  etransitivity; [|symmetry; rewrite app_comm_cons; apply perm_mid]. cbn [app].
  etransitivity; [apply perm_skip; apply perm_skip; exact IH|]. rewrite app_assoc. apply perm_skip. rewrite app_assoc. etransitivity; [|symmetry; apply perm_mid]. rewrite <- !app_assoc. reflexivity.
Qed.
(** the previous bond runs over all bonds *)
Lemma prev_perm {X} (prev : X -> X) cells ls : Permutation (flat_map three_of cells) ls -> (forall c, In c cells -> before prev c) -> Permutation (map prev ls) ls.
Proof.
  intros P B. etransitivity; [apply Permutation_map; symmetry; exact P|]. etransitivity; [|exact P]. clear P. induction cells as [|c cells IH]; [constructor|]. cbn [flat_map]. rewrite map_app. apply Permutation_app.
  - destruct (B c) as (b1 & b2 & b3); [now left|]. unfold three_of. cbn [map]. rewrite b1, b2, b3. etransitivity; [apply perm_swap|]. apply perm_skip. apply perm_swap.
  - apply IH. intros c' Hc. apply B. now right.
Qed.
Lemma prev_cube {X} (prev : X -> X) cells ls x : Permutation (flat_map three_of cells) ls -> (forall c, In c cells -> before prev c) -> In x ls -> prev (prev (prev x)) = x.
Proof.
  intros P B Hx. eapply Permutation_in in Hx; [|symmetry; exact P]. apply in_flat_map in Hx. destruct Hx as (c & Hc & Hx). destruct (B c Hc) as (b1 & b2 & b3).
  destruct Hx as [<-|[<-|[<-|[]]]]; rewrite ?b1, ?b2, ?b3, ?b1, ?b2, ?b3; congruence.
Qed.
Lemma prev_in {X} (prev : X -> X) cells ls x : Permutation (flat_map three_of cells) ls -> (forall c, In c cells -> before prev c) -> In x ls -> In (prev x) ls.
Proof. intros P B Hx. eapply Permutation_in; [apply (prev_perm prev cells ls P B)|]. now apply in_map. Qed.

Lemma trefine_ok L : trilat_ok L -> trilat_ok (trefine L).
Proof.
  intros [ND PA PB BA BB]. constructor; cbn [trefine bonds3 cellsA cellsB prevA prevB bond3].
  - assert (F : forall k, NoDup (map (fun x : bond3 L => (x, k : leg3)) (bonds3 L))) by (intros k; apply FinFun.Injective_map_NoDup; auto; intros x y E; congruence).
    apply SumpairsProofs.NoDup_app_intro; [apply F|apply SumpairsProofs.NoDup_app_intro; [apply F|apply F|]|].
    + intros q Hq Hq'. apply in_map_iff in Hq. apply in_map_iff in Hq'. destruct Hq as (x & <- & _), Hq' as (y & E & _). discriminate.
    + intros q Hq Hq'. apply in_map_iff in Hq. destruct Hq as (x & <- & _). apply in_app_iff in Hq'. destruct Hq' as [Hq'|Hq']; apply in_map_iff in Hq'; destruct Hq' as (y & E & _); discriminate.
  - rewrite flat_map_concat_map, map_map, <- flat_map_concat_map. unfold three_of. cbn [fst snd]. apply (three_split (fun x : bond3 L => (x, L1)) (fun x => (x, L2)) (fun x => (x, L3))).
  - rewrite flat_map_concat_map, map_map, <- flat_map_concat_map. unfold three_of. cbn [fst snd].
    etransitivity; [apply (three_split (fun x : bond3 L => (x, L1)) (fun x => (prevA L x, L2)) (fun x => (prevB L x, L3)))|].
    apply Permutation_app_head. apply Permutation_app.
    + rewrite <- (map_map (prevA L) (fun x => (x, L2))). apply Permutation_map. now apply (prev_perm _ (cellsA L)).
    + rewrite <- (map_map (prevB L) (fun x => (x, L3))). apply Permutation_map. now apply (prev_perm _ (cellsB L)).
  - intros c Hc. apply in_map_iff in Hc. destruct Hc as (x & <- & Hx). unfold before. cbn [fst snd]. auto.
  - intros c Hc. apply in_map_iff in Hc. destruct Hc as (x & <- & Hx). unfold before. cbn [fst snd].
    rewrite (prev_cube (prevA L) (cellsA L) (bonds3 L) x PA BA Hx), (prev_cube (prevB L) (cellsB L) (bonds3 L) x PB BB Hx). auto.
Qed.
Lemma trefined_ok n L : trilat_ok L -> trilat_ok (trefined n L).
Proof. intros H. induction n; cbn; auto using trefine_ok. Qed.
Lemma three_len {X} (l : list (X * X * X)) : List.length (flat_map three_of l) = 3 * List.length l.
Proof. induction l as [|c l IH]; [reflexivity|]. cbn [flat_map]. rewrite app_length, IH. cbn [three_of List.length]. lia. Qed.
Lemma cells_count L : trilat_ok L -> 3 * List.length (cellsA L) = List.length (bonds3 L) /\ 3 * List.length (cellsB L) = List.length (bonds3 L).
Proof. intros [ND PA PB BA BB]. rewrite <- !three_len. split; now apply Permutation_length. Qed.
Lemma trefined_count n L : trilat_ok L -> List.length (cellsA (trefined n L)) = 3 ^ n * List.length (cellsA L) /\ List.length (cellsB (trefined n L)) = 3 ^ n * List.length (cellsA L).
Proof.
  intros H. induction n as [|n IH]; cbn [trefined]; [destruct (cells_count L H); cbn; lia|]. pose proof (cells_count _ (trefined_ok n L H)) as (C1 & C2). cbn [trefine cellsA cellsB Nat.pow]. rewrite !map_length. lia.
Qed.
Lemma theta_ok : trilat_ok theta_lattice.
Proof. constructor; cbn; auto; [repeat constructor; simpl; intuition discriminate|intros c [<-|[]]; repeat split|intros c [<-|[]]; repeat split]. Qed.

Section V.
Context {A : Type} {HA : SR A}.
Add Ring Aringt : (@SR_theory A HA).
Local Open Scope sr_scope.
Notation fun3 := (nat -> nat -> nat -> A).

(** three copies of the places *)
Lemma so_triple {X} `{Dec X} (HB : Dec (X * leg3)) (S : list X) n f c d : NoDup S ->
  local (map (fun p => (p, L1)) S ++ map (fun p => (p, L2)) S ++ map (fun p => (p, L3)) S) f ->
  sum_over (map (fun p => (p, L1)) S ++ map (fun p => (p, L2)) S ++ map (fun p => (p, L3)) S) n f c =
  sum_over S n (fun s1 => sum_over S n (fun s2 => sum_over S n (fun s3 => f (fun q => match snd q with L1 => s1 (fst q) | L2 => s2 (fst q) | L3 => s3 (fst q) end)) d) d) d.
Proof.
  intros ND Lf. rewrite so_app. rewrite (so_map (fun p => (p, L1)) fst S n _ c d); auto.
  2:{ intros c1 c2 Ec. apply (so_agree _ n f (map (fun p => (p, L1)) S)); auto. }
  apply so_ext. intros s1. rewrite so_app.
  assert (NI : forall (k k' : leg3) (p : X), k <> k' -> ~ In (p, k) (map (fun p => (p, k')) S)) by (intros k k' p Hk Hi; apply in_map_iff in Hi; destruct Hi as (x & E & _); congruence).
  rewrite (so_outside _ n _ (fun c => sum_over (map (fun p => (p, L3)) S) n (fun c => f (fun q => match snd q with L1 => s1 (fst q) | _ => c q end)) c)).
  2:{ intros c' Ec. apply so_outside. intros c'' Ec'. apply Lf. intros [p b] Hq. destruct b; cbn; auto. rewrite Ec' by (apply NI; discriminate). now rewrite Ec by (apply NI; discriminate). }
  rewrite (so_map (fun p => (p, L2)) fst S n _ _ d); auto.
  2:{ intros c1 c2 Ec. apply (so_agree _ n _ (map (fun p => (p, L2)) S)); auto. intros e1 e2 Ee. apply Lf. intros [p b] Hq. destruct b; cbn; auto; apply Ee; apply in_app_iff in Hq; destruct Hq as [Hq|Hq]; auto; exfalso; revert Hq; apply NI; discriminate. }
  apply so_ext. intros s2.
  rewrite (so_outside _ n _ (fun c => f (fun q => match snd q with L1 => s1 (fst q) | L2 => s2 (fst q) | L3 => c q end))).
  2:{ intros c' Ec. apply Lf. intros [p b] Hq. destruct b; cbn; auto. now rewrite Ec by (apply NI; discriminate). }
  rewrite (so_map (fun p => (p, L3)) fst S n _ _ d); auto. intros c1 c2 Ec. apply Lf. intros [p b] Hq. destruct b; cbn; auto. apply Ec.
  apply in_app_iff in Hq. destruct Hq as [Hq|Hq]; [exfalso; revert Hq; apply NI; discriminate|]. apply in_app_iff in Hq. destruct Hq as [Hq|Hq]; auto. exfalso; revert Hq; apply NI; discriminate.
Qed.

(** independent cells *)
Lemma so_cells {X} `{Dec X} n (F : (X * X * X) -> (X -> nat) -> A) cells : NoDup (flat_map three_of cells) -> (forall c, In c cells -> local (three_of c) (F c)) -> forall s0,
  sum_over (flat_map three_of cells) n (fun s => prodL cells (fun c => F c s)) s0 = prodL cells (fun c => sum_over (three_of c) n (F c) s0).
Proof.
  induction cells as [|c cells IH]; intros ND Lc s0; [reflexivity|]. cbn [flat_map] in ND |- *. rewrite so_app. cbn [prodL].
  assert (ND' : NoDup (flat_map three_of cells)) by (apply (SumpairsProofs.NoDup_app_r _ _ ND)).
  assert (Lr : local (flat_map three_of cells) (fun s => prodL cells (fun c => F c s))).
  { intros s s' E. apply prodL_ext. intros c' Hc. apply Lc; [now right|]. intros x Hx. apply E. apply in_flat_map. eauto. }
  rewrite <- so_mul_r. apply so_ext. intros s.
  rewrite (so_outside _ n _ (fun s' => F c s * prodL cells (fun c => F c s'))).
  - rewrite so_mul_l. f_equal. rewrite (so_start _ n _ s s0 Lr). apply IH; auto. intros c' Hc. apply Lc. now right.
  - intros s' E. f_equal. apply Lc; [now left|]. intros x Hx. apply E. intros Hx'. apply (SumpairsProofs.NoDup_app_disj _ _ x ND); auto.
Qed.

Lemma prodL_three {X} (cells : list (X * X * X)) (f : X -> A) : prodL (flat_map three_of cells) f = prodL cells (fun c => f (fst (fst c)) * f (snd (fst c)) * f (snd c)).
Proof. induction cells as [|c cells IH]; [reflexivity|]. cbn [flat_map]. rewrite prodL_app, IH. cbn [prodL three_of]. f_equal. ring. Qed.

Lemma around_cells {X} `{Dec X} (prev : X -> X) cells ls D (u : nat -> nat -> A) (k : X -> nat) s0 : NoDup ls -> Permutation (flat_map three_of cells) ls -> (forall c, In c cells -> before prev c) ->
  sum_over ls D (fun s => prodL ls (fun x => u (s x * D + s (prev x))%nat (k x))) s0 = prodL cells (at_cell (around D u) k).
Proof.
  intros ND P B. assert (NDf : NoDup (flat_map three_of cells)) by (eapply Permutation_NoDup; [symmetry; exact P|exact ND]).
  rewrite (so_perm ls (flat_map three_of cells)); [|symmetry; exact P|exact ND|].
  2:{ intros s s' E. apply prodL_ext. intros x _. now rewrite !E. }
  rewrite (so_ext _ D _ (fun s => prodL cells (fun c => (fun c (s : X -> nat) => u (s (fst (fst c)) * D + s (snd c))%nat (k (fst (fst c))) * u (s (snd (fst c)) * D + s (fst (fst c)))%nat (k (snd (fst c))) *
    u (s (snd c) * D + s (snd (fst c)))%nat (k (snd c))) c s))).
  2:{ intros s. rewrite <- (prodL_perm (flat_map three_of cells) ls _ P), prodL_three. apply prodL_ext. intros c Hc. destruct (B c Hc) as (-> & -> & ->). reflexivity. }
  rewrite (so_cells D (fun c (s : X -> nat) => u (s (fst (fst c)) * D + s (snd c))%nat (k (fst (fst c))) * u (s (snd (fst c)) * D + s (fst (fst c)))%nat (k (snd (fst c))) *
    u (s (snd c) * D + s (snd (fst c)))%nat (k (snd c)))); auto.
  2:{ intros c Hc s s' E. unfold three_of in E. rewrite !E by (simpl; auto). reflexivity. }
  apply prodL_ext. intros c Hc. assert (N3 : NoDup (three_of c)).
  { clear -NDf Hc. induction cells as [|d cells IH]; [destruct Hc|]. cbn [flat_map] in NDf. destruct Hc as [->|Hc]; [now apply SumpairsProofs.NoDup_app_l in NDf|]. apply IH; auto. now apply SumpairsProofs.NoDup_app_r in NDf. }
  destruct c as ((x, y), z). unfold three_of in *. cbn [fst snd] in *. cbn [sum_over]. unfold at_cell, around. cbn [fst snd]. apply sumN_ext. intros i _. rewrite sumN_swap. apply sumN_ext. intros j _. apply sumN_ext. intros l _.
  assert (NE : x <> y /\ x <> z /\ y <> z) by (repeat match goal with H : NoDup (_ :: _) |- _ => inversion H; subst; clear H end; simpl in *; intuition congruence).
  destruct NE as (n1 & n2 & n3). repeat match goal with |- context [dec ?p ?q] => destruct (dec p q); try congruence end.
Qed.

(** one step: if the two triangles joined along leg 1 are the product of two halves, the finer lattice has the value of the coarser one *)
Theorem trilat_step L D K (a b : fun3) (u v : nat -> nat -> A) : trilat_ok L ->
  (forall p q r s, (p < D)%nat -> (q < D)%nat -> (r < D)%nat -> (s < D)%nat -> sumN D (fun z => a z p r * b z q s) = sumN K (fun o => u (p * D + q)%nat o * v (r * D + s)%nat o)) ->
  lattice_value (trefine L) D a b = lattice_value L K (around D u) (around D v).
Proof.
  intros [ND PA PB BA BB] EX. unfold lattice_value. cbn [trefine bonds3 cellsA cellsB bond3].
  assert (IA : forall x, In x (bonds3 L) -> In (prevA L x) (bonds3 L)) by (intros x; now apply (prev_in _ (cellsA L))). assert (IB : forall x, In x (bonds3 L) -> In (prevB L x) (bonds3 L)) by (intros x; now apply (prev_in _ (cellsB L))).
  set (S := bonds3 L) in *.
  rewrite (so_triple _ S D _ _ (fun _ => 0%nat) ND).
  2:{ intros s s' E. rewrite !prodL_map. f_equal; apply prodL_ext; intros x Hx; unfold at_cell; cbn [fst snd]; rewrite !E; auto; rewrite !in_app_iff, !in_map_iff; eauto 10. }
  (* sums over s2 and s3 outside *)
  transitivity (sum_over S D (fun s2 => sum_over S D (fun s3 => sum_over S D (fun s1 => prodL S (fun x => a (s1 x) (s2 x) (s3 x) * b (s1 x) (s2 (prevA L x)) (s3 (prevB L x)))) (fun _ => 0%nat)) (fun _ => 0%nat)) (fun _ => 0%nat)).
  { rewrite so_swap. apply so_ext. intros s2. rewrite so_swap. apply so_ext. intros s3. apply so_ext. intros s1. rewrite !prodL_map, prodL_mul. reflexivity. }
  transitivity (sum_over S D (fun s2 => sum_over S D (fun s3 => sum_over S K (fun k => prodL S (fun x => u (s2 x * D + s2 (prevA L x))%nat (k x)) * prodL S (fun x => v (s3 x * D + s3 (prevB L x))%nat (k x))) (fun _ => 0%nat)) (fun _ => 0%nat)) (fun _ => 0%nat)).
  { apply so_range. intros s2 R2. apply so_range. intros s3 R3.
    rewrite <- (so_prod S D (fun x z => a z (s2 x) (s3 x) * b z (s2 (prevA L x)) (s3 (prevB L x))) _ ND).
    rewrite (so_ext S K _ (fun k => prodL S (fun x => u (s2 x * D + s2 (prevA L x))%nat (k x) * v (s3 x * D + s3 (prevB L x))%nat (k x)))) by (intros k; now rewrite prodL_mul).
    rewrite <- (so_prod S K (fun x o => u (s2 x * D + s2 (prevA L x))%nat o * v (s3 x * D + s3 (prevB L x))%nat o) _ ND). apply prodL_ext. intros x Hx. apply EX; auto. }
  transitivity (sum_over S K (fun k => sum_over S D (fun s2 => sum_over S D (fun s3 => prodL S (fun x => u (s2 x * D + s2 (prevA L x))%nat (k x)) * prodL S (fun x => v (s3 x * D + s3 (prevB L x))%nat (k x))) (fun _ => 0%nat)) (fun _ => 0%nat)) (fun _ => 0%nat)).
  { symmetry. rewrite so_swap. apply so_ext. intros s2. now rewrite so_swap. }
  apply so_ext. intros k. rewrite <- (around_cells (prevA L) (cellsA L) S D u k (fun _ => 0%nat) ND PA BA), <- (around_cells (prevB L) (cellsB L) S D v k (fun _ => 0%nat) ND PB BB).
  rewrite <- so_mul_r. apply so_ext. intros s2. now rewrite so_mul_l.
Qed.

Lemma theta_value D (a b : fun3) : lattice_value theta_lattice D a b = theta D a b.
Proof.
  unfold lattice_value, theta, theta_lattice. cbn [bonds3 cellsA cellsB sum_over prodL]. unfold at_cell. cbn [fst snd]. apply sumN_ext. intros i _. apply sumN_ext. intros j _. apply sumN_ext. intros k _.
  cbn. ring.
Qed.
Lemma lattice_range L D (a b a' b' : fun3) : trilat_ok L -> (forall i j k, (i < D)%nat -> (j < D)%nat -> (k < D)%nat -> a i j k = a' i j k /\ b i j k = b' i j k) -> lattice_value L D a b = lattice_value L D a' b'.
Proof.
  intros [ND PA PB BA BB] E. apply so_range. intros s R. f_equal; apply prodL_ext; intros c Hc; unfold at_cell; apply E; apply R.
  all: try (eapply Permutation_in; [exact PA|]; apply in_flat_map; exists c; split; [exact Hc|simpl; auto]).
  all: eapply Permutation_in; [exact PB|]; apply in_flat_map; exists c; split; [exact Hc|simpl; auto].
Qed.
Lemma lattice_scale L D (a b : fun3) x y : lattice_value L D (fun i j k => x * a i j k) (fun i j k => y * b i j k) = pow x (List.length (cellsA L)) * pow y (List.length (cellsB L)) * lattice_value L D a b.
Proof.
  unfold lattice_value. rewrite <- so_mul_l. apply so_ext. intros s. unfold at_cell. rewrite !prodL_const. ring.
Qed.
End V.
