(** Two rows (columns) of a torus fused into one. *)
From Coq Require Import List Arith Bool Lia Permutation.
From Verif Require Import Base Sums TorusSpec DoubleSpec SumpairsProofs TorusProofs TorusIsoProofs.
Import ListNotations.
Local Open Scope nat_scope.

Lemma in_double L q : In q (sites (stack L)) <-> In (fst q) (sites L).
Proof.
  destruct q as [p b]. cbn. rewrite in_app_iff, !in_map_iff. split. { intros [(x & [= <- <-] & Hx)|(x & [= <- <-] & Hx)]; auto. } intros Hp. destruct b; [right|left]; exists p; auto.
Qed.
Lemma double_nodup L : NoDup (sites L) -> NoDup (sites (stack L)).
Proof.
  intros ND. cbn. apply NoDup_app_intro.
  - apply map_nodup; auto. intros x y _ _ [= E]. auto. - apply map_nodup; auto. intros x y _ _ [= E]. auto.
  - intros q H1 H2. apply in_map_iff in H1, H2. destruct H1 as (x & <- & _), H2 as (y & E & _). discriminate.
Qed.
Lemma stack_torus L : torus L -> torus (stack L).
Proof.
  intros [ND CL LR UD SQ]. split.
  - now apply double_nodup.
  - intros q Hq. rewrite !in_double. apply in_double in Hq. destruct q as [p b]. cbn in *. destruct (CL p Hq) as (C1 & C2 & C3 & C4). destruct b; cbn; repeat split; auto.
  - intros q Hq. apply in_double in Hq. destruct q as [p b]. cbn in *. destruct (LR p Hq) as (E1 & E2). now rewrite E1, E2.
  - intros q Hq. apply in_double in Hq. destruct q as [p b]. cbn in *. destruct (UD p Hq) as (E1 & E2). destruct b; cbn; now rewrite ?E1, ?E2.
  - intros q Hq. apply in_double in Hq. destruct q as [p b]. cbn in *. destruct b; cbn; auto. now rewrite SQ.
Qed.
(** rows and columns exchanged; right and left exchanged *)
Definition flip (L : lattice) : lattice := mkLattice (site L) (site_dec L) (sites L) (down L) (up L) (left L) (right L).
Definition mirror (L : lattice) : lattice := mkLattice (site L) (site_dec L) (sites L) (left L) (right L) (up L) (down L).
Lemma flip_torus L : torus L -> torus (flip L).
Proof. intros [ND CL LR UD SQ]. split; cbn; auto. - intros x Hx. destruct (CL x Hx) as (C1 & C2 & C3 & C4). auto. - intros x Hx. symmetry. auto. Qed.
Lemma mirror_torus L : torus L -> torus (mirror L).
Proof.
  intros [ND CL LR UD SQ]. split; cbn; auto.
  - intros x Hx. destruct (CL x Hx) as (C1 & C2 & C3 & C4). auto.
  - intros x Hx. destruct (LR x Hx) as (E1 & E2). auto.
  - intros x Hx. destruct (CL x Hx) as (C1 & C2 & C3 & C4). rewrite <- (proj2 (LR x Hx)) at 1. rewrite <- SQ by auto. rewrite (proj1 (LR _ ltac:(apply (CL _ C2)))). reflexivity.
Qed.
Lemma beside_flip L : beside L = flip (stack (flip L)). Proof. reflexivity. Qed.
Lemma beside_torus L : torus L -> torus (beside L).
Proof. intros TL. rewrite beside_flip. apply flip_torus, stack_torus, flip_torus, TL. Qed.
Lemma double_count L : List.length (sites (stack L)) = 2 * List.length (sites L).
Proof. cbn. rewrite app_length, !map_length. lia. Qed.

Section Double.
Context {A : Type} {HA : SR A}.
Local Open Scope sr_scope.
Add Ring Aringd : (@SR_theory A HA).
Definition transposed (T : nat -> nat -> nat -> nat -> A) : nat -> nat -> nat -> nat -> A := fun u l d r => T l u r d.
Definition mirrored (T : nat -> nat -> nat -> nat -> A) : nat -> nat -> nat -> nat -> A := fun u l d r => T u r d l.

Lemma partition_flip L H V T : partition (flip L) V H (fun _ => transposed T) = partition L H V (fun _ => T).
Proof. unfold partition, transposed. cbn [flip sites site up left site_dec]. apply so_swap. Qed.
Lemma partition_mirror L H V T : torus L -> partition (mirror L) H V (fun _ => mirrored T) = partition L H V (fun _ => T).
Proof.
  intros TL. unfold partition, mirrored. cbn [mirror sites site up left site_dec].
  change (fun x y : site (mirror L) => site_dec L x y) with (site_dec L).
  rewrite (so_reindex (right L) (left L) (sites L) H _ (fun _ => 0%nat) (fun _ => 0%nat)).
  - apply so_ext. intros h. apply so_ext. intros v. apply prodL_ext. intros p Hp. now rewrite (proj1 (to_lr L TL p Hp)).
  - intros x Hx. split; [now apply (to_lr L TL)|now apply (to_closed L TL)].
  - apply TL.
  - intros c c' Ec. apply so_ext. intros v. apply prodL_ext. intros p Hp. destruct (to_closed L TL p Hp) as (C1 & C2 & C3 & C4). now rewrite !Ec.
Qed.

Section Step.
Variable L : lattice.
Hypothesis TL : torus L.
Variables (T B : nat -> nat -> nat -> nat -> A) (P : nat -> nat -> nat -> A) (Q : nat -> nat -> nat -> A) (h v k : nat).
Hypothesis EB : forall u l d r, (u < v)%nat -> (l < k)%nat -> (d < v)%nat -> (r < k)%nat ->
  B u l d r = sumN h (fun a => sumN h (fun b => sumN h (fun c => sumN h (fun e => pillar v T T u a b d c e * P a b l * Q c e r)))).
Hypothesis LL : forall u a b d c e, (u < v)%nat -> (a < h)%nat -> (b < h)%nat -> (d < v)%nat -> (c < h)%nat -> (e < h)%nat ->
  sumN k (fun o => sumN h (fun a' => sumN h (fun b' => pillar v T T u a' b' d c e * P a' b' o)) * Q a b o) = pillar v T T u a b d c e.
Let S := sites L.
Let z0 : site L -> nat := fun _ => 0%nat.

Definition mid : A :=
  sum_over S h (fun C => sum_over S h (fun E => sum_over S v (fun X => sum_over S v (fun Y =>
    prodL S (fun p => T (Y (up L p)) (C (left L p)) (X p) (C p) * T (X p) (E (left L p)) (Y p) (E p))) z0) z0) z0) z0.
Lemma stack_mid : partition (stack L) h v (fun _ => T) = mid.
Proof.
  unfold partition, mid. cbn [stack sites site up left]. fold S.
  set (HB := site_dec (stack L)).
  set (body := fun (hh vv : site L * bool -> nat) =>
    prodL S (fun p => T (vv (up L p, true)) (hh (left L p, false)) (vv (p, false)) (hh (p, false)) * T (vv (p, false)) (hh (left L p, true)) (vv (p, true)) (hh (p, true)))).
  assert (Hin : forall p b, In p S -> In (p, b) (map (fun p => (p, false)) S ++ map (fun p => (p, true)) S)).
  { intros p b Hp. apply in_app_iff. destruct b; [right|left]; apply in_map_iff; exists p; auto. }
  assert (LV : forall hh, local (map (fun p => (p, false)) S ++ map (fun p => (p, true)) S) (body hh)).
  { intros hh c c' Ec. unfold body. apply prodL_ext; intros p Hp; destruct (to_closed L TL p Hp) as (C1 & C2 & C3 & C4). rewrite !Ec; auto. }
  assert (LH : forall vv, local (map (fun p => (p, false)) S ++ map (fun p => (p, true)) S) (fun hh => body hh vv)).
  { intros vv c c' Ec. unfold body. apply prodL_ext; intros p Hp; destruct (to_closed L TL p Hp) as (C1 & C2 & C3 & C4). rewrite !Ec; auto. }
  transitivity (sum_over (map (fun p => (p, false)) S ++ map (fun p => (p, true)) S) h (fun hh => sum_over (map (fun p => (p, false)) S ++ map (fun p => (p, true)) S) v (body hh) (fun _ => 0%nat)) (fun _ => 0%nat)).
  { apply so_ext. intros hh. apply so_ext. intros vv. unfold body. now rewrite prodL_app, !prodL_map, prodL_mul. }
  rewrite (so_pair HB S h _ _ z0).
  2:{ apply TL. }
  2:{ intros c c' Ec. apply so_ext. intros vv. now apply LH. }
  apply so_ext. intros C. apply so_ext. intros E. rewrite (so_pair HB S v _ _ z0). 2:{ apply TL. } 2:{ apply LV. }
  reflexivity.
Qed.
Lemma fused_mid : partition L k v (fun _ => B) = mid.
Proof.
  unfold partition, mid. fold S. fold z0.
  set (G := fun u d c e l => sumN h (fun a => sumN h (fun b => pillar v T T u a b d c e * P a b l))).
  transitivity (sum_over S k (fun o => sum_over S v (fun Y => sum_over S h (fun C => sum_over S h (fun E =>
    prodL S (fun p => G (Y (up L p)) (Y p) (C p) (E p) (o (left L p)) * Q (C p) (E p) (o p))) z0) z0) z0) z0).
  { apply so_range. intros o Ho. apply so_range. intros Y HY.
    transitivity (prodL S (fun p => sumN h (fun c => sumN h (fun e => G (Y (up L p)) (Y p) c e (o (left L p)) * Q c e (o p))))).
    { apply prodL_ext. intros p Hp. destruct (to_closed L TL p Hp) as (C1 & C2 & C3 & C4). rewrite EB by auto. unfold G.
      transitivity (sumN h (fun a => sumN h (fun c => sumN h (fun e => sumN h (fun b => pillar v T T (Y (up L p)) a b (Y p) c e * P a b (o (left L p)) * Q c e (o p)))))).
      { apply sumN_ext. intros a _. rewrite sumN_swap. apply sumN_ext. intros c _. apply sumN_swap. }
      rewrite sumN_swap. apply sumN_ext. intros c _. rewrite sumN_swap. apply sumN_ext. intros e _. rewrite <- sumN_mul_r. apply sumN_ext. intros a _. apply sumN_mul_r. }
    rewrite (so_prod S h _ z0); [|apply TL]. apply so_ext. intros C. rewrite (so_prod S h _ z0); [|apply TL]. reflexivity. }
  transitivity (sum_over S h (fun C => sum_over S h (fun E => sum_over S v (fun Y => sum_over S k (fun o =>
    prodL S (fun p => G (Y (up L p)) (Y p) (C p) (E p) (o (left L p)) * Q (C p) (E p) (o p))) z0) z0) z0) z0).
  { assert (SW : forall n (F : (site L -> nat) -> (site L -> nat) -> (site L -> nat) -> A),
      sum_over S k (fun hh => sum_over S v (fun vv => sum_over S n (fun X => F X hh vv) z0) z0) z0 =
      sum_over S n (fun X => sum_over S k (fun hh => sum_over S v (fun vv => F X hh vv) z0) z0) z0).
    { intros n F. rewrite (so_swap S S n k). apply so_ext. intros hh. apply so_swap. }
    rewrite SW. apply so_ext. intros C. rewrite SW. apply so_ext. intros E. apply so_swap. }
  apply so_range. intros C HC. apply so_range. intros E HE. symmetry. rewrite so_swap. symmetry. apply so_range. intros Y HY.
  transitivity (sum_over S k (fun o => prodL S (fun p => G (Y (up L p)) (Y p) (C p) (E p) (o (left L p)) * Q (C (left L p)) (E (left L p)) (o (left L p)))) z0).
  { apply so_ext. intros o. rewrite !prodL_mul. f_equal. symmetry. apply (re_left L TL (fun p => Q (C p) (E p) (o p))). }
  rewrite (so_reindex (left L) (right L) S k _ z0 z0).
  2:{ intros x Hx. split; [now apply (to_lr L TL)|now apply (to_closed L TL)]. }
  2:{ apply TL. }
  2:{ intros c c' Ec. apply prodL_ext. intros p Hp. destruct (to_closed L TL p Hp) as (C1 & C2 & C3 & C4). now rewrite !Ec. }
  transitivity (sum_over S k (fun o => prodL S (fun p => G (Y (up L p)) (Y p) (C p) (E p) (o p) * Q (C (left L p)) (E (left L p)) (o p))) z0).
  { apply so_ext. intros o. apply prodL_ext. intros p Hp. now rewrite (proj2 (to_lr L TL p Hp)). }
  rewrite <- (so_prod S k (fun p o => G (Y (up L p)) (Y p) (C p) (E p) o * Q (C (left L p)) (E (left L p)) o) z0); [|apply TL].
  rewrite <- (so_prod S v (fun p x => T (Y (up L p)) (C (left L p)) x (C p) * T x (E (left L p)) (Y p) (E p)) z0); [|apply TL].
  apply prodL_ext. intros p Hp. destruct (to_closed L TL p Hp) as (C1 & C2 & C3 & C4). apply LL; auto.
Qed.
Lemma fuse_rows : partition L k v (fun _ => B) = partition (stack L) h v (fun _ => T).
Proof. now rewrite fused_mid, stack_mid. Qed.
End Step.
End Double.
