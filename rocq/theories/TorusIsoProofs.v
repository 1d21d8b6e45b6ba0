(** Lattices that differ in the names of the sites only, and the shape of the refined torus. *)
From Coq Require Import List Arith Bool Lia Permutation ZArith.
From Verif Require Import Base Sums TorusSpec SumpairsProofs TorusProofs.
Import ListNotations.
Local Open Scope nat_scope.

Section Iso.
Context {A : Type} {HA : SR A}.
Lemma same_perm L1 L2 f g : torus L1 -> torus L2 -> same_lattice L1 L2 f g -> Permutation (map f (sites L1)) (sites L2).
Proof.
  intros T1 T2 SL. apply NoDup_Permutation; [|apply T2|].
  - apply map_nodup; [apply T1|]. intros x y Hx Hy E. rewrite <- (sl_inv _ _ _ _ SL x Hx), <- (sl_inv _ _ _ _ SL y Hy). now rewrite E.
  - intros y. rewrite in_map_iff, (sl_sites _ _ _ _ SL). split; intros (x & H1 & H2); exists x; auto.
Qed.
Lemma partition_same L1 L2 f g H V (T1 : site L1 -> _) (T2 : site L2 -> _) : torus L1 -> torus L2 -> same_lattice L1 L2 f g -> (forall x, In x (sites L1) -> T2 (f x) = T1 x) ->
  partition (A := A) L2 H V T2 = partition L1 H V T1.
Proof.
  intros TL1 TL2 SL E. unfold partition. pose proof (same_perm _ _ _ _ TL1 TL2 SL) as P.
  assert (ND : NoDup (map f (sites L1))) by (eapply Permutation_NoDup; [apply Permutation_sym; exact P|apply TL2]).
  assert (ND1 := to_nodup _ TL1). assert (Ig := sl_inv _ _ _ _ SL).
  set (body := fun (h v : site L2 -> nat) => prodL (map f (sites L1)) (fun x => T2 x (v (up L2 x)) (h (left L2 x)) (v x) (h x))).
  transitivity (sum_over (map f (sites L1)) H (fun h => sum_over (map f (sites L1)) V (body h) (fun _ => 0)) (fun _ => 0)).
  { rewrite <- (so_perm _ _ H _ P ND).
    - apply so_ext. intros h. rewrite <- (so_perm _ _ V _ P ND).
      + apply so_ext. intros v. unfold body. symmetry. now apply prodL_perm.
      + intros c c' Ec. apply prodL_ext. intros x _. now rewrite !Ec.
    - intros c c' Ec. apply so_ext. intros v. apply prodL_ext. intros x _. now rewrite !Ec. }
  assert (nb : forall x, In x (sites L1) -> In (f (up L1 x)) (map f (sites L1)) /\ In (f (left L1 x)) (map f (sites L1)) /\ In (f x) (map f (sites L1))).
  { intros x Hx. destruct (to_closed _ TL1 x Hx) as (C1 & C2 & C3 & C4). repeat split; now apply in_map. }
  assert (EB : forall h v, body h v = prodL (sites L1) (fun x => T1 x (v (f (up L1 x))) (h (f (left L1 x))) (v (f x)) (h (f x)))).
  { intros h v. unfold body. rewrite prodL_map. apply prodL_ext. intros x Hx. rewrite E, (sl_up _ _ _ _ SL), (sl_left _ _ _ _ SL) by auto. reflexivity. }
  rewrite (so_map f g (sites L1) H _ _ (fun _ => 0)); auto.
  2:{ intros c c' Ec. apply so_ext. intros v. rewrite !EB. apply prodL_ext. intros x Hx. destruct (nb x Hx) as (N1 & N2 & N3). rewrite !Ec by assumption. reflexivity. }
  apply so_ext. intros h. rewrite (so_map f g (sites L1) V _ _ (fun _ => 0)); auto.
  2:{ intros c c' Ec. rewrite !EB. apply prodL_ext. intros x Hx. destruct (nb x Hx) as (N1 & N2 & N3). rewrite !Ec by assumption. reflexivity. }
  apply so_ext. intros v. rewrite EB. apply prodL_ext. intros x Hx. destruct (to_closed _ TL1 x Hx) as (C1 & C2 & C3 & C4). now rewrite !Ig.
Qed.
End Iso.

Lemma same_trans L1 L2 L3 f g f' g' : torus L1 -> same_lattice L1 L2 f g -> same_lattice L2 L3 f' g' -> same_lattice L1 L3 (fun x => f' (f x)) (fun y => g (g' y)).
Proof.
  intros T1 S1 S2. assert (Hf : forall x, In x (sites L1) -> In (f x) (sites L2)) by (intros x Hx; apply (sl_sites _ _ _ _ S1); exists x; auto).
  split; intros.
  - rewrite (sl_sites _ _ _ _ S2). split.
    + intros (x & Hx & ->). apply (sl_sites _ _ _ _ S1) in Hx. destruct Hx as (x' & Hx' & ->). exists x'. auto.
    + intros (x & Hx & ->). exists (f x). auto.
  - rewrite (sl_inv _ _ _ _ S2), (sl_inv _ _ _ _ S1); auto.
  - rewrite (sl_right _ _ _ _ S1), (sl_right _ _ _ _ S2); auto.
  - rewrite (sl_left _ _ _ _ S1), (sl_left _ _ _ _ S2); auto.
  - rewrite (sl_up _ _ _ _ S1), (sl_up _ _ _ _ S2); auto.
  - rewrite (sl_down _ _ _ _ S1), (sl_down _ _ _ _ S2); auto.
Qed.
Lemma in_refine L (q : site (refine L)) : In q (sites (refine L)) <-> In (fst q) (sites L).
Proof.
  destruct q as [p b]. cbn. rewrite in_app_iff, !in_map_iff. split. { intros [(x & [= <- <-] & Hx)|(x & [= <- <-] & Hx)]; auto. } intros Hp. destruct b; [right|left]; exists p; auto.
Qed.
Lemma same_refine L1 L2 f g : torus L1 -> same_lattice L1 L2 f g -> same_lattice (refine L1) (refine L2) (fun q => (f (fst q), snd q)) (fun q => (g (fst q), snd q)).
Proof.
  intros T1 SL. split.
  - intros [p b]. rewrite in_refine. cbn [fst]. rewrite (sl_sites _ _ _ _ SL). split.
    + intros (x & Hx & ->). exists (x, b). rewrite in_refine. auto.
    + intros ([x b'] & Hx & [= -> ->]). apply in_refine in Hx. exists x. auto.
  - intros [p b] Hq. apply in_refine in Hq. cbn [fst snd] in *. now rewrite (sl_inv _ _ _ _ SL).
  - intros [p b] Hq. apply in_refine in Hq. cbn [fst snd refine right] in *. destruct (to_closed _ T1 p Hq) as (C1 & C2 & C3 & C4). destruct b; cbn [fst snd]; auto.
    rewrite (sl_down _ _ _ _ SL), (sl_right _ _ _ _ SL); auto.
  - intros [p b] Hq. apply in_refine in Hq. cbn [fst snd refine left] in *. destruct (to_closed _ T1 p Hq) as (C1 & C2 & C3 & C4). destruct b; cbn [fst snd]; auto.
    rewrite (sl_left _ _ _ _ SL), (sl_up _ _ _ _ SL); auto.
  - intros [p b] Hq. apply in_refine in Hq. cbn [fst snd refine up] in *. destruct b; cbn [fst snd].
    + rewrite (sl_right _ _ _ _ SL); auto. + rewrite (sl_up _ _ _ _ SL); auto.
  - intros [p b] Hq. apply in_refine in Hq. cbn [fst snd refine down] in *. destruct b; cbn [fst snd].
    + rewrite (sl_down _ _ _ _ SL); auto. + rewrite (sl_left _ _ _ _ SL); auto.
Qed.

(** ** Grids *)
Lemma mod_wrap x N : x < 2 * N -> x mod N = if x <? N then x else x - N.
Proof.
  intros H. destruct (Nat.ltb_spec x N) as [L|L]; [now apply Nat.mod_small|]. replace x with ((x - N) + 1 * N) at 1 by lia. rewrite Nat.mod_add by lia. apply Nat.mod_small. lia.
Qed.
Ltac wrap := repeat match goal with |- context [?x mod ?N] => lazymatch x with context [_ mod _] => fail | _ => idtac end; rewrite (mod_wrap x N) by lia; destruct (Nat.ltb_spec x N) end.
Lemma in_grid n m p : In p (sites (grid n m)) <-> fst p < n /\ snd p < m.
Proof.
  destruct p as [i j]. cbn. rewrite in_flat_map. split.
  - intros (x & Hx & Hp). apply in_map_iff in Hp. destruct Hp as (y & [= <- <-] & Hy). apply in_seq in Hx, Hy. lia.
  - intros [Hi Hj]. exists i. split; [apply in_seq; lia|]. apply in_map_iff. exists j. split; auto. apply in_seq. lia.
Qed.
Lemma grid_torus n m : torus (grid n m).
Proof.
  split.
  - cbn. assert (G : forall a, NoDup (flat_map (fun i => map (fun j => (i, j)) (seq 0 m)) (seq a n))).
    { induction n as [|n IH]; intros a; cbn [seq flat_map]; [constructor|]. apply NoDup_app_intro; auto.
      - apply map_nodup; [apply seq_NoDup|]. intros x y _ _ [= E]. auto.
      - intros q H1 H2. apply in_map_iff in H1. destruct H1 as (y & <- & _). apply in_flat_map in H2. destruct H2 as (x & Hx & Hp). apply in_map_iff in Hp. destruct Hp as (z & [= E _] & _). apply in_seq in Hx. lia. }
    apply G.
  - intros [i j] Hp. rewrite !in_grid. apply in_grid in Hp. cbn in *. repeat split; try lia; apply Nat.mod_upper_bound; lia.
  - intros [i j] Hp. apply in_grid in Hp. cbn in *. split; f_equal; wrap; lia.
  - intros [i j] Hp. apply in_grid in Hp. cbn in *. split; f_equal; wrap; lia.
  - intros [i j] Hp. reflexivity.
Qed.
Definition bit (b : bool) : nat := if b then 1 else 0.
(** twice refined: a grid with twice as many rows and columns, turned by a right angle *)
Definition turn n m (q : site (refine (refine (grid n m)))) : site (grid (2 * m) (2 * n)) :=
  let '((p, b1), b2) := q in ((2 * snd p + bit b1 + bit b2) mod (2 * m), (2 * n - 2 * fst p - bit b1) mod (2 * n)).
Definition turn_back n m (p : site (grid (2 * m) (2 * n))) : site (refine (refine (grid n m))) :=
  let b1 := Nat.odd (snd p) in
  let i := (fst p + (2 * m - bit b1)) mod (2 * m) in
  (((((2 * n - snd p - bit b1) / 2) mod n, i / 2), b1), Nat.odd i).
Lemma odd_bit x : x = 2 * (x / 2) + bit (Nat.odd x).
Proof. rewrite <- Nat.bit0_odd. rewrite (Nat.div_mod x 2) at 1 by lia. f_equal. rewrite Nat.bit0_mod. now destruct (Nat.testbit x 0). Qed.
Lemma odd_2 x b : Nat.odd (2 * x + bit b) = b.
Proof. rewrite Nat.odd_add, Nat.odd_mul. now destruct b. Qed.
Lemma half_2 x b : (2 * x + bit b) / 2 = x.
Proof. rewrite (Nat.mul_comm 2), Nat.div_add_l by lia. destruct b; cbn; lia. Qed.
Lemma turn_same n m : same_lattice (refine (refine (grid n m))) (grid (2 * m) (2 * n)) (turn n m) (turn_back n m).
Proof.
  assert (Hin : forall p b1 b2, In ((p, b1), b2) (sites (refine (refine (grid n m)))) <-> fst p < n /\ snd p < m).
  { intros p b1 b2. etransitivity; [apply (in_refine (refine (grid n m)) ((p, b1), b2))|]. etransitivity; [apply (in_refine (grid n m) (p, b1))|]. apply in_grid. }
  assert (back : forall q, In q (sites (refine (refine (grid n m)))) -> turn_back n m (turn n m q) = q).
  { intros [[[i j] b1] b2] Hq. apply Hin in Hq. cbn [fst snd] in Hq. unfold turn, turn_back. cbn [fst snd].
    assert (E1 : Nat.odd ((2 * n - 2 * i - bit b1) mod (2 * n)) = b1).
    { destruct b1; cbn [bit].
      - rewrite Nat.mod_small by lia. replace (2 * n - 2 * i - 1) with (2 * (n - i - 1) + bit true) by (cbn [bit]; lia). apply odd_2.
      - rewrite mod_wrap by lia. destruct (Nat.ltb_spec (2 * n - 2 * i - 0) (2 * n)).
        + replace (2 * n - 2 * i - 0) with (2 * (n - i) + bit false) by (cbn [bit]; lia). apply odd_2.
        + replace (2 * n - 2 * i - 0 - 2 * n) with (2 * 0 + bit false) by (cbn [bit]; lia). apply odd_2. }
    rewrite E1. 
    assert (E2 : ((2 * j + bit b1 + bit b2) mod (2 * m) + (2 * m - bit b1)) mod (2 * m) = 2 * j + bit b2) by (destruct b1, b2; cbn [bit]; wrap; lia).
    rewrite E2, odd_2, half_2.
    assert (E3 : (2 * n - (2 * n - 2 * i - bit b1) mod (2 * n) - bit b1) / 2 = i \/ (i = 0 /\ (2 * n - (2 * n - 2 * i - bit b1) mod (2 * n) - bit b1) / 2 = n)).
    { destruct b1; cbn [bit].
      - left. rewrite Nat.mod_small by lia. replace (2 * n - (2 * n - 2 * i - 1) - 1) with (2 * i + bit false) by (cbn [bit]; lia). apply half_2.
      - rewrite mod_wrap by lia. destruct (Nat.ltb_spec (2 * n - 2 * i - 0) (2 * n)).
        + left. replace (2 * n - (2 * n - 2 * i - 0) - 0) with (2 * i + bit false) by (cbn [bit]; lia). apply half_2.
        + right. split; [lia|]. replace (2 * n - (2 * n - 2 * i - 0 - 2 * n) - 0) with (2 * n + bit false) by (cbn [bit]; lia). apply half_2. }
    destruct E3 as [->|[-> ->]]; [rewrite Nat.mod_small by lia|rewrite Nat.mod_same by lia]; reflexivity. }
  split; auto.
  - intros [i j]. rewrite in_grid. cbn [fst snd]. split.
    + intros [Hi Hj]. exists (turn_back n m (i, j)). unfold turn_back. cbn [fst snd]. set (b1 := Nat.odd j). set (i' := (i + (2 * m - bit b1)) mod (2 * m)).
      assert (Hb : bit b1 <= 1) by (destruct b1; cbn; lia). assert (Hi' : i' < 2 * m) by (apply Nat.mod_upper_bound; lia). pose proof (odd_bit i') as Oi. pose proof (odd_bit j) as Oj. fold b1 in Oj.
      split. { apply Hin. cbn [fst snd]. split; [apply Nat.mod_upper_bound; lia|lia]. }
      unfold turn. cbn [fst snd]. f_equal.
      * replace (2 * (i' / 2) + bit b1 + bit (Nat.odd i')) with (i' + bit b1) by lia. unfold i'. destruct b1; cbn [bit]; wrap; lia.
      * assert (E : (2 * n - j - bit b1) / 2 = n - j / 2 - bit b1).
        { replace (2 * n - j - bit b1) with (2 * (n - j / 2 - bit b1) + bit false) by (cbn [bit]; destruct b1; cbn [bit] in *; lia). apply half_2. }
        rewrite E. clear E Hin back i' Hi' Oi. clearbody b1. destruct b1; cbn [bit] in *; wrap; lia.
    + intros ([[[x y] b1] b2] & Hq & E). apply Hin in Hq. cbn [fst snd] in Hq. unfold turn in E. injection E as -> ->. split; apply Nat.mod_upper_bound; lia.
  - intros [[[i j] b1] b2] Hq. apply Hin in Hq. cbn [fst snd] in Hq. destruct b1, b2; cbn [refine right left up down fst snd turn grid bit]; f_equal; wrap; lia.
  - intros [[[i j] b1] b2] Hq. apply Hin in Hq. cbn [fst snd] in Hq. destruct b1, b2; cbn [refine right left up down fst snd turn grid bit]; f_equal; wrap; lia.
  - intros [[[i j] b1] b2] Hq. apply Hin in Hq. cbn [fst snd] in Hq. destruct b1, b2; cbn [refine right left up down fst snd turn grid bit]; f_equal; wrap; lia.
  - intros [[[i j] b1] b2] Hq. apply Hin in Hq. cbn [fst snd] in Hq. destruct b1, b2; cbn [refine right left up down fst snd turn grid bit]; f_equal; wrap; lia.
Qed.
Lemma same_refl L : same_lattice L L (fun x => x) (fun x => x).
Proof. split; auto. intros y. split; [intros Hy; exists y; auto|intros (x & Hx & ->); auto]. Qed.
Lemma refined_plus a b L : refined a (refined b L) = refined (a + b) L.
Proof. induction a; cbn [refined plus]; congruence. Qed.
Lemma refined_grid k n : exists f g, same_lattice (refined (2 * k) (grid n n)) (grid (2 ^ k * n) (2 ^ k * n)) f g.
Proof.
  induction k as [|k (f & g & IH)].
  - change (2 * 0) with 0. cbn [refined Nat.pow]. rewrite !Nat.mul_1_l. eexists _, _. apply same_refl.
  - replace (2 * S k) with (S (S (2 * k))) by lia. cbn [refined]. replace (2 ^ S k * n) with (2 * (2 ^ k * n)) by (cbn [Nat.pow]; lia).
    eexists _, _. eapply same_trans.
    + do 2 apply refine_torus. apply refined_torus. apply grid_torus.
    + apply same_refine; [apply refine_torus; apply refined_torus; apply grid_torus|]. apply same_refine; [apply refined_torus; apply grid_torus|]. exact IH.
    + apply turn_same.
Qed.
Lemma refined_square {A} {HA : SR A} k n H V (T : nat -> nat -> nat -> nat -> A) :
  partition (refined (2 * k) (grid n n)) H V (fun _ => T) = partition (grid (2 ^ k * n) (2 ^ k * n)) H V (fun _ => T).
Proof.
  destruct (refined_grid k n) as (f & g & SL). symmetry. apply (partition_same _ _ f g); auto; [apply refined_torus; apply grid_torus|apply grid_torus].
Qed.
Lemma partition_one {A} {HA : SR A} H V (T : nat -> nat -> nat -> nat -> A) : partition (grid 1 1) H V (fun _ => T) = sumN H (fun l => sumN V (fun u => T u l u l)).
Proof. unfold partition. cbn. apply sumN_ext. intros l _. apply sumN_ext. intros u _. rewrite rmul_comm. apply rmul_1_l. Qed.
