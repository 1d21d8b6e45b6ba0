(** Doubling rows and columns of grids. *)
From Coq Require Import List Arith Bool String Lia.
From Verif Require Import Base Sums TorusSpec DoubleSpec TorusProofs TorusIsoProofs DoubleProofs HotrgModel HotrgSpec HotrgProofs.
Import ListNotations.
Local Open Scope nat_scope.

Lemma in_beside L q : In q (sites (beside L)) <-> In (fst q) (sites L).
Proof. exact (in_double L q). Qed.
Lemma same_stack L1 L2 f g : same_lattice L1 L2 f g -> same_lattice (stack L1) (stack L2) (fun q => (f (fst q), snd q)) (fun q => (g (fst q), snd q)).
Proof.
  intros SL. split.
  - intros [p b]. rewrite in_double. cbn [fst]. rewrite (sl_sites _ _ _ _ SL). split.
    + intros (x & Hx & ->). exists (x, b). rewrite in_double. auto.
    + intros ([x b'] & Hx & [= -> ->]). apply in_double in Hx. exists x. auto.
  - intros [p b] Hq. apply in_double in Hq. cbn [fst snd] in *. now rewrite (sl_inv _ _ _ _ SL).
  - intros [p b] Hq. apply in_double in Hq. cbn [fst snd stack right] in *. now rewrite (sl_right _ _ _ _ SL).
  - intros [p b] Hq. apply in_double in Hq. cbn [fst snd stack left] in *. now rewrite (sl_left _ _ _ _ SL).
  - intros [p b] Hq. apply in_double in Hq. cbn [fst snd stack up] in *. destruct b; cbn [fst snd]; auto. now rewrite (sl_up _ _ _ _ SL).
  - intros [p b] Hq. apply in_double in Hq. cbn [fst snd stack down] in *. destruct b; cbn [fst snd]; auto. now rewrite (sl_down _ _ _ _ SL).
Qed.
Lemma same_beside L1 L2 f g : same_lattice L1 L2 f g -> same_lattice (beside L1) (beside L2) (fun q => (f (fst q), snd q)) (fun q => (g (fst q), snd q)).
Proof.
  intros SL. split.
  - intros [p b]. rewrite in_beside. cbn [fst]. rewrite (sl_sites _ _ _ _ SL). split.
    + intros (x & Hx & ->). exists (x, b). rewrite in_beside. auto.
    + intros ([x b'] & Hx & [= -> ->]). apply in_beside in Hx. exists x. auto.
  - intros [p b] Hq. apply in_beside in Hq. cbn [fst snd] in *. now rewrite (sl_inv _ _ _ _ SL).
  - intros [p b] Hq. apply in_beside in Hq. cbn [fst snd beside right] in *. destruct b; cbn [fst snd]; auto. now rewrite (sl_right _ _ _ _ SL).
  - intros [p b] Hq. apply in_beside in Hq. cbn [fst snd beside left] in *. destruct b; cbn [fst snd]; auto. now rewrite (sl_left _ _ _ _ SL).
  - intros [p b] Hq. apply in_beside in Hq. cbn [fst snd beside up] in *. now rewrite (sl_up _ _ _ _ SL).
  - intros [p b] Hq. apply in_beside in Hq. cbn [fst snd beside down] in *. now rewrite (sl_down _ _ _ _ SL).
Qed.
Lemma stack_grid n m : same_lattice (stack (grid n m)) (grid n (2 * m)) (fun q => (fst (fst q), 2 * snd (fst q) + bit (snd q))) (fun p => ((fst p, snd p / 2), Nat.odd (snd p))).
Proof.
  split.
  - intros [i j]. rewrite in_grid. cbn [fst snd]. split.
    + intros [Hi Hj]. pose proof (odd_bit j) as O. exists ((i, j / 2), Nat.odd j). split; [rewrite in_double, in_grid; cbn [fst snd]; split; [auto|lia]|cbn [fst snd]; now rewrite <- O].
    + intros ([[x y] b] & Hq & [= -> ->]). apply in_double, in_grid in Hq. cbn [fst snd] in *. destruct b; cbn [bit]; lia.
  - intros [[i j] b] Hq. cbn [fst snd]. now rewrite half_2, odd_2.
  - intros [[i j] b] Hq. reflexivity.
  - intros [[i j] b] Hq. reflexivity.
  - intros [[i j] b] Hq. apply in_double, in_grid in Hq. cbn [fst snd] in Hq. destruct b; cbn [stack up fst snd grid bit]; f_equal; wrap; lia.
  - intros [[i j] b] Hq. apply in_double, in_grid in Hq. cbn [fst snd] in Hq. destruct b; cbn [stack down fst snd grid bit]; f_equal; wrap; lia.
Qed.
Lemma beside_grid n m : same_lattice (beside (grid n m)) (grid (2 * n) m) (fun q => (2 * fst (fst q) + bit (snd q), snd (fst q))) (fun p => ((fst p / 2, snd p), Nat.odd (fst p))).
Proof.
  split.
  - intros [i j]. rewrite in_grid. cbn [fst snd]. split.
    + intros [Hi Hj]. pose proof (odd_bit i) as O. exists ((i / 2, j), Nat.odd i). split; [rewrite in_beside, in_grid; cbn [fst snd]; split; [lia|auto]|cbn [fst snd]; now rewrite <- O].
    + intros ([[x y] b] & Hq & [= -> ->]). apply in_beside, in_grid in Hq. cbn [fst snd] in *. destruct b; cbn [bit]; lia.
  - intros [[i j] b] Hq. cbn [fst snd]. now rewrite half_2, odd_2.
  - intros [[i j] b] Hq. apply in_beside, in_grid in Hq. cbn [fst snd] in Hq. destruct b; cbn [beside right fst snd grid bit]; f_equal; wrap; lia.
  - intros [[i j] b] Hq. apply in_beside, in_grid in Hq. cbn [fst snd] in Hq. destruct b; cbn [beside left fst snd grid bit]; f_equal; wrap; lia.
  - intros [[i j] b] Hq. reflexivity.
  - intros [[i j] b] Hq. reflexivity.
Qed.
Lemma fine_grid ds n m : exists f g, same_lattice (fine ds (grid n m)) (grid (2 ^ col_steps ds * n) (2 ^ row_steps ds * m)) f g.
Proof.
  induction ds as [|d ds (f & g & IH)].
  - cbn. rewrite !Nat.add_0_r. eexists _, _. apply same_refl.
  - unfold row_steps, col_steps in *. cbn [fine filter]. unfold double. destruct (rows d); cbn [negb List.length Nat.pow].
    + replace (2 * 2 ^ Datatypes.length (filter rows ds) * m) with (2 * (2 ^ Datatypes.length (filter rows ds) * m)) by lia. eexists _, _. eapply same_trans; [apply stack_torus, fine_torus, grid_torus|apply same_stack; exact IH|apply stack_grid].
    + match goal with |- context [grid (2 * ?a * n) _] => replace (2 * a * n) with (2 * (a * n)) by lia end. eexists _, _. eapply same_trans; [apply beside_torus, fine_torus, grid_torus|apply same_beside; exact IH|apply beside_grid].
Qed.
Lemma partition_fine {A} {HA : SR A} ds H V (T : nat -> nat -> nat -> nat -> A) :
  partition (fine ds (grid 1 1)) H V (fun _ => T) = partition (grid (2 ^ col_steps ds) (2 ^ row_steps ds)) H V (fun _ => T).
Proof.
  pose proof (fine_grid ds 1 1) as SL. rewrite !Nat.mul_1_r in SL. destruct SL as (f & g & SL). symmetry. apply (partition_same _ _ f g); auto; [apply fine_torus; apply grid_torus|apply grid_torus].
Qed.
