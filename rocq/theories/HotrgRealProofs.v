(** The eigenvectors of the environment give a projector without loss if the values dropped are zero. *)
From Coq Require Import List Arith Bool String Lia.
From Verif Require Import Base Sums NdModel NdProofs HeapModel TorusProofs IsingAlgebra SvdModel TorusSpec DoubleSpec TrgModel TrgSpec TrgProofs HotrgModel HotrgSpec HotrgProofs.
Import ListNotations.
Local Open Scope nat_scope.

Section Real.
Context {A : Type} {HA : SR A}.
Local Open Scope sr_scope.
Add Ring Aringr : (@SR_theory A HA).
Lemma sumL_list_prod {X Y} (l1 : list X) (l2 : list Y) (f : X * Y -> A) : sumL (list_prod l1 l2) f = sumL l1 (fun x => sumL l2 (fun y => f (x, y))).
Proof. induction l1 as [|x l1 IH]; cbn [list_prod sumL]; auto. rewrite sumL_app, sumL_map, IH. reflexivity. Qed.
Lemma complete_enough {S} (ss : list S) (X : nat -> S -> A) (M v : nat -> nat -> A) (val : nat -> A) n k :
  @squares_real A HA -> (forall i j, (i < n)%nat -> (j < n)%nat -> M i j = sumL ss (fun s => X i s * X j s)) ->
  (forall i o, (i < n)%nat -> (o < n)%nat -> sumN n (fun j => M i j * v j o) = val o * v i o) ->
  (forall i j, (i < n)%nat -> (j < n)%nat -> sumN n (fun o => v i o * v j o) = if Nat.eqb i j then 1 else 0) ->
  (k <= n)%nat -> (forall i, (i + k < n)%nat -> val i = 0) ->
  forall s i, In s ss -> (i < n)%nat -> sumN k (fun o => sumN n (fun i' => X i' s * v i' (n - 1 - o)%nat) * v i (n - 1 - o)%nat) = X i s.
Proof.
  intros SQ EM EV EC Hk NL s i Hs Hi.
  assert (Z : forall o, (o + k < n)%nat -> sumN n (fun i' => X i' s * v i' o) = 0).
  { intros o Ho. assert (Q : sumL ss (fun s => sumN n (fun i' => X i' s * v i' o) * sumN n (fun i' => X i' s * v i' o)) = 0).
    { transitivity (sumN n (fun i1 => v i1 o * sumN n (fun j => M i1 j * v j o))).
      - transitivity (sumN n (fun i1 => sumL ss (fun s => v i1 o * sumN n (fun j => X i1 s * X j s * v j o)))).
        + unfold sumN at 3. symmetry. rewrite sumL_swap. apply sumL_ext. intros t _. fold (sumN n (fun x => v x o * sumN n (fun j => X x t * X j t * v j o))). rewrite <- sumN_prod. apply sumN_ext. intros i1 _. rewrite <- sumN_mul_l. apply sumN_ext. intros j _. ring.
        + apply sumN_ext. intros i1 H1. rewrite sumL_mul_l. f_equal. unfold sumN. rewrite sumL_swap. apply sumL_ext. intros j Hj. apply in_seq in Hj. rewrite (EM i1 j) by lia. symmetry. rewrite <- sumL_mul_r. reflexivity.
      - rewrite (sumN_ext _ _ (fun _ => 0)); [apply sumL_0|]. intros i1 H1. rewrite EV by lia. rewrite NL by auto. ring. }
    rewrite <- (sumL_map (fun s => sumN n (fun i' => X i' s * v i' o)) ss (fun x => x * x)) in Q. apply (SQ _ Q). apply in_map_iff. exists s. auto. }
  transitivity (sumN n (fun o => sumN n (fun i' => X i' s * v i' o) * v i o)).
  - symmetry. rewrite sumN_rev. replace n with (k + (n - k))%nat at 1 by lia. rewrite sumN_add. rewrite (sumN_ext (n - k) _ (fun _ => 0)).
    + unfold sumN at 3. rewrite sumL_0. ring.
    + intros o Ho. rewrite Z by lia. ring.
  - transitivity (sumN n (fun i' => X i' s * (if Nat.eqb i' i then 1 else 0))).
    + transitivity (sumN n (fun o => sumN n (fun i' => X i' s * (v i' o * v i o)))).
      * apply sumN_ext. intros o _. rewrite <- sumN_mul_r. apply sumN_ext. intros. ring.
      * rewrite sumN_swap. apply sumN_ext. intros i' H'. rewrite sumN_mul_l. now rewrite EC.
    + rewrite (sumN_single n _ i); auto.
      * rewrite Nat.eqb_refl. ring.
      * intros i' _ N. apply Nat.eqb_neq in N. rewrite N. ring.
Qed.
Context {B : Type}.
Variable eig : eigen A.
Variable num : numerics A B.
Lemma big_le (m : arr A) n : List.length (vals eig m) = n -> (big_count eig m <= n)%nat.
Proof. intros <-. unfold big_count. generalize (vals eig m). intros vs. clear. induction vs as [|x vs IH]; cbn; auto. destruct (ei_big eig x); cbn; lia. Qed.
Lemma kept_le (m : arr A) n chi : List.length (vals eig m) = n -> (kept_count eig m n chi <= n)%nat.
Proof. intros E. pose proof (big_le m n E). unfold kept_count. destruct (Nat.eqb_spec (Nat.min chi (big_count eig m)) 0); lia. Qed.
(** the bound on the dimension *)
Lemma kept_bound (m : arr A) n chi : (0 < chi)%nat -> (0 < big_count eig m)%nat -> (0 < kept_count eig m n chi <= chi)%nat.
Proof. intros H1 H2. unfold kept_count. destruct (Nat.eqb_spec (Nat.min chi (big_count eig m)) 0); lia. Qed.
Lemma kept_all (m : arr A) n chi : chi = 0%nat \/ big_count eig m = 0%nat -> kept_count eig m n chi = n.
Proof. intros [->|E]; unfold kept_count; [reflexivity|]. rewrite E, Nat.min_0_r. reflexivity. Qed.
Theorem real_projector V H (T : nat -> nat -> nat -> nat -> A) chi : @squares_real A HA -> (forall x, nu_conj num x = x) ->
  eigh_exact eig (env V H T) (H * H) -> no_loss eig (env V H T) (H * H) chi ->
  lossless_projector V H (kept_count eig (env V H T) (H * H) chi) T (proj eig (env V H T) (H * H)) (proj_conj eig num (env V H T) (H * H)).
Proof.
  intros SQ CJ [(LV & _) EV EC] NL u a b d c e Hu Ha Hb Hd Hc He. set (m := env V H T) in *. set (k := kept_count eig m (H * H) chi) in *.
  assert (Hk : (k <= H * H)%nat) by now apply kept_le.
  set (ss := list_prod (seq 0 V) (list_prod (seq 0 V) (list_prod (seq 0 H) (seq 0 H)))).
  set (X := fun (i : nat) (s : nat * (nat * (nat * nat))) => pillar V T T (fst s) (i / H)%nat (i mod H)%nat (fst (snd s)) (fst (snd (snd s))) (snd (snd (snd s)))).
  pose proof (complete_enough ss X (fun i j => aget m [i; j]) (fun i o => aget (vecs eig m) [i; o]) (fun o => nth o (vals eig m) 0) (H * H) k SQ) as G.
  specialize (G ltac:(intros i j Hi Hj; unfold m, env, mat4; rewrite aget_tab by (repeat constructor; auto); cbn [nth]; unfold ss; rewrite !sumL_list_prod; apply sumN_ext; intros; rewrite sumL_list_prod; apply sumN_ext; intros; rewrite sumL_list_prod; reflexivity) EV EC Hk NL).
  assert (Hs : In (u, (d, (c, e))) ss) by (unfold ss; repeat (apply in_prod; [apply in_seq; lia|]); apply in_seq; lia).
  destruct (pair_ravel H H a b Ha Hb) as (Hi & D1 & D2).
  specialize (G (u, (d, (c, e))) (a * H + b)%nat Hs Hi). unfold X in G at 2. cbn [fst snd] in G. rewrite D1, D2 in G. rewrite <- G.
  apply sumN_ext. intros o Ho. unfold proj_conj, proj. rewrite CJ. f_equal. rewrite sumN_mul. apply sumN_ext. intros a' Ha'. apply sumN_ext. intros b' Hb'. unfold X. cbn [fst snd]. destruct (pair_ravel H H a' b' Ha' Hb') as (_ & E1 & E2). now rewrite E1, E2.
Qed.
Lemma filter_count (p : A -> bool) : forall (vs : list A) i, (forall j, (i <= j < List.length vs)%nat -> p (nth j vs 0) = true) -> (List.length vs - i <= List.length (filter p vs))%nat.
Proof.
  induction vs as [|x vs IH]; intros i E; [cbn; lia|]. destruct i as [|i].
  - assert (p x = true) by (apply (E 0%nat); cbn; lia). cbn [filter]. rewrite H. cbn [List.length]. specialize (IH 0%nat). rewrite Nat.sub_0_r in *. assert (List.length vs <= List.length (filter p vs))%nat; [|lia]. apply IH. intros j Hj. apply (E (S j)). cbn. lia.
  - specialize (IH i). assert (List.length vs - i <= List.length (filter p vs))%nat by (apply IH; intros j Hj; apply (E (S j)); cbn; lia). cbn [filter List.length]. destruct (p x); cbn [List.length]; lia.
Qed.
Theorem clear_no_loss (m : arr A) n chi : List.length (vals eig m) = n -> clear_cut eig m n -> (big_count eig m <= chi)%nat -> no_loss eig m n chi.
Proof.
  intros LV [S1 S2] Hc i Hi. pose proof (big_le m n LV) as BL. unfold kept_count in Hi. destruct (Nat.eqb_spec (Nat.min chi (big_count eig m)) 0) as [|N]; [lia|].
  apply S2; [lia|]. destruct (ei_big eig (nth i (vals eig m) 0)) eqn:E; auto. exfalso.
  assert (List.length (vals eig m) - i <= big_count eig m)%nat; [|lia]. apply filter_count. intros j Hj. apply (S1 i j); auto; lia.
Qed.
End Real.
