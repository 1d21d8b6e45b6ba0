(** Sums over the states of a periodic lattice. *)
From Coq Require Import List Arith Bool Lia Permutation.
From Verif Require Import Base Sums TorusSpec SumpairsProofs.
Import ListNotations.
Local Open Scope nat_scope.

Section SumOver.
Context {A : Type} {HA : SR A}.
Local Open Scope sr_scope.
Add Ring Aring : (@SR_theory A HA).

Lemma sumN_mul_l n c f : sumN n (fun i => c * f i) = c * sumN n f. Proof. apply sumL_mul_l. Qed.
Lemma sumN_mul_r n c f : sumN n (fun i => f i * c) = sumN n f * c. Proof. apply sumL_mul_r. Qed.
Lemma sumN_swap n m (f : nat -> nat -> A) : sumN n (fun i => sumN m (f i)) = sumN m (fun j => sumN n (fun i => f i j)).
Proof. apply sumL_swap. Qed.

Section One.
Context {X : Type} {HX : Dec X}.
Definition set1 (c : X -> nat) (x : X) (i : nat) : X -> nat := fun y => if dec y x then i else c y.
(** [f] looks at the values of its argument on [ls] only *)
Definition local (ls : list X) (f : (X -> nat) -> A) : Prop := forall c c', (forall x, In x ls -> c x = c' x) -> f c = f c'.

Lemma so_ext ls n f g c : (forall c, f c = g c) -> sum_over ls n f c = sum_over ls n g c.
Proof. intros E. revert c. induction ls as [|x ls IH]; intros c; cbn [sum_over]; auto. apply sumN_ext. auto. Qed.
Lemma so_agree ls n f : forall P c c', local (P ++ ls) f -> (forall x, In x P -> c x = c' x) -> sum_over ls n f c = sum_over ls n f c'.
Proof.
  induction ls as [|x ls IH]; intros P c c' Lf E; cbn [sum_over].
  - apply Lf. intros x Hx. rewrite app_nil_r in Hx. auto.
  - apply sumN_ext. intros i _. apply (IH (P ++ [x])). { now rewrite <- app_assoc. } intros y Hy. destruct (dec y x); auto. apply E. apply in_app_iff in Hy. destruct Hy as [|[->|[]]]; congruence.
Qed.
Lemma so_range0 ls n f g : forall P c, (forall c, (forall x, In x (P ++ ls) -> c x < n)%nat -> f c = g c) -> (forall x, In x P -> c x < n)%nat -> sum_over ls n f c = sum_over ls n g c.
Proof.
  induction ls as [|x ls IH]; intros P c E Hc; cbn [sum_over]. { apply E. intros x Hx. rewrite app_nil_r in Hx. auto. }
  apply sumN_ext. intros i Hi. apply (IH (P ++ [x])). - rewrite <- app_assoc. exact E. - intros y Hy. destruct (dec y x); auto. apply Hc. apply in_app_iff in Hy. destruct Hy as [|[->|[]]]; congruence.
Qed.
Lemma so_range ls n f g c : (forall c, (forall x, In x ls -> c x < n)%nat -> f c = g c) -> sum_over ls n f c = sum_over ls n g c.
Proof. intros E. apply (so_range0 ls n f g []); auto. intros x []. Qed.
Lemma so_start ls n f c c' : local ls f -> sum_over ls n f c = sum_over ls n f c'.
Proof. intros Lf. apply (so_agree ls n f []); auto. intros x []. Qed.
Lemma so_mul_l ls n f k c : sum_over ls n (fun c => k * f c) c = k * sum_over ls n f c.
Proof. revert c. induction ls as [|x ls IH]; intros c; cbn [sum_over]; auto. rewrite <- sumN_mul_l. apply sumN_ext. auto. Qed.
Lemma so_mul_r ls n f k c : sum_over ls n (fun c => f c * k) c = sum_over ls n f c * k.
Proof. revert c. induction ls as [|x ls IH]; intros c; cbn [sum_over]; auto. rewrite <- sumN_mul_r. apply sumN_ext. auto. Qed.
Lemma so_sumN ls n m (f : nat -> (X -> nat) -> A) c : sum_over ls n (fun c => sumN m (fun i => f i c)) c = sumN m (fun i => sum_over ls n (f i) c).
Proof. revert c. induction ls as [|x ls IH]; intros c; cbn [sum_over]; auto. rewrite <- sumN_swap. apply sumN_ext. auto. Qed.
(** a product of sums *)
Lemma so_prod ls n (g : X -> nat -> A) c : NoDup ls -> prodL ls (fun x => sumN n (g x)) = sum_over ls n (fun c => prodL ls (fun x => g x (c x))) c.
Proof.
  intros ND. revert c. induction ls as [|x ls IH]; intros c; cbn [sum_over prodL]; auto. inversion ND as [|x' ls' Hx ND' E1]; subst. rewrite <- sumN_mul_r. apply sumN_ext. intros i _.
  rewrite (IH ND' (fun y => if dec y x then i else c y)), <- so_mul_l.
  assert (G : forall f g, (forall c', c' x = i -> f c' = g c') -> sum_over ls n f (fun y => if dec y x then i else c y) = sum_over ls n g (fun y => if dec y x then i else c y)).
  { clear IH ND'. intros f g' E. assert (Ec : (fun y => if dec y x then i else c y) x = i) by (destruct (dec x x); congruence). revert Ec. generalize (fun y => if dec y x then i else c y). clear ND.
    induction ls as [|z ls IH2]; intros c' Ec; cbn [sum_over]; auto. apply sumN_ext. intros j _. apply IH2. - intros Hi. apply Hx. now right. - destruct (dec x z); auto. exfalso. apply Hx. now left. }
  apply G. intros c' <-. reflexivity.
Qed.
Lemma so_app l1 l2 n f c : sum_over (l1 ++ l2) n f c = sum_over l1 n (fun c => sum_over l2 n f c) c.
Proof. revert c. induction l1 as [|x l1 IH]; intros c; cbn [sum_over app]; auto. apply sumN_ext. auto. Qed.
Definition respects (f : (X -> nat) -> A) : Prop := forall c c', (forall x, c x = c' x) -> f c = f c'.
Lemma so_point ls n f : respects f -> respects (fun c => sum_over ls n f c).
Proof.
  intros Rf. induction ls as [|x ls IH]; intros c c' E; cbn [sum_over]; auto. apply sumN_ext. intros i _. apply IH. intros y. destruct (dec y x); auto.
Qed.
Lemma so_perm l1 l2 n f : Permutation l1 l2 -> NoDup l1 -> respects f -> forall c, sum_over l1 n f c = sum_over l2 n f c.
Proof.
  intros P. induction P as [|x l1 l2 P IH|x y l|l1 l2 l3 P1 IH1 P2 IH2]; intros ND Rf c; cbn [sum_over]; auto.
  - apply sumN_ext. intros i _. apply IH; auto. now inversion ND.
  - rewrite sumN_swap. apply sumN_ext. intros i _. apply sumN_ext. intros j _. apply so_point; auto. intros z. inversion ND as [|? ? Hy _]; subst. assert (y <> x) by (intros ->; apply Hy; now left).
    destruct (dec z x), (dec z y); congruence.
  - rewrite IH1; auto. apply IH2; auto. eapply Permutation_NoDup; eauto.
Qed.
End One.

Lemma map_nodup {X Y} (g : X -> Y) (ls : list X) : NoDup ls -> (forall x y, In x ls -> In y ls -> g x = g y -> x = y) -> NoDup (map g ls).
Proof.
  intros ND. induction ND as [|x ls Hx ND IH]; intros E; cbn [map]; constructor.
  - intros Hi. apply in_map_iff in Hi. destruct Hi as (y & Ey & Hy). apply Hx. rewrite <- (E y x); simpl; auto.
  - apply IH. intros a b Ha Hb. apply E; simpl; auto.
Qed.
(** two sums may be exchanged *)
Lemma so_swap {X Y} `{Dec X} `{Dec Y} (l1 : list X) (l2 : list Y) n m f c d :
  sum_over l1 n (fun c => sum_over l2 m (fun d => f c d) d) c = sum_over l2 m (fun d => sum_over l1 n (fun c => f c d) c) d.
Proof. revert c. induction l1 as [|x l1 IH]; intros c; cbn [sum_over]; auto. rewrite so_sumN. apply sumN_ext. intros i _. apply IH. Qed.
(** new names for the places *)
Lemma so_map {X Y} `{Dec X} `{Dec Y} (g : X -> Y) (k : Y -> X) (ls : list X) n f c d : (forall x, In x ls -> k (g x) = x) -> local (map g ls) f -> NoDup ls ->
  sum_over (map g ls) n f c = sum_over ls n (fun d => f (fun y => d (k y))) d.
Proof.
  intros Ek Lf ND. enough (G : forall rest done c d, ls = done ++ rest -> (forall x, In x done -> c (g x) = d x) -> sum_over (map g rest) n f c = sum_over rest n (fun d => f (fun y => d (k y))) d).
  { apply (G ls []); auto. intros x []. }
  induction rest as [|x rest IH]; intros done c1 d1 E Ed; cbn [sum_over map].
  - apply Lf. intros y Hy. apply in_map_iff in Hy. destruct Hy as (x & <- & Hx). rewrite Ek by auto. apply Ed. now rewrite E, app_nil_r in Hx.
  - apply sumN_ext. intros i _. apply (IH (done ++ [x])). { now rewrite <- app_assoc. } intros z Hz. assert (Hx : In x ls) by (rewrite E; apply in_app_iff; simpl; auto).
    assert (Hz' : In z ls). { rewrite E. apply in_app_iff in Hz. apply in_app_iff. destruct Hz as [|[<-|[]]]; simpl; auto. }
    destruct (dec z x) as [->|Nz]; [destruct (dec (g x) (g x)); congruence|]. destruct (dec (g z) (g x)) as [Eg|]. { exfalso. apply Nz. rewrite <- (Ek z), <- (Ek x); auto. now rewrite Eg. }
    apply Ed. apply in_app_iff in Hz. destruct Hz as [|[->|[]]]; congruence.
Qed.
(** only the places outside the list are fixed *)
Lemma so_outside {X} `{Dec X} (ls : list X) n f g : forall c, (forall c', (forall x, ~ In x ls -> c' x = c x) -> f c' = g c') -> sum_over ls n f c = sum_over ls n g c.
Proof.
  induction ls as [|x ls IH]; intros c E; cbn [sum_over]. { apply E. auto. } apply sumN_ext. intros i _. apply IH. intros c' Ec. apply E. intros y Hy.
  assert (N : y <> x /\ ~ In y ls) by (split; intros Hi; apply Hy; subst; simpl; auto). rewrite Ec by apply N. destruct (dec y x); [tauto|auto].
Qed.
(** two copies of the places *)
Lemma so_pair {X} `{Dec X} (HB : Dec (X * bool)) (S : list X) n f c d : NoDup S ->
  local (map (fun p => (p, false)) S ++ map (fun p => (p, true)) S) f ->
  sum_over (map (fun p => (p, false)) S ++ map (fun p => (p, true)) S) n f c =
  sum_over S n (fun a => sum_over S n (fun b => f (fun q => if snd q then b (fst q) else a (fst q))) d) d.
Proof.
  intros ND Lf. rewrite so_app. rewrite (so_map (fun p => (p, false)) fst S n _ c d); auto.
  2:{ intros c1 c2 Ec. apply (so_agree _ n f (map (fun p => (p, false)) S)); auto. }
  apply so_ext. intros a.
  rewrite (so_outside _ n f (fun c => f (fun q => if snd q then c q else a (fst q)))).
  2:{ intros c' Ec. apply Lf. intros [p b] Hq. destruct b; cbn; auto. rewrite Ec; auto. intros Hi. apply in_map_iff in Hi. destruct Hi as (x & [=] & _). }
  rewrite (so_map (fun p => (p, true)) fst S n _ _ d); auto. intros c1 c2 Ec. apply Lf. intros [p b] Hq. destruct b; cbn; auto. apply Ec.
  apply in_app_iff in Hq. destruct Hq as [Hq|Hq]; auto. apply in_map_iff in Hq. destruct Hq as (x & [=] & _).
Qed.
(** a permutation of the places *)
Lemma so_reindex {X} `{Dec X} (g k : X -> X) (ls : list X) n f c d : (forall x, In x ls -> k (g x) = x /\ In (g x) ls) -> NoDup ls -> local ls f ->
  sum_over ls n f c = sum_over ls n (fun d => f (fun y => d (k y))) d.
Proof.
  intros E ND Lf.
  assert (NDm : NoDup (map g ls)).
  { apply map_nodup; auto. intros x y Hx Hy Eg. rewrite <- (proj1 (E x Hx)), <- (proj1 (E y Hy)). now rewrite Eg. }
  assert (P : Permutation (map g ls) ls).
  { apply NoDup_Permutation_bis; auto. { now rewrite map_length. } intros y Hy. apply in_map_iff in Hy. destruct Hy as (x & <- & Hx). now apply E. }
  assert (Rf : respects f) by (intros c1 c2 Ec; apply Lf; auto).
  rewrite <- (so_perm _ _ n f P NDm Rf c). apply so_map; auto. { intros x Hx. now apply E. } intros c1 c2 Ec. apply Lf. intros x Hx. apply Ec. eapply Permutation_in; [apply Permutation_sym; exact P|exact Hx].
Qed.
Lemma prodL_reindex {X} `{Dec X} (g k : X -> X) (ls : list X) (f : X -> A) : (forall x, In x ls -> k (g x) = x /\ In (g x) ls) -> NoDup ls -> prodL ls (fun x => f (g x)) = prodL ls f.
Proof.
  intros E ND. rewrite <- (prodL_map g). apply prodL_perm. apply NoDup_Permutation_bis.
  - apply map_nodup; auto. intros x y Hx Hy Eg. rewrite <- (proj1 (E x Hx)), <- (proj1 (E y Hy)). now rewrite Eg.
  - now rewrite map_length.
  - intros y Hy. apply in_map_iff in Hy. destruct Hy as (x & <- & Hx). now apply E.
Qed.
End SumOver.

(** ** Lattices *)
Lemma refine_torus L : torus L -> torus (refine L).
Proof.
  intros [ND CL LR UD SQ]. assert (Hin : forall q, In q (sites (refine L)) <-> In (fst q) (sites L)).
  { intros [p b]. cbn. rewrite in_app_iff, !in_map_iff. split. { intros [(x & [= <- <-] & Hx)|(x & [= <- <-] & Hx)]; auto. } intros Hp. destruct b; [right|left]; exists p; auto. }
  split.
  - cbn. apply NoDup_app_intro.
    + apply map_nodup; auto. intros x y _ _ [= E]. auto. + apply map_nodup; auto. intros x y _ _ [= E]. auto.
    + intros q H1 H2. apply in_map_iff in H1, H2. destruct H1 as (x & <- & _), H2 as (y & E & _). discriminate.
  - intros q Hq. rewrite !Hin. apply Hin in Hq. destruct q as [p b]. cbn in *. destruct (CL p Hq) as (C1 & C2 & C3 & C4). destruct b; cbn; repeat split; auto; apply CL; auto.
  - intros q Hq. apply Hin in Hq. destruct q as [p b]. cbn in *. destruct (CL p Hq) as (C1 & C2 & C3 & C4). destruct b; cbn; split; auto.
    + rewrite (proj1 (UD _ C1)), (proj1 (LR p Hq)). auto.
    + rewrite (proj2 (LR _ C3)), (proj2 (UD p Hq)). auto.
  - intros q Hq. apply Hin in Hq. destruct q as [p b]. cbn in *. destruct (CL p Hq) as (C1 & C2 & C3 & C4). destruct b; cbn; split; auto.
    + now rewrite (proj1 (UD p Hq)). + now rewrite (proj1 (LR p Hq)). + now rewrite (proj2 (LR p Hq)). + now rewrite (proj2 (UD p Hq)).
  - intros q Hq. apply Hin in Hq. destruct q as [p b]. cbn in *. destruct (CL p Hq) as (C1 & C2 & C3 & C4). destruct b; cbn.
    + rewrite <- SQ by auto. now rewrite (proj1 (LR _ C4)). + now rewrite (proj2 (LR p Hq)).
Qed.
Lemma refined_torus n L : torus L -> torus (refined n L).
Proof. intros T. induction n; cbn [refined]; auto. now apply refine_torus. Qed.
Lemma refine_count L : List.length (sites (refine L)) = 2 * List.length (sites L).
Proof. cbn. rewrite app_length, !map_length. lia. Qed.
Lemma refined_count n L : List.length (sites (refined n L)) = 2 ^ n * List.length (sites L).
Proof. induction n; cbn [refined]. - cbn. lia. - rewrite refine_count, IHn. cbn [Nat.pow]. lia. Qed.

(** ** One step of TRG *)
Section Step.
Context {A : Type} {HA : SR A}.
Local Open Scope sr_scope.
Add Ring Aring2 : (@SR_theory A HA).
Variable L : lattice.
Hypothesis TL : torus L.
Variables (TA TB T' : nat -> nat -> nat -> nat -> A) (ul ur dl dr : nat -> nat -> nat -> A) (h v ka kb : nat).
Hypothesis EA : forall u l d r, (u < v)%nat -> (l < h)%nat -> (d < v)%nat -> (r < h)%nat -> TA u l d r = sumN ka (fun o => dr u l o * ul d r o).
Hypothesis EB : forall u l d r, (u < v)%nat -> (l < h)%nat -> (d < v)%nat -> (r < h)%nat -> TB u l d r = sumN kb (fun o => dl u r o * ur d l o).
Hypothesis ET : forall u l d r, (u < ka)%nat -> (l < kb)%nat -> (d < ka)%nat -> (r < kb)%nat ->
  T' u l d r = sumN v (fun x => sumN h (fun y => sumN v (fun z => sumN h (fun w => ul x y u * ur z y r * dl x w l * dr z w d)))).
Let S := sites L.
Let z0 : site L -> nat := fun _ => 0%nat.

Lemma ndS : NoDup S. Proof. apply TL. Qed.
Lemma re_up (f : site L -> A) : prodL S (fun p => f (up L p)) = prodL S f.
Proof. apply (prodL_reindex _ (down L)); [|apply ndS]. intros x Hx. split; [now apply (to_ud L TL)|now apply (to_closed L TL)]. Qed.
Lemma re_down (f : site L -> A) : prodL S (fun p => f (down L p)) = prodL S f.
Proof. apply (prodL_reindex _ (up L)); [|apply ndS]. intros x Hx. split; [now apply (to_ud L TL)|now apply (to_closed L TL)]. Qed.
Lemma re_left (f : site L -> A) : prodL S (fun p => f (left L p)) = prodL S f.
Proof. apply (prodL_reindex _ (right L)); [|apply ndS]. intros x Hx. split; [now apply (to_lr L TL)|now apply (to_closed L TL)]. Qed.
Lemma re_right (f : site L -> A) : prodL S (fun p => f (right L p)) = prodL S f.
Proof. apply (prodL_reindex _ (left L)); [|apply ndS]. intros x Hx. split; [now apply (to_lr L TL)|now apply (to_closed L TL)]. Qed.

(** both lattices reduce to this sum over the states of the four bonds inside the plaquettes *)
Definition middle : A :=
  sum_over S v (fun X => sum_over S h (fun Y => sum_over S v (fun Z => sum_over S h (fun W =>
    prodL S (fun p => TA (Z (up L p)) (W (up L p)) (X p) (Y p)) * prodL S (fun p => TB (X (right L p)) (Y p) (Z p) (W (right L p)))) z0) z0) z0) z0.

Lemma plaquettes (f : site L -> nat -> nat -> nat -> nat -> A) :
  prodL S (fun p => sumN v (fun x => sumN h (fun y => sumN v (fun z => sumN h (fun w => f p x y z w))))) =
  sum_over S v (fun X => sum_over S h (fun Y => sum_over S v (fun Z => sum_over S h (fun W => prodL S (fun p => f p (X p) (Y p) (Z p) (W p))) z0) z0) z0) z0.
Proof.
  rewrite (so_prod S v _ z0 ndS). apply so_ext. intros X. rewrite (so_prod S h _ z0 ndS). apply so_ext. intros Y. rewrite (so_prod S v _ z0 ndS). apply so_ext. intros Z.
  now rewrite (so_prod S h _ z0 ndS).
Qed.

Lemma coarse_middle : partition L kb ka (fun _ => T') = middle.
Proof.
  unfold partition, middle. fold S. fold z0.
  (* the tensors as sums *)
  transitivity (sum_over S kb (fun hh => sum_over S ka (fun vv =>
    sum_over S v (fun X => sum_over S h (fun Y => sum_over S v (fun Z => sum_over S h (fun W =>
      prodL S (fun p => ul (X p) (Y p) (vv (up L p)) * ur (Z p) (Y p) (hh p) * dl (X p) (W p) (hh (left L p)) * dr (Z p) (W p) (vv p))) z0) z0) z0) z0) z0) z0).
  { apply so_range. intros hh Hh. apply so_range. intros vv Hv.
    rewrite <- (plaquettes (fun p x y z w => ul x y (vv (up L p)) * ur z y (hh p) * dl x w (hh (left L p)) * dr z w (vv p))). apply prodL_ext. intros p Hp. destruct (to_closed L TL p Hp) as (C1 & C2 & C3 & C4). apply ET; auto. }
  (* the sums over the plaquettes outside *)
  transitivity (sum_over S v (fun X => sum_over S h (fun Y => sum_over S v (fun Z => sum_over S h (fun W => sum_over S kb (fun hh => sum_over S ka (fun vv =>
      prodL S (fun p => ul (X p) (Y p) (vv (up L p)) * ur (Z p) (Y p) (hh p) * dl (X p) (W p) (hh (left L p)) * dr (Z p) (W p) (vv p))) z0) z0) z0) z0) z0) z0).
  { assert (SW : forall n (F : (site L -> nat) -> (site L -> nat) -> (site L -> nat) -> A),
      sum_over S kb (fun hh => sum_over S ka (fun vv => sum_over S n (fun X => F X hh vv) z0) z0) z0 =
      sum_over S n (fun X => sum_over S kb (fun hh => sum_over S ka (fun vv => F X hh vv) z0) z0) z0).
    { intros n F. rewrite (so_swap S S n kb). apply so_ext. intros hh. apply so_swap. }
    rewrite SW. apply so_ext. intros X. rewrite SW. apply so_ext. intros Y. rewrite SW. apply so_ext. intros Z. apply SW. }
  apply so_range. intros X HX. apply so_range. intros Y HY. apply so_range. intros Z HZ. apply so_range. intros W HW.
  (* group the four factors by bond *)
  transitivity (sum_over S kb (fun hh => sum_over S ka (fun vv =>
     prodL S (fun p => dl (X (right L p)) (W (right L p)) (hh p) * ur (Z p) (Y p) (hh p)) *
     prodL S (fun p => dr (Z p) (W p) (vv p) * ul (X (down L p)) (Y (down L p)) (vv p))) z0) z0).
  { apply so_ext. intros hh. apply so_ext. intros vv. rewrite !prodL_mul.
    rewrite <- (re_down (fun p => ul (X p) (Y p) (vv (up L p)))), <- (re_right (fun p => dl (X p) (W p) (hh (left L p)))).
    rewrite (prodL_ext S (fun x => ul (X (down L x)) (Y (down L x)) (vv (up L (down L x)))) (fun p => ul (X (down L p)) (Y (down L p)) (vv p))).
    2:{ intros p Hp. now rewrite (proj1 (to_ud L TL p Hp)). }
    rewrite (prodL_ext S (fun x => dl (X (right L x)) (W (right L x)) (hh (left L (right L x)))) (fun p => dl (X (right L p)) (W (right L p)) (hh p))).
    2:{ intros p Hp. now rewrite (proj1 (to_lr L TL p Hp)). }
    ring. }
  transitivity (prodL S (fun p => sumN kb (fun o => dl (X (right L p)) (W (right L p)) o * ur (Z p) (Y p) o)) *
                prodL S (fun p => sumN ka (fun o => dr (Z p) (W p) o * ul (X (down L p)) (Y (down L p)) o))).
  { rewrite (so_prod S kb _ z0 ndS), (so_prod S ka _ z0 ndS), <- so_mul_r. apply so_ext. intros hh. now rewrite so_mul_l. }
  rewrite rmul_comm. f_equal.
  - rewrite <- (re_down (fun p => TA (Z (up L p)) (W (up L p)) (X p) (Y p))). apply prodL_ext. intros p Hp. destruct (to_closed L TL p Hp) as (C1 & C2 & C3 & C4).
    rewrite (proj1 (to_ud L TL p Hp)). symmetry. apply EA; auto.
  - apply prodL_ext. intros p Hp. destruct (to_closed L TL p Hp) as (C1 & C2 & C3 & C4). symmetry. apply EB; auto.
Qed.

Lemma local_prod (ls : list (site L)) (F : site L -> (site L -> nat) -> A) P : (forall p, In p ls -> local P (F p)) -> local P (fun c => prodL ls (fun p => F p c)).
Proof. intros E c c' Ec. apply prodL_ext. intros p Hp. now apply E. Qed.
Lemma local_sum {X Y} `{Dec X} `{Dec Y} (ls : list X) n (F : (X -> nat) -> (Y -> nat) -> A) P c0 : (forall c, local P (F c)) -> local P (fun c => sum_over ls n (fun d => F d c) c0).
Proof. intros E c c' Ec. apply so_ext. intros d. now apply E. Qed.

Lemma fine_middle : partition (refine L) h v (fun q => if snd q then TB else TA) = middle.
Proof.
  unfold partition, middle. cbn [refine sites site up left]. fold S.
  set (HB := site_dec (refine L)).
  set (body := fun (hh vv : site L * bool -> nat) =>
    prodL S (fun p => TA (vv (up L p, true)) (hh (left L (up L p), true)) (vv (p, false)) (hh (p, false))) *
    prodL S (fun p => TB (vv (right L p, false)) (hh (p, false)) (vv (p, true)) (hh (p, true)))).
  assert (Hin : forall p b, In p S -> In (p, b) (map (fun p => (p, false)) S ++ map (fun p => (p, true)) S)).
  { intros p b Hp. apply in_app_iff. destruct b; [right|left]; apply in_map_iff; exists p; auto. }
  assert (LV : forall hh, local (map (fun p => (p, false)) S ++ map (fun p => (p, true)) S) (body hh)).
  { intros hh c c' Ec. unfold body. f_equal; apply prodL_ext; intros p Hp; destruct (to_closed L TL p Hp) as (C1 & C2 & C3 & C4); rewrite !Ec; auto. }
  assert (LH : forall vv, local (map (fun p => (p, false)) S ++ map (fun p => (p, true)) S) (fun hh => body hh vv)).
  { intros vv c c' Ec. unfold body. f_equal; apply prodL_ext; intros p Hp; destruct (to_closed L TL p Hp) as (C1 & C2 & C3 & C4); rewrite !Ec; auto. apply Hin. apply (to_closed L TL _ C3). }
  transitivity (sum_over (map (fun p => (p, false)) S ++ map (fun p => (p, true)) S) h (fun hh => sum_over (map (fun p => (p, false)) S ++ map (fun p => (p, true)) S) v (body hh) (fun _ => 0%nat)) (fun _ => 0%nat)).
  { apply so_ext. intros hh. apply so_ext. intros vv. unfold body. now rewrite prodL_app, !prodL_map. }
  rewrite (so_pair HB S h _ _ z0 ndS).
  2:{ intros c c' Ec. apply so_ext. intros vv. now apply LH. }
  transitivity (sum_over S h (fun Y => sum_over S h (fun W => sum_over S v (fun X => sum_over S v (fun Z => body (fun q => if snd q then W (right L (fst q)) else Y (fst q)) (fun q => if snd q then Z (fst q) else X (fst q))) z0) z0) z0) z0).
  { apply so_ext. intros Y.
    rewrite (so_reindex (left L) (right L) S h _ z0 z0).
    2:{ intros x Hx. split; [now apply (to_lr L TL)|now apply (to_closed L TL)]. }
    2:{ apply ndS. }
    2:{ intros c c' Ec. apply so_ext. intros vv. apply LH. intros [p b] Hq. destruct b; cbn; auto. apply Ec. apply in_app_iff in Hq. rewrite !in_map_iff in Hq. destruct Hq as [(x & [=] & Hx)|(x & [= <-] & Hx)]. auto. }
    apply so_ext. intros W. apply so_pair; [apply ndS|apply LV]. }
  (* bring the sums into the same order *)
  transitivity (sum_over S h (fun Y => sum_over S v (fun X => sum_over S v (fun Z => sum_over S h (fun W => body (fun q => if snd q then W (right L (fst q)) else Y (fst q)) (fun q => if snd q then Z (fst q) else X (fst q))) z0) z0) z0) z0).
  { apply so_ext. intros Y. rewrite so_swap. apply so_ext. intros X. apply so_swap. }
  rewrite so_swap. apply so_ext. intros X. apply so_ext. intros Y. apply so_ext. intros Z. apply so_ext. intros W. unfold body. cbn [fst snd].
  f_equal. apply prodL_ext. intros p Hp. destruct (to_closed L TL p Hp) as (C1 & C2 & C3 & C4). now rewrite (proj2 (to_lr L TL _ C3)).
Qed.
Lemma trg_step : partition L kb ka (fun _ => T') = partition (refine L) h v (fun q => if snd q then TB else TA).
Proof. now rewrite coarse_middle, fine_middle. Qed.
End Step.
