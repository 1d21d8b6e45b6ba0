(** Sums over all functions on a list. *)
From Coq Require Import List Arith Bool Lia Permutation.
From Verif Require Import Base Sums OpenSpec TorusProofs.
Import ListNotations.
Local Open Scope nat_scope.

Lemma nodup_join {X} (l l' : list X) : NoDup l -> NoDup l' -> (forall x, In x l -> In x l' -> False) -> NoDup (l ++ l').
Proof.
  induction l as [|x l IH]; intros N1 N2 D; cbn; [exact N2|]. inversion N1; subst. constructor.
  - rewrite in_app_iff. intros [C|C]; [contradiction|]. apply (D x); [left; reflexivity|exact C].
  - apply IH; auto. intros y Hy. apply D. right. exact Hy.
Qed.
Lemma perm_bis {X} (l l' : list X) : NoDup l -> List.length l' = List.length l -> (forall x, In x l -> In x l') -> Permutation l l'.
Proof. intros N E I. apply NoDup_Permutation_bis; [exact N|rewrite E; apply le_n|exact I]. Qed.

Section SumAll.
Context {A : Type} {HA : SR A}.
Add Ring SAring : (@SR_theory A HA).
Local Open Scope sr_scope.

Section One.
Context {X : Type} {DX : Dec X}.
Variable dim : X -> nat.
Notation asg := (X -> nat).
(** [f] looks at the values only *)
Definition exf (f : asg -> A) : Prop := forall c c', (forall x, c x = c' x) -> f c = f c'.
(** [f] does not look at the elements of [ls] *)
Definition off (ls : list X) (f : asg -> A) : Prop := forall c c', (forall y, ~ In y ls -> c y = c' y) -> f c = f c'.
Lemma off_exf ls f : off ls f -> exf f. Proof. intros O c c' E. apply O. auto. Qed.
Lemma sa_app l1 l2 f c : sum_all dim (l1 ++ l2) f c = sum_all dim l1 (fun c' => sum_all dim l2 f c') c.
Proof. revert c. induction l1 as [|x l1 IH]; intros c; cbn; [reflexivity|]. apply sumN_ext. intros i Hi. apply IH. Qed.
Lemma sa_range ls f g : forall c, (forall c', (forall x, In x ls -> (c' x < dim x)%nat) -> (forall y, ~ In y ls -> c' y = c y) -> f c' = g c') -> sum_all dim ls f c = sum_all dim ls g c.
Proof.
  induction ls as [|x ls IH]; intros c E; cbn.
  - apply E; [intros y []|reflexivity].
  - apply sumN_ext. intros i Hi. apply IH. intros c' H1 H2. apply E.
    + intros y [<-|Hy]; [|auto]. destruct (in_dec (fun a b => dec a b) x ls) as [Hx|Nx]; [auto|]. rewrite H2 by exact Nx. destruct (dec x x); [exact Hi|congruence].
    + intros y Ny. rewrite H2 by (intros C; apply Ny; right; exact C). destruct (dec y x) as [->|]; [exfalso; apply Ny; left; reflexivity|reflexivity].
Qed.
Lemma sa_ext ls f g c : (forall c', f c' = g c') -> sum_all dim ls f c = sum_all dim ls g c.
Proof. intros E. apply sa_range. auto. Qed.
Lemma sa_exf ls f : exf f -> exf (sum_all dim ls f).
Proof.
  intros F. induction ls as [|x ls IH]; intros c c' E; cbn; [now apply F|]. apply sumN_ext. intros i _. apply IH. intros y. destruct (dec y x); auto.
Qed.
Lemma sa_off ls f : exf f -> off ls (sum_all dim ls f).
Proof.
  intros F. induction ls as [|x ls IH]; intros c c' E; cbn; [apply F; intros y; apply E; intros []|]. apply sumN_ext. intros i _. apply IH. intros y Hy. destruct (dec y x) as [->|N]; [reflexivity|]. apply E. intros [C|C]; congruence || contradiction.
Qed.
Lemma sa_off' ls l2 f : off l2 f -> off l2 (sum_all dim ls f).
Proof.
  intros F. induction ls as [|x ls IH]; intros c c' E; cbn; [apply F; exact E|]. apply sumN_ext. intros i _. apply IH. intros y Hy. destruct (dec y x) as [->|N]; [reflexivity|]. apply E. exact Hy.
Qed.
Lemma sa_factor ls f g : off ls g -> forall c, sum_all dim ls (fun c => g c * f c) c = g c * sum_all dim ls f c.
Proof.
  induction ls as [|x ls IH]; intros O c; cbn; [reflexivity|].
  rewrite <- sumN_mul_l. apply sumN_ext. intros i _. rewrite IH.
  - f_equal. apply O. intros y Hy. destruct (dec y x) as [->|]; [exfalso; apply Hy; left; reflexivity|reflexivity].
  - intros c1 c2 E. apply O. intros y Hy. apply E. intros C. apply Hy. right. exact C.
Qed.
(** two independent sums *)
Lemma sa_two l1 l2 f g c : exf f -> exf g -> off l2 f -> off l1 g -> sum_all dim (l1 ++ l2) (fun c => f c * g c) c = sum_all dim l1 f c * sum_all dim l2 g c.
Proof.
  intros Ef Eg O1 O2. rewrite sa_app. rewrite (sa_ext l1 _ (fun c => sum_all dim l2 g c * f c)).
  - rewrite sa_factor; [ring|]. apply sa_off'. exact O2.
  - intros c'. rewrite (sa_factor l2 g f O1). ring.
Qed.
Lemma sa_swap x y ls f c : x <> y -> exf f -> sum_all dim (x :: y :: ls) f c = sum_all dim (y :: x :: ls) f c.
Proof.
  intros N F. cbn. rewrite sumN_swap. apply sumN_ext. intros i _. apply sumN_ext. intros j _. apply sa_exf; [exact F|]. intros z. destruct (dec z y), (dec z x); congruence || reflexivity.
Qed.
Lemma sa_perm l l' f : Permutation l l' -> NoDup l -> exf f -> forall c, sum_all dim l f c = sum_all dim l' f c.
Proof.
  induction 1 as [|x l l' P IH|x y l|l l' l'' P1 IH1 P2 IH2]; intros ND F c.
  - reflexivity.
  - cbn. apply sumN_ext. intros i _. apply IH; [now inversion ND|exact F].
  - apply sa_swap; [|exact F]. inversion ND as [|? ? N _]; subst. intros ->. apply N. left. reflexivity.
  - rewrite IH1 by assumption. apply IH2; [|exact F]. eapply Permutation_NoDup; eassumption.
Qed.
Lemma sa_mul_l ls k f c : sum_all dim ls (fun c => k * f c) c = k * sum_all dim ls f c.
Proof. apply (sa_factor ls f (fun _ => k)). intros ? ? _. reflexivity. Qed.
Lemma sa_sumN ls n f c : sum_all dim ls (fun c => sumN n (fun i => f i c)) c = sumN n (fun i => sum_all dim ls (f i) c).
Proof. revert c. induction ls as [|x ls IH]; intros c; cbn; [reflexivity|]. rewrite sumN_swap. apply sumN_ext. intros i _. apply IH. Qed.
End One.
(** the same sum under other names *)
Lemma sa_embed {X Y} {DX : Dec X} {DY : Dec Y} (dim : Y -> nat) (e : X -> Y) (G : (Y -> nat) -> A) (F : (X -> nat) -> A) : forall ls, NoDup ls -> (forall x y, In x ls -> In y ls -> e x = e y -> x = y) ->
  forall c s0, (forall c' s, (forall x, In x ls -> c' (e x) = s x /\ (s x < dim (e x))%nat) -> (forall y, ~ In y (map e ls) -> c' y = c y) -> (forall y, ~ In y ls -> s y = s0 y) -> G c' = F s) ->
  sum_all dim (map e ls) G c = sum_all (fun x => dim (e x)) ls F s0.
Proof.
  induction ls as [|x ls IH]; intros ND I c s0 E; cbn [map sum_all].
  - apply E; auto. intros x [].
  - inversion ND as [|? ? Nx ND']; subst. apply sumN_ext. intros i Hi. apply IH; [exact ND'|intros; apply I; auto; right; assumption|]. intros c' s P1 P2 P3.
    assert (Nex : ~ In (e x) (map e ls)) by (rewrite in_map_iff; intros (y & Ey & Hy); apply I in Ey; [subst; contradiction|right; exact Hy|left; reflexivity]).
    apply E.
    + intros y [<-|Hy]; [|apply P1; exact Hy]. rewrite P2 by exact Nex. rewrite P3 by exact Nx. destruct (dec x x); [|congruence]. destruct (dec (e x) (e x)); [auto|congruence].
    + intros y Ny. rewrite P2 by (intros C; apply Ny; right; exact C). destruct (dec y (e x)) as [->|]; [exfalso; apply Ny; left; reflexivity|reflexivity].
    + intros y Ny. rewrite P3 by (intros C; apply Ny; right; exact C). destruct (dec y x) as [->|]; [exfalso; apply Ny; left; reflexivity|reflexivity].
Qed.
(** values given to the elements e 0, ..., e (n - 1) *)
Definition over {Y} {DY : Dec Y} (e : nat -> Y) (n : nat) (s : nat -> nat) (c : Y -> nat) (y : Y) : nat :=
  match find (fun i => if dec (e i) y then true else false) (seq 0 n) with Some i => s i | None => c y end.
Lemma over_in {Y} {DY : Dec Y} (e : nat -> Y) n s c i : (forall x y, (x < n)%nat -> (y < n)%nat -> e x = e y -> x = y) -> (i < n)%nat -> over e n s c (e i) = s i.
Proof.
  intros I Hi. unfold over. destruct (find _ _) as [k|] eqn:E.
  - apply find_some in E. destruct E as (Hk & E). apply in_seq in Hk. destruct (dec (e k) (e i)) as [Ek|]; [|discriminate]. f_equal. apply I; auto. lia.
  - exfalso. apply (find_none _ _ E i) in Hi as Q || (pose proof (find_none _ _ E i) as Q; rewrite in_seq in Q; specialize (Q ltac:(lia))). destruct (dec (e i) (e i)); [discriminate|congruence].
Qed.
Lemma over_at {Y} {DY : Dec Y} (e : nat -> Y) n s c i y : e i = y -> (forall x y, (x < n)%nat -> (y < n)%nat -> e x = e y -> x = y) -> (i < n)%nat -> over e n s c y = s i.
Proof. intros <-. apply over_in. Qed.
Lemma over_out {Y} {DY : Dec Y} (e : nat -> Y) n s c y : (forall x, (x < n)%nat -> e x <> y) -> over e n s c y = c y.
Proof.
  intros N. unfold over. destruct (find _ _) as [k|] eqn:E; [|reflexivity]. apply find_some in E. destruct E as (Hk & E). apply in_seq in Hk. destruct (dec (e k) y) as [Ek|]; [|discriminate]. exfalso. apply (N k); [lia|exact Ek].
Qed.
Lemma sa_peel {Y} {DY : Dec Y} (dim : Y -> nat) (e : nat -> Y) n rest (G : (Y -> nat) -> A) c : (forall x y, (x < n)%nat -> (y < n)%nat -> e x = e y -> x = y) -> exf G ->
  sum_all dim (map e (seq 0 n) ++ rest) G c = sum_all (fun i => dim (e i)) (seq 0 n) (fun s => sum_all dim rest G (over e n s c)) (fun _ => O).
Proof.
  intros I EG. rewrite sa_app. apply sa_embed; [apply seq_NoDup|intros x y Hx Hy; apply in_seq in Hx, Hy; apply I; lia|]. intros c' s P1 P2 _. apply sa_exf; [exact EG|]. intros b.
  destruct (in_dec (fun a b => dec a b) b (map e (seq 0 n))) as [Hb|Nb].
  - apply in_map_iff in Hb. destruct Hb as (i & <- & Hi). rewrite (proj1 (P1 i Hi)). apply in_seq in Hi. symmetry. apply over_in; [exact I|lia].
  - rewrite P2 by exact Nb. symmetry. apply over_out. intros x Hx E. apply Nb. apply in_map_iff. exists x. rewrite in_seq. split; [exact E|lia].
Qed.
(** independent sums *)
Lemma sa_parts {Y} {DY : Dec Y} (dim : Y -> nat) (ps : list (list Y * ((Y -> nat) -> A))) c : Forall (fun p => exf (snd p)) ps ->
  ForallOrdPairs (fun p q => off (fst q) (snd p) /\ off (fst p) (snd q)) ps ->
  sum_all dim (flat_map fst ps) (fun c => prodL ps (fun p => snd p c)) c = prodL ps (fun p => sum_all dim (fst p) (snd p) c).
Proof.
  revert c. induction ps as [|p ps IH]; intros c FE FO; [reflexivity|]. inversion FE as [|? ? E1 E2]; subst. inversion FO as [|? ? O1 O2]; subst. cbn [flat_map prodL]. rewrite sa_two.
  - rewrite IH by assumption. reflexivity.
  - exact E1.
  - intros a b E. apply prodL_ext. intros q Hq. rewrite Forall_forall in E2. now apply E2.
  - intros a b E. rewrite Forall_forall in O1. clear IH FE FO E2 O2. revert a b E. induction ps as [|q ps IH]; cbn [flat_map]; intros a b E; [apply E1; intros y; apply E; intros []|].
    (* change the values in two rounds *)
    transitivity (snd p (fun y => if in_dec (fun a b => dec a b) y (fst q) then b y else a y)).
    + apply (proj1 (O1 q (or_introl eq_refl))). intros y Hy. destruct (in_dec _ y (fst q)); [contradiction|reflexivity].
    + apply IH; [intros x Hx; apply O1; right; exact Hx|]. intros y Hy. destruct (in_dec _ y (fst q)); [reflexivity|]. apply E. rewrite in_app_iff. tauto.
  - intros a b E. apply prodL_ext. intros q Hq. rewrite Forall_forall in O1. apply (proj2 (O1 q Hq)). exact E.
Qed.
Lemma sa_dim {X} {DX : Dec X} (dim dim' : X -> nat) ls (f : (X -> nat) -> A) : (forall x, In x ls -> dim x = dim' x) -> forall c, sum_all dim ls f c = sum_all dim' ls f c.
Proof. induction ls as [|x ls IH]; intros E c; cbn; [reflexivity|]. rewrite (E x) by (left; reflexivity). apply sumN_ext. intros i _. apply IH. intros y Hy. apply E. right. exact Hy. Qed.
End SumAll.
