(** Sequences of moments form a commutative semiring. *)
From Coq Require Import List Arith Bool Lia Ring.
From Verif Require Import Base Sums FuncsSpec TorusSpec TrgSpec MomentSpec TorusProofs TrgProofs.
Import ListNotations.
Local Open Scope nat_scope.

Section Mo.
Context {A : Type} {HA : SR A}.
Add Ring Aring : (@SR_theory A HA).
Local Open Scope sr_scope.

Notation seqn := (nat -> A).
Definition shift (f : seqn) : seqn := fun i => f (S i).
Fixpoint conv (f g : seqn) (i : nat) : A := match i with O => f O * g O | S i' => conv (shift f) g i' + conv f (shift g) i' end.
Definition one_s : seqn := fun i => match i with O => 1 | S _ => 0 end.
Definition const_s (c : A) : seqn := fun i => match i with O => c | S _ => 0 end.

Lemma conv_ext i : forall f f' g g', (forall j, (j <= i)%nat -> f j = f' j) -> (forall j, (j <= i)%nat -> g j = g' j) -> conv f g i = conv f' g' i.
Proof.
  induction i as [|i IH]; intros f f' g g' E1 E2; cbn.
  - rewrite E1, E2 by lia. reflexivity.
  - f_equal; apply IH; intros j J; unfold shift; [apply E1|apply E2|apply E1|apply E2]; lia.
Qed.
Lemma conv_comm i : forall f g, conv f g i = conv g f i.
Proof. induction i as [|i IH]; intros; cbn; [ring|]. rewrite (IH (shift f) g), (IH f (shift g)). ring. Qed.
Lemma conv_add_r i : forall f g g', conv f (fun j => g j + g' j) i = conv f g i + conv f g' i.
Proof.
  induction i as [|i IH]; intros; cbn; [ring|]. change (shift (fun j => g j + g' j)) with (fun j => shift g j + shift g' j).
  rewrite !IH. ring.
Qed.
Lemma conv_add_l i f f' g : conv (fun j => f j + f' j) g i = conv f g i + conv f' g i.
Proof. rewrite conv_comm, conv_add_r, (conv_comm i g f), (conv_comm i g f'). reflexivity. Qed.
Lemma conv_0_r i : forall f, conv f (fun _ => 0) i = 0.
Proof. induction i as [|i IH]; intros; cbn; [ring|]. change (shift (fun _ : nat => 0)) with (fun _ : nat => 0). rewrite !IH. ring. Qed.
Lemma conv_const_r i : forall f c, conv f (const_s c) i = c * f i.
Proof.
  induction i as [|i IH]; intros; cbn; [ring|]. rewrite IH. change (shift (const_s c)) with (fun _ : nat => 0). rewrite conv_0_r. unfold shift. ring.
Qed.
Lemma conv_assoc i : forall f g k, conv (conv f g) k i = conv f (conv g k) i.
Proof.
  induction i as [|i IH]; intros; cbn; [ring|].
  change (shift (conv f g)) with (fun j => conv (shift f) g j + conv f (shift g) j). change (shift (conv g k)) with (fun j => conv (shift g) k j + conv g (shift k) j).
  rewrite conv_add_l, conv_add_r, !IH. ring.
Qed.
Lemma conv_scale c i : forall f g, conv (fun j => pow c j * f j) (fun j => pow c j * g j) i = pow c i * conv f g i.
Proof.
  assert (L : forall j (f g : seqn) x, conv (fun n => x * f n) g j = x * conv f g j).
  { induction j as [|j IH]; intros; cbn; [ring|]. change (shift (fun n => x * f n)) with (fun n => x * shift f n). rewrite !IH. ring. }
  induction i as [|i IH]; intros; cbn; [ring|].
  rewrite (conv_ext i (shift (fun j => pow c j * f j)) (fun j => c * (pow c j * shift f j)) _ (fun j => pow c j * g j)); [|intros; unfold shift; cbn; ring|reflexivity].
  rewrite (conv_ext i (fun j => pow c j * f j) (fun j => pow c j * f j) (shift (fun j => pow c j * g j)) (fun j => c * (pow c j * shift g j))); [|reflexivity|intros; unfold shift; cbn; ring].
  rewrite L, IH, (conv_comm i (fun j => pow c j * f j)), L, IH, (conv_comm i (shift g)). ring.
Qed.

(** ** Binomial coefficients *)
Lemma natA_add n m : natA (n + m) = natA n + natA m :> A.
Proof. induction n; cbn; [ring|]. rewrite IHn. ring. Qed.
Lemma natA_mul n m : natA (n * m) = natA n * natA m :> A.
Proof. induction n; cbn; [ring|]. rewrite natA_add, IHn. ring. Qed.
Lemma natA_pow n k : natA (n ^ k) = pow (natA n) k :> A.
Proof. induction k; cbn [pow Nat.pow]; [cbn; ring|]. rewrite natA_mul, IHk. reflexivity. Qed.
Lemma binom_out n : forall k, (n < k)%nat -> binom n k = 0%nat.
Proof. induction n; intros [|k] K; cbn; try lia. rewrite !IHn by lia. reflexivity. Qed.
Lemma sumN_first n (f : seqn) : sumN (S n) f = f O + sumN n (fun i => f (S i)).
Proof. unfold sumN. cbn [seq sumL]. f_equal. rewrite <- seq_shift, sumL_map. reflexivity. Qed.
Lemma sumN_last n (f : seqn) : sumN (S n) f = sumN n f + f n.
Proof. unfold sumN. rewrite seq_S, sumL_app. cbn. ring. Qed.
Lemma sumN_eq n (f g : seqn) : (forall i, (i < n)%nat -> f i = g i) -> sumN n f = sumN n g.
Proof. intros E. apply sumL_ext. intros i I. apply in_seq in I. apply E. lia. Qed.
Lemma sumN_plus n (f g : seqn) : sumN n (fun i => f i + g i) = sumN n f + sumN n g.
Proof. apply sumL_add. Qed.
Lemma conv_binom i : forall f g, conv f g i = sumN (S i) (fun j => natA (binom i j) * (f j * g (i - j)%nat)).
Proof.
  induction i as [|i IH]; intros f g; [cbn; ring|].
  cbn [conv]. rewrite !IH.
  rewrite (sumN_first (S i) (fun j => natA (binom (S i) j) * _)).
  rewrite (sumN_eq (S i) (fun j => natA (binom (S i) (S j)) * (f (S j) * g (S i - S j)%nat)) (fun j => natA (binom i j) * (f (S j) * g (i - j)%nat) + natA (binom i (S j)) * (f (S j) * g (i - j)%nat))).
  2:{ intros j J. cbn [binom]. rewrite natA_add. replace (S i - S j)%nat with (i - j)%nat by lia. ring. }
  rewrite sumN_plus. unfold shift at 1.
  rewrite (sumN_last i (fun j => natA (binom i (S j)) * _)), (binom_out i (S i)) by lia.
  rewrite (sumN_first i (fun j => natA (binom i j) * (f j * shift g (i - j)%nat))).
  rewrite (sumN_eq i (fun j => natA (binom i (S j)) * (f (S j) * shift g (i - S j)%nat)) (fun j => natA (binom i (S j)) * (f (S j) * g (i - j)%nat))).
  2:{ intros j J. unfold shift. replace (S (i - S j)) with (i - j)%nat by lia. reflexivity. }
  unfold shift. rewrite !Nat.sub_0_r. cbn [natA binom]. destruct i; cbn [binom natA]; ring.
Qed.

(** ** Truncated sequences *)
Fixpoint mom (K : nat) : Type := match K with O => unit | S K' => (A * mom K')%type end.
Fixpoint mk (K : nat) (f : seqn) : mom K := match K with O => tt | S K' => (f O, mk K' (shift f)) end.
Fixpoint coef {K : nat} : mom K -> seqn :=
  match K with O => fun _ _ => 0 | S K' => fun x i => match i with O => fst x | S i' => coef (snd x) i' end end.
Lemma coef_mk K : forall f i, (i < K)%nat -> coef (mk K f) i = f i.
Proof. induction K; intros f [|i] I; try lia; cbn; [reflexivity|]. rewrite IHK by lia. reflexivity. Qed.
Lemma mk_ext K : forall f g, (forall i, (i < K)%nat -> f i = g i) -> mk K f = mk K g.
Proof. induction K; intros f g E; cbn; [reflexivity|]. f_equal; [apply E; lia|]. apply IHK. intros i I. apply E. lia. Qed.
Lemma mk_coef K : forall x : mom K, mk K (coef x) = x.
Proof. induction K; intros x; cbn; [destruct x; reflexivity|]. destruct x as [a x]. f_equal. apply IHK. Qed.
Lemma mom_ext K (x y : mom K) : (forall i, (i < K)%nat -> coef x i = coef y i) -> x = y.
Proof. intros E. rewrite <- (mk_coef K x), <- (mk_coef K y). apply mk_ext. exact E. Qed.

Definition m0 K : mom K := mk K (fun _ => 0).
Definition m1 K : mom K := mk K one_s.
Definition madd K (x y : mom K) : mom K := mk K (fun i => coef x i + coef y i).
Definition mmul K (x y : mom K) : mom K := mk K (conv (coef x) (coef y)).
Lemma coef_conv K (f : seqn) x i : (i < K)%nat -> conv (coef (mk K f)) x i = conv f x i.
Proof. intros I. apply conv_ext; [|reflexivity]. intros j J. apply coef_mk. lia. Qed.
Instance SR_mom K : SR (mom K).
Proof.
  refine (mkSR _ (m0 K) (m1 K) (madd K) (mmul K) _ _ _ _ _ _ _ _); intros; apply mom_ext; intros i I; unfold madd, mmul, m0, m1.
  - rewrite !coef_mk by exact I. ring.
  - rewrite !coef_mk by exact I. ring.
  - rewrite !coef_mk by exact I. ring.
  - rewrite coef_mk by exact I. rewrite (coef_conv K one_s (coef x)) by exact I. rewrite conv_comm. change one_s with (const_s 1). rewrite conv_const_r. ring.
  - rewrite !coef_mk by exact I. rewrite (coef_conv K (fun _ => 0) (coef x)) by exact I. rewrite conv_comm, conv_0_r. reflexivity.
  - rewrite !coef_mk by exact I. apply conv_comm.
  - rewrite !coef_mk by exact I. rewrite (coef_conv K _ (coef z)) by exact I.
    rewrite (conv_comm i (coef x) (coef (mk K _))), (coef_conv K _ (coef x)), (conv_comm i _ (coef x)) by exact I. symmetry. apply conv_assoc.
  - rewrite !coef_mk by exact I. rewrite (coef_conv K _ (coef z)) by exact I. apply conv_add_l.
Defined.
Lemma coef_0 K i : coef (r0 : mom K) i = 0.
Proof.
  destruct (Nat.lt_ge_cases i K) as [I|I]; [cbn; unfold m0; apply coef_mk; exact I|]. generalize (r0 : mom K). revert i I. induction K; intros i I x; [reflexivity|].
  destruct i; [lia|]. cbn. apply IHK. lia.
Qed.
Lemma coef_1 K i : (i < K)%nat -> coef (r1 : mom K) i = one_s i.
Proof. intros I. apply (coef_mk K one_s i I). Qed.
Lemma coef_add K (x y : mom K) i : (i < K)%nat -> coef (x + y) i = coef x i + coef y i.
Proof. intros I. cbn. unfold madd. rewrite coef_mk by exact I. reflexivity. Qed.
Lemma coef_mul K (x y : mom K) i : (i < K)%nat -> coef (x * y) i = conv (coef x) (coef y) i.
Proof. intros I. cbn. unfold mmul. rewrite coef_mk by exact I. reflexivity. Qed.
Lemma coef_sumL K {X} (l : list X) (f : X -> mom K) i : (i < K)%nat -> coef (sumL l f) i = sumL l (fun x => coef (f x) i).
Proof. intros I. induction l; cbn [sumL]; [apply coef_0|]. rewrite coef_add, IHl by exact I. reflexivity. Qed.
Lemma coef_sumN K n (f : nat -> mom K) i : (i < K)%nat -> coef (sumN n f) i = sumN n (fun x => coef (f x) i).
Proof. apply coef_sumL. Qed.
Lemma coef_sum_over K {X} `{Dec X} (ls : list X) n i : (i < K)%nat -> forall (f : (X -> nat) -> mom K) c, coef (sum_over ls n f c) i = sum_over ls n (fun s => coef (f s) i) c.
Proof. intros I. induction ls; intros f c; cbn [sum_over]; [reflexivity|]. rewrite coef_sumN by exact I. apply sumN_eq. intros j J. apply IHls. Qed.
(** a number *)
Definition cst K (c : A) : mom K := mk K (const_s c).
Lemma coef_cst_r K (x : mom K) c i : (i < K)%nat -> coef (x * cst K c) i = coef x i * c.
Proof. intros I. rewrite coef_mul by exact I. rewrite conv_comm, (coef_conv K (const_s c)), conv_comm, conv_const_r by auto. ring. Qed.
Lemma cst_mul K c d : cst K (c * d) = cst K c * cst K d.
Proof.
  apply mom_ext. intros i I. rewrite coef_cst_r by exact I. unfold cst. rewrite !coef_mk by exact I. destruct i; cbn; ring.
Qed.
Lemma cst_pow K c n : cst K (pow c n) = pow (cst K c) n.
Proof. induction n; cbn [pow]; [apply mk_ext; intros [|i] I; reflexivity|]. rewrite cst_mul, IHn. reflexivity. Qed.

(** ** Products and placements *)
Fixpoint prodS {X} (ls : list X) (F : X -> seqn) : seqn := match ls with [] => one_s | x :: ls' => conv (F x) (prodS ls' F) end.
Lemma prodS_ext {X} (ls : list X) : forall (F F' : X -> seqn) i, (forall x j, In x ls -> (j <= i)%nat -> F x j = F' x j) -> prodS ls F i = prodS ls F' i.
Proof.
  induction ls as [|x ls IH]; intros F F' i E; cbn; [reflexivity|]. apply conv_ext; intros j J; [apply E; [left; reflexivity|exact J]|].
  apply IH. intros y k Y Kk. apply E; [right; exact Y|lia].
Qed.
Lemma coef_prodL K {X} (ls : list X) (F : X -> mom K) : forall i, (i < K)%nat -> coef (prodL ls F) i = prodS ls (fun x => coef (F x)) i.
Proof.
  induction ls as [|x ls IH]; intros i I; cbn [prodL prodS]; [apply coef_1; exact I|]. rewrite coef_mul by exact I. apply conv_ext; [reflexivity|].
  intros j J. apply IH. lia.
Qed.
Lemma conv_sumL {X} (l : list X) i f (g : X -> seqn) : conv f (fun j => sumL l (fun x => g x j)) i = sumL l (fun x => conv f (g x) i).
Proof.
  revert f g. induction l as [|x l IH]; intros f g; cbn [sumL]; [apply conv_0_r|]. rewrite conv_add_r, IH. reflexivity.
Qed.
Lemma prodS_shift {X} `{Dec X} (ls : list X) (F : X -> seqn) i : NoDup ls ->
  prodS ls F (S i) = sumL ls (fun y => prodS ls (fun x => if dec x y then shift (F x) else F x) i).
Proof.
  intros ND. revert i. induction ND as [|x ls NI ND IH]; intros i; [reflexivity|].
  cbn [prodS conv sumL].
  rewrite (conv_ext i (F x) (F x) (shift (prodS ls F)) (fun j => sumL ls (fun y => prodS ls (fun z => if dec z y then shift (F z) else F z) j))); [|reflexivity|intros j J; apply IH].
  rewrite conv_sumL. f_equal.
  - apply conv_ext; intros j J; [destruct (dec x x); [reflexivity|contradiction]|]. apply prodS_ext. intros y k Y Kk. destruct (dec y x); [subst; contradiction|reflexivity].
  - apply sumL_ext. intros y Y. apply conv_ext; intros j J; [|reflexivity]. destruct (dec x y); [subst; contradiction|reflexivity].
Qed.
Lemma words_S {X} n (l : list X) (f : list X -> A) : sumL (words (S n) l) f = sumL l (fun x => sumL (words n l) (fun ps => f (x :: ps))).
Proof. cbn [words]. rewrite sumL_flat_map. apply sumL_ext. intros x _. apply sumL_map. Qed.
Lemma prodS_words {X} `{Dec X} (ls : list X) : NoDup ls -> forall i (F : X -> seqn), prodS ls F i = sumL (words i ls) (fun ps => prodL ls (fun x => F x (count x ps))).
Proof.
  intros ND. induction i as [|i IH]; intros F.
  - cbn [words sumL]. assert (E : prodS ls F O = prodL ls (fun x => F x (count x []))) by (clear; induction ls as [|x ls IH]; cbn [prodS prodL conv]; [reflexivity|]; rewrite IH; reflexivity). rewrite E. ring.
  - rewrite prodS_shift by exact ND. rewrite words_S. apply sumL_ext. intros y _. rewrite IH. apply sumL_ext. intros ps _. apply prodL_ext. intros x _.
    cbn [count]. destruct (dec x y); reflexivity.
Qed.
Lemma words_pow {X} `{Dec X} (ls : list X) (o : X -> A) i : NoDup ls -> sumL (words i ls) (fun ps => prodL ls (fun x => pow (o x) (count x ps))) = pow (sumL ls o) i.
Proof.
  intros ND. rewrite <- (prodS_words ls ND i (fun x j => pow (o x) j)). clear ND. revert o. 
  assert (E : forall i a b, conv (fun j => pow a j) (fun j => pow b j) i = pow (a + b) i).
  { assert (L : forall j (f g : seqn) x, conv (fun n => x * f n) g j = x * conv f g j).
    { induction j as [|j IH]; intros; cbn; [ring|]. change (shift (fun n => x * f n)) with (fun n => x * shift f n). rewrite !IH. ring. }
    clear i. induction i as [|i IH]; intros; cbn [conv pow]; [ring|].
    change (shift (fun j => pow a j)) with (fun j => a * pow a j). change (shift (fun j => pow b j)) with (fun j => b * pow b j).
    rewrite L, IH, (conv_comm i _ (fun j => b * pow b j)), L, (conv_comm i), IH. ring. }
  revert i. induction ls as [|x ls IH]; intros i o; cbn [prodS sumL].
  - destruct i; cbn; [reflexivity|ring].
  - rewrite <- E. apply conv_ext; [reflexivity|]. intros j J. apply IH.
Qed.

(** ** The partition function of truncated sequences *)
Lemma so_sumL {X Y} `{Dec X} (ls : list X) n (W : list Y) (f : Y -> (X -> nat) -> A) c : sum_over ls n (fun c => sumL W (fun i => f i c)) c = sumL W (fun i => sum_over ls n (f i) c).
Proof.
  revert c. induction ls as [|x ls IH]; intros c; cbn [sum_over]; auto. rewrite (sumN_eq n _ (fun i => sumL W (fun w => sum_over ls n (f w) (fun y => if dec y x then i else c y)))) by (intros; apply IH).
  unfold sumN. rewrite sumL_swap. reflexivity.
Qed.
Theorem partition_coef (L : lattice) K H V (T : site L -> nat -> nat -> nat -> nat -> mom K) i : NoDup (sites L) -> (i < K)%nat ->
  coef (partition L H V T) i = sumL (words i (sites L)) (fun ps => partition L H V (fun x u l d r => coef (T x u l d r) (count x ps))).
Proof.
  intros ND I. unfold partition at 1. rewrite coef_sum_over by exact I.
  transitivity (sum_over (sites L) H (fun h => sum_over (sites L) V (fun v => sumL (words i (sites L)) (fun ps =>
     prodL (sites L) (fun x => coef (T x (v (up L x)) (h (left L x)) (v x) (h x)) (count x ps)))) (fun _ => O)) (fun _ => O)).
  - apply so_ext. intros h. rewrite coef_sum_over by exact I. apply so_ext. intros v. rewrite coef_prodL by exact I.
    apply (prodS_words (sites L) ND i (fun x => coef (T x (v (up L x)) (h (left L x)) (v x) (h x)))).
  - generalize (words i (sites L)) as W. intros W. rewrite (so_ext _ _ _ (fun h => sumL W (fun ps => sum_over (sites L) V (fun v => prodL (sites L) (fun x => coef (T x (v (up L x)) (h (left L x)) (v x) (h x)) (count x ps))) (fun _ => O)))).
    2:{ intros h. apply so_sumL. }
    rewrite so_sumL. reflexivity.
Qed.
Theorem placements_moment (L : lattice) H V (I : nat -> nat -> nat -> nat -> nat -> A) T o i : torus L ->
  (forall j u l d r, (u < V)%nat -> (l < H)%nat -> (d < V)%nat -> (r < H)%nat -> I j u l d r = T u l d r * pow (o u l d r) j) -> placements L H V I i = moment L H V T o i.
Proof.
  intros TL E. unfold placements.
  rewrite (sumL_ext _ _ (fun ps => partition L H V (fun x u l d r => T u l d r * pow (o u l d r) (count x ps)))).
  2:{ intros ps _. apply partition_range; [exact TL|]. intros; apply E; assumption. }
  unfold partition, moment. rewrite <- so_sumL. apply so_ext. intros h. rewrite <- so_sumL. apply so_ext. intros v.
  rewrite <- words_pow by apply TL. rewrite <- sumL_mul_l. apply sumL_ext. intros ps _. rewrite <- prodL_mul. reflexivity.
Qed.
(** multiplying the moments by the powers of a number *)
Definition dilate K c (x : mom K) : mom K := mk K (fun j => pow c j * coef x j).
Lemma dilate_0 K c : dilate K c 0 = 0.
Proof. apply mom_ext. intros i I. unfold dilate. rewrite coef_mk by exact I. rewrite !coef_0. ring. Qed.
Lemma dilate_1 K c : dilate K c 1 = 1.
Proof. apply mom_ext. intros i I. unfold dilate. rewrite coef_mk, !coef_1 by exact I. destruct i; cbn; ring. Qed.
Lemma dilate_add K c x y : dilate K c (x + y) = dilate K c x + dilate K c y.
Proof. apply mom_ext. intros i I. unfold dilate. rewrite coef_add, !coef_mk, coef_add by exact I. ring. Qed.
Lemma dilate_mul K c x y : dilate K c (x * y) = dilate K c x * dilate K c y.
Proof.
  apply mom_ext. intros i I. rewrite coef_mul by exact I. unfold dilate at 1. rewrite coef_mk, coef_mul by exact I. unfold dilate.
  rewrite <- conv_scale. apply conv_ext; intros j J; rewrite coef_mk by lia; reflexivity.
Qed.
Lemma dilate_sumL K c {X} (l : list X) f : dilate K c (sumL l f) = sumL l (fun x => dilate K c (f x)).
Proof. induction l; cbn [sumL]; [apply dilate_0|]. rewrite dilate_add, IHl. reflexivity. Qed.
Lemma dilate_prodL K c {X} (l : list X) f : dilate K c (prodL l f) = prodL l (fun x => dilate K c (f x)).
Proof. induction l; cbn [prodL]; [apply dilate_1|]. rewrite dilate_mul, IHl. reflexivity. Qed.
Lemma dilate_sum_over K c {X} `{Dec X} (ls : list X) n : forall (f : (X -> nat) -> mom K) s, dilate K c (sum_over ls n f s) = sum_over ls n (fun s => dilate K c (f s)) s.
Proof. induction ls; intros f s; cbn [sum_over]; [reflexivity|]. unfold sumN. rewrite dilate_sumL. apply sumL_ext. intros j _. apply IHls. Qed.
Lemma dilate_partition K c (L : lattice) H V (T : site L -> nat -> nat -> nat -> nat -> mom K) :
  dilate K c (partition L H V T) = partition L H V (fun x u l d r => dilate K c (T x u l d r)).
Proof.
  unfold partition. rewrite dilate_sum_over. apply so_ext. intros h. rewrite dilate_sum_over. apply so_ext. intros v. apply dilate_prodL.
Qed.
End Mo.
