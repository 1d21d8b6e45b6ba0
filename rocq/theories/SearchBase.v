(** Proofs about the groups of vertices behind the tables of the searches. *)
From Coq Require Import List Arith Bool Lia ZArith Permutation.
From Verif Require Import Base FuncsModel FuncsProofs SearchModel BitProofs SearchSpec.
Import ListNotations.
Local Open Scope nat_scope.

(** ** the vertices of a bit set *)
Definition members (n : nat) (x : Z) : list nat := filter (fun i => Z.testbit x (Z.of_nat i)) (seq 0 n).
Definition setok (n : nat) (x : Z) : Prop := (0 < x < 2 ^ Z.of_nat n)%Z.

Lemma members_In n x i : In i (members n x) <-> i < n /\ Z.testbit x (Z.of_nat i) = true.
Proof. unfold members. rewrite filter_In, in_seq. split; intros (H1 & H2); split; auto; lia. Qed.
Lemma members_NoDup n x : NoDup (members n x).
Proof. apply NoDup_filter, seq_NoDup. Qed.
Lemma members_incl n x : incl (members n x) (seq 0 n).
Proof. intros i Hi. apply filter_In in Hi. tauto. Qed.
Lemma high_bits n x m : (0 <= x < 2 ^ Z.of_nat n)%Z -> (Z.of_nat n <= m)%Z -> Z.testbit x m = false.
Proof.
  intros Hx Hm. destruct (Z.eq_dec x 0) as [->|N0]; [apply Z.bits_0|]. apply Z.bits_above_log2; [lia|].
  assert (Z.log2 x < Z.of_nat n)%Z; [|lia]. apply Z.log2_lt_pow2; lia.
Qed.
Lemma members_inj n x y : (0 <= x < 2 ^ Z.of_nat n)%Z -> (0 <= y < 2 ^ Z.of_nat n)%Z -> 
  (forall i, In i (members n x) <-> In i (members n y)) -> x = y.
Proof.
  intros Hx Hy H. apply bits_ext. intros m Hm. destruct (Z_lt_le_dec m (Z.of_nat n)) as [L|L].
  - specialize (H (Z.to_nat m)). rewrite !members_In, Z2Nat.id in H by auto. 
    destruct (Z.testbit x m), (Z.testbit y m); auto; [symmetry|]; apply H; split; auto; lia.
  - rewrite (high_bits n x m), (high_bits n y m); auto.
Qed.
Lemma members_nonempty n x : setok n x -> members n x <> [].
Proof.
  intros (H1 & H2) E. assert (x = 0)%Z; [|lia]. apply (members_inj n); try lia. intros i. rewrite E.
  split; [intros []|]. intros Hi. apply members_In in Hi. rewrite Z.bits_0 in Hi. destruct Hi; discriminate.
Qed.
Lemma members_single n i : i < n -> members n (2 ^ Z.of_nat i) = [i].
Proof.
  intros Hi. apply Permutation_length_1_inv. apply NoDup_Permutation; [repeat constructor; intros []|apply members_NoDup|].
  intros j. rewrite members_In. simpl. destruct (Nat.eq_dec j i) as [->|N].
  - rewrite Z.pow2_bits_true by lia. tauto.
  - rewrite Z.pow2_bits_false by lia. split; [intros [->|[]]; lia|]. intros (_ & K). discriminate.
Qed.
Lemma single_setok n i : i < n -> setok n (2 ^ Z.of_nat i).
Proof. intros Hi. split; [apply Z.pow_pos_nonneg; lia|]. apply Z.pow_lt_mono_r; lia. Qed.
Lemma single_inj n x i : setok n x -> members n x = [i] -> x = (2 ^ Z.of_nat i)%Z.
Proof.
  intros Hx E. assert (Hi : In i (members n x)) by (rewrite E; simpl; auto). apply members_In in Hi. destruct Hi as (Hi & _).
  apply (members_inj n); [unfold setok in Hx; lia|pose proof (single_setok n i Hi) as K; unfold setok in K; lia|]. intros j. now rewrite E, members_single.
Qed.
Lemma members_full n : members n (2 ^ Z.of_nat n - 1) = seq 0 n.
Proof.
  unfold members. assert (forall l, (forall i, In i l -> i < n) -> filter (fun i => Z.testbit (2 ^ Z.of_nat n - 1) (Z.of_nat i)) l = l) as G.
  { induction l as [|i l IH]; intros H; auto. simpl. rewrite IH by (intros; apply H; simpl; auto).
    replace (2 ^ Z.of_nat n - 1)%Z with (Z.ones (Z.of_nat n)) by (rewrite Z.ones_equiv; lia).
    rewrite Z.ones_spec_low; auto. specialize (H i ltac:(simpl; auto)). lia. }
  apply G. intros i Hi. apply in_seq in Hi. lia.
Qed.
Lemma full_setok n : 0 < n -> setok n (2 ^ Z.of_nat n - 1).
Proof.
  intros Hn. assert (2 ^ 1 <= 2 ^ Z.of_nat n)%Z by (apply Z.pow_le_mono_r; lia). split; [|lia]. change (2 ^ 1)%Z with 2%Z in H. lia.
Qed.
Lemma members_union n a b : Z.land a b = 0%Z -> Permutation (members n (Z.lor a b)) (members n a ++ members n b).
Proof.
  intros D. apply NoDup_Permutation; [apply members_NoDup| |].
  - apply NoDup_app; try apply members_NoDup. intros i Ha Hb. apply members_In in Ha. apply members_In in Hb.
    assert (Z.testbit (Z.land a b) (Z.of_nat i) = true) as K by (rewrite Z.land_spec; destruct Ha as (_ & ->); apply Hb).
    rewrite D, Z.bits_0 in K. discriminate.
  - intros i. rewrite in_app_iff, !members_In, Z.lor_spec, orb_true_iff. tauto.
Qed.
Lemma lor_setok n a b : setok n a -> setok n b -> setok n (Z.lor a b).
Proof.
  intros (Ha & Ha') (Hb & Hb'). assert (Z.lor a b <> 0)%Z by (intros E; apply Z.lor_eq_0_iff in E; lia).
  assert (0 <= Z.lor a b)%Z by (apply Z.lor_nonneg; lia). split; [lia|].
  apply Z.log2_lt_pow2; [lia|]. rewrite Z.log2_lor by lia. apply Z.max_lub_lt; apply Z.log2_lt_pow2; lia.
Qed.
Lemma land_members n a b : (forall i, In i (members n a) -> ~ In i (members n b)) -> setok n a -> setok n b -> Z.land a b = 0%Z.
Proof.
  intros H (Ha & Ha') (Hb & Hb'). apply bits_ext. intros m Hm. rewrite Z.bits_0, Z.land_spec. 
  destruct (Z_lt_le_dec m (Z.of_nat n)) as [L|L]; [|rewrite (high_bits n a m); auto; lia].
  specialize (H (Z.to_nat m)). rewrite !members_In, Z2Nat.id in H by auto. assert (Z.to_nat m < n) by lia.
  destruct (Z.testbit a m), (Z.testbit b m); auto. destruct H; auto.
Qed.

(** the bit set of a list *)
Definition mask (G : list nat) : Z := fold_right (fun i x => Z.lor (2 ^ Z.of_nat i) x) 0%Z G.
Lemma mask_nonneg G : (0 <= mask G)%Z.
Proof. induction G as [|i G IH]; simpl; [lia|]. apply Z.lor_nonneg. split; auto. apply Z.pow_nonneg. lia. Qed.
Lemma mask_bits G i : Z.testbit (mask G) (Z.of_nat i) = true <-> In i G.
Proof.
  induction G as [|j G IH]; simpl; [rewrite Z.bits_0; split; [discriminate|tauto]|].
  rewrite Z.lor_spec, orb_true_iff, IH. destruct (Nat.eq_dec j i) as [->|N].
  - rewrite Z.pow2_bits_true by lia. tauto.
  - rewrite Z.pow2_bits_false by lia. split; [intros [|]; [discriminate|auto]|]. intros [|]; [contradiction|auto].
Qed.
Lemma mask_setok n G : incl G (seq 0 n) -> G <> [] -> setok n (mask G).
Proof.
  induction G as [|i G IH]; [congruence|]. intros HI _. assert (Hi : i < n) by (specialize (HI i ltac:(simpl; auto)); apply in_seq in HI; lia).
  destruct G as [|j G]; [simpl; rewrite Z.lor_0_r; now apply single_setok|].
  change (mask (i :: j :: G)) with (Z.lor (2 ^ Z.of_nat i) (mask (j :: G))). apply lor_setok; [now apply single_setok|].
  apply IH; [intros x Hx; apply HI; simpl; auto|discriminate].
Qed.
Lemma members_mask n G : incl G (seq 0 n) -> NoDup G -> Permutation (members n (mask G)) G.
Proof.
  intros HI ND. apply NoDup_Permutation; auto; [apply members_NoDup|]. intros i. rewrite members_In, mask_bits. split; [tauto|].
  intros Hi. split; auto. apply HI, in_seq in Hi. lia.
Qed.

(** the lowest vertex *)
Definition lowest (G : list nat) : nat := match G with [] => 0 | i :: G' => fold_left Nat.min G' i end.
Lemma fold_min_spec G : forall i, In (fold_left Nat.min G i) (i :: G) /\ forall j, In j (i :: G) -> fold_left Nat.min G i <= j.
Proof.
  induction G as [|k G IH]; intros i; simpl; [split; auto; intros j [->|[]]; auto|].
  destruct (IH (Nat.min i k)) as (H1 & H2). split.
  - destruct H1 as [H1|H1]; auto. rewrite <- H1. destruct (Nat.min_spec i k) as [(_ & ->)|(_ & ->)]; auto.
  - intros j Hj. assert (Hm := H2 (Nat.min i k) ltac:(simpl; auto)). destruct Hj as [<-|[<-|Hj]]; [lia|lia|]. apply H2; simpl; auto.
Qed.
Lemma lowest_spec G : G <> [] -> In (lowest G) G /\ forall j, In j G -> lowest G <= j.
Proof. destruct G as [|i G]; [congruence|]. intros _. apply fold_min_spec. Qed.
Lemma lowest_uniq G i : In i G -> (forall j, In j G -> i <= j) -> lowest G = i.
Proof. intros Hi H. destruct (lowest_spec G) as (H1 & H2); [destruct G; [destruct Hi|discriminate]|]. specialize (H _ H1). specialize (H2 _ Hi). lia. Qed.
Lemma lowest_perm G G' : Permutation G G' -> lowest G = lowest G'.
Proof.
  intros P. destruct G as [|i G]; [apply Permutation_nil in P; now subst|]. destruct (lowest_spec (i :: G)) as (H1 & H2); [discriminate|].
  symmetry. apply lowest_uniq; [eapply Permutation_in; eauto|]. intros j Hj. apply H2. eapply Permutation_in; [symmetry|]; eauto.
Qed.
Lemma lowest_app G1 G2 : G1 <> [] -> G2 <> [] -> lowest (G1 ++ G2) = Nat.min (lowest G1) (lowest G2).
Proof.
  intros N1 N2. destruct (lowest_spec G1 N1) as (A1 & A2). destruct (lowest_spec G2 N2) as (B1 & B2). apply lowest_uniq.
  - apply in_app_iff. destruct (Nat.min_spec (lowest G1) (lowest G2)) as [(_ & ->)|(_ & ->)]; auto.
  - intros j Hj. apply in_app_iff in Hj. destruct Hj as [Hj|Hj]; [specialize (A2 _ Hj)|specialize (B2 _ Hj)]; lia.
Qed.
Lemma lowbit_pow x : (0 <= x)%Z -> (0 < x)%Z -> exists k, (0 <= k)%Z /\ lowbit x = (2 ^ k)%Z /\ Z.testbit x k = true /\ forall m, (0 <= m < k)%Z -> Z.testbit x m = false.
Proof.
  revert x. apply (pos_ind2 (fun x => (0 < x)%Z -> exists k, (0 <= k)%Z /\ lowbit x = (2 ^ k)%Z /\ Z.testbit x k = true /\ forall m, (0 <= m < k)%Z -> Z.testbit x m = false)); [lia|].
  intros a b Ha Hp IH _. destruct b.
  - exists 0%Z. split; [lia|]. change (2 * a + Z.b2z true)%Z with (2 * a + 1)%Z at 1. rewrite lowbit_odd. split; auto. split; [apply bit0|lia].
  - cbn [Z.b2z] in Hp. destruct IH as (k & K1 & K2 & K3 & K4); [lia|]. exists (Z.succ k). split; [lia|].
    split; [replace (2 * a + Z.b2z false)%Z with (2 * a)%Z by bz; rewrite lowbit_even, K2, Z.pow_succ_r; lia|].
    split; [now rewrite bitS|]. intros m Hm. destruct (Z.eq_dec m 0) as [->|N]; [apply bit0|]. replace m with (Z.succ (m - 1)) by lia.
    rewrite bitS by lia. apply K4. lia.
Qed.
Lemma lowbitI_lowest n x : setok n x -> lowbitI x = lowest (members n x).
Proof.
  intros Hx. destruct (lowbit_pow x) as (k & K1 & K2 & K3 & K4); [unfold setok in Hx; lia|unfold setok in Hx; lia|].
  unfold lowbitI, bit_length. rewrite K2. assert (0 < 2 ^ k)%Z by (apply Z.pow_pos_nonneg; lia). destruct (Z.eqb_spec (2 ^ k) 0); [lia|].
  rewrite Z.log2_pow2 by auto. replace (k + 1 - 1)%Z with k by lia. symmetry. apply lowest_uniq.
  - apply members_In. rewrite Z2Nat.id by auto. split; auto. destruct (Z_lt_le_dec k (Z.of_nat n)); [lia|]. rewrite (high_bits n) in K3; [discriminate|unfold setok in Hx; lia|auto].
  - intros j Hj. apply members_In in Hj. destruct (le_lt_dec (Z.to_nat k) j); auto. rewrite K4 in Hj by lia. destruct Hj; discriminate.
Qed.

(** ** groups of vertices *)
Section Groups.
Variable symdiff : list nat -> list nat -> list nat.
Hypothesis SD : symdiff_ok symdiff.
Variable verts : list vres.
Variable dim : nat -> nat.
Variable typ : option nat.
Hypothesis WG : wf_graph verts dim.
Notation vertices := (vertices verts).
Notation vedges := (vedges verts).
Notation bnd := (bnd verts).
Notation common := (common verts).
Notation all_dg := (all_dg verts).
Notation join_cost := (join_cost verts dim typ).
Notation size_of := (size_of dim typ).
Definition cnt (G : list nat) (e : nat) : nat := count_occ Nat.eq_dec (flat_map vedges G) e.
Definition grp (G : list nat) : Prop := NoDup G /\ incl G vertices.

Lemma cnt_app G1 G2 e : cnt (G1 ++ G2) e = cnt G1 e + cnt G2 e.
Proof. unfold cnt. rewrite flat_map_app. apply count_occ_app. Qed.
Lemma cnt_perm G G' e : Permutation G G' -> cnt G e = cnt G' e.
Proof. intros P. unfold cnt. apply Permutation_count_occ. now apply Permutation_flat_map. Qed.
Lemma split_off (G L : list nat) : NoDup G -> NoDup L -> incl G L -> exists R, Permutation L (G ++ R).
Proof.
  intros NG NL HI. exists (filter (fun x => negb (if in_dec Nat.eq_dec x G then true else false)) L). apply NoDup_Permutation; auto.
  - apply NoDup_app; auto; [now apply NoDup_filter|]. intros x H1 H2. apply filter_In in H2. destruct (in_dec Nat.eq_dec x G); [destruct H2; discriminate|auto].
  - intros x. rewrite in_app_iff, filter_In. destruct (in_dec Nat.eq_dec x G) as [Hx|Hx]; simpl; split; auto; try tauto.
Qed.
Lemma cnt_le2 G e : grp G -> cnt G e <= 2.
Proof.
  intros (ND & HI). destruct (split_off G vertices ND (seq_NoDup _ _) HI) as (R & P).
  pose proof (wg_two _ _ WG e) as T. fold (cnt vertices e) in T. rewrite (cnt_perm _ _ e P), cnt_app in T. lia.
Qed.
Lemma bnd_In G e : In e (bnd G) <-> cnt G e = 1.
Proof.
  unfold SearchSpec.bnd. rewrite filter_In, Nat.eqb_eq. fold (cnt G e). split; [tauto|]. intros E. split; auto.
  apply (count_occ_In Nat.eq_dec). unfold cnt in E. lia.
Qed.
Lemma bnd_NoDup G : NoDup (bnd G).
Proof.
  apply (NoDup_count_occ Nat.eq_dec). intros e. destruct (in_dec Nat.eq_dec e (bnd G)) as [Hi|Hi].
  - apply bnd_In in Hi. unfold cnt in Hi.
    assert (G0 : forall (f : nat -> bool) l, count_occ Nat.eq_dec (filter f l) e <= count_occ Nat.eq_dec l e).
    { intros f l. induction l as [|x l IH]; simpl; auto. destruct (f x); simpl; destruct (Nat.eq_dec x e); lia. }
    unfold SearchSpec.bnd. etransitivity; [apply G0|lia].
  - apply (count_occ_not_In Nat.eq_dec) in Hi. lia.
Qed.
Lemma bnd_perm G G' : Permutation G G' -> Permutation (bnd G) (bnd G').
Proof. intros P. apply NoDup_Permutation; try apply bnd_NoDup. intros e. now rewrite !bnd_In, (cnt_perm _ _ e P). Qed.
Lemma common_In G1 G2 e : In e (common G1 G2) <-> cnt G1 e = 1 /\ cnt G2 e = 1.
Proof.
  unfold SearchSpec.common. rewrite filter_In, existsb_exists, bnd_In. split.
  - intros (H1 & x & Hx & E). apply Nat.eqb_eq in E. subst. now apply bnd_In in Hx.
  - intros (H1 & H2). split; auto. exists e. split; [now apply bnd_In|apply Nat.eqb_refl].
Qed.
Lemma common_NoDup G1 G2 : NoDup (common G1 G2).
Proof. apply NoDup_filter, bnd_NoDup. Qed.
Lemma all_dg_perm G G' : Permutation G G' -> all_dg G = all_dg G'.
Proof.
  intros P. unfold SearchSpec.all_dg. apply eq_true_iff_eq. rewrite !forallb_forall.
  split; intros H x Hx; apply H; [exact (Permutation_in _ (Permutation_sym P) Hx)|exact (Permutation_in _ P Hx)].
Qed.
Lemma all_dg_app G1 G2 : all_dg (G1 ++ G2) = all_dg G1 && all_dg G2.
Proof. apply forallb_app. Qed.
Lemma bnd_app G1 G2 e : grp (G1 ++ G2) -> In e (bnd (G1 ++ G2)) <-> (In e (bnd G1) /\ ~ In e (bnd G2)) \/ (In e (bnd G2) /\ ~ In e (bnd G1)).
Proof. intros H. pose proof (cnt_le2 _ e H) as L. rewrite !bnd_In. rewrite cnt_app in *. lia. Qed.
Lemma grp_app G1 G2 : grp (G1 ++ G2) -> grp G1 /\ grp G2.
Proof.
  intros (ND & HI). apply NoDup_app_inv in ND. destruct ND as (N1 & N2 & _). split; split; auto; intros x Hx; apply HI, in_app_iff; auto.
Qed.
Lemma grp_perm G G' : Permutation G G' -> grp G -> grp G'.
Proof. intros P (ND & HI). split; [eapply Permutation_NoDup; eauto|]. intros x Hx. apply HI. eapply Permutation_in; [symmetry|]; eauto. Qed.

Lemma size_perm L L' : Permutation L L' -> size_of L = size_of L'.
Proof.
  intros P. unfold SearchSpec.size_of. destruct typ; [now rewrite (Permutation_length P)|]. 
  induction P; simpl in *; try lia; auto.
Qed.
Lemma same_perm (L L' : list nat) : NoDup L -> NoDup L' -> (forall e, In e L <-> In e L') -> Permutation L L'.
Proof. apply NoDup_Permutation. Qed.

(** a table entry describes a group *)
Record rep (r : vres) (G : list nat) : Prop := {
  rp_nodup : NoDup (r_edges r);
  rp_edges : forall e, In e (r_edges r) <-> In e (bnd G);
  rp_shape : r_shape r = map dim (r_edges r);
  rp_diag : r_diag r = all_dg G }.
Lemma rep_perm r G G' : Permutation G G' -> rep r G -> rep r G'.
Proof.
  intros P [R1 R2 R3 R4]. constructor; auto; [|now rewrite <- (all_dg_perm _ _ P)]. intros e. rewrite R2, !bnd_In. now rewrite (cnt_perm _ _ e P).
Qed.
Lemma rep_vert i : In i vertices -> rep (vert verts i) [i].
Proof.
  intros Hi. pose proof (wg_nodup _ _ WG i Hi) as ND. constructor; auto.
  - intros e. rewrite bnd_In. unfold cnt. simpl. rewrite app_nil_r. fold (vedges i). change (r_edges (vert verts i)) with (vedges i). split.
    + intros H. now apply NoDup_count_occ'.
    + intros E. apply (count_occ_In Nat.eq_dec). lia.
  - apply (wg_shape _ _ WG i Hi).
  - unfold SearchSpec.all_dg. simpl. now rewrite andb_true_r.
Qed.

Lemma common_inb (x y : list nat) e : NoDup x -> inb e (commonElements x y) = true <-> In e x /\ In e y.
Proof.
  intros _. rewrite inb_spec. split.
  - intros H. apply count_In in H. rewrite commonElements_count in H. split; apply count_In; lia.
  - intros (H1 & H2). apply count_In. rewrite commonElements_count. apply count_In in H1. apply count_In in H2. lia.
Qed.
Lemma sharing_spec ra rb G1 G2 : rep ra G1 -> rep rb G2 -> isSharingBond ra rb = true <-> common G1 G2 <> [].
Proof.
  intros [A1 A2 A3 A4] [B1 B2 B3 B4]. unfold isSharingBond. rewrite Nat.ltb_lt. split.
  - intros H. destruct (commonElements (r_edges ra) (r_edges rb)) as [|e l] eqn:E; [simpl in H; lia|].
    assert (In e (common G1 G2)) as K; [|intros E2; rewrite E2 in K; destruct K].
    assert (inb e (commonElements (r_edges ra) (r_edges rb)) = true) as Hi by (rewrite E; apply inb_spec; simpl; auto).
    apply (common_inb _ _ e A1) in Hi. apply common_In. rewrite A2, B2, !bnd_In in Hi. exact Hi.
  - intros H. destruct (common G1 G2) as [|e l] eqn:E; [congruence|]. assert (In e (common G1 G2)) as K by (rewrite E; simpl; auto).
    apply common_In in K. rewrite <- !bnd_In, <- A2, <- B2 in K. apply (common_inb _ _ e A1), inb_spec in K.
    destruct (commonElements (r_edges ra) (r_edges rb)); [destruct K|simpl; lia].
Qed.

Lemma last_weight_spec L e w0 : (In e L \/ w0 = dim e) -> fold_left (fun w '(l, s) => if Nat.eqb l e then s else w) (combine L (map dim L)) w0 = dim e.
Proof.
  revert w0. induction L as [|x L IH]; intros w0 H; [destruct H as [[]|H]; auto|]. simpl. apply IH.
  destruct (Nat.eqb_spec x e) as [->|N]; auto. destruct H as [[H|H]|H]; auto. contradiction.
Qed.
Lemma calc_rep ra rb G1 G2 : rep ra G1 -> rep rb G2 -> grp (G1 ++ G2) -> rep (calculateContractRes symdiff ra rb) (G1 ++ G2).
Proof.
  intros [A1 A2 A3 A4] [B1 B2 B3 B4] GG. destruct (SD (r_edges ra) (r_edges rb)) as (S1 & S2).
  unfold calculateContractRes. constructor; simpl.
  - exact S1.
  - intros e. change (In e (symdiff (r_edges ra) (r_edges rb)) <-> In e (bnd (G1 ++ G2))). rewrite S2, bnd_app by auto. rewrite A2, B2. tauto.
  - unfold r_shape, r_edges at 3; simpl. apply map_ext_in. intros e He. fold (r_shape ra) (r_shape rb). rewrite A3, B3, <- map_app. apply last_weight_spec. left.
    apply S2 in He. apply in_app_iff. tauto.
  - unfold r_diag; simpl. fold (r_diag ra) (r_diag rb). rewrite A4, B4. symmetry. apply all_dg_app.
Qed.

(** all edges of an all-diagonal group have the same dimension *)
Definition flat (G : list nat) : Prop := all_dg G = true -> forall e e', In e (bnd G) -> In e' (bnd G) -> dim e = dim e'.
Lemma flat_perm G G' : Permutation G G' -> flat G -> flat G'.
Proof.
  intros P F D e e' H1 H2. apply F; [now rewrite (all_dg_perm _ _ P)| |]; eapply Permutation_in; try eassumption; symmetry; now apply bnd_perm.
Qed.

Lemma fold_cost (L : list nat) (p : nat -> bool) (dg : bool) : forall num sq,
  fold_left (fun '(num, sq) '(l, s) => if p l then (if negb dg then (num, sq * s) else (num, sq)) else (num * s, sq)) (combine L (map dim L)) (num, sq) =
  (num * prodn (map dim (filter (fun l => negb (p l)) L)), if dg then sq else sq * prodn (map dim (filter p L))).
Proof.
  induction L as [|l L IH]; intros num sq; simpl; [destruct dg; f_equal; lia|]. destruct (p l) eqn:E; simpl.
  - destruct dg; simpl; rewrite IH; auto. f_equal. lia.
  - rewrite IH. f_equal. lia.
Qed.
Lemma prodn_app l l' : prodn (l ++ l') = prodn l * prodn l'.
Proof. unfold prodn. induction l as [|x l IH]; simpl; [lia|]. rewrite IH. lia. Qed.
Lemma prod_perm (L L' : list nat) : Permutation L L' -> prodn (map dim L) = prodn (map dim L').
Proof. intros P. induction P; simpl in *; try lia; auto. Qed.
Lemma round_exact m p : (Nat.sqrt (4 * m * m * (p * p)) + 1) / 2 = m * p.
Proof.
  replace (4 * m * m * (p * p)) with ((2 * m * p) * (2 * m * p)) by lia. rewrite Nat.sqrt_square. 
  replace (2 * m * p + 1) with (1 + (m * p) * 2) by lia. rewrite Nat.div_add by lia. reflexivity.
Qed.
Lemma filter_len {X} (p : X -> bool) L : List.length (filter p L) + List.length (filter (fun x => negb (p x)) L) = List.length L.
Proof. induction L as [|x L IH]; simpl; auto. destruct (p x); simpl; lia. Qed.

Lemma cost_rep ra rb G1 G2 : rep ra G1 -> rep rb G2 -> grp (G1 ++ G2) -> (typ = None -> flat G1) ->
  (typ = None -> all_dg G1 = true -> all_dg G2 = true -> bnd G1 <> []) ->
  costFunc typ ra rb = Ok (join_cost G1 G2).
Proof.
  intros RA RB GG F O. pose proof RA as [A1 A2 A3 A4]. pose proof RB as [B1 B2 B3 B4].
  assert (P1 : Permutation (r_edges ra) (bnd G1)) by (apply same_perm; auto using bnd_NoDup).
  set (cl := fun l => inb l (commonElements (r_edges ra) (r_edges rb))).
  assert (CL : forall e, cl e = true <-> In e (r_edges ra) /\ In e (r_edges rb)) by (intros e; now apply common_inb).
  assert (PC1 : Permutation (filter cl (r_edges ra)) (common G1 G2)).
  { apply same_perm; [now apply NoDup_filter|apply common_NoDup|]. intros e. rewrite filter_In, CL, common_In, A2, B2, !bnd_In. tauto. }
  assert (PC2 : Permutation (filter cl (r_edges rb)) (common G1 G2)).
  { apply same_perm; [now apply NoDup_filter|apply common_NoDup|]. intros e. rewrite filter_In, CL, common_In, A2, B2, !bnd_In. tauto. }
  assert (PO : Permutation (filter (fun l => negb (cl l)) (r_edges ra ++ r_edges rb)) (bnd (G1 ++ G2))).
  { apply same_perm; [|apply bnd_NoDup|].
    - rewrite filter_app. apply NoDup_app; try now apply NoDup_filter. intros e H1 H2. apply filter_In in H1. apply filter_In in H2.
      destruct H1 as (H1 & N1). destruct H2 as (H2 & _). apply negb_true_iff in N1. rewrite (proj2 (CL e)) in N1; [discriminate|auto].
    - intros e. rewrite filter_In, in_app_iff, negb_true_iff, bnd_app by auto. rewrite <- A2, <- B2.
      destruct (cl e) eqn:E; [apply CL in E; split; [intros (_ & K); discriminate|tauto]|].
      assert (~ (In e (r_edges ra) /\ In e (r_edges rb))) by (rewrite <- CL; congruence). tauto. }
  unfold costFunc. destruct typ as [d|] eqn:ET.
  - unfold getCostTypical, SearchSpec.join_cost. rewrite A4, B4. f_equal.
    assert (LEN : List.length (dedup (commonElements (r_edges ra) (r_edges rb))) = List.length (common G1 G2)).
    { apply Permutation_length, same_perm; [apply dedup_NoDup|apply common_NoDup|]. intros e. rewrite dedup_In. rewrite common_In, <- !bnd_In, <- A2, <- B2. rewrite <- CL. unfold cl. symmetry. apply inb_spec. }
    rewrite LEN. pose proof (Permutation_length PC1) as L1. pose proof (Permutation_length PC2) as L2. pose proof (Permutation_length PO) as L3.
    rewrite filter_app, app_length in L3. pose proof (filter_len cl (r_edges ra)). pose proof (filter_len cl (r_edges rb)).
    unfold SearchSpec.size_of. rewrite app_length. destruct (all_dg G1), (all_dg G2); simpl andb; simpl orb; cbv iota; try (f_equal; lia). apply Nat.pow_1_r.
  - unfold getCost, SearchSpec.join_cost. rewrite A4, B4. destruct (all_dg G1 && all_dg G2) eqn:ED.
    + apply andb_true_iff in ED. destruct ED as (D1 & D2). rewrite D1, D2, A3. specialize (O eq_refl D1 D2).
      destruct (r_edges ra) as [|e l] eqn:E1; [apply Permutation_nil in P1; congruence|]. destruct (bnd G1) as [|e' l'] eqn:E2; [congruence|].
      simpl. f_equal. apply (F eq_refl D1).
      * rewrite E2. apply A2. simpl. auto.
      * rewrite E2. simpl. auto.
    + rewrite A3, B3, <- map_app. fold cl. 
      pose proof (fold_cost (r_edges ra ++ r_edges rb) cl (all_dg G1 || all_dg G2) 1 1) as FC. unfold cl in FC at 1. rewrite FC. clear FC.
      f_equal. rewrite (prod_perm _ _ PO), filter_app, map_app, prodn_app, (prod_perm _ _ PC1), (prod_perm _ _ PC2).
      unfold SearchSpec.size_of. rewrite map_app, prodn_app. rewrite !Nat.mul_1_l.
      destruct (all_dg G1), (all_dg G2); try discriminate; simpl orb; cbv iota.
      * pose proof (round_exact (prodn (map dim (bnd (G1 ++ G2)))) 1) as R. rewrite !Nat.mul_1_r in R. rewrite Nat.mul_1_r. exact R.
      * pose proof (round_exact (prodn (map dim (bnd (G1 ++ G2)))) 1) as R. rewrite !Nat.mul_1_r in R. rewrite Nat.mul_1_r. exact R.
      * apply round_exact.
Qed.

(** two groups whose contraction cost is well defined *)
Record fits (G1 G2 : list nat) : Prop := {
  ft_grp : grp (G1 ++ G2);
  ft_flat1 : typ = None -> flat G1;
  ft_flat2 : typ = None -> flat G2;
  ft_edge : typ = None -> all_dg G1 = true -> all_dg G2 = true -> exists e e', In e (bnd G1) /\ In e' (bnd G2) /\ dim e = dim e' }.
Lemma fits_cost ra rb G1 G2 : rep ra G1 -> rep rb G2 -> fits G1 G2 -> costFunc typ ra rb = Ok (join_cost G1 G2).
Proof.
  intros RA RB [F1 F2 F3 F4]. apply cost_rep; auto. intros E D1 D2 K. destruct (F4 E D1 D2) as (e & e' & H & _). rewrite K in H. destruct H.
Qed.
Lemma fits_sym G1 G2 : fits G1 G2 -> fits G2 G1.
Proof.
  intros [F1 F2 F3 F4]. constructor; auto.
  - eapply grp_perm; [apply Permutation_app_comm|exact F1].
  - intros E D1 D2. destruct (F4 E D2 D1) as (e & e' & H1 & H2 & H3). exists e', e. auto.
Qed.
Lemma fits_perm G1 G1' G2 G2' : Permutation G1 G1' -> Permutation G2 G2' -> fits G1 G2 -> fits G1' G2'.
Proof.
  intros P1 P2 [F1 F2 F3 F4]. constructor; [| | |].
  - eapply grp_perm; [apply Permutation_app; eauto|exact F1].
  - intros E. eapply flat_perm; eauto. 
  - intros E. eapply flat_perm; eauto. 
  - intros E D1 D2. rewrite <- (all_dg_perm _ _ P1) in D1. rewrite <- (all_dg_perm _ _ P2) in D2. destruct (F4 E D1 D2) as (e & e' & H1 & H2 & H3).
    exists e, e'. split; [exact (Permutation_in _ (bnd_perm _ _ P1) H1)|]. split; [exact (Permutation_in _ (bnd_perm _ _ P2) H2)|auto].
Qed.
Lemma common_perm G1 G1' G2 G2' : Permutation G1 G1' -> Permutation G2 G2' -> Permutation (common G1 G2) (common G1' G2').
Proof.
  intros P1 P2. apply same_perm; try apply common_NoDup. intros e. rewrite !common_In. now rewrite (cnt_perm _ _ e P1), (cnt_perm _ _ e P2).
Qed.
Lemma common_sym G1 G2 : Permutation (common G1 G2) (common G2 G1).
Proof. apply same_perm; try apply common_NoDup. intros e. rewrite !common_In. tauto. Qed.
Lemma cost_perm G1 G1' G2 G2' : Permutation G1 G1' -> Permutation G2 G2' -> fits G1 G2 -> join_cost G1 G2 = join_cost G1' G2'.
Proof.
  intros P1 P2 [F1 F2 F3 F4]. unfold SearchSpec.join_cost. rewrite <- (all_dg_perm _ _ P1), <- (all_dg_perm _ _ P2).
  assert (PB := bnd_perm _ _ (Permutation_app P1 P2)). assert (PC := common_perm _ _ _ _ P1 P2).
  destruct (all_dg G1) eqn:D1, (all_dg G2) eqn:D2; try now apply size_perm; try apply Permutation_app.
  destruct typ eqn:ET; auto. pose proof (bnd_perm _ _ P1) as PB1. destruct (bnd G1) as [|e l] eqn:E1; [apply Permutation_nil in PB1; now rewrite PB1|].
  destruct (bnd G1') as [|e' l'] eqn:E2; [apply Permutation_sym, Permutation_nil in PB1; discriminate|].
  apply (F2 eq_refl D1); rewrite E1; simpl; auto. apply (Permutation_in _ (Permutation_sym PB1)). simpl. auto.
Qed.
Lemma cost_sym G1 G2 : fits G1 G2 -> join_cost G1 G2 = join_cost G2 G1.
Proof.
  intros [F1 F2 F3 F4]. unfold SearchSpec.join_cost. 
  assert (PB := bnd_perm _ _ (Permutation_app_comm G1 G2)). assert (PC := common_sym G1 G2).
  destruct (all_dg G1) eqn:D1, (all_dg G2) eqn:D2; try now apply size_perm; try apply Permutation_app.
  destruct typ eqn:ET; auto. destruct (F4 eq_refl eq_refl eq_refl) as (e & e' & H1 & H2 & H3).
  destruct (bnd G1) as [|a l] eqn:E1; [destruct H1|]. destruct (bnd G2) as [|b l2] eqn:E2; [destruct H2|].
  transitivity (dim e); [apply (F2 eq_refl D1); rewrite E1; simpl; auto|]. rewrite H3. apply (F3 eq_refl D2); rewrite E2; simpl; auto.
Qed.
Lemma bf_fits : (typ = None -> diag_uniform verts dim) -> forall G1 G2, grp (G1 ++ G2) -> G1 <> [] -> G2 <> [] -> fits G1 G2.
Proof.
  intros DU G1 G2 GG N1 N2. 
  assert (FL : forall G, grp G -> typ = None -> flat G).
  { intros G (ND & HI) E D e e' H1 H2. specialize (DU E). unfold SearchSpec.bnd in H1, H2. apply filter_In in H1. apply filter_In in H2.
    destruct H1 as (H1 & _). destruct H2 as (H2 & _). apply in_flat_map in H1. apply in_flat_map in H2. destruct H1 as (i & Hi & H1). destruct H2 as (j & Hj & H2).
    unfold SearchSpec.all_dg in D. rewrite forallb_forall in D. apply (du_dim _ _ DU i j e e'); auto. }
  pose proof (grp_app _ _ GG) as (g1 & g2). constructor; auto.
  intros E D1 D2. specialize (DU E). destruct GG as (ND & HI).
  assert (B1 : bnd G1 <> []) by (apply (du_open _ _ DU G1 G2); auto).
  assert (B2 : bnd G2 <> []).
  { apply (du_open _ _ DU G2 G1); auto; [eapply Permutation_NoDup; [apply Permutation_app_comm|auto]|]. intros x Hx. apply HI. apply in_app_iff. apply in_app_iff in Hx. tauto. }
  destruct (bnd G1) as [|e l] eqn:E1; [congruence|]. destruct (bnd G2) as [|e' l'] eqn:E2; [congruence|]. exists e, e'. simpl. split; auto. split; auto.
  assert (H1 : In e (bnd G1)) by (rewrite E1; simpl; auto). assert (H2 : In e' (bnd G2)) by (rewrite E2; simpl; auto).
  unfold SearchSpec.bnd in H1, H2. apply filter_In in H1. apply filter_In in H2.
  destruct H1 as (H1 & _). destruct H2 as (H2 & _). apply in_flat_map in H1. apply in_flat_map in H2. destruct H1 as (i & Hi & H1). destruct H2 as (j & Hj & H2).
  unfold SearchSpec.all_dg in D1, D2. rewrite forallb_forall in D1, D2. apply (du_dim _ _ DU i j e e'); auto; apply HI, in_app_iff; auto.
Qed.
End Groups.
