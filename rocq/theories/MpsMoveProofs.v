(** Sequences of exchanges: moveTensor and makeAdjacent. *)
From Coq Require Import List Arith Bool Lia String ZArith Permutation.
From Verif Require Import Base Sums NdModel NdProofs HeapModel FuncsModel FuncsProofs TensorModel TensorSpec
  ContractModel NetSpec NetProofs GroupSpec GroupProofs SvdModel SvdSpec SchmidtSpec SchmidtProofs MpsModel MpsSpec MpsPairProofs MpsProofs MpsSwapProofs MpsNewProofs.
Import ListNotations.
Local Open Scope list_scope.
Local Open Scope nat_scope.

Section Lists.
Context {X : Type}.
Lemma relocate_at (P Q : list X) a i j : List.length P = i -> relocate i j (P ++ a :: Q) = firstn j (P ++ Q) ++ a :: skipn j (P ++ Q).
Proof. intros L. unfold relocate. rewrite skipn_app, firstn_app, L, Nat.sub_diag. rewrite (skipn_all2 P), (firstn_all2 P) by lia. cbn [skipn firstn app]. now rewrite app_nil_r. Qed.
Lemma relocate_up i j (l : list X) : S i < List.length l -> relocate (S i) j (exchange i l) = relocate i j l.
Proof.
  intros H. destruct (split_two l i H) as (P & a & b & Q & -> & L). rewrite (exchange_two _ _ _ _ _ L).
  rewrite (relocate_at P (b :: Q) a i j L). change (P ++ b :: a :: Q) with (P ++ [b] ++ a :: Q). rewrite app_assoc.
  rewrite (relocate_at (P ++ [b]) Q a (S i) j) by (rewrite app_length; simpl; lia). now rewrite <- app_assoc.
Qed.
Lemma relocate_down i j (l : list X) : S i < List.length l -> relocate i j (exchange i l) = relocate (S i) j l.
Proof.
  intros H. destruct (split_two l i H) as (P & a & b & Q & -> & L). rewrite (exchange_two _ _ _ _ _ L).
  rewrite (relocate_at P (a :: Q) b i j L). change (P ++ a :: b :: Q) with (P ++ [a] ++ b :: Q). rewrite app_assoc.
  rewrite (relocate_at (P ++ [a]) Q b (S i) j) by (rewrite app_length; simpl; lia). now rewrite <- app_assoc.
Qed.
Lemma relocate_same i (l : list X) : relocate i i l = l.
Proof.
  unfold relocate. destruct (skipn i l) as [|x r] eqn:E; auto. 
  assert (i < List.length l) by (destruct (Nat.lt_ge_cases i (List.length l)); auto; rewrite skipn_all2 in E by lia; discriminate).
  rewrite firstn_app, skipn_app, firstn_length, Nat.min_l, Nat.sub_diag by lia. rewrite firstn_firstn, Nat.min_id, skipn_firstn_comm, Nat.sub_diag. cbn [firstn skipn app].
  rewrite app_nil_r. rewrite <- E. apply firstn_skipn.
Qed.
Lemma exchange_perm i (l : list X) : Permutation (exchange i l) l.
Proof.
  unfold exchange. transitivity (firstn i l ++ skipn i l); [|now rewrite firstn_skipn]. apply Permutation_app_head.
  destruct (skipn i l) as [|x [|y r]]; auto. apply perm_swap.
Qed.
Lemma exchange_len i (l : list X) : List.length (exchange i l) = List.length l.
Proof. apply Permutation_length, exchange_perm. Qed.
Lemma exchange_nth i (l : list X) d : S i < List.length l -> nth (S i) (exchange i l) d = nth i l d /\ nth i (exchange i l) d = nth (S i) l d.
Proof.
  intros H. destruct (split_two l i H) as (P & a & b & Q & -> & L). rewrite (exchange_two _ _ _ _ _ L).
  destruct (nth_two P Q a b d i L) as [-> ->], (nth_two P Q b a d i L) as [-> ->]. auto.
Qed.
(** where the elements are afterwards *)
Lemma relocate_nth (l : list X) i j d k : i < List.length l -> j < List.length l ->
  nth k (relocate i j l) d = 
    if Nat.eqb k j then nth i l d else if Nat.leb i k && Nat.ltb k j then nth (S k) l d else if Nat.ltb j k && Nat.leb k i then nth (k - 1) l d else nth k l d.
Proof.
  intros Hi Hj. destruct (nth_split l d Hi) as (P & Q & E & L). rewrite E at 1. rewrite (relocate_at P Q (nth i l d) i j L).
  set (x := nth i l d) in *. clearbody x. subst l. rewrite app_length in Hj. cbn [List.length] in Hj. 
  assert (LF : List.length (firstn j (P ++ Q)) = j) by (rewrite firstn_length, app_length; lia).
  assert (NF : forall m, m < j -> nth m (firstn j (P ++ Q)) d = nth m (P ++ Q) d).
  { intros m Hm. rewrite <- (firstn_skipn j (P ++ Q)) at 2. rewrite app_nth1; [auto|lia]. }
  assert (NS : forall m, j <= m -> nth (m - j) (skipn j (P ++ Q)) d = nth m (P ++ Q) d).
  { intros m Hm. rewrite <- (firstn_skipn j (P ++ Q)) at 2. rewrite app_nth2 by lia. now rewrite LF. }
  destruct (Nat.eqb_spec k j) as [->|NE].
  { rewrite app_nth2 by lia. now rewrite LF, Nat.sub_diag. }
  assert (OLD : forall m, nth m (P ++ x :: Q) d = if Nat.ltb m i then nth m (P ++ Q) d else if Nat.eqb m i then x else nth (m - 1) (P ++ Q) d).
  { intros m. destruct (Nat.ltb_spec m i); [now rewrite !app_nth1 by lia|]. rewrite app_nth2 by lia. rewrite L. destruct (Nat.eqb_spec m i) as [->|].
    - now rewrite Nat.sub_diag.
    - rewrite app_nth2 by lia. rewrite L. replace (m - i) with (S (m - 1 - i)) by lia. reflexivity. }
  destruct (Nat.lt_ge_cases k j) as [LT|GE].
  - rewrite app_nth1 by lia. rewrite NF by lia. rewrite !OLD.
    destruct (Nat.leb_spec i k), (Nat.ltb_spec k j), (Nat.ltb_spec j k), (Nat.leb_spec k i); cbn [andb]; try lia;
    repeat match goal with |- context[Nat.ltb ?a ?b] => destruct (Nat.ltb_spec a b); try lia | |- context[Nat.eqb ?a ?b] => destruct (Nat.eqb_spec a b); try lia end; auto; f_equal; lia.
  - rewrite app_nth2 by lia. rewrite LF. replace (k - j) with (S (k - 1 - j)) by lia. cbn [nth]. rewrite NS by lia. rewrite !OLD.
    destruct (Nat.leb_spec i k), (Nat.ltb_spec k j), (Nat.ltb_spec j k), (Nat.leb_spec k i); cbn [andb]; try lia;
    repeat match goal with |- context[Nat.ltb ?a ?b] => destruct (Nat.ltb_spec a b); try lia | |- context[Nat.eqb ?a ?b] => destruct (Nat.eqb_spec a b); try lia end; auto; f_equal; lia.
Qed.
End Lists.

Section Mp.
Context {A : Type} {HA : SR A}.
Notation heap := (heap A).
Variable lib : linalg A.
Hypothesis ST : svd_total lib.

Lemma moved_refl (h : heap) ts os env lf rt i chi : chain h ts os env lf rt -> moved h ts os env lf rt i i chi h ts os lf rt.
Proof. intros CH. constructor; auto using same_free_refl; [intros k Hk; lia|reflexivity]. Qed.

Lemma exchanged_moved (h h' : heap) ts os env lf rt i chi ts' os' lf' rt' : exchanged h ts os env lf rt i chi h' ts' os' lf' rt' ->
  moved h ts os env lf rt i (S i) chi h' ts' os' lf' rt'.
Proof.
  intros [C L K B [D1 D2] O1 O2 V V2 F]. constructor; auto.
  - intros k Hk _. replace k with i by lia. auto.
  - intros k Hk. destruct (B k) as [-> ->]; [lia|]. split; auto. split; auto. intros Hk2. apply D1; auto. lia.
Qed.

Lemma moved_trans (h h1 h2 : heap) ts ts1 ts2 os os1 os2 env lf lf1 lf2 rt rt1 rt2 a b c d e f chi :
  moved h ts os env lf rt a b chi h1 ts1 os1 lf1 rt1 -> moved h1 ts1 os1 env lf1 rt1 c d chi h2 ts2 os2 lf2 rt2 ->
  Permutation os1 os -> (forall k, e <= k < f <-> a <= k < b \/ c <= k < d) ->
  moved h ts os env lf rt e f chi h2 ts2 os2 lf2 rt2.
Proof.
  intros M1 M2 PO RG. pose proof (mv_len _ _ _ _ _ _ _ _ _ _ _ _ _ _ M1) as L1.
  assert (EVA : all_legs h1 env = all_legs h env).
  { unfold all_legs. rewrite !flat_map_concat_map. f_equal. apply map_ext_in. intros t Ht. unfold legs_of. now rewrite (mv_env _ _ _ _ _ _ _ _ _ _ _ _ _ _ M1). }
  constructor.
  - apply M2.
  - rewrite <- L1. apply M2.
  - intros k Hk Hn. apply RG in Hk. destruct (Nat.le_gt_cases c k) as [H1|H1], (Nat.le_gt_cases d k) as [H2|H2].
    1,3,4: destruct Hk as [Hk|Hk]; try lia; destruct (mv_bonds _ _ _ _ _ _ _ _ _ _ _ _ _ _ M2 k) as (-> & _ & E); [lia|];
       destruct E as [-> _]; [lia|]; now apply (mv_chi _ _ _ _ _ _ _ _ _ _ _ _ _ _ M1).
    apply (mv_chi _ _ _ _ _ _ _ _ _ _ _ _ _ _ M2); lia.
  - intros k Hk. assert (~ (e <= k < f)) as NK by lia. rewrite RG in NK.
    destruct (mv_bonds _ _ _ _ _ _ _ _ _ _ _ _ _ _ M1 k) as (B1 & B2 & B3); [lia|].
    destruct (mv_bonds _ _ _ _ _ _ _ _ _ _ _ _ _ _ M2 k) as (C1 & C2 & C3); [lia|].
    rewrite C1, C2. split; auto. split; auto. intros Hn. destruct (B3 Hn) as [<- <-]. rewrite <- B1, <- B2. apply C3. lia.
  - intros l Hl. rewrite (mv_dims _ _ _ _ _ _ _ _ _ _ _ _ _ _ M2); [now apply (mv_dims _ _ _ _ _ _ _ _ _ _ _ _ _ _ M1)|].
    eapply Permutation_in; [symmetry; exact PO|auto].
  - intros l Hl. rewrite (mv_bond _ _ _ _ _ _ _ _ _ _ _ _ _ _ M2); [now apply (mv_bond _ _ _ _ _ _ _ _ _ _ _ _ _ _ M1)|].
    eapply Permutation_in; [symmetry; exact PO|auto].
  - intros l l' Hl. rewrite (mv_links _ _ _ _ _ _ _ _ _ _ _ _ _ _ M2); [now apply (mv_links _ _ _ _ _ _ _ _ _ _ _ _ _ _ M1)|].
    rewrite in_app_iff in *. rewrite EVA. destruct Hl as [Hl|Hl]; auto. left. eapply Permutation_in; [symmetry; exact PO|auto].
  - intros t Ht. rewrite (mv_env _ _ _ _ _ _ _ _ _ _ _ _ _ _ M2) by auto. now apply (mv_env _ _ _ _ _ _ _ _ _ _ _ _ _ _ M1).
  - intros l Hl. rewrite (mv_envlegs _ _ _ _ _ _ _ _ _ _ _ _ _ _ M2) by (now rewrite EVA). now apply (mv_envlegs _ _ _ _ _ _ _ _ _ _ _ _ _ _ M1).
  - intros q QL SL. apply (mv_slim _ _ _ _ _ _ _ _ _ _ _ _ _ _ M2).
    + intros l Hl. assert (Hl' : In l os) by (eapply Permutation_in; [exact PO|auto]). rewrite (mv_dims _ _ _ _ _ _ _ _ _ _ _ _ _ _ M1 l Hl'). now apply QL.
    + now apply (mv_slim _ _ _ _ _ _ _ _ _ _ _ _ _ _ M1).
  - eapply same_free_trans; [apply M1|apply M2].
Qed.

(** one exchange, in either direction *)
Definition stepat (right : bool) (i : nat) : Z * Z := if right then (Z.of_nat i, Z.of_nat i + 1)%Z else (Z.of_nat i + 1, Z.of_nat i + 1 - 1)%Z.
Lemma one_step right (h : heap) ts os env lf rt i chi act : chain h ts os env lf rt -> S i < List.length ts ->
  let (a, b) := stepat right i in
  ((chi < 0)%Z -> exists h', swap lib a b (mkMps ts chi act) h = (h', Err ValueError)) /\
  ((0 <= chi)%Z -> exists h' ts' lf' rt', swap lib a b (mkMps ts chi act) h = (h', Ok (mkMps ts' chi None)) /\
    moved h ts os env lf rt i (S i) chi h' ts' (exchange i os) lf' rt' /\
    (nothing_lost lib h (site (mkMps ts chi act) a) (site (mkMps ts chi act) b) chi -> same_value h (ts ++ env) h' (ts' ++ env)) /\
    (svd_perfect lib -> Z.le (Z.of_nat (prodn (map (dim_of h) (nth i os 0 :: opt (Nat.ltb (S (S i)) (List.length ts)) (rt (S i)))))) chi \/
       Z.le (Z.of_nat (prodn (map (dim_of h) (nth (S i) os 0 :: opt (Nat.ltb 0 i) (lf i))))) chi ->
       nothing_lost lib h (site (mkMps ts chi act) a) (site (mkMps ts chi act) b) chi)).
Proof.
  intros CH Hi. assert (Hi' : S i < List.length os) by (rewrite (ch_len _ _ _ _ _ _ CH); auto).
  destruct (split_two ts i Hi) as (P & t1 & t2 & Q & -> & L). destruct (split_two os i Hi') as (Po & o1 & o2 & Qo & -> & Lo).
  destruct right; cbn [stepat].
  - replace (Z.of_nat i + 1)%Z with (Z.of_nat (S i)) by lia. unfold site. cbn [m_ts]. rewrite !Nat2Z.id.
    destruct (step_right lib h P Q t1 t2 Po Qo o1 o2 env lf rt i chi L Lo CH ST act) as [S1 S2]. split; auto. intros HC.
    destruct (S2 HC) as (h' & ts' & lf' & rt' & E & EX & R). exists h', ts', lf', rt'. split; auto. split; [now apply exchanged_moved|auto].
  - replace (Z.of_nat i + 1 - 1)%Z with (Z.of_nat i) by lia. replace (Z.of_nat i + 1)%Z with (Z.of_nat (S i)) by lia. unfold site. cbn [m_ts]. rewrite !Nat2Z.id.
    destruct (step_left lib h P Q t1 t2 Po Qo o1 o2 env lf rt i chi L Lo CH ST act) as [S1 S2]. split; auto. intros HC.
    destruct (S2 HC) as (h' & ts' & lf' & rt' & E & EX & R). exists h', ts', lf', rt'. split; auto. split; [now apply exchanged_moved|auto].
Qed.

(** the list of steps of the two loops *)
Lemma ups_cons i n : map (fun k => (k, k + 1)%Z) (rangeUp (Z.of_nat i) (Z.of_nat (i + S n))) =
  stepat true i :: map (fun k => (k, k + 1)%Z) (rangeUp (Z.of_nat (S i)) (Z.of_nat (S i + n))).
Proof.
  unfold rangeUp. replace (Z.to_nat (Z.of_nat (i + S n) - Z.of_nat i)) with (S n) by lia. replace (Z.to_nat (Z.of_nat (S i + n) - Z.of_nat (S i))) with n by lia.
  cbn [seq map]. f_equal.
  - unfold stepat. f_equal; lia.
  - rewrite <- seq_shift, !map_map. apply map_ext. intros k. f_equal; lia.
Qed.
Lemma ups_nil i : map (fun k => (k, k + 1)%Z) (rangeUp (Z.of_nat i) (Z.of_nat (i + 0))) = [].
Proof. unfold rangeUp. now replace (Z.to_nat (Z.of_nat (i + 0) - Z.of_nat i)) with 0 by lia. Qed.
Lemma downs_cons j n : map (fun k => (k, k - 1)%Z) (rangeDown (Z.of_nat (j + S n)) (Z.of_nat j)) =
  stepat false (j + n) :: map (fun k => (k, k - 1)%Z) (rangeDown (Z.of_nat (j + n)) (Z.of_nat j)).
Proof.
  unfold rangeDown. replace (Z.to_nat (Z.of_nat (j + S n) - Z.of_nat j)) with (S n) by lia. replace (Z.to_nat (Z.of_nat (j + n) - Z.of_nat j)) with n by lia.
  cbn [seq map]. f_equal.
  - unfold stepat. f_equal; lia.
  - rewrite <- seq_shift, !map_map. apply map_ext. intros k. f_equal; lia.
Qed.
Lemma downs_nil j : map (fun k => (k, k - 1)%Z) (rangeDown (Z.of_nat (j + 0)) (Z.of_nat j)) = [].
Proof. unfold rangeDown. now replace (Z.to_nat (Z.of_nat (j + 0) - Z.of_nat j)) with 0 by lia. Qed.

Lemma run_up n : forall (h : heap) ts os env lf rt i chi act, chain h ts os env lf rt -> i + n < List.length ts -> (0 <= chi)%Z ->
  let ps := map (fun k => (k, k + 1)%Z) (rangeUp (Z.of_nat i) (Z.of_nat (i + n))) in
  exists h' ts' lf' rt', swaps lib ps (mkMps ts chi act) h = (h', Ok (mkMps ts' chi (if Nat.eqb n 0 then act else None))) /\
    moved h ts os env lf rt i (i + n) chi h' ts' (relocate i (i + n) os) lf' rt' /\
    (lossless_run lib ps (mkMps ts chi act) h -> same_value h (ts ++ env) h' (ts' ++ env)) /\
    (svd_perfect lib -> Z.le (Z.of_nat (dim_of h (nth i os 0)) ) chi ->
      (forall k, i < k -> S k < List.length ts -> Z.le (Z.of_nat (dim_of h (nth i os 0) * dim_of h (rt k)) ) chi) ->
      lossless_run lib ps (mkMps ts chi act) h).
Proof.
  induction n as [|n IH]; intros h ts os env lf rt i chi act CH Hi HC ps.
  - unfold ps. rewrite ups_nil. rewrite Nat.add_0_r, relocate_same. exists h, ts, lf, rt. split; [reflexivity|]. split; [now apply moved_refl|].
    split; [intros _ s Hs; reflexivity|]. intros _ _ _. exact I.
  - unfold ps. rewrite ups_cons. assert (Hi' : S i < List.length ts) by lia.
    pose proof (one_step true h ts os env lf rt i chi act CH Hi') as ST1. cbn [stepat] in ST1. destruct ST1 as [_ ST1].
    destruct (ST1 HC) as (h1 & ts1 & lf1 & rt1 & E1 & M1 & V1 & W1).
    assert (CH1 := mv_chain _ _ _ _ _ _ _ _ _ _ _ _ _ _ M1). assert (L1 := mv_len _ _ _ _ _ _ _ _ _ _ _ _ _ _ M1).
    assert (Lo : S i < List.length os) by (rewrite (ch_len _ _ _ _ _ _ CH); auto).
    destruct (IH h1 ts1 (exchange i os) env lf1 rt1 (S i) chi None CH1) as (h2 & ts2 & lf2 & rt2 & E2 & M2 & V2 & W2); [lia|auto|].
    exists h2, ts2, lf2, rt2. cbn [stepat swaps lossless_run]. split; [|split; [|split]].
    + rewrite (bind_ok _ _ _ _ _ E1). rewrite E2. now destruct (Nat.eqb n 0).
    + rewrite <- (relocate_up i (i + S n) os Lo). replace (i + S n) with (S i + n) by lia.
      eapply moved_trans; [exact M1|exact M2|apply exchange_perm|]. intros k. lia.
    + intros [N1 N2]. eapply same_value_trans; [apply M1|apply V1, N1|]. apply V2. now apply N2.
    + intros PF D0 DK. split.
      * apply W1; auto. left. cbn [map]. unfold prodn. cbn [fold_right]. destruct (Nat.ltb_spec (S (S i)) (List.length ts)); cbn [opt map fold_right].
        { specialize (DK (S i)). lia. } lia.
      * intros h1' m' E1'. rewrite E1 in E1'. injection E1' as <- <-. apply W2; auto.
        { destruct (exchange_nth i os 0 Lo) as [-> _]. rewrite (mv_dims _ _ _ _ _ _ _ _ _ _ _ _ _ _ M1); auto. apply nth_In. lia. }
        { intros k Hk Hn. destruct (exchange_nth i os 0 Lo) as [-> _]. rewrite (mv_dims _ _ _ _ _ _ _ _ _ _ _ _ _ _ M1) by (apply nth_In; lia).
          destruct (mv_bonds _ _ _ _ _ _ _ _ _ _ _ _ _ _ M1 k) as (-> & _ & Q); [lia|]. destruct Q as [-> _]; [lia|]. apply DK; lia. }
Qed.

Lemma run_down n : forall (h : heap) ts os env lf rt j chi act, chain h ts os env lf rt -> j + n < List.length ts -> (0 <= chi)%Z ->
  let ps := map (fun k => (k, k - 1)%Z) (rangeDown (Z.of_nat (j + n)) (Z.of_nat j)) in
  exists h' ts' lf' rt', swaps lib ps (mkMps ts chi act) h = (h', Ok (mkMps ts' chi (if Nat.eqb n 0 then act else None))) /\
    moved h ts os env lf rt j (j + n) chi h' ts' (relocate (j + n) j os) lf' rt' /\
    (lossless_run lib ps (mkMps ts chi act) h -> same_value h (ts ++ env) h' (ts' ++ env)) /\
    (svd_perfect lib -> Z.le (Z.of_nat (dim_of h (nth (j + n) os 0)) ) chi ->
      (forall k, S k < j + n -> Z.le (Z.of_nat (dim_of h (nth (j + n) os 0) * dim_of h (lf (S k))) ) chi) ->
      lossless_run lib ps (mkMps ts chi act) h).
Proof.
  induction n as [|n IH]; intros h ts os env lf rt j chi act CH Hi HC ps.
  - unfold ps. rewrite downs_nil. rewrite Nat.add_0_r, relocate_same. exists h, ts, lf, rt. split; [reflexivity|]. split; [now apply moved_refl|].
    split; [intros _ s Hs; reflexivity|]. intros _ _ _. exact I.
  - unfold ps. rewrite downs_cons. replace (j + S n) with (S (j + n)) in * by lia.
    pose proof (one_step false h ts os env lf rt (j + n) chi act CH Hi) as ST1. cbn [stepat] in ST1. destruct ST1 as [_ ST1].
    destruct (ST1 HC) as (h1 & ts1 & lf1 & rt1 & E1 & M1 & V1 & W1).
    assert (CH1 := mv_chain _ _ _ _ _ _ _ _ _ _ _ _ _ _ M1). assert (L1 := mv_len _ _ _ _ _ _ _ _ _ _ _ _ _ _ M1).
    assert (Lo : S (j + n) < List.length os) by (rewrite (ch_len _ _ _ _ _ _ CH); auto).
    destruct (IH h1 ts1 (exchange (j + n) os) env lf1 rt1 j chi None CH1) as (h2 & ts2 & lf2 & rt2 & E2 & M2 & V2 & W2); [lia|auto|].
    exists h2, ts2, lf2, rt2. cbn [stepat swaps lossless_run]. split; [|split; [|split]].
    + rewrite (bind_ok _ _ _ _ _ E1). rewrite E2. now destruct (Nat.eqb n 0).
    + rewrite <- (relocate_down (j + n) j os Lo).
      eapply moved_trans; [exact M1|exact M2|apply exchange_perm|]. intros k. lia.
    + intros [N1 N2]. eapply same_value_trans; [apply M1|apply V1, N1|]. apply V2. now apply N2.
    + intros PF D0 DK. split.
      * apply W1; auto. right. cbn [map]. unfold prodn. cbn [fold_right]. destruct (j + n) as [|q]; cbn [Nat.ltb Nat.leb opt map fold_right].
        { lia. } specialize (DK q). lia.
      * intros h1' m' E1'. rewrite E1 in E1'. injection E1' as <- <-. apply W2; auto.
        { destruct (exchange_nth (j + n) os 0 Lo) as [_ ->]. rewrite (mv_dims _ _ _ _ _ _ _ _ _ _ _ _ _ _ M1); auto. apply nth_In. lia. }
        { intros k Hk. destruct (exchange_nth (j + n) os 0 Lo) as [_ ->]. rewrite (mv_dims _ _ _ _ _ _ _ _ _ _ _ _ _ _ M1) by (apply nth_In; lia).
          destruct (mv_bonds _ _ _ _ _ _ _ _ _ _ _ _ _ _ M1 k) as (_ & -> & Q); [lia|]. destruct Q as [_ ->]; [lia|]. apply DK; lia. }
Qed.

Lemma link_dims (h : heap) L l l' : links_ok h L -> In l L -> In l' L -> linked h l l' -> dim_of h l = dim_of h l'.
Proof.
  intros LK I1 I2 (b & B & E). destruct (LK l b I1 B) as (l1 & E1 & H). assert (l1 = l') as -> by (apply (linked_fun h l); exists b; auto). apply H; auto.
Qed.
Lemma chain_dims (h : heap) ts os env lf rt k : chain h ts os env lf rt -> S k < List.length ts -> dim_of h (lf (S k)) = dim_of h (rt k).
Proof.
  intros CH Hk. assert (Hk' : k < List.length ts) by lia. symmetry. eapply link_dims; [apply (wn_links _ _ (wo_net _ _ (ch_wf _ _ _ _ _ _ CH)))| | |].
  - apply ch_all_env. eapply ch_all; [exact Hk'|]. now apply (ch_in_r _ _ _ _ _ _ CH).
  - apply ch_all_env. eapply ch_all; [exact Hk|]. now apply (ch_in_l _ _ _ _ _ _ CH).
  - now apply (ch_link _ _ _ _ _ _ CH).
Qed.

Lemma move_ok (h : heap) ts os env lf rt i j chi act : chain h ts os env lf rt -> i < List.length ts -> j < List.length ts -> (0 <= chi)%Z ->
  exists h' ts' lf' rt', moveTensor lib (Z.of_nat i) (Z.of_nat j) (mkMps ts chi act) h = (h', Ok (mkMps ts' chi (if Nat.eqb i j then act else None))) /\
    moved h ts os env lf rt (Nat.min i j) (Nat.max i j) chi h' ts' (relocate i j os) lf' rt' /\
    (i = j -> h' = h /\ ts' = ts) /\
    (lossless_run lib (moves i j) (mkMps ts chi act) h \/ (svd_perfect lib /\ roomy h ts os rt i chi) -> same_value h (ts ++ env) h' (ts' ++ env)).
Proof.
  intros CH Hi Hj HC. unfold moveTensor. assert (isIndex (mkMps ts chi act) (Z.of_nat i) && isIndex (mkMps ts chi act) (Z.of_nat j) = true) as ->.
  { unfold isIndex, mlen. cbn [m_ts]. rewrite !andb_true_iff, !Z.leb_le, !Z.ltb_lt. lia. }
  erewrite bind_ok by reflexivity. unfold moves. destruct (Nat.lt_trichotomy i j) as [LT|[EQ|GT]].
  - destruct (Z.eqb_spec (Z.of_nat i) (Z.of_nat j)); [lia|]. destruct (Z.ltb_spec (Z.of_nat i) (Z.of_nat j)); [|lia].
    destruct (Nat.ltb_spec i j); [|lia]. destruct (Nat.eqb_spec i j); [lia|]. rewrite Nat.min_l, Nat.max_r by lia.
    replace j with (i + (j - i)) in * by lia. set (d := j - i) in *. clearbody d. 
    destruct (run_up d h ts os env lf rt i chi act CH Hj HC) as (h' & ts' & lf' & rt' & E & MV & V & W).
    exists h', ts', lf', rt'. destruct (Nat.eqb_spec d 0); [lia|]. split; auto. split; auto. split; [lia|].
    intros [L|[PF [R1 R2]]]; [auto|]. apply V, W; auto.
  - subst j. rewrite Z.eqb_refl, Nat.eqb_refl, Nat.min_id, Nat.max_id, relocate_same. exists h, ts, lf, rt. split; [reflexivity|]. split; [now apply moved_refl|].
    split; auto. intros _ s Hs. reflexivity.
  - destruct (Z.eqb_spec (Z.of_nat i) (Z.of_nat j)); [lia|]. destruct (Z.ltb_spec (Z.of_nat i) (Z.of_nat j)); [lia|].
    destruct (Nat.ltb_spec i j); [lia|]. destruct (Nat.eqb_spec i j); [lia|]. rewrite Nat.min_r, Nat.max_l by lia.
    replace i with (j + (i - j)) in * by lia. set (d := i - j) in *. clearbody d. 
    destruct (run_down d h ts os env lf rt j chi act CH Hi HC) as (h' & ts' & lf' & rt' & E & MV & V & W).
    exists h', ts', lf', rt'. destruct (Nat.eqb_spec d 0); [lia|]. split; auto. split; auto. split; [lia|].
    intros [L|[PF [R1 R2]]]; [auto|]. apply V, W; auto. intros k Hk. rewrite (chain_dims _ _ _ _ _ _ _ CH) by lia. apply R2. lia.
Qed.

Lemma adjacent_ok (h : heap) ts os env lf rt i j chi act : chain h ts os env lf rt -> i < List.length ts -> j < List.length ts -> i <> j -> (0 <= chi)%Z ->
  let p := Nat.min i j in let q := Nat.max i j in
  exists h' ts' lf' rt' act', makeAdjacent lib (Z.of_nat i) (Z.of_nat j) (mkMps ts chi act) h = (h', Ok (mkMps ts' chi act', Z.of_nat q - 1, Z.of_nat q)%Z) /\
    moved h ts os env lf rt p (q - 1) chi h' ts' (relocate p (q - 1) os) lf' rt' /\
    nth (q - 1) (relocate p (q - 1) os) 0 = nth p os 0 /\ nth q (relocate p (q - 1) os) 0 = nth q os 0 /\
    (lossless_run lib (moves p (q - 1)) (mkMps ts chi act) h \/ (svd_perfect lib /\ roomy h ts os rt p chi) -> same_value h (ts ++ env) h' (ts' ++ env)).
Proof.
  intros CH Hi Hj NE HC p q. unfold makeAdjacent. assert (isIndex (mkMps ts chi act) (Z.of_nat i) && isIndex (mkMps ts chi act) (Z.of_nat j) = true) as ->.
  { unfold isIndex, mlen. cbn [m_ts]. rewrite !andb_true_iff, !Z.leb_le, !Z.ltb_lt. lia. }
  erewrite bind_ok by reflexivity. destruct (Z.eqb_spec (Z.of_nat i) (Z.of_nat j)); [lia|]. cbn [negb]. erewrite bind_ok by reflexivity.
  assert ((if Z.ltb (Z.of_nat j) (Z.of_nat i) then (Z.of_nat j, Z.of_nat i) else (Z.of_nat i, Z.of_nat j)) = (Z.of_nat p, Z.of_nat q)) as ->.
  { unfold p, q. destruct (Z.ltb_spec (Z.of_nat j) (Z.of_nat i)); f_equal; lia. }
  assert (PQ : p < q /\ q < List.length ts) by lia. clearbody p q. 
  assert (Lo : q < List.length os) by (rewrite (ch_len _ _ _ _ _ _ CH); lia).
  assert (N1 : nth (q - 1) (relocate p (q - 1) os) 0 = nth p os 0) by (rewrite relocate_nth by lia; now rewrite Nat.eqb_refl).
  assert (N2 : nth q (relocate p (q - 1) os) 0 = nth q os 0).
  { rewrite relocate_nth by lia. destruct (Nat.eqb_spec q (q - 1)), (Nat.leb_spec p q), (Nat.ltb_spec q (q - 1)), (Nat.ltb_spec (q - 1) q), (Nat.leb_spec q p); try lia; reflexivity. }
  cbv beta iota. assert (exists n', q - 1 = p + n') as (n' & EQ) by (exists (q - 1 - p); lia).
  replace (Z.of_nat q - 1)%Z with (Z.of_nat (p + n')) by lia. rewrite EQ in *.
  destruct (run_up n' h ts os env lf rt p chi act CH) as (h' & ts' & lf' & rt' & E & MV & V & W); [lia|auto|].
  exists h', ts', lf', rt', (if Nat.eqb n' 0 then act else None). split; [|split; [|split; [|split]]]; auto.
  - rewrite (bind_ok _ _ _ _ _ E). reflexivity.
  - intros [L|[PF [R1 R2]]].
    + apply V. unfold moves in L. destruct (Nat.ltb_spec p (p + n')); [exact L|]. replace n' with 0 by lia. rewrite ups_nil. exact I.
    + apply V, W; auto.
Qed.

(** rejections *)
Lemma swaps_err ps a b (m : mps) (h h1 : heap) : swap lib a b m h = (h1, Err ValueError) -> swaps lib ((a, b) :: ps) m h = (h1, Err ValueError).
Proof. intros E. cbn [swaps]. unfold bind. now rewrite E. Qed.
Lemma move_negative (h : heap) ts os env lf rt i j chi act : chain h ts os env lf rt -> i < List.length ts -> j < List.length ts -> i <> j -> (chi < 0)%Z ->
  exists h', moveTensor lib (Z.of_nat i) (Z.of_nat j) (mkMps ts chi act) h = (h', Err ValueError).
Proof.
  intros CH Hi Hj NE HC. unfold moveTensor. assert (isIndex (mkMps ts chi act) (Z.of_nat i) && isIndex (mkMps ts chi act) (Z.of_nat j) = true) as ->.
  { unfold isIndex, mlen. cbn [m_ts]. rewrite !andb_true_iff, !Z.leb_le, !Z.ltb_lt. lia. }
  erewrite bind_ok by reflexivity. destruct (Z.eqb_spec (Z.of_nat i) (Z.of_nat j)); [lia|]. destruct (Z.ltb_spec (Z.of_nat i) (Z.of_nat j)).
  - pose proof (one_step true h ts os env lf rt i chi act CH ltac:(lia)) as ST1. cbn [stepat] in ST1. destruct ST1 as [ST1 _]. destruct (ST1 HC) as (h' & E).
    exists h'. replace j with (i + S (j - i - 1)) by lia. rewrite ups_cons. cbn [stepat]. now apply swaps_err.
  - pose proof (one_step false h ts os env lf rt (i - 1) chi act CH ltac:(lia)) as ST1. cbn [stepat] in ST1. destruct ST1 as [ST1 _]. destruct (ST1 HC) as (h' & E).
    exists h'. replace i with (j + S (i - j - 1)) by lia. rewrite downs_cons. cbn [stepat]. replace (j + (i - j - 1)) with (i - 1) by lia. now apply swaps_err.
Qed.
Lemma adjacent_negative (h : heap) ts os env lf rt i j chi act : chain h ts os env lf rt -> i < List.length ts -> j < List.length ts -> S i < j \/ S j < i -> (chi < 0)%Z ->
  exists h', makeAdjacent lib (Z.of_nat i) (Z.of_nat j) (mkMps ts chi act) h = (h', Err ValueError).
Proof.
  intros CH Hi Hj NE HC. unfold makeAdjacent. assert (isIndex (mkMps ts chi act) (Z.of_nat i) && isIndex (mkMps ts chi act) (Z.of_nat j) = true) as ->.
  { unfold isIndex, mlen. cbn [m_ts]. rewrite !andb_true_iff, !Z.leb_le, !Z.ltb_lt. lia. }
  erewrite bind_ok by reflexivity. destruct (Z.eqb_spec (Z.of_nat i) (Z.of_nat j)); [lia|]. cbn [negb]. erewrite bind_ok by reflexivity.
  assert (exists p q, (if Z.ltb (Z.of_nat j) (Z.of_nat i) then (Z.of_nat j, Z.of_nat i) else (Z.of_nat i, Z.of_nat j)) = (Z.of_nat p, Z.of_nat q) /\ S p < q /\ q < List.length ts) as (p & q & -> & PQ & Hq).
  { destruct (Z.ltb_spec (Z.of_nat j) (Z.of_nat i)); [exists j, i|exists i, j]; split; auto; lia. }
  cbv beta iota. pose proof (one_step true h ts os env lf rt p chi act CH ltac:(lia)) as ST1. cbn [stepat] in ST1. destruct ST1 as [ST1 _]. destruct (ST1 HC) as (h' & E).
  exists h'. replace (Z.of_nat q - 1)%Z with (Z.of_nat (p + S (q - 1 - p - 1))) by lia. rewrite ups_cons. cbn [stepat].
  unfold bind at 1. erewrite swaps_err by exact E. reflexivity.
Qed.
Lemma index_spec ts chi act i : isIndex (mkMps ts chi act) i = true <-> (0 <= i < Z.of_nat (List.length ts))%Z.
Proof. unfold isIndex, mlen. cbn [m_ts]. rewrite andb_true_iff, Z.leb_le, Z.ltb_lt. tauto. Qed.
Lemma move_rejected (h : heap) ts chi act i j : ~ ((0 <= i < Z.of_nat (List.length ts)) /\ (0 <= j < Z.of_nat (List.length ts)))%Z ->
  moveTensor lib i j (mkMps ts chi act) h = (h, Err AssertionError).
Proof.
  intros N. unfold moveTensor. destruct (isIndex (mkMps ts chi act) i && isIndex (mkMps ts chi act) j) eqn:E; [|reflexivity].
  apply andb_true_iff in E. rewrite !index_spec in E. tauto.
Qed.
Lemma adjacent_rejected (h : heap) ts chi act i j : ~ ((0 <= i < Z.of_nat (List.length ts)) /\ (0 <= j < Z.of_nat (List.length ts)))%Z \/ i = j ->
  makeAdjacent lib i j (mkMps ts chi act) h = (h, Err AssertionError).
Proof.
  intros N. unfold makeAdjacent. destruct (isIndex (mkMps ts chi act) i && isIndex (mkMps ts chi act) j) eqn:E; [|reflexivity].
  apply andb_true_iff in E. rewrite !index_spec in E. destruct N as [N| ->]; [tauto|]. erewrite bind_ok by reflexivity. rewrite Z.eqb_refl. reflexivity.
Qed.

Lemma default_chi (h : heap) ts env : wf_open h (ts ++ env) -> mps_shape h ts -> no_other_links h ts ->
  (forall t, In t ts -> t_diag (tens h t) = false /\ t_like (tens h t) = false) ->
  exists h' m, newMps ts None h = (h', Ok (m, false)) /\ m_ts m = ts /\ m_chi m = (-1)%Z /\
    forall i j, i < List.length ts -> j < List.length ts -> i <> j -> exists h2, moveTensor lib (Z.of_nat i) (Z.of_nat j) m h' = (h2, Err ValueError).
Proof.
  intros WO SH NO KD. destruct (proj1 (newMps_ok h ts None (sub_net h ts env WO)) SH) as (h' & E & NS & MN).
  destruct (new_chain h h' ts env WO SH NO KD NS MN) as (os & lf & rt & CH). exists h', (mkMps ts (-1) None). split; [exact E|]. split; auto. split; auto.
  intros i j Hi Hj NE. eapply move_negative; eauto. lia.
Qed.
End Mp.
