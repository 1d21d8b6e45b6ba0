(** The mirrored lattice with open boundary as a contraction of corners and edges. *)
From Coq Require Import List Arith Bool Lia Permutation.
From Verif Require Import Base Sums OpenSpec TorusProofs SumAllProofs.
Import ListNotations.
Local Open Scope nat_scope.

Section Chain.
Context {A : Type} {HA : SR A}.
Add Ring CHring : (@SR_theory A HA).
Local Open Scope sr_scope.
(** a chain of [n] matrices that starts with the vector (1, 1, ...) *)
Fixpoint chain (d n : nat) (g : nat -> nat -> nat -> A) (y : nat) : A :=
  match n with O => 1 | S n' => sumN d (fun x => chain d n' g x * g n' x y) end.
Lemma chain_ext d n g g' : forall y, (y < d)%nat -> (forall i x y, (i < n)%nat -> (x < d)%nat -> (y < d)%nat -> g i x y = g' i x y) -> chain d n g y = chain d n g' y.
Proof.
  induction n as [|n IH]; intros y Hy E; cbn; [reflexivity|]. apply sumN_ext. intros x Hx. rewrite E by auto. f_equal. apply IH; auto.
Qed.
Lemma chain_sum d n (g : nat -> nat -> nat -> A) : forall s, sum_all (fun _ : nat => d) (seq 0 n) (fun s => prodL (seq 0 n) (fun i => g i (s i) (s (S i)))) s = chain d n g (s n).
Proof.
  induction n as [|n IH]; intros s; [reflexivity|]. rewrite seq_S. cbn [plus].
  rewrite (sa_perm _ (seq 0 n ++ [n]) ([n] ++ seq 0 n)); [|apply Permutation_app_comm|rewrite <- seq_S; apply seq_NoDup|].
  - cbn [app sum_all chain]. apply sumN_ext. intros x Hx.
    rewrite (sa_ext _ _ _ (fun s => g n (s n) (s (S n)) * prodL (seq 0 n) (fun i => g i (s i) (s (S i))))).
    + rewrite sa_factor.
      * rewrite IH. destruct (dec n n); [|congruence]. destruct (dec (S n) n); [lia|]. ring.
      * intros c c' E. rewrite !E; [reflexivity| |]; rewrite in_seq; lia.
    + intros c. rewrite prodL_app. cbn. ring.
  - intros c c' E. apply prodL_ext. intros i _. now rewrite !E.
Qed.
End Chain.

Section Lat.
Context {A : Type} {HA : SR A}.
Add Ring LTring : (@SR_theory A HA).
Local Open Scope sr_scope.
Variables H V : nat.
Variable T : nat -> nat -> nat -> nat -> A.
Notation dim := (bond_dim H V).
Notation asg := (nat -> nat).
Definition z0 : asg := fun _ => O.
Definition sumH n (f : asg -> A) : A := sum_all (fun _ : nat => H) (seq 0 n) f z0.
Definition sumV n (f : asg -> A) : A := sum_all (fun _ : nat => V) (seq 0 n) f z0.
(** a column of [n] sites, a row of [n] sites, a block of [n] x [n] sites *)
Definition hcol (n : nat) (ls rs : asg) (u : nat) : A := chain V n (fun i x y => T (ls i) (rs i) y x) u.
Definition vrow (n : nat) (us ds : asg) (r : nat) : A := chain H n (fun j x y => T x y (us j) (ds j)) r.
Fixpoint quad (n : nat) (hr vu : asg) : A :=
  match n with
  | O => 1
  | S n' => sumH n' (fun s => sumV n' (fun t => sumN H (fun x => sumN V (fun y => quad n' s t * hcol n' s hr y * vrow n' vu t x * T x (hr n') (vu n') y))))
  end.
Definition agree (n : nat) (s s' : asg) : Prop := forall i, (i < n)%nat -> s i = s' i.
Lemma hcol_agree n ls ls' rs rs' u : agree n ls ls' -> agree n rs rs' -> hcol n ls rs u = hcol n ls' rs' u.
Proof.
  unfold hcol. revert u. induction n as [|n IH]; intros u E1 E2; cbn; [reflexivity|]. apply sumN_ext. intros x _. rewrite IH by (intros i Hi; auto with arith). now rewrite (E1 n), (E2 n) by lia.
Qed.
Lemma vrow_agree n us us' ds ds' r : agree n us us' -> agree n ds ds' -> vrow n us ds r = vrow n us' ds' r.
Proof.
  unfold vrow. revert r. induction n as [|n IH]; intros u E1 E2; cbn; [reflexivity|]. apply sumN_ext. intros x _. rewrite IH by (intros i Hi; auto with arith). now rewrite (E1 n), (E2 n) by lia.
Qed.
Lemma quad_agree n hr hr' vu vu' : agree n hr hr' -> agree n vu vu' -> quad n hr vu = quad n hr' vu'.
Proof.
  destruct n as [|n]; cbn; [reflexivity|]. intros E1 E2. apply sa_ext. intros s. apply sa_ext. intros t. apply sumN_ext. intros x _. apply sumN_ext. intros y _.
  rewrite (E1 n), (E2 n) by lia. rewrite (hcol_agree n s s hr hr'), (vrow_agree n vu vu' t t); auto; intros i Hi; auto.
Qed.

(** ** Blocks *)
Definition hb (p : nat * nat) : bond := HB (fst p) (snd p).
Definition vb (p : nat * nat) : bond := VB (fst p) (snd p).
Definition inner (n : nat) : list bond := map hb (pairs n n) ++ map vb (pairs n n).
(** the tensor of a site in a picture of the lattice *)
Definition siteE (e : bond -> bond) (c : bond -> nat) (p : nat * nat) : A := let '(j, i) := p in T (c (e (HB j i))) (c (e (HB (S j) i))) (c (e (VB j (S i)))) (c (e (VB j i))).
Definition seen (n : nat) (b : bond) : Prop := match b with HB j i => (j <= n /\ i < n)%nat | VB j i => (j < n /\ i <= n)%nat end.
Definition picture (n : nat) (e : bond -> bond) : Prop := (forall x y, seen n x -> seen n y -> e x = e y -> x = y) /\ forall b, dim (e b) = dim b.
Lemma in_pairs n m p : In p (pairs n m) <-> (fst p < n /\ snd p < m)%nat.
Proof.
  unfold pairs. rewrite in_flat_map. split.
  - intros (j & Hj & Hp). apply in_map_iff in Hp. destruct Hp as (i & <- & Hi). apply in_seq in Hj, Hi. cbn. lia.
  - intros (Hj & Hi). exists (fst p). rewrite in_seq. split; [lia|]. apply in_map_iff. exists (snd p). rewrite in_seq. split; [now destruct p|lia].
Qed.
Lemma nodup_pairs n m : NoDup (pairs n m).
Proof.
  unfold pairs. generalize (seq_NoDup n 0). generalize (seq 0 n) as js. induction js as [|j js IH]; intros ND; cbn; [constructor|]. inversion ND as [|? ? N ND']; subst.
  apply nodup_join; [|apply IH; exact ND'|].
  - apply FinFun.Injective_map_NoDup; [intros x y E; congruence|apply seq_NoDup].
  - intros p Hp Hq. apply in_map_iff in Hp. destruct Hp as (i & <- & _). apply in_flat_map in Hq. destruct Hq as (j' & Hj & Hq). apply in_map_iff in Hq. destruct Hq as (i' & E & _). congruence.
Qed.
Lemma len_pairs n m : List.length (pairs n m) = (n * m)%nat.
Proof.
  unfold pairs. enough (forall js, List.length (flat_map (fun j => map (fun i => (j, i)) (seq 0 m)) js) = List.length js * m)%nat as E by (rewrite E, seq_length; reflexivity).
  induction js as [|j js IH]; cbn; [reflexivity|]. rewrite app_length, map_length, seq_length, IH. reflexivity.
Qed.
Lemma in_inner n b : In b (inner n) <-> match b with HB j i | VB j i => (j < n /\ i < n)%nat end.
Proof.
  unfold inner. rewrite in_app_iff, !in_map_iff. split.
  - intros [(p & <- & Hp)|(p & <- & Hp)]; apply in_pairs in Hp; exact Hp.
  - destruct b as [j i|j i]; intros Hb; [left|right]; exists (j, i); (split; [reflexivity|now apply in_pairs]).
Qed.
Lemma nodup_inner n : NoDup (inner n).
Proof.
  apply nodup_join.
  - apply FinFun.Injective_map_NoDup; [intros [] [] E; unfold hb in E; cbn in E; congruence|apply nodup_pairs].
  - apply FinFun.Injective_map_NoDup; [intros [] [] E; unfold vb in E; cbn in E; congruence|apply nodup_pairs].
  - intros b Hb Hb'. apply in_map_iff in Hb, Hb'. destruct Hb as (p & <- & _). destruct Hb' as (q & E & _). discriminate.
Qed.
Lemma col_sum e n c : picture (S n) e ->
  sum_all dim (map (fun i => e (VB n i)) (seq 0 n)) (fun c => prodL (seq 0 n) (fun i => siteE e c (n, i))) c = hcol n (fun i => c (e (HB n i))) (fun i => c (e (HB (S n) i))) (c (e (VB n n))).
Proof.
  intros (I & D). unfold hcol. rewrite <- (chain_sum V n _ (fun i => c (e (VB n i)))).
  assert (N : forall i b, (i <= n)%nat -> seen (S n) b -> b <> VB n i -> e b <> e (VB n i)) by (intros i b Hi Hb Nb E; apply Nb; apply I; [exact Hb|cbn; lia|exact E]).
  rewrite (sa_embed dim (fun i => e (VB n i)) _ (fun s => prodL (seq 0 n) (fun i => T (c (e (HB n i))) (c (e (HB (S n) i))) (s (S i)) (s i))) (seq 0 n) (seq_NoDup n 0)) with (s0 := fun i => c (e (VB n i))).
  - apply sa_dim. intros x _. rewrite D. reflexivity.
  - intros x y Hx Hy E. apply in_seq in Hx, Hy. apply I in E; [congruence|cbn; lia|cbn; lia].
  - intros c' s P1 P2 P3.
    assert (P : forall i, (i <= n)%nat -> c' (e (VB n i)) = s i).
    { intros i Hi. destruct (Nat.eq_dec i n) as [->|Ni]; [|apply P1, in_seq; lia]. rewrite P2, P3; [reflexivity|rewrite in_seq; lia|].
      rewrite in_map_iff. intros (x & E & Hx). apply in_seq in Hx. revert E. apply N; [lia|cbn; lia|]. injection 1. lia. }
    assert (Q : forall j i, (j <= S n)%nat -> (i < n)%nat -> c' (e (HB j i)) = c (e (HB j i))).
    { intros j i Hj Hi. apply P2. rewrite in_map_iff. intros (x & E & Hx). apply in_seq in Hx. revert E. apply not_eq_sym. apply N; [lia|cbn; lia|discriminate]. }
    apply prodL_ext. intros i Hi. apply in_seq in Hi. unfold siteE. rewrite !P by lia. rewrite !Q by lia. reflexivity.
Qed.
Lemma row_sum e n c : picture (S n) e ->
  sum_all dim (map (fun j => e (HB j n)) (seq 0 n)) (fun c => prodL (seq 0 n) (fun j => siteE e c (j, n))) c = vrow n (fun j => c (e (VB j (S n)))) (fun j => c (e (VB j n))) (c (e (HB n n))).
Proof.
  intros (I & D). unfold vrow. rewrite <- (chain_sum H n _ (fun i => c (e (HB i n)))).
  assert (N : forall i b, (i <= n)%nat -> seen (S n) b -> b <> HB i n -> e b <> e (HB i n)) by (intros i b Hi Hb Nb E; apply Nb; apply I; [exact Hb|cbn; lia|exact E]).
  rewrite (sa_embed dim (fun i => e (HB i n)) _ (fun s => prodL (seq 0 n) (fun j => T (s j) (s (S j)) (c (e (VB j (S n)))) (c (e (VB j n))))) (seq 0 n) (seq_NoDup n 0)) with (s0 := fun i => c (e (HB i n))).
  - apply sa_dim. intros x _. rewrite D. reflexivity.
  - intros x y Hx Hy E. apply in_seq in Hx, Hy. apply I in E; [congruence|cbn; lia|cbn; lia].
  - intros c' s P1 P2 P3.
    assert (P : forall i, (i <= n)%nat -> c' (e (HB i n)) = s i).
    { intros i Hi. destruct (Nat.eq_dec i n) as [->|Ni]; [|apply P1, in_seq; lia]. rewrite P2, P3; [reflexivity|rewrite in_seq; lia|].
      rewrite in_map_iff. intros (x & E & Hx). apply in_seq in Hx. revert E. apply N; [lia|cbn; lia|]. injection 1. lia. }
    assert (Q : forall j i, (j < n)%nat -> (i <= S n)%nat -> c' (e (VB j i)) = c (e (VB j i))).
    { intros j i Hj Hi. apply P2. rewrite in_map_iff. intros (x & E & Hx). apply in_seq in Hx. revert E. apply not_eq_sym. apply N; [lia|cbn; lia|discriminate]. }
    apply prodL_ext. intros i Hi. apply in_seq in Hi. unfold siteE. rewrite !P by lia. rewrite !Q by lia. reflexivity.
Qed.
Lemma siteE_exf e p : exf (fun c => siteE e c p).
Proof. intros c c' E. unfold siteE. destruct p as [j i]. now rewrite !E. Qed.
Definition idb (b : bond) : bond := b.
Lemma idb_picture n : picture n idb. Proof. split; auto. Qed.
Lemma block_bonds n : Permutation (inner (S n)) (map (HB n) (seq 0 n) ++ map (fun j => VB j n) (seq 0 n) ++ [HB n n; VB n n] ++ inner n ++ map (VB n) (seq 0 n) ++ map (fun j => HB j n) (seq 0 n)).
Proof.
  apply perm_bis; [apply nodup_inner| |].
  - unfold inner. rewrite !app_length, !map_length, !len_pairs, !seq_length. cbn [List.length]. nia.
  - intros b Hb. apply in_inner in Hb. rewrite !in_app_iff, in_inner, !in_map_iff. cbn [In].
    destruct b as [j i|j i]; destruct Hb as (Hj & Hi); destruct (Nat.eq_dec j n) as [->|Nj]; destruct (Nat.eq_dec i n) as [->|Ni];
      first [do 2 right; left; tauto
            |do 3 right; left; lia
            |left; exists i; rewrite in_seq; split; [reflexivity|lia]
            |right; left; exists j; rewrite in_seq; split; [reflexivity|lia]
            |do 4 right; left; exists i; rewrite in_seq; split; [reflexivity|lia]
            |do 5 right; exists j; rewrite in_seq; split; [reflexivity|lia]].
Qed.
Lemma block_sites n : Permutation (pairs (S n) (S n)) (pairs n n ++ map (fun i => (n, i)) (seq 0 n) ++ map (fun j => (j, n)) (seq 0 n) ++ [(n, n)]).
Proof.
  apply perm_bis; [apply nodup_pairs| |].
  - rewrite !app_length, !map_length, !len_pairs, !seq_length. cbn [List.length]. nia.
  - intros [j i] Hb. apply in_pairs in Hb. cbn [fst snd] in Hb. rewrite !in_app_iff, in_pairs, !in_map_iff. cbn [In fst snd].
    destruct (Nat.eq_dec j n) as [->|Nj]; destruct (Nat.eq_dec i n) as [->|Ni];
      first [left; lia|right; left; exists i; rewrite in_seq; split; [reflexivity|lia]|do 2 right; left; exists j; rewrite in_seq; split; [reflexivity|lia]|do 3 right; left; reflexivity].
Qed.
Lemma prodL_off {X} (ps : list X) (ls : list bond) (f : X -> (bond -> nat) -> A) : (forall p, In p ps -> off ls (f p)) -> off ls (fun c => prodL ps (fun p => f p c)).
Proof. intros O c c' E. apply prodL_ext. intros p Hp. apply O; assumption. Qed.
(** a site does not see the bonds of a list *)
Lemma siteE_off j i ls : ~ In (HB j i) ls -> ~ In (HB (S j) i) ls -> ~ In (VB j (S i)) ls -> ~ In (VB j i) ls -> off ls (fun c => siteE idb c (j, i)).
Proof. intros N1 N2 N3 N4 c c' E. unfold siteE, idb. rewrite !E by assumption. reflexivity. Qed.
Lemma block_std n : forall c, sum_all dim (inner n) (fun c => prodL (pairs n n) (siteE idb c)) c = quad n (fun i => c (HB n i)) (fun j => c (VB j n)).
Proof.
  induction n as [|n IH]; intros c; [reflexivity|].
  rewrite (sa_perm dim _ _ _ (block_bonds n) (nodup_inner (S n))) by (intros c1 c2 E; apply prodL_ext; intros p _; now apply siteE_exf).
  set (col := map (VB n) (seq 0 n)). set (row := map (fun j => HB j n) (seq 0 n)).
  assert (NC : forall j i, In (HB j i) col -> False) by (intros j i Hb; apply in_map_iff in Hb; destruct Hb as (x & E & _); discriminate).
  assert (NC' : forall j i, In (VB j i) col -> j = n /\ (i < n)%nat) by (intros j i Hb; apply in_map_iff in Hb; destruct Hb as (x & E & Hx); apply in_seq in Hx; injection E as <- <-; lia).
  assert (NR : forall j i, In (VB j i) row -> False) by (intros j i Hb; apply in_map_iff in Hb; destruct Hb as (x & E & _); discriminate).
  assert (NR' : forall j i, In (HB j i) row -> i = n /\ (j < n)%nat) by (intros j i Hb; apply in_map_iff in Hb; destruct Hb as (x & E & Hx); apply in_seq in Hx; injection E as <- <-; lia).
  (* the innermost sums *)
  assert (IN : forall c, sum_all dim (inner n ++ col ++ row) (fun c => prodL (pairs (S n) (S n)) (siteE idb c)) c =
    quad n (fun i => c (HB n i)) (fun j => c (VB j n)) * hcol n (fun i => c (HB n i)) (fun i => c (HB (S n) i)) (c (VB n n)) * vrow n (fun j => c (VB j (S n))) (fun j => c (VB j n)) (c (HB n n)) * siteE idb c (n, n)).
  { intros c1.
    rewrite (sa_ext dim _ _ (fun c => siteE idb c (n, n) * (prodL (pairs n n) (siteE idb c) * (prodL (seq 0 n) (fun i => siteE idb c (n, i)) * prodL (seq 0 n) (fun j => siteE idb c (j, n)))))).
    2:{ intros c'. rewrite (prodL_perm _ _ _ (block_sites n)). rewrite !prodL_app, !prodL_map. cbn [prodL]. ring. }
    rewrite (sa_factor dim _ _ (fun c => siteE idb c (n, n))).
    2:{ apply siteE_off; rewrite !in_app_iff, in_inner; intros [?|[C|C]]; try lia; try (apply NC in C; tauto); try (apply NC' in C; lia); try (apply NR in C; tauto); try (apply NR' in C; lia). }
    rewrite (sa_two dim (inner n) (col ++ row)).
    - rewrite IH. rewrite (sa_two dim col row).
      + pose proof (col_sum idb n c1 (idb_picture (S n))) as E1. pose proof (row_sum idb n c1 (idb_picture (S n))) as E2. unfold idb in E1 at 1 3 4 5. unfold idb in E2 at 1 3 4 5.
        change (map (fun i => VB n i) (seq 0 n)) with col in E1. fold row in E2. rewrite E1, E2. ring.
      + intros a b E. apply prodL_ext. intros p _. now apply siteE_exf.
      + intros a b E. apply prodL_ext. intros p _. now apply siteE_exf.
      + apply prodL_off. intros i Hi. apply in_seq in Hi. apply siteE_off; intros C; try (apply NR in C; tauto); apply NR' in C; lia.
      + apply prodL_off. intros i Hi. apply in_seq in Hi. apply siteE_off; intros C; try (apply NC in C; tauto); apply NC' in C; lia.
    - intros a b E. apply prodL_ext. intros p _. now apply siteE_exf.
    - intros a b E. f_equal; apply prodL_ext; intros p _; now apply siteE_exf.
    - apply prodL_off. intros [j i] Hp. apply in_pairs in Hp. cbn [fst snd] in Hp. apply siteE_off; rewrite in_app_iff; intros [C|C]; try (apply NC in C; tauto); try (apply NC' in C; lia); try (apply NR in C; tauto); try (apply NR' in C; lia).
    - intros a b E. f_equal; revert a b E; apply prodL_off; intros i Hi; apply in_seq in Hi; apply siteE_off; rewrite in_inner; lia. }
  (* the outer sums *)
  rewrite !sa_app. cbn [quad].
  unfold sumH. rewrite (sa_embed dim (HB n) _ (fun s => sumV n (fun t => sumN H (fun x => sumN V (fun y => quad n s t * hcol n s (fun i => c (HB (S n) i)) y * vrow n (fun j => c (VB j (S n))) t x * T x (c (HB (S n) n)) (c (VB n (S n))) y))))
    (seq 0 n) (seq_NoDup n 0)) with (s0 := z0); [reflexivity|intros; congruence|].
  intros c1 s P1 P2 P3. unfold sumV. rewrite sa_app. rewrite (sa_embed dim (fun j => VB j n) _ (fun t => sumN H (fun x => sumN V (fun y => quad n s t * hcol n s (fun i => c (HB (S n) i)) y * vrow n (fun j => c (VB j (S n))) t x * T x (c (HB (S n) n)) (c (VB n (S n))) y)))
    (seq 0 n) (seq_NoDup n 0)) with (s0 := z0); [reflexivity|intros; congruence|].
  intros c2 t Q1 Q2 Q3. cbn [app sum_all]. cbn [bond_dim]. apply sumN_ext. intros x Hx. apply sumN_ext. intros y Hy. change (sum_all dim (inner n ++ col ++ row) (fun c0 => prodL (pairs (S n) (S n)) (siteE idb c0)) (fun b => if dec b (VB n n) then y else if dec b (HB n n) then x else c2 b) =
    quad n s t * hcol n s (fun i => c (HB (S n) i)) y * vrow n (fun j => c (VB j (S n))) t x * T x (c (HB (S n) n)) (c (VB n (S n))) y).
  set (c3 := fun b => if dec b (VB n n) then y else if dec b (HB n n) then x else c2 b). rewrite (IN c3).
  assert (R1 : c3 (VB n n) = y) by (unfold c3; destruct (dec (VB n n) (VB n n)); congruence).
  assert (R2 : c3 (HB n n) = x) by (unfold c3; destruct (dec (HB n n) (VB n n)); [discriminate|]; destruct (dec (HB n n) (HB n n)); congruence).
  assert (R3 : forall b, b <> VB n n -> b <> HB n n -> c3 b = c2 b) by (intros b B1 B2; unfold c3; destruct (dec b (VB n n)); [congruence|]; destruct (dec b (HB n n)); congruence).
  assert (S1 : agree n (fun i => c3 (HB n i)) s).
  { intros i Hi. rewrite R3 by (try discriminate; injection 1; lia). rewrite Q2 by (rewrite in_map_iff; intros (q & E & _); discriminate). apply P1, in_seq. lia. }
  assert (S2 : agree n (fun j => c3 (VB j n)) t).
  { intros j Hj. rewrite R3 by (try discriminate; injection 1; lia). apply Q1, in_seq. lia. }
  assert (S3 : forall i, c3 (HB (S n) i) = c (HB (S n) i)).
  { intros i. rewrite R3 by (try discriminate; injection 1; lia). rewrite Q2 by (rewrite in_map_iff; intros (q & E & _); discriminate). apply P2. rewrite in_map_iff. intros (q & E & _). injection E. lia. }
  assert (S4 : forall j, c3 (VB j (S n)) = c (VB j (S n))).
  { intros j. rewrite R3 by (try discriminate; injection 1; lia). rewrite Q2 by (rewrite in_map_iff; intros (q & E & _); injection E; lia). apply P2. rewrite in_map_iff. intros (q & E & _). discriminate. }
  unfold siteE, idb. rewrite R1, R2, S3, S4. rewrite (quad_agree n _ s _ t S1 S2). rewrite (hcol_agree n _ s _ (fun i => c (HB (S n) i)) y S1 (fun i _ => S3 i)). rewrite (vrow_agree n _ (fun j => c (VB j (S n))) _ t x (fun j _ => S4 j) S2). reflexivity.
Qed.
(** the block seen in a picture *)
Lemma block_sum e n c : picture n e ->
  sum_all dim (map e (inner n)) (fun c => prodL (pairs n n) (siteE e c)) c = quad n (fun i => c (e (HB n i))) (fun j => c (e (VB j n))).
Proof.
  intros (I & D). rewrite <- (block_std n (fun b => c (e b))).
  assert (SN : forall b, In b (inner n) -> seen n b) by (intros b Hb; apply in_inner in Hb; destruct b; cbn; lia).
  rewrite (sa_embed dim e _ (fun s => prodL (pairs n n) (siteE idb s)) (inner n) (nodup_inner n)) with (s0 := fun b => c (e b)).
  - apply sa_dim. intros x _. apply D.
  - intros x y Hx Hy. apply I; auto.
  - intros c' s P1 P2 P3. assert (P : forall b, seen n b -> c' (e b) = s b).
    { intros b Hb. destruct (in_dec (fun a b => dec a b) b (inner n)) as [Hi|Ni]; [apply P1, Hi|]. rewrite P3 by exact Ni. apply P2. rewrite in_map_iff. intros (x & E & Hx). apply I in E; auto. congruence. }
    apply prodL_ext. intros [j i] Hp. apply in_pairs in Hp. cbn [fst snd] in Hp. unfold siteE, idb. rewrite !P by (cbn; lia). reflexivity.
Qed.
End Lat.
