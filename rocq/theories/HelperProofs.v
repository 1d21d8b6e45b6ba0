From Coq Require Import List Arith Bool Lia ZArith QArith Qabs Lqa.
From Verif Require Import Base FuncsModel HelperModel HelperSpec.
Import ListNotations.
Local Open Scope list_scope.
Local Open Scope nat_scope.

(** * Dicts *)
Lemma dict_set_in : forall {K V} `{Dec K} (d : list (K * V)) k (v : V),
  In k (map fst d) -> map fst (dict_set d k v) = map fst d.
Proof.
  intros K V HD d k v; induction d as [|[k' v'] d IH]; cbn; intros I; [easy|].
  destruct (dec k k') as [E|E]; cbn; [easy|].
  f_equal; apply IH; destruct I as [I|I]; [congruence|exact I].
Qed.
Lemma dict_set_out : forall {K V} `{Dec K} (d : list (K * V)) k (v : V),
  ~ In k (map fst d) -> dict_set d k v = d ++ [(k, v)].
Proof.
  intros K V HD d k v; induction d as [|[k' v'] d IH]; cbn; intros I; [easy|].
  destruct (dec k k') as [E|E]; [subst; tauto|].
  f_equal; apply IH; tauto.
Qed.
Lemma dict_set_vals : forall {K V} `{Dec K} (d : list (K * V)) k (v : V),
  (forall p, In p d -> snd p = v) -> forall p, In p (dict_set d k v) -> snd p = v.
Proof.
  intros K V HD d k v; induction d as [|[k' v'] d IH]; cbn; intros A p I.
  - destruct I as [<-|[]]; easy.
  - destruct (dec k k') as [E|E]; destruct I as [<-|I]; cbn; auto.
    apply (A (k', v')); auto.
Qed.

Lemma const_loop : forall {K V} `{Dec K} (v : V) (ks : list K),
  let d := fold_left (fun d k => dict_set d k v) ks [] in
  map fst d = rev (nodup dec (rev ks)) /\ (forall p, In p d -> snd p = v).
Proof.
  intros K V HD v ks. induction ks as [|k ks IH] using rev_ind; [easy|].
  cbn zeta in *. rewrite fold_left_app; cbn [fold_left].
  set (d := fold_left _ ks []) in *. destruct IH as [IH1 IH2].
  rewrite rev_app_distr; cbn [rev app nodup].
  split; [|apply dict_set_vals; exact IH2].
  destruct (in_dec dec k (rev ks)) as [I|I].
  - rewrite dict_set_in; [exact IH1|]. rewrite IH1, <- in_rev, nodup_In; exact I.
  - rewrite dict_set_out.
    + rewrite map_app, IH1; reflexivity.
    + rewrite IH1, <- in_rev, nodup_In; exact I.
Qed.

Lemma const_dict_loop : forall {K V} `{Dec K} (v : V) (ks : list K),
  const_dict dec ks v (fold_left (fun d k => dict_set d k v) ks []).
Proof.
  intros K V HD v ks. destruct (const_loop v ks) as [E A]; cbn zeta in *.
  set (d := fold_left _ ks []) in *. split; [|split].
  - rewrite E. apply NoDup_rev, NoDup_nodup.
  - exact E.
  - intros k w; split.
    + intros I; split; [|exact (A _ I)].
      apply (in_map fst) in I; cbn in I. rewrite E, <- in_rev, nodup_In, <- in_rev in I; exact I.
    + intros [I ->]. rewrite in_rev, <- (nodup_In dec), in_rev, <- E in I.
      apply in_map_iff in I as [[k' w] [<- I]]. pose proof (A _ I) as X; cbn in X; subst; exact I.
Qed.

Lemma mapToDict_const : forall {K V} `{Dec K} (ks : list K) (x : V), const_dict dec ks x (mapToDict ks x).
Proof. intros; apply const_dict_loop. Qed.
Lemma identicalTensorDict_const : forall {K V} `{Dec K} (ks : list K) (x : V), const_dict dec ks x (identicalTensorDict x ks).
Proof. intros; apply const_dict_loop. Qed.

(** * Tuples *)
Lemma tupleSwap_ok : forall {X} (tp r : list X),
  tupleSwap tp = Ok r <-> exists a b, tp = [a; b] /\ r = [b; a].
Proof.
  intros X tp r; split.
  - destruct tp as [|a [|b [|c tp]]]; cbn; try discriminate. intros [= <-]; eauto.
  - intros (a & b & -> & ->); reflexivity.
Qed.
Lemma tupleSwap_err : forall {X} (tp : list X) e,
  tupleSwap tp = Err e <-> e = ValueError /\ List.length tp <> 2.
Proof.
  intros X tp e; destruct tp as [|a [|b [|c tp]]]; cbn; split;
    try (intros [= <-]; split; [reflexivity|lia]); try (intros [-> ?]; reflexivity).
  - discriminate.
  - intros [_ N]; lia.
Qed.

(** * Comparisons *)
Lemma Qltb_iff : forall a b, Qltb a b = true <-> (a < b)%Q.
Proof.
  intros a b; unfold Qltb; rewrite negb_true_iff; split.
  - intros N; apply Qnot_le_lt; intros L. apply Qle_bool_iff in L; congruence.
  - intros L; apply not_true_is_false; intros N. apply Qle_bool_iff in N.
    exact (Qlt_not_le _ _ L N).
Qed.
Lemma Qabs'_eq : forall a, (Qabs' a == Qabs a)%Q.
Proof.
  intros a; unfold Qabs'; destruct (Qle_bool 0 a) eqn:E.
  - apply Qle_bool_iff in E. rewrite Qabs_pos; [reflexivity|exact E].
  - assert (a < 0)%Q by (apply Qltb_iff; unfold Qltb; rewrite E; reflexivity).
    rewrite Qabs_neg; [reflexivity|apply Qlt_le_weak; assumption].
Qed.
Lemma floatEqual_iff : forall a b eps, floatEqual a b eps = true <-> closer eps a b.
Proof. intros; unfold floatEqual, closer; rewrite Qltb_iff, Qabs'_eq; reflexivity. Qed.
Lemma floatRelativeEqual_iff : forall a b eps,
  floatRelativeEqual a b eps = true <-> closer (eps * ((a + b) / 2))%Q a b.
Proof.
  intros; unfold floatRelativeEqual, closer; rewrite Qltb_iff, Qabs'_eq.
  assert (E : (eps * (1 # 2) * (a + b) == eps * ((a + b) / 2))%Q) by field.
  rewrite E; reflexivity.
Qed.
Lemma floatEqual_sym : forall a b eps, floatEqual a b eps = floatEqual b a eps.
Proof.
  intros; apply eq_true_iff_eq; rewrite !floatEqual_iff; unfold closer.
  rewrite Qabs_Qminus; reflexivity.
Qed.
Lemma floatRelativeEqual_self : forall a eps,
  floatRelativeEqual a a eps = true <-> (0 < eps * a)%Q.
Proof.
  intros; rewrite floatRelativeEqual_iff; unfold closer.
  assert (E1 : (Qabs (a - a) == 0)%Q) by (setoid_replace (a - a)%Q with 0%Q by ring; reflexivity).
  assert (E2 : (eps * ((a + a) / 2) == eps * a)%Q) by field.
  rewrite E1, E2; reflexivity.
Qed.
Lemma floatRelativeEqual_neg : forall a b eps,
  (0 <= eps)%Q -> (a + b <= 0)%Q -> floatRelativeEqual a b eps = false.
Proof.
  intros a b eps He Hs; apply not_true_is_false; rewrite floatRelativeEqual_iff; unfold closer.
  intros L. pose proof (Qabs_nonneg (a - b)) as P.
  assert (E : (eps * ((a + b) / 2) == - (eps * (- (a + b)) / 2))%Q) by field.
  rewrite E in L.
  assert (N : (0 <= eps * (- (a + b)))%Q) by (apply Qmult_le_0_compat; lra).
  assert (N2 : (0 <= eps * (- (a + b)) / 2)%Q) by (apply Qle_shift_div_l; lra).
  lra.
Qed.
Lemma inRange_iff : forall low high x, getInRangeFunc low high x = true <-> (low < x /\ x < high)%Q.
Proof. intros; unfold getInRangeFunc; rewrite andb_true_iff, !Qltb_iff; reflexivity. Qed.

Lemma forallb_combine : forall {X} (f : X -> X -> bool) a b, List.length a = List.length b ->
  (forallb (fun p => f (fst p) (snd p)) (combine a b) = true <->
   forall i x y, nth_error a i = Some x -> nth_error b i = Some y -> f x y = true).
Proof.
  intros X f a; induction a as [|x a IH]; intros [|y b] L; try discriminate.
  - cbn; split; [|easy]. intros _ [|i] x y E; discriminate.
  - cbn [combine forallb fst snd]. rewrite andb_true_iff, IH by (cbn in L; lia). split.
    + intros [A B] [|i] u v; cbn; [intros [= <-] [= <-]; exact A|apply B].
    + intros A; split; [apply (A 0); reflexivity|]. intros i; exact (A (S i)).
Qed.
Lemma floatArrayEqual_iff : forall sa a sb b eps,
  (sa = sb -> List.length a = List.length b) ->
  (floatArrayEqual sa a sb b eps = true <->
   sa = sb /\ forall i x y, nth_error a i = Some x -> nth_error b i = Some y -> closer eps x y).
Proof.
  intros sa a sb b eps L; unfold floatArrayEqual; destruct (dec sa sb) as [E|E].
  - rewrite (forallb_combine (fun x y => floatEqual x y eps)) by auto.
    setoid_rewrite floatEqual_iff. intuition.
  - intuition discriminate.
Qed.

(** * partialInverse *)
Lemma set_at_length : forall {X} i (v : X) l l', set_at i v l = Some l' -> List.length l' = List.length l.
Proof.
  intros X i v l; revert i; induction l as [|x l IH]; intros [|i] l'; cbn; try discriminate.
  - intros [= <-]; reflexivity.
  - destruct (set_at i v l) eqn:E; cbn; intros [= <-]; cbn; f_equal; eauto.
Qed.
Lemma set_at_nth : forall {X} i (v : X) l l', set_at i v l = Some l' ->
  forall j, nth_error l' j = if j =? i then Some v else nth_error l j.
Proof.
  intros X i v l; revert i; induction l as [|x l IH]; intros [|i] l'; cbn; try discriminate.
  - intros [= <-] [|j]; reflexivity.
  - destruct (set_at i v l) eqn:E; cbn; intros [= <-] [|j]; cbn; [reflexivity|eauto].
Qed.
Lemma set_at_some : forall {X} i (v : X) l, i < List.length l -> exists l', set_at i v l = Some l'.
Proof.
  intros X i v l; revert i; induction l as [|x l IH]; intros [|i]; cbn; intros L; try lia; eauto.
  destruct (IH i) as [l' ->]; [lia|]; cbn; eauto.
Qed.

Lemma inv_step : forall k s acc x acc',
  inverse_of_first k s acc -> nth_error s k = Some x -> ~ (x == 0)%Q ->
  set_at k (/ x)%Q acc = Some acc' -> inverse_of_first (S k) s acc'.
Proof.
  intros k s acc x acc' [L I] N Z E; split; [rewrite (set_at_length _ _ _ _ E); exact L|].
  intros i u y Hu Hy. rewrite (set_at_nth _ _ _ _ E) in Hy.
  destruct (Nat.eqb_spec i k) as [->|D].
  - injection Hy as <-. assert (u = x) by congruence; subst. split; [|lia].
    intros _; apply Qmult_inv_r; exact Z.
  - destruct (I i u y Hu Hy) as [A B]. split; intros; [apply A|apply B]; lia.
Qed.

Lemma loop_spec : forall s n k acc, inverse_of_first k s acc -> 
  match partialInverse_loop s (seq k n) acc with
  | Ok r => k + n <= Nat.max k (List.length s) /\ inverse_of_first (k + n) s r /\
            (forall i x, k <= i < k + n -> nth_error s i = Some x -> ~ (x == 0)%Q)
  | Err ZeroDivisionError => exists i x, k <= i < k + n /\ nth_error s i = Some x /\ (x == 0)%Q
  | Err IndexError => List.length s < k + n /\
            (forall i x, k <= i < k + n -> nth_error s i = Some x -> ~ (x == 0)%Q)
  | Err _ => False
  end.
Proof.
  intros s n; induction n as [|n IH]; intros k acc I; cbn [seq partialInverse_loop].
  - rewrite Nat.add_0_r; split; [lia|]; split; [exact I|]. intros; lia.
  - destruct (nth_error s k) as [x|] eqn:N.
    2:{ apply nth_error_None in N; split; [lia|].
        intros i x L E. assert (i < List.length s) by (apply nth_error_Some; congruence). lia. }
    assert (Lk : k < List.length s) by (apply nth_error_Some; congruence).
    destruct (Qeq_bool x 0) eqn:Z.
    + apply Qeq_bool_iff in Z. exists k, x; repeat split; auto; lia.
    + apply Qeq_bool_neq in Z.
      destruct (set_at_some k (/ x)%Q acc) as [acc' E]; [destruct I as [-> _]; exact Lk|].
      rewrite E. specialize (IH (S k) acc' (inv_step _ _ _ _ _ I N Z E)).
      replace (k + S n) with (S k + n) by lia.
      destruct (partialInverse_loop s (seq (S k) n) acc') as [r|[]]; auto.
      * destruct IH as (A & B & C); split; [lia|]; split; [exact B|].
        intros i u L Hu. destruct (Nat.eq_dec i k) as [->|D]; [congruence|apply (C i); auto; lia].
      * destruct IH as (A & C); split; [lia|].
        intros i u L Hu. destruct (Nat.eq_dec i k) as [->|D]; [congruence|apply (C i); auto; lia].
      * destruct IH as (i & u & A & B); exists i, u; split; [lia|exact B].
Qed.

Lemma inv_start : forall s, inverse_of_first 0 s (repeat 0%Q (List.length s)).
Proof.
  intros s; split; [apply repeat_length|]. intros i x y _ Hy; split; [lia|intros _].
  apply nth_error_In, repeat_spec in Hy; subst; reflexivity.
Qed.

Lemma partialInverse_total : forall s c,
  (c <= List.length s /\ (forall i x, i < c -> nth_error s i = Some x -> ~ (x == 0)%Q) /\
     exists r, partialInverse s c = Ok r /\ inverse_of_first c s r) \/
  (partialInverse s c = Err ZeroDivisionError /\
     exists i x, i < c /\ nth_error s i = Some x /\ (x == 0)%Q) \/
  (partialInverse s c = Err IndexError /\ List.length s < c /\
     (forall i x, i < c -> nth_error s i = Some x -> ~ (x == 0)%Q)).
Proof.
  intros s c. pose proof (loop_spec s c 0 _ (inv_start s)) as H. unfold partialInverse.
  cbn [Nat.add] in H. destruct (partialInverse_loop s (seq 0 c) _) as [r|e].
  - left; destruct H as (A & B & C); split; [lia|]. split; [intros i x L; apply C; lia|eauto].
  - destruct e; try easy.
    + right; right; destruct H as [A C]; split; [reflexivity|]; split; [exact A|].
      intros i x L; apply C; lia.
    + right; left; split; [reflexivity|]. destruct H as (i & x & L & B); exists i, x; split; [lia|exact B].
Qed.

Lemma getCutoff_first : forall t s, first_below t s (getCutoff (fun x => Qltb x t) s).
Proof.
  intros t s; induction s as [|x s [IH1 [IH2 IH3]]]; cbn.
  - repeat split; [lia|lia|discriminate].
  - destruct (Qltb x t) eqn:E.
    + repeat split; [cbn; lia|lia|]. cbn; intros y [= <-]; apply Qltb_iff; exact E.
    + repeat split; [cbn; lia| |exact IH3].
      intros [|i] y L; cbn; [|apply IH2; lia].
      intros [= <-]. apply Qnot_lt_le; intros N. apply Qltb_iff in N; congruence.
Qed.
Lemma partialInverse_cutoff : forall t s, (0 < t)%Q ->
  exists r, partialInverse s (getCutoff (fun x => Qltb x t) s) = Ok r /\
    inverse_of_first (getCutoff (fun x => Qltb x t) s) s r.
Proof.
  intros t s T. destruct (getCutoff_first t s) as (A & B & _).
  set (c := getCutoff _ s) in *.
  destruct (partialInverse_total s c) as [(_ & _ & r & H)|[(_ & i & x & L & N & Z)|(_ & L & _)]].
  - exists r; exact H.
  - pose proof (B i x L N). exfalso; rewrite Z in H; lra.
  - lia.
Qed.
