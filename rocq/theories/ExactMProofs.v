(** Proofs about infiniteIsingExactM. *)
From Coq Require Import Reals Lra Lia.
From Verif Require Import Base ExactMModel ExactMSpec.
Local Open Scope R_scope.

Lemma lnc_pos : 0 < ln (1 + sqrt 2).
Proof. rewrite <- ln_1. apply ln_increasing; [lra|]. assert (0 < sqrt 2) by (apply sqrt_lt_R0; lra). lra. Qed.
Lemma crit_eq : criticalT = 2 / ln (1 + sqrt 2). Proof. unfold criticalT. replace 2.0 with 2 by lra. replace 1.0 with 1 by lra. reflexivity. Qed.
Lemma crit_pos : 0 < criticalT. Proof. rewrite crit_eq. pose proof lnc_pos. apply Rdiv_lt_0_compat; lra. Qed.
Lemma sinh_crit : sinh (ln (1 + sqrt 2)) = 1.
Proof. rewrite <- (sinh_arcsinh 1) at 2. unfold arcsinh. do 3 f_equal. replace (1 ^ 2 + 1) with 2 by ring. reflexivity. Qed.
Lemma critical : sinh (2 * / criticalT) = 1.
Proof. rewrite <- sinh_crit. f_equal. rewrite crit_eq. pose proof lnc_pos. field. lra. Qed.
Lemma sinh_pos x : 0 < x -> 0 < sinh x. Proof. intros H. rewrite <- sinh_0. now apply sinh_lt. Qed.
Lemma sinh_neg x : sinh (- x) = - sinh x. Proof. unfold sinh. rewrite Ropp_involutive. lra. Qed.

(** above and below the critical point *)
Lemma ratio T V : 0 < T -> 0 < V -> (criticalT < T / V <-> sinh (2 * (V / T)) < 1) /\ (criticalT = T / V <-> sinh (2 * (V / T)) = 1).
Proof.
  intros HT HV. pose proof crit_pos as CP. assert (P : 0 < T / V) by (apply Rdiv_lt_0_compat; lra). assert (EI : V / T = / (T / V)) by (field; lra). rewrite EI. rewrite <- critical. set (x := T / V) in *.
  assert (U : forall a b, 0 < a -> 0 < b -> a < b -> sinh (2 * / b) < sinh (2 * / a)).
  { intros a b Ha Hb L. apply sinh_lt. apply Rmult_lt_compat_l; [lra|]. apply Rinv_lt_contravar; [apply Rmult_lt_0_compat|]; assumption. }
  destruct (Rtotal_order criticalT x) as [L|[E|L]].
  - pose proof (U _ _ CP P L). split; split; intros; lra.
  - rewrite <- E. split; split; intros; lra.
  - pose proof (U _ _ P CP L). split; split; intros; lra.
Qed.
Lemma inv4 s : 0 < s -> (s < 1 -> 1 - / s ^ 4 < 0) /\ (s = 1 -> 1 - / s ^ 4 = 0) /\ (1 < s -> 0 < 1 - / s ^ 4 < 1).
Proof.
  intros P. assert (P4 : 0 < s ^ 4) by (apply pow_lt; lra). split; [|split].
  - intros L. assert (s ^ 4 < 1) by (assert (s ^ 2 < 1) by nra; assert (0 < s ^ 2) by nra; replace (s ^ 4) with (s ^ 2 * s ^ 2) by ring; nra).
    assert (1 < / s ^ 4) by (rewrite <- Rinv_1; apply Rinv_lt_contravar; lra). lra.
  - intros ->. rewrite pow1, Rinv_1. lra.
  - intros L. assert (1 < s ^ 4) by (apply Rlt_pow_R1; [lra|lia]). assert (/ s ^ 4 < 1) by (rewrite <- Rinv_1; apply Rinv_lt_contravar; lra).
    pose proof (Rinv_0_lt_compat _ P4). lra.
Qed.
Lemma eighth x : 0 < x -> 0 < Rpower x 0.125 /\ Rpower x 0.125 ^ 8 = x.
Proof.
  intros P. assert (Q : 0 < Rpower x 0.125) by (unfold Rpower; apply exp_pos). split; [exact Q|]. rewrite <- Rpower_pow by exact Q. rewrite Rpower_mult. replace (0.125 * INR 8) with 1 by (simpl; lra). now apply Rpower_1.
Qed.
Lemma eighth_lt m m' : 0 <= m -> 0 <= m' -> (m ^ 8 < m' ^ 8 <-> m < m').
Proof.
  intros P P'. assert (U : forall a b, 0 <= a -> a < b -> a ^ 8 < b ^ 8).
  { intros a b Pa L. assert (a ^ 2 < b ^ 2) by nra. assert (0 <= a ^ 2) by nra. assert (a ^ 4 < b ^ 4) by (replace (a ^ 4) with (a ^ 2 * a ^ 2) by ring; replace (b ^ 4) with (b ^ 2 * b ^ 2) by ring; nra).
    assert (0 <= a ^ 4) by (replace (a ^ 4) with (a ^ 2 * a ^ 2) by ring; nra). replace (a ^ 8) with (a ^ 4 * a ^ 4) by ring. replace (b ^ 8) with (b ^ 4 * b ^ 4) by ring. nra. }
  split; [|now apply U]. intros L. destruct (Rtotal_order m m') as [L'|[->|L']]; [exact L'|lra|]. pose proof (U _ _ P' L'). lra.
Qed.
Lemma pow_eighth_pos x : 0 < x -> pow_eighth x = Some (Rpower x 0.125).
Proof. intros P. unfold pow_eighth. destruct (Rlt_dec x 0); [lra|]. destruct (Req_EM_T x 0); [lra|reflexivity]. Qed.

(** the call for positive T and V *)
Lemma exactM_cases T V : 0 < T -> 0 < V -> let s := sinh (2 * (V / T)) in 0 < s /\
  ((criticalT < T / V /\ s < 1 /\ infiniteIsingExactM T V = Ok (Some 0)) \/ (criticalT = T / V /\ s = 1 /\ infiniteIsingExactM T V = Ok (Some 0)) \/
   (T / V < criticalT /\ 1 < s /\ infiniteIsingExactM T V = Ok (Some (Rpower (1 - / s ^ 4) 0.125)))).
Proof.
  intros HT HV s. assert (SP : 0 < s) by (apply sinh_pos; apply Rmult_lt_0_compat; [lra|apply Rdiv_lt_0_compat; lra]). split; [exact SP|].
  destruct (ratio T V HT HV) as (R1 & R2). fold s in R1, R2. unfold infiniteIsingExactM. destruct (Req_EM_T V 0); [lra|]. destruct (Req_EM_T T 0); [lra|].
  replace (2 * V / T) with (2 * (V / T)) by (field; lra). fold s. replace 1.0 with 1 by lra. replace 0.0 with 0 by lra.
  destruct (Rlt_dec criticalT (T / V)) as [L|NL]; [left; tauto|right]. destruct (inv4 s SP) as (_ & I2 & I3).
  destruct (Req_EM_T criticalT (T / V)) as [E|NE].
  - left. assert (ES : s = 1) by tauto. split; [exact E|]. split; [exact ES|]. rewrite (I2 ES). unfold pow_eighth. destruct (Rlt_dec 0 0); [lra|]. destruct (Req_EM_T 0 0); [reflexivity|lra].
  - right. assert (1 < s) by (destruct (Rtotal_order s 1) as [X|[X|X]]; [apply R1 in X; contradiction|apply R2 in X; contradiction|exact X]). split; [lra|]. split; [assumption|]. rewrite pow_eighth_pos by (now apply I3). reflexivity.
Qed.
Theorem exactM_value T V : 0 < T -> 0 < V -> exists m, infiniteIsingExactM T V = Ok (Some m) /\ spontaneous (V / T) m /\ m < 1.
Proof.
  intros HT HV. destruct (exactM_cases T V HT HV) as (SP & C). set (s := sinh (2 * (V / T))) in *. destruct (inv4 s SP) as (I1 & I2 & I3). unfold spontaneous. fold s.
  destruct C as [(_ & L & E)|[(_ & L & E)|(_ & L & E)]]; rewrite E.
  - exists 0. split; [reflexivity|]. split; [|lra]. split; [lra|]. rewrite Rmax_left by (apply I1 in L; lra). rewrite pow_i by lia. reflexivity.
  - exists 0. split; [reflexivity|]. split; [|lra]. split; [lra|]. rewrite Rmax_left by (apply I2 in L; lra). rewrite pow_i by lia. reflexivity.
  - destruct (I3 L) as (P & Q). destruct (eighth _ P) as (X & Y). eexists. split; [reflexivity|]. split; [split; [lra|rewrite Y, Rmax_right; lra]|].
    apply (proj1 (eighth_lt _ 1 (Rlt_le _ _ X) Rle_0_1)). rewrite Y, pow1. exact Q.
Qed.
Theorem exactM_zero T V m : 0 < T -> 0 < V -> infiniteIsingExactM T V = Ok (Some m) -> (m = 0 <-> criticalT <= T / V).
Proof.
  intros HT HV. destruct (exactM_cases T V HT HV) as (SP & C). set (s := sinh (2 * (V / T))) in *. destruct (inv4 s SP) as (_ & _ & I3).
  destruct C as [(L1 & _ & E)|[(L1 & _ & E)|(L1 & L & E)]]; intros X.
  1,2: assert (m = 0) as -> by congruence; split; intros; lra.
  assert (m = Rpower (1 - / s ^ 4) 0.125) as -> by congruence. split; intros H; [|lra]. exfalso. pose proof (proj1 (eighth _ (proj1 (I3 L)))) as K. rewrite H in K. lra.
Qed.
Theorem spontaneous_unique K m m' : spontaneous K m -> spontaneous K m' -> m = m'.
Proof.
  intros (P & E) (P' & E'). destruct (Rtotal_order m m') as [L|[EQ|L]]; auto; exfalso; [apply (eighth_lt m m') in L|apply (eighth_lt m' m) in L]; auto; lra.
Qed.
Theorem exactM_decreasing T1 T2 V m1 m2 : 0 < T1 -> T1 < T2 -> 0 < V -> infiniteIsingExactM T1 V = Ok (Some m1) -> infiniteIsingExactM T2 V = Ok (Some m2) ->
  m2 <= m1 /\ (T1 / V < criticalT -> m2 < m1).
Proof.
  intros H1 H12 HV E1 E2. assert (H2 : 0 < T2) by lra. destruct (exactM_cases T1 V H1 HV) as (SP1 & C1). destruct (exactM_cases T2 V H2 HV) as (SP2 & C2). rewrite E1 in C1. rewrite E2 in C2.
  assert (SL : sinh (2 * (V / T2)) < sinh (2 * (V / T1))).
  { apply sinh_lt. apply Rmult_lt_compat_l; [lra|]. unfold Rdiv. apply Rmult_lt_compat_l; [exact HV|]. apply Rinv_lt_contravar; [now apply Rmult_lt_0_compat|exact H12]. }
  set (s1 := sinh (2 * (V / T1))) in *. set (s2 := sinh (2 * (V / T2))) in *.
  destruct (exactM_value T1 V H1 HV) as (m & Em & (Pm & _) & _). rewrite E1 in Em. injection Em as <-.
  destruct C2 as [(L2 & S2 & X2)|[(L2 & S2 & X2)|(L2 & S2 & X2)]].
  1,2: injection X2 as ->; split; [exact Pm|]; intros L; destruct (exactM_zero T1 V m1 H1 HV E1) as (Z & _); assert (m1 <> 0) by (intros Q; apply Z in Q; lra); lra.
  destruct C1 as [(_ & S1 & _)|[(_ & S1 & _)|(_ & S1 & X1)]]; [lra|lra|]. assert (m1 = Rpower (1 - / s1 ^ 4) 0.125) as -> by congruence. assert (m2 = Rpower (1 - / s2 ^ 4) 0.125) as -> by congruence.
  destruct (inv4 s1 SP1) as (_ & _ & I1). destruct (inv4 s2 SP2) as (_ & _ & I2). destruct (I1 S1) as (P1 & _). destruct (I2 S2) as (P2 & _). destruct (eighth _ P1) as (Q1 & R1). destruct (eighth _ P2) as (Q2 & R2).
  assert (LT : Rpower (1 - / s2 ^ 4) 0.125 < Rpower (1 - / s1 ^ 4) 0.125).
  { apply eighth_lt; [lra|lra|]. rewrite R1, R2. assert (s2 ^ 4 < s1 ^ 4) by (assert (s2 ^ 2 < s1 ^ 2) by nra; assert (0 < s2 ^ 2) by nra; replace (s2 ^ 4) with (s2 ^ 2 * s2 ^ 2) by ring; replace (s1 ^ 4) with (s1 ^ 2 * s1 ^ 2) by ring; nra).
    assert (0 < s2 ^ 4) by (apply pow_lt; lra). assert (0 < s1 ^ 4) by (apply pow_lt; lra). assert (/ s1 ^ 4 < / s2 ^ 4) by (apply Rinv_lt_contravar; [now apply Rmult_lt_0_compat|assumption]). lra. }
  split; [lra|intros _; exact LT].
Qed.
Theorem exactM_scale c T V : c <> 0 -> infiniteIsingExactM (c * T) (c * V) = infiniteIsingExactM T V.
Proof.
  intros NC. unfold infiniteIsingExactM. destruct (Req_EM_T V 0) as [->|NV]; [rewrite Rmult_0_r; destruct (Req_EM_T 0 0); [reflexivity|lra]|].
  destruct (Req_EM_T (c * V) 0) as [E|_]; [apply Rmult_integral in E; tauto|]. replace (c * T / (c * V)) with (T / V) by (field; tauto). destruct (Rlt_dec criticalT (T / V)); [reflexivity|].
  destruct (Req_EM_T T 0) as [->|NT]; [rewrite Rmult_0_r; destruct (Req_EM_T 0 0); [reflexivity|lra]|]. destruct (Req_EM_T (c * T) 0) as [E|_]; [apply Rmult_integral in E; tauto|].
  replace (2 * (c * V) / (c * T)) with (2 * V / T) by (field; tauto). reflexivity.
Qed.
Theorem exactM_negative T V : 0 < T -> V < 0 -> (criticalT < T / - V -> infiniteIsingExactM T V = Ok None) /\ (T / - V <= criticalT -> infiniteIsingExactM T V = infiniteIsingExactM T (- V)).
Proof.
  intros HT HV. assert (HV' : 0 < - V) by lra. destruct (ratio T (- V) HT HV') as (R1 & _). pose proof crit_pos as CP.
  assert (Q : 0 < T / - V) by (apply Rdiv_lt_0_compat; lra). assert (Q' : T / V = - (T / - V)) by (field; lra).
  assert (ES : sinh (2 * V / T) ^ 4 = sinh (2 * (- V / T)) ^ 4) by (replace (2 * (- V / T)) with (- (2 * V / T)) by (field; lra); rewrite sinh_neg; ring).
  assert (SP : 0 < sinh (2 * (- V / T))) by (apply sinh_pos; apply Rmult_lt_0_compat; [lra|apply Rdiv_lt_0_compat; lra]).
  unfold infiniteIsingExactM. destruct (Req_EM_T V 0); [lra|]. destruct (Req_EM_T (- V) 0); [lra|]. destruct (Req_EM_T T 0); [lra|]. destruct (Rlt_dec criticalT (T / V)); [lra|]. rewrite ES. split; intros L.
  - apply R1 in L. apply (proj1 (inv4 _ SP)) in L. replace 1.0 with 1 by lra. unfold pow_eighth. destruct (Rlt_dec (1 - / sinh (2 * (- V / T)) ^ 4) 0); [reflexivity|lra].
  - destruct (Rlt_dec criticalT (T / - V)); [lra|]. replace (2 * - V / T) with (2 * (- V / T)) by (field; lra). reflexivity.
Qed.
Theorem exactM_raises T V : (V = 0 \/ T = 0) -> infiniteIsingExactM T V = Err ZeroDivisionError.
Proof.
  intros H. unfold infiniteIsingExactM. destruct (Req_EM_T V 0); [reflexivity|]. destruct H as [H| ->]; [contradiction|]. pose proof crit_pos. unfold Rdiv. rewrite Rmult_0_l. destruct (Rlt_dec criticalT 0); [lra|]. destruct (Req_EM_T 0 0); [reflexivity|lra].
Qed.
