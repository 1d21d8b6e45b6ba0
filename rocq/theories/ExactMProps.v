(** Property C67: the exact magnetization of the Ising model. *)
From Coq Require Import Reals Lra.
From Verif Require Import Base ExactMModel ExactMSpec ExactMProofs.
Local Open Scope R_scope.

(** ** C67 infiniteIsingExactM is the spontaneous magnetization *)
Theorem C67_value : forall T V, 0 < T -> 0 < V -> exists m, infiniteIsingExactM T V = Ok (Some m) /\ spontaneous (V / T) m /\ m < 1.
Proof. exact exactM_value. Qed.
Print Assumptions C67_value.
(** there is only one such number *)
Theorem C67_unique : forall K m m', spontaneous K m -> spontaneous K m' -> m = m'.
Proof. exact spontaneous_unique. Qed.
Print Assumptions C67_unique.
(** the critical temperature of the code is the one where it vanishes, and where sinh(2K) = 1 *)
Theorem C67_critical : sinh (2 * / criticalT) = 1.
Proof. exact critical. Qed.
Print Assumptions C67_critical.
Theorem C67_zero : forall T V m, 0 < T -> 0 < V -> infiniteIsingExactM T V = Ok (Some m) -> (m = 0 <-> criticalT <= T / V).
Proof. exact exactM_zero. Qed.
Print Assumptions C67_zero.
Theorem C67_decreasing : forall T1 T2 V m1 m2, 0 < T1 -> T1 < T2 -> 0 < V -> infiniteIsingExactM T1 V = Ok (Some m1) -> infiniteIsingExactM T2 V = Ok (Some m2) ->
  m2 <= m1 /\ (T1 / V < criticalT -> m2 < m1).
Proof. exact exactM_decreasing. Qed.
Print Assumptions C67_decreasing.
(** only V / T matters *)
Theorem C67_scale : forall c T V, c <> 0 -> infiniteIsingExactM (c * T) (c * V) = infiniteIsingExactM T V.
Proof. exact exactM_scale. Qed.
Print Assumptions C67_scale.
(** for negative V the comparison with the critical temperature is always false: nan at high temperatures, the value for -V at low ones *)
Theorem C67_negative : forall T V, 0 < T -> V < 0 ->
  (criticalT < T / - V -> infiniteIsingExactM T V = Ok None) /\ (T / - V <= criticalT -> infiniteIsingExactM T V = infiniteIsingExactM T (- V)).
Proof. exact exactM_negative. Qed.
Print Assumptions C67_negative.
Theorem C67_raises : forall T V, (V = 0 \/ T = 0) -> infiniteIsingExactM T V = Err ZeroDivisionError.
Proof. exact exactM_raises. Qed.
Print Assumptions C67_raises.

(** temperatures on both sides of the critical one *)
Example C67_example : 0 < criticalT / 2 /\ criticalT / 2 / 1 < criticalT /\ criticalT < criticalT * 2 / 1 /\ criticalT < criticalT * 2 / - (-1) /\
  (exists m, infiniteIsingExactM (criticalT / 2) 1 = Ok (Some m) /\ 0 < m < 1) /\ infiniteIsingExactM (criticalT * 2) 1 = Ok (Some 0) /\ infiniteIsingExactM (criticalT * 2) (-1) = Ok None.
Proof.
  pose proof crit_pos as P. assert (Q : 0 < criticalT / 2) by lra. assert (L : criticalT / 2 / 1 < criticalT) by lra.
  split; [exact Q|]. split; [exact L|]. assert (N : - (-1) = 1) by lra. rewrite N. split; [lra|]. split; [lra|]. split; [|split].
  - destruct (C67_value (criticalT / 2) 1 Q Rlt_0_1) as (m & E & (Pm & _) & Lm). exists m. split; [exact E|]. split; [|exact Lm]. destruct (C67_zero _ _ _ Q Rlt_0_1 E) as (Z & _). assert (m <> 0) by (intros X; apply Z in X; lra). lra.
  - assert (Q2 : 0 < criticalT * 2) by lra. destruct (C67_value (criticalT * 2) 1 Q2 Rlt_0_1) as (m & E & _). rewrite E. do 2 f_equal. apply (C67_zero _ _ _ Q2 Rlt_0_1 E). lra.
  - apply C67_negative; [lra|lra|rewrite N; lra].
Qed.
