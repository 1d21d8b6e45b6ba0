(** Number systems and decompositions for the examples about renormalization. *)
From Coq Require Import List Arith Bool String ZArith Lia QArith Qcanon.
From Verif Require Import Base Sums NdModel NdProofs HeapModel TensorModel TensorSpec ContractModel SvdModel SvdSpec SvdProofs FtnModel NetsModel NetsSpec NetsProofs TorusSpec TrgModel TrgSpec NamedMatProofs TrgProofs.
Import ListNotations.
Local Open Scope nat_scope.
Local Open Scope list_scope.

(** the Gaussian integers *)
Definition gauss : Type := Z * Z.
Definition gadd (x y : gauss) : gauss := (fst x + fst y, snd x + snd y)%Z.
Definition gmul (x y : gauss) : gauss := (fst x * fst y - snd x * snd y, fst x * snd y + snd x * fst y)%Z.
Ltac gtac := intros; repeat match goal with x : gauss |- _ => destruct x end; unfold gadd, gmul; cbn [fst snd]; apply f_equal2; ring.
#[global] Instance SR_gauss : SR gauss.
Proof. refine (mkSR gauss (0, 0)%Z (1, 0)%Z gadd gmul _ _ _ _ _ _ _ _); gtac. Defined.
#[global] Instance Dec_gauss : Dec gauss := Dec_prod.
(** the integers with minus infinity, their maximum as sum and their sum as product *)
Definition trop : Type := option Z.
Definition tmax (x y : trop) : trop := match x, y with None, z | z, None => z | Some a, Some b => Some (Z.max a b) end.
Definition tplus (x y : trop) : trop := match x, y with Some a, Some b => Some (a + b)%Z | _, _ => None end.
Ltac ttac := intros; repeat match goal with x : trop |- _ => destruct x end; cbn [tmax tplus]; try reflexivity; apply f_equal; lia.
#[global] Instance SR_trop : SR trop.
Proof. refine (mkSR trop None (Some 0%Z) tmax tplus _ _ _ _ _ _ _ _); ttac. Defined.
#[global] Instance Dec_trop : Dec trop := Dec_option.

Section Lib.
Context {A B : Type} {HA : SR A} {DA : Dec A}.
(** m = 1 * 1 * m *)
Definition libI : linalg A := mkLinalg (fun m => let n := nth 0 (ashape m) 0 in
  (tab [n; n] (fun idx => if Nat.eqb (nth 0 idx 0) (nth 1 idx 0) then r1 else r0), tab [n] (fun _ => r1), m)) (fun x => x) (fun _ => true).
(** the decomposition of a matrix of rank one with 1 in the corner *)
Definition libO : linalg A := mkLinalg (fun m => let n := nth 0 (ashape m) 0 in
  (tab [n; n] (fun idx => if Nat.eqb (nth 1 idx 0) 0 then aget m [nth 0 idx 0; 0] else r0), tab [n] (fun idx => if Nat.eqb (nth 0 idx 0) 0 then r1 else r0),
   tab [n; n] (fun idx => if Nat.eqb (nth 0 idx 0) 0 then aget m [0; nth 1 idx 0] else r0))) (fun x => x) (fun _ => true).
Variable num : numerics A B.
Notation lib := (nu_lib num).
Definition eqA (x y : A) : bool := if dec x y then true else false.
Lemma eqA_ok x y : eqA x y = true -> x = y. Proof. unfold eqA. now destruct (dec x y). Qed.
Definition shapedb (a : arr A) (sh : list nat) : bool := Nat.eqb (List.length (adata a)) (prodn (ashape a)) && (if dec (ashape a) sh then true else false).
Lemma shapedb_ok a sh : shapedb a sh = true -> wfa a /\ ashape a = sh.
Proof. unfold shapedb. intros E. apply andb_true_iff in E. destruct E as (E1 & E2). apply Nat.eqb_eq in E1. destruct (dec (ashape a) sh); [|discriminate]. auto. Qed.
Definition faithfulb (m : arr A) (n chi : nat) : bool :=
  shapedb (svd_u lib m) [n; n] && shapedb (svd_s lib m) [n] && shapedb (svd_v lib m) [n; n] &&
  forallb (fun i => forallb (fun j => eqA (aget m [i; j]) (sumN n (fun k => rmul (aget (svd_u lib m) [i; k]) (rmul (aget (svd_s lib m) [k]) (aget (svd_v lib m) [k; j]))))) (seq 0 n)) (seq 0 n) &&
  forallb (fun k => eqA (rmul (np_sqrt lib (aget (svd_s lib m) [k])) (np_sqrt lib (aget (svd_s lib m) [k]))) (aget (svd_s lib m) [k])) (seq 0 n) &&
  forallb (fun i => eqA (nth i (adata (svd_s lib m)) r0) r0) (seq chi (n - chi)).
Lemma faithfulb_ok m n chi : faithfulb m n chi = true -> faithful num m n chi.
Proof.
  unfold faithfulb. intros E. rewrite !andb_true_iff in E. destruct E as (((((E1 & E2) & E3) & E4) & E5) & E6). apply shapedb_ok in E1, E2, E3.
  rewrite forallb_forall in E4, E5, E6. split.
  - split; [split; auto; now rewrite Nat.min_id| |]; rewrite Nat.min_id.
    + intros i j Hi Hj. assert (Ii : In i (seq 0 n)) by (apply in_seq; lia). specialize (E4 i Ii). rewrite forallb_forall in E4. apply eqA_ok. apply E4, in_seq. lia.
    + intros k Hk. apply eqA_ok. apply E5, in_seq. lia.
  - intros i H1 H2. apply eqA_ok. apply E6, in_seq. destruct E2 as (W & S). unfold wfa in W. rewrite S in W. cbn in W. lia.
Qed.

(** the world and object after a call that returned *)
Definition okb {X} (r : res X) : bool := match r with Ok _ => true | Err _ => false end.
Definition after (r : world A * res (trg A)) : world A * trg A := (fst r, match snd r with Ok g => g | Err _ => mkTrg 0 0 0 0 None None None None end).
Lemma after_ok r : okb (snd r) = true -> r = (fst (after r), Ok (snd (after r))).
Proof. destruct r as [w [g|e]]; [reflexivity|discriminate]. Qed.
Definition empty (z : A) : world A :=
  mkWorld (mkHeap (fun _ => mkLeg None 0 NNone None) (fun _ => mkBond 0 0) (fun _ => mkTensor [] None false false 0 None) 0 0 0 (fun _ => z) 0)
    (fun _ => []) 1 (fun _ => mkFtn 0 None true [] [] false false [] [] [] None) 0.
End Lib.

(** the numbers of the examples *)
Definition num_gauss : numerics gauss unit := mkNum (@libI gauss SR_gauss) (fun x : gauss => (fst x, - snd x)%Z) (fun _ => (1, 0)%Z : gauss) (fun x _ => x) (fun _ => tt) tt (fun _ _ => tt) (fun _ _ => tt).
Definition num_Z : numerics Z unit := mkNum libO (fun x => x) (fun _ => 1%Z) (fun x _ => x) (fun _ => tt) tt (fun _ _ => tt) (fun _ _ => tt).
(** the norm is the maximum; the logarithm of a number is the number *)
Definition num_trop : numerics trop Qc := mkNum (@libI trop SR_trop) (fun x => x) (fun a => fold_right tmax None (adata a)) (fun x y => match x, y with Some a, Some b => Some (a - b)%Z | _, _ => None end)
  (fun x => match x with Some a => Q2Qc (inject_Z a) | None => 0%Qc end) 0%Qc Qcplus (fun x n => (x / Q2Qc (inject_Z (Z.of_nat n)))%Qc).
Lemma Qc_of_Z_add a b : Q2Qc (inject_Z (a + b)) = (Q2Qc (inject_Z a) + Q2Qc (inject_Z b))%Qc.
Proof. apply Qc_is_canon. cbn [this Q2Qc Qcplus]. rewrite !Qred_correct. rewrite inject_Z_plus. reflexivity. Qed.
Lemma log_trop : log_ok num_trop (fun x => x <> None).
Proof.
  split; cbn [num_trop nu_log nu_plus nu_zero nu_share].
  - intros [a|] [b|] Ha Hb; try congruence. split; [discriminate|]. cbn. apply Qc_of_Z_add.
  - intros. ring.
  - intros. ring.
  - intros. unfold Qcdiv. ring.
  - intros x n. replace (2 * n) with (n + n) by lia. rewrite Nat2Z.inj_add, Qc_of_Z_add. set (q := Q2Qc (inject_Z (Z.of_nat n))).
    destruct (Qc_eq_dec q 0) as [->|NE]; [unfold Qcdiv; change (/ (0 + 0))%Qc with (0 : Qc)%Qc; change (/ 0)%Qc with (0 : Qc)%Qc; ring|].
    field. split; auto. intros E. apply NE. replace (q + q)%Qc with (Q2Qc 2 * q)%Qc in E.
    2:{ replace (Q2Qc 2) with (1 + 1)%Qc; [ring|]. apply Qc_is_canon. reflexivity. }
    apply Qcmult_integral in E. destruct E as [E|E]; [discriminate|exact E].
Qed.
Lemma div_trop n : n <> None -> invertible num_trop n.
Proof. destruct n as [b|]; [|congruence]. intros _ [a|]; cbn; [f_equal; lia|reflexivity]. Qed.
