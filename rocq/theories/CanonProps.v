(** Property theorems for canonical matrix product states: C52 and C53. *)
From Coq Require Import List Arith Bool ZArith Lia String Permutation.
From Verif Require Import Base Sums NdModel NdProofs HeapModel FuncsModel TensorModel TensorSpec ContractModel NetSpec ShareProofs NetProofs
  GroupSpec SvdModel SvdSpec SchmidtSpec TripleSpec MpsModel MpsSpec MpsNewProofs CanonModel CanonSpec CanonRunProofs CanonCheckProofs ContractProps MergeLinkProps MpsProps.
Import ListNotations.
Local Open Scope list_scope.
Local Open Scope nat_scope.

(** canonicalize(i): the result is a chain with the same outgoing legs in the same order, and i is recorded.  Every bond has dimension at most
    chi and at most the product of the dimensions of the outgoing legs between it and the end of the chain away from i.  If the columns of the
    u's are orthonormal, every tensor left of i is an isometry to its right neighbour and every tensor right of i one to its left neighbour.
    If no step loses anything - in particular if the decompositions multiply back and chi has room for the exact state - the value of the whole
    network is unchanged. *)
Theorem C52_canonicalize : forall A (HA : SR A) (lib : linalg A), svd_total lib ->
  forall (h : heap A) ts os env lf rt i chi act, chain h ts os env lf rt -> i < List.length ts -> (0 <= chi)%Z ->
  exists h' ts' lf' rt', canonicalize lib (Z.of_nat i) (mkMps ts chi act) h = (h', Ok (mkMps ts' chi (Some (Z.of_nat i)))) /\
    moved h ts os env lf rt 0 (List.length ts - 1) chi h' ts' os lf' rt' /\
    (forall k, S k < List.length ts -> dim_of h' (rt' k) <= prodn (map (dim_of h) (if Nat.ltb k i then firstn (S k) os else skipn (S k) os))) /\
    (forall cj, svd_orthonormal cj lib -> canonical cj h' ts' lf' rt' i) /\
    (uncut_run lib (sweeps (List.length ts) i) (mkMps ts chi act) h \/ svd_faithful lib /\ chi_suffices h os i chi -> same_value h (ts ++ env) h' (ts' ++ env)).
Proof. exact @canonicalize_ok. Qed.
Print Assumptions C52_canonicalize.

(** A position outside the chain is refused by an assertion before anything is changed; a negative chi raises ValueError. *)
Theorem C52_rejected : forall A (HA : SR A) (lib : linalg A) (h : heap A) ts chi act i, ~ (0 <= i < Z.of_nat (List.length ts))%Z ->
  canonicalize lib i (mkMps ts chi act) h = (h, Err AssertionError).
Proof. exact @canonicalize_rejected. Qed.
Print Assumptions C52_rejected.
Theorem C52_negative : forall A (HA : SR A) (lib : linalg A), svd_total lib ->
  forall (h : heap A) ts os env lf rt i chi act, chain h ts os env lf rt -> i < List.length ts -> 1 < List.length ts -> (chi < 0)%Z ->
  exists h', canonicalize lib (Z.of_nat i) (mkMps ts chi act) h = (h', Err ValueError).
Proof. exact @canonicalize_negative. Qed.
Print Assumptions C52_negative.
(** A single tensor is left alone, whatever chi is. *)
Theorem C52_single : forall A (HA : SR A) (lib : linalg A) (h : heap A) t chi act,
  canonicalize lib 0 (mkMps [t] chi act) h = (h, Ok (mkMps [t] chi (Some 0%Z))).
Proof. exact @canonicalize_single. Qed.
Print Assumptions C52_single.

(** isIsometry(tensor, labels) decides whether the matrix of the tensor (the legs with the given labels as columns) times its conjugate
    transpose is the identity. *)
Theorem C53_isIsometry : forall A (HA : SR A) (cj : A -> A) near (h : heap A) t labs rl cl, wf_tensor h t -> t_like (tens h t) = false ->
  split_of h t None (Some (map RStr labs)) rl cl -> exists g, isIsometry cj near h t labs = Ok (near g) /\ gram cj h t rl cl g.
Proof. intros A HA cj near h t labs rl cl W L Sp. exact (isIsometry_split cj near h t labs rl cl W L (labels_in h t labs (split_labels h t labs rl cl Sp)) Sp). Qed.
Print Assumptions C53_isIsometry.
(** A label that the tensor does not have is refused by an assertion, labels that do not determine columns (none, or one twice) raise, and
    a tensor without data is taken for an isometry. *)
Theorem C53_missing_label : forall A (HA : SR A) (cj : A -> A) near (h : heap A) t labs s, In s labs ->
  (forall l, In l (legs_of h t) -> l_name (legs h l) <> NStr s) -> isIsometry cj near h t labs = Err AssertionError.
Proof. exact @isIsometry_missing. Qed.
Print Assumptions C53_missing_label.
Theorem C53_bad_labels : forall A (HA : SR A) (cj : A -> A) near (h : heap A) t labs, wf_tensor h t -> t_like (tens h t) = false ->
  (forall rl cl, ~ split_of h t None (Some (map RStr labs)) rl cl) -> exists e, isIsometry cj near h t labs = Err e.
Proof. exact @isIsometry_bad. Qed.
Print Assumptions C53_bad_labels.
Theorem C53_like : forall A (HA : SR A) (cj : A -> A) near (h : heap A) t labs, (forall s, In s labs -> exists l, In l (legs_of h t) /\ l_name (legs h l) = NStr s) ->
  t_like (tens h t) = true -> isIsometry cj near h t labs = Ok true.
Proof. exact @isIsometry_like. Qed.
Print Assumptions C53_like.

(** checkCanonical(e) on a chain: the answer is True if all tensors before e are isometries to the right and all after e to the left,
    provided the test for identity matrices accepts identity matrices; if the test is exact, the answer is True only then.  Without an
    argument, e is the position recorded by canonicalize. *)
Theorem C53_checkCanonical : forall A (HA : SR A) (cj : A -> A) near (h : heap A) ts os env lf rt, chain h ts os env lf rt ->
  forall e chi act arg, arg = Some (Z.of_nat e) \/ arg = None /\ act = Some (Z.of_nat e) -> e < List.length ts ->
  exists b, checkCanonical cj near h (mkMps ts chi act) arg = Ok b /\
    (accepts_identity near -> canonical cj h ts lf rt e -> b = true) /\ (exact_identity near -> b = true -> canonical cj h ts lf rt e).
Proof. exact @checkCanonical_ok. Qed.
Print Assumptions C53_checkCanonical.
(** After canonicalize(i), checkCanonical() and checkCanonical(i) answer True. *)
Theorem C53_after : forall A (HA : SR A) (lib : linalg A) (cj : A -> A) near, svd_total lib -> svd_orthonormal cj lib -> accepts_identity near ->
  forall (h : heap A) ts os env i chi act, is_mps h ts os env -> i < List.length ts -> (0 <= chi)%Z ->
  exists h' m, canonicalize lib (Z.of_nat i) (mkMps ts chi act) h = (h', Ok m) /\ is_mps h' (m_ts m) os env /\
    checkCanonical cj near h' m None = Ok true /\ checkCanonical cj near h' m (Some (Z.of_nat i)) = Ok true.
Proof. exact @check_after. Qed.
Print Assumptions C53_after.
(** Without a recorded position and without an argument, or with one outside the chain, the assertion fails. *)
Theorem C53_rejected : forall A (HA : SR A) (cj : A -> A) near (h : heap A) ts chi act arg, match arg, act with
    | Some e, _ => ~ (0 <= e < Z.of_nat (List.length ts))%Z
    | None, Some e => ~ (0 <= e < Z.of_nat (List.length ts))%Z
    | None, None => True end ->
  checkCanonical cj near h (mkMps ts chi act) arg = Err AssertionError.
Proof. exact @checkCanonical_rejected. Qed.
Print Assumptions C53_rejected.

(** Non-vacuity: the chain of C47_example.  [libO] has orthonormal columns for every matrix and loses nothing in the steps of canonicalize(1);
    [libE] multiplies back for every matrix. *)
Definition libO : linalg Z := mkLinalg (fun m =>
    let r := nth 0 (ashape m) 0 in let c := nth 1 (ashape m) 0 in
    (tab [r; r] (fun x => if Nat.eqb (nth 0 x 0) (nth 1 x 0) then 1%Z else 0%Z), np_ones (Nat.min r c), tab [c; c] (fun x => if Nat.ltb (nth 0 x 0) r then aget m x else 0%Z)))
  (fun x => x) (fun x => Z.ltb 0 x).
Definition nearZ (m : arr Z) : bool :=
  let d := nth 0 (ashape m) 0 in forallb (fun p => forallb (fun q => Z.eqb (aget m [p; q]) (if Nat.eqb p q then 1 else 0)) (seq 0 d)) (seq 0 d).
Lemma nearZ_exact : exact_identity nearZ.
Proof.
  intros m d W S. unfold nearZ. rewrite S. cbn [nth]. rewrite forallb_forall. split.
  - intros H p q Hp Hq. specialize (H p). rewrite in_seq in H. specialize (H ltac:(lia)). rewrite forallb_forall in H. specialize (H q). rewrite in_seq in H. now apply Z.eqb_eq, H; lia.
  - intros H p Hp. apply in_seq in Hp. apply forallb_forall. intros q Hq. apply in_seq in Hq. apply Z.eqb_eq. apply H; lia.
Qed.
Lemma libO_total : svd_total libO.
Proof.
  intros m r c WM SM. constructor; unfold svd_u, svd_s, svd_v, libO; cbn [np_svd]; rewrite SM; cbn [nth fst snd]; (split; [|reflexivity]); try apply tab_wfa.
  unfold wfa, np_ones. cbn. rewrite repeat_length. lia.
Qed.
Lemma libO_orthonormal : svd_orthonormal (fun z => z) libO.
Proof.
  intros m r c WM SM p q Hp Hq. unfold svd_u, libO. cbn [np_svd]. rewrite SM. cbn [nth fst snd].
  rewrite (sumN_single _ _ p); [|lia|].
  - rewrite !aget_tab by (apply range2; lia). cbn [nth]. rewrite Nat.eqb_refl. change (1 * (if Nat.eqb p q then 1 else 0) = if Nat.eqb p q then 1 else 0)%Z. now destruct (Nat.eqb p q).
  - intros k Hk N. rewrite !aget_tab by (apply range2; lia). cbn [nth]. destruct (Nat.eqb_spec k p); [congruence|]. reflexivity.
Qed.
Lemma libO_wide m r c chi : wfa m -> ashape m = [r; c] -> r <= c -> (Z.of_nat r <= chi)%Z -> svd_reproduces libO m r c /\ lossless libO m (Z.to_nat (kept libO m r c chi)).
Proof.
  intros WM SM RC HC. assert (ES : svd_s libO m = np_ones r) by (unfold svd_s, libO; cbn [np_svd]; rewrite SM; cbn [nth fst snd]; f_equal; lia). split.
  - intros i j Hi Hj. rewrite Nat.min_l by auto. rewrite (sumN_single _ _ i); auto.
    + rewrite ES, ones_get by auto. unfold svd_u, svd_v, libO. cbn [np_svd]. rewrite SM. cbn [nth fst snd]. rewrite !aget_tab by (apply range2; lia). cbn [nth]. rewrite Nat.eqb_refl.
      destruct (Nat.ltb_spec i r); [|lia]. change (aget m [i; j] = 1 * (1 * aget m [i; j]))%Z. lia.
    + intros k Hk N. unfold svd_u, libO. cbn [np_svd]. rewrite SM. cbn [nth fst snd]. rewrite !aget_tab by (apply range2; lia). cbn [nth]. destruct (Nat.eqb_spec i k); [congruence|reflexivity].
  - intros i H1 H2. rewrite ES in *. exfalso. unfold np_ones in H2. cbn [adata] in H2. rewrite repeat_length in H2.
    unfold kept, above in H1. rewrite ES in H1. change (np_big libO) with (fun x => Z.ltb 0 x) in H1. rewrite ones_all in H1. lia.
Qed.
Definition chain3 : heap Z := fst (newMps [0; 1; 2] (Some 12%Z) exc).
Lemma chain3_ok : exists lf rt, chain chain3 [0; 1; 2] [1; 4; 6] [3] lf rt.
Proof.
  destruct C47_example as (_ & _ & _ & _ & _ & _ & h' & E & lf & rt & CH & _). exists lf, rt. unfold chain3. now rewrite E.
Qed.
Definition mid3 : heap Z * res mps := canonStep libO 0 1 (mkMps [0; 1; 2] 12 None) chain3.
Example C52_example : is_mps chain3 [0; 1; 2] [1; 4; 6] [3] /\ svd_total libO /\ svd_orthonormal (fun z => z) libO /\
  uncut_run libO (sweeps 3 1) (mkMps [0; 1; 2] 12 None) chain3 /\ svd_faithful libE /\ chi_suffices chain3 [1; 4; 6] 0 12 /\ exact_identity nearZ.
Proof.
  split; [exact chain3_ok|]. split; [exact libO_total|]. split; [exact libO_orthonormal|]. split; [|split; [|split; [|exact nearZ_exact]]].
  - change (sweeps 3 1) with [(0, 1); (2, 1)]%Z. cbn [uncut_run]. split; [|intros h1 m1 E1; split; [|auto]].
    + change (nothing_cut libO chain3 0 1 12).
      assert (D1 : prodn (map (dim_of chain3) (restA chain3 0 1)) = 3) by (vm_compute; reflexivity).
      assert (D2 : prodn (map (dim_of chain3) (restB chain3 0 1)) = 4) by (vm_compute; reflexivity).
      intros m [WM SM _]. revert SM. rewrite D1, D2. intros SM. apply libO_wide; [exact WM|exact SM|lia|lia].
    + assert (EH := f_equal fst E1). assert (EM := f_equal (fun r : heap Z * res mps => match snd r with Ok m => m | _ => mkMps [] 0 None end) E1). cbn [fst snd] in EH, EM. clear E1.
      rewrite <- EH, <- EM. clear EH EM. generalize (eq_refl mid3). unfold mid3 at 1. generalize (canonStep libO 0 1 (mkMps [0; 1; 2] 12 None) chain3). intros mid ->.
      intros m [WM SM _]. revert SM. 
      assert (D1 : prodn (map (dim_of (fst mid3)) (restA (fst mid3) (site match snd mid3 with Ok m => m | _ => mkMps [] 0 None end 2) (site match snd mid3 with Ok m => m | _ => mkMps [] 0 None end 1))) = 2) by (vm_compute; reflexivity).
      assert (D2 : prodn (map (dim_of (fst mid3)) (restB (fst mid3) (site match snd mid3 with Ok m => m | _ => mkMps [] 0 None end 2) (site match snd mid3 with Ok m => m | _ => mkMps [] 0 None end 1))) = 6) by (vm_compute; reflexivity).
      assert (D3 : m_chi match snd mid3 with Ok m => m | _ => mkMps [] 0 None end = 12%Z) by (vm_compute; reflexivity).
      rewrite D1, D2, D3. intros SM. apply libO_wide; [exact WM|exact SM|lia|lia].
  - intros m r c WM SM. destruct (libE_perfect m r c WM SM) as [EX LS]. split; auto. intros i j Hi Hj. rewrite (sx_eq _ _ _ _ EX i j Hi Hj). reflexivity.
  - split; intros k Hk.
    + replace k with 0 by lia. vm_compute. discriminate.
    + destruct k as [|[|[|k]]]; [lia|vm_compute; discriminate|vm_compute; discriminate|]. cbn [skipn]. rewrite skipn_nil. vm_compute. discriminate.
Qed.
(** ... and checkCanonical tells the two apart: False before canonicalize(1), True after it. *)
Example C53_example : checkCanonical (fun z => z) nearZ chain3 (mkMps [0; 1; 2] 12 None) (Some 1%Z) = Ok false /\
  match canonicalize libO 1 (mkMps [0; 1; 2] 12 None) chain3 with (h, Ok m) => checkCanonical (fun z => z) nearZ h m None | _ => Err ValueError end = Ok true /\
  split_of chain3 1 None (Some [RStr "o"; RStr "l"]%string) [3] [4; 2].
Proof.
  split; [vm_compute; reflexivity|]. split; [vm_compute; reflexivity|].
  apply (split_cols chain3 1 (map RStr ["o"; "l"]%string) [4; 2]).
  - split; [discriminate|]. right. exists ["o"; "l"]%string. split; auto. repeat constructor.
    + exists [2; 3], []. split; [reflexivity|]. split; [vm_compute; reflexivity|]. intros l [<-|[<-|[]]]; vm_compute; discriminate.
    + exists [], [3; 4]. split; [reflexivity|]. split; [vm_compute; reflexivity|]. intros l [].
  - repeat constructor; simpl; lia.
  - intros l [<-|[<-|[]]]; vm_compute; auto.
Qed.
