(** Property theorems for createMPSFromTensor: C54. *)
From Coq Require Import List Arith Bool ZArith Lia String Permutation.
From Verif Require Import Base Sums NdModel NdProofs HeapModel FuncsModel TensorModel TensorSpec ContractModel NetSpec ShareProofs NetProofs
  GroupSpec NetSameProofs SvdModel SvdSpec MpsModel MpsSpec MpsSwapProofs MpsCreateModel MpsCreateSpec MpsContractModel MpsContractSpec MatrixSchmidtProofs MpsCreateMainProofs MpsCreateRoomProofs
  ContractProps MergeLinkProps MpsProps.
Import ListNotations.
Local Open Scope list_scope.
Local Open Scope nat_scope.

(** createMPSFromTensor on a tensor with at least two legs, none of dimension 0 and no two of them linked to each other, in any network:
    if every decomposition but the last keeps a value, it is replaced by an MPS whose outgoing legs are the legs of the tensor, in their order,
    as the same objects with the same links; every bond has dimension at most chi and at most the product of the
    dimensions of the legs on either side; the other tensors, their legs and links are untouched; and if every decomposition
    is exact and discards only zeros, the value of the network is unchanged.  Otherwise the call raises ValueError. *)
Theorem C54_create : forall A (HA : SR A) (lib : linalg A), svd_total lib ->
  forall (h : heap A) t env chi data, wf_open h (t :: env) -> t_like (tens h t) = false ->
  (forall l l', In l (legs_of h t) -> In l' (legs_of h t) -> ~ linked h l l') -> 2 <= List.length (legs_of h t) ->
  (forall l, In l (legs_of h t) -> 0 < dim_of h l) -> row_major h t data ->
  let dims := map (dim_of h) (legs_of h t) in
  (ranks_positive lib chi 1 dims data -> exists h' ts lf rt,
     createMPSFromTensor lib t chi h = (h', Ok (mkMps ts (match chi with None => -1 | Some c => Z.of_nat c end)%Z None, false)) /\
     chain h' ts (legs_of h t) env lf rt /\
     (forall i, S i < List.length ts -> bounded chi (dim_of h' (rt i))) /\
     slim h' (dim_of h) (legs_of h t) rt /\ untouched h env h' /\ kept_legs h h' (legs_of h t) /\
     same_free h (t :: env) h' (ts ++ env) /\
     (splits_exact lib chi 1 dims data -> same_value h (t :: env) h' (ts ++ env))) /\
  (~ ranks_positive lib chi 1 dims data -> exists h', createMPSFromTensor lib t chi h = (h', Err ValueError)).
Proof. exact @create_ok. Qed.
Print Assumptions C54_create.

(** The entries in row-major order exist and are unique. *)
Theorem C54_entries : forall A (HA : SR A) (h : heap A) t, wf_tensor h t -> t_like (tens h t) = false -> legs_of h t <> [] ->
  exists data, row_major h t data /\ forall data', row_major h t data' -> data' = data.
Proof.
  intros A HA h t W K N. destruct (toTensor_data h t W K N) as (a & _ & _ & _ & RM). exists (adata a). split; auto.
  intros d' H. exact (row_major_unique h t _ _ (wt_nodup _ _ W) H RM).
Qed.
Print Assumptions C54_entries.

(** An exact library, a bound with room at every cut (or none) and an entry that is not 0 are enough for an MPS with the same value. *)
Theorem C54_lossless : forall A (HA : SR A) (lib : linalg A) (h : heap A) t env chi, svd_perfect lib -> wf_open h (t :: env) -> t_like (tens h t) = false ->
  (forall l l', In l (legs_of h t) -> In l' (legs_of h t) -> ~ linked h l l') -> 2 <= List.length (legs_of h t) ->
  (forall l, In l (legs_of h t) -> 0 < dim_of h l) -> nonzero h t -> room_for chi (map (dim_of h) (legs_of h t)) ->
  exists h' m lf rt, createMPSFromTensor lib t chi h = (h', Ok (m, false)) /\ chain h' (m_ts m) (legs_of h t) env lf rt /\
    same_free h (t :: env) h' (m_ts m ++ env) /\ same_value h (t :: env) h' (m_ts m ++ env).
Proof. exact @create_lossless. Qed.
Print Assumptions C54_lossless.

(** Finding: a tensor of zeros with three legs or more cannot be converted, because the first decomposition keeps nothing. *)
Theorem C54_zero : forall A (HA : SR A) (lib : linalg A) (h : heap A) t env chi, svd_total lib -> zero_small lib -> wf_open h (t :: env) -> t_like (tens h t) = false ->
  (forall l l', In l (legs_of h t) -> In l' (legs_of h t) -> ~ linked h l l') -> 3 <= List.length (legs_of h t) ->
  (forall l, In l (legs_of h t) -> 0 < dim_of h l) -> (forall s, entry h t s = r0) ->
  exists h', createMPSFromTensor lib t chi h = (h', Err ValueError).
Proof. exact @create_zero. Qed.
Print Assumptions C54_zero.

(** A tensor without legs and a TensorLike with at least two are rejected; nothing has changed. *)
Theorem C54_rejected : forall A (HA : SR A) (lib : linalg A) (h : heap A) t chi,
  legs_of h t = [] \/ (2 <= List.length (legs_of h t) /\ t_like (tens h t) = true) -> createMPSFromTensor lib t chi h = (h, Err AssertionError).
Proof. intros A HA lib h t chi [E|[L K]]; [now apply create_none|now apply create_like]. Qed.
Print Assumptions C54_rejected.

(** A tensor with one leg becomes the only site. *)
Theorem C54_one_leg : forall A (HA : SR A) (lib : linalg A) (h : heap A) t env l chi, wf_open h (t :: env) -> t_like (tens h t) = false -> t_diag (tens h t) = false ->
  legs_of h t = [l] -> ~ linked h l l ->
  exists h', createMPSFromTensor lib t chi h = (h', Ok (mkMps [t] (match chi with None => -1 | Some c => Z.of_nat c end)%Z None, false)) /\ net_same h h' /\
    chain h' [t] [l] env (fun _ => 0) (fun _ => 0) /\ same_free h (t :: env) h' ([t] ++ env) /\ same_value h (t :: env) h' ([t] ++ env).
Proof. exact @create_one. Qed.
Print Assumptions C54_one_leg.

(** Non-vacuity: tensor 1 of the network of C47 has three legs and nonzero entries; tensor 3 has one; a perfect library that finds the singular
    values of a matrix of zeros to be 0. *)
Definition libZ : linalg Z := mkLinalg (fun m =>
    let r := nth 0 (ashape m) 0 in let c := nth 1 (ashape m) 0 in
    if forallb (Z.eqb 0) (adata m) then (tab [r; r] (fun _ => 0%Z), tab [Nat.min r c] (fun _ => 0%Z), tab [c; c] (fun _ => 0%Z)) else np_svd libE m)
  (fun x => x) (fun x => Z.ltb 0 x).
Lemma all_zero (d : list Z) : forallb (Z.eqb 0) d = true <-> forall i, nth i d 0%Z = 0%Z.
Proof.
  rewrite forallb_forall. split.
  - intros H i. destruct (le_lt_dec (List.length d) i); [now apply nth_overflow|]. symmetry. apply Z.eqb_eq, H, nth_In. auto.
  - intros H x Hx. destruct (In_nth _ _ 0%Z Hx) as (i & _ & <-). now rewrite H.
Qed.
Lemma tab_zero sh i : nth i (adata (tab (A := Z) sh (fun _ => 0%Z))) 0%Z = 0%Z.
Proof.
  unfold tab. cbn [adata]. generalize (indices sh) as l. intros l. revert i. induction l; intros [|i]; auto. apply IHl.
Qed.
Lemma libZ_zero m : forallb (Z.eqb 0) (adata m) = true -> svd_u libZ m = tab [nth 0 (ashape m) 0; nth 0 (ashape m) 0] (fun _ => 0%Z) /\
  svd_s libZ m = tab [Nat.min (nth 0 (ashape m) 0) (nth 1 (ashape m) 0)] (fun _ => 0%Z) /\ svd_v libZ m = tab [nth 1 (ashape m) 0; nth 1 (ashape m) 0] (fun _ => 0%Z).
Proof. intros E. unfold svd_u, svd_s, svd_v, libZ. cbn [np_svd]. rewrite E. auto. Qed.
Lemma libZ_other m : forallb (Z.eqb 0) (adata m) = false -> svd_u libZ m = svd_u libE m /\ svd_s libZ m = svd_s libE m /\ svd_v libZ m = svd_v libE m.
Proof. intros E. unfold svd_u, svd_s, svd_v, libZ. cbn [np_svd]. rewrite E. auto. Qed.
Lemma aget_zero m idx : (forall i, nth i (adata m) 0%Z = 0%Z) -> aget (A := Z) m idx = 0%Z.
Proof. intros H. apply H. Qed.
Lemma libZ_perfect : svd_perfect libZ.
Proof.
  intros m r c WM SM. destruct (forallb (Z.eqb 0) (adata m)) eqn:E.
  - destruct (libZ_zero m E) as (EU & ES & EV). rewrite SM in EU, ES, EV. cbn [nth] in EU, ES, EV. split.
    + constructor.
      * constructor; [rewrite EU|rewrite ES|rewrite EV]; (split; [apply tab_wfa|reflexivity]).
      * intros i j Hi Hj. rewrite (aget_zero m [i; j] (proj1 (all_zero _) E)). symmetry. rewrite (sumN_ext _ _ (fun _ => r0)); [exact (sumL_0 (A := Z) (seq 0 (Nat.min r c)))|].
        intros k Hk. rewrite ES, (aget_zero (tab [Nat.min r c] _)) by apply tab_zero. cbn. lia.
      * intros k Hk. rewrite ES, (aget_zero (tab [Nat.min r c] _)) by apply tab_zero. reflexivity.
    + intros i _ _. rewrite ES. apply tab_zero.
  - destruct (libZ_other m E) as (EU & ES & EV). destruct (libE_perfect m r c WM SM) as (X1 & X2). split.
    + destruct X1 as [[U1 U2 U3] X Y]. constructor; [constructor; [rewrite EU|rewrite ES|rewrite EV]; auto|..].
      * intros i j Hi Hj. rewrite EU, ES, EV. now apply X.
      * intros k Hk. rewrite ES. now apply Y.
    + unfold lossless, above in *. rewrite ES. exact X2.
Qed.
Lemma libZ_small : zero_small libZ.
Proof.
  intros m r c WM SM Z. unfold above. apply all_zero in Z. destruct (libZ_zero m Z) as (_ & -> & _). unfold tab. cbn [adata].
  generalize (indices [Nat.min (nth 0 (ashape m) 0) (nth 1 (ashape m) 0)]) as l. intros l. induction l; auto.
Qed.

Example C54_example : svd_perfect libZ /\ zero_small libZ /\ wf_open exc (1 :: [0; 2; 3]) /\ legs_of exc 1 = [2; 3; 4] /\ t_like (tens exc 1) = false /\
  (forall l l', In l (legs_of exc 1) -> In l' (legs_of exc 1) -> ~ linked exc l l') /\ (forall l, In l (legs_of exc 1) -> 0 < dim_of exc l) /\
  row_major exc 1 [1; 2; 3; 4; 5; 6; 7; 8]%Z /\ ranks_positive libZ (Some 2) 1 [2; 2; 2] [1; 2; 3; 4; 5; 6; 7; 8]%Z /\ 
  ~ ranks_positive libZ (Some 0) 1 [2; 2; 2] [1; 2; 3; 4; 5; 6; 7; 8]%Z /\ nonzero exc 1 /\ room_for (Some 2) [2; 2; 2] /\
  wf_open exc (3 :: [0; 1; 2]) /\ legs_of exc 3 = [7] /\ ~ linked exc 7 7 /\
  (exists h' m, createMPSFromTensor libZ 1 (Some 2) exc = (h', Ok (m, false)) /\ m_ts m = [4; 5; 6] /\ map (legs_of h') [4; 5; 6] = [[2; 8]; [9; 3; 10]; [11; 4]]).
Proof.
  split; [exact libZ_perfect|]. split; [exact libZ_small|].
  split. { eapply wf_open_perm; [|exact exc_open]. cbn [app]. apply perm_swap. }
  split; [reflexivity|]. split; [reflexivity|].
  split. { intros l l' Hl Hl' LK. assert (l < 8) by (enum Hl; lia). apply exc_linked in LK; auto. subst l'. enum Hl; cbv in Hl'; intuition lia. }
  split. { intros l Hl. enum Hl; vm_compute; lia. }
  split. { split; [reflexivity|]. intros s B. assert (B2 := B 2 (or_introl eq_refl)). assert (B3 := B 3 (or_intror (or_introl eq_refl))). assert (B4 := B 4 (or_intror (or_intror (or_introl eq_refl)))).
    change (dim_of exc 2) with 2 in B2. change (dim_of exc 3) with 2 in B3. change (dim_of exc 4) with 2 in B4.
    change (entry exc 1 s) with (aget (mkArr [2; 2; 2] (map Z.of_nat (seq 1 8))) [s 2; s 3; s 4]). change (legs_of exc 1) with [2; 3; 4]. cbn [map]. change (dim_of exc 2) with 2. change (dim_of exc 3) with 2. change (dim_of exc 4) with 2.
    generalize dependent (s 2). generalize dependent (s 3). generalize dependent (s 4). clear. intros a Ha b Hb c Hc.
    destruct a as [|[|a]]; [| |lia]; (destruct b as [|[|b]]; [| |lia]); (destruct c as [|[|c]]; [| |lia]); reflexivity. }
  split. { vm_compute. lia. } split. { vm_compute. lia. }
  split. { exists (fun _ => 0). split; [|vm_compute; discriminate]. intros l Hl. enum Hl; vm_compute; lia. }
  split. { intros pre post E. destruct pre as [|? [|? [|? [|? pre]]]]; try discriminate E; cbn [app] in E; try (injection E; intros; subst); subst; vm_compute; lia. }
  split. { eapply wf_open_perm; [|exact exc_open]. symmetry. exact (Permutation_middle [0; 1; 2] [] 3). }
  split; [reflexivity|]. split. { intros LK. apply exc_linked in LK; [discriminate|lia]. }
  assert (X : exists h' m, createMPSFromTensor libZ 1 (Some 2) exc = (h', Ok (m, false)) /\ m_ts m = [4; 5; 6] /\ map (legs_of h') [4; 5; 6] = [[2; 8]; [9; 3; 10]; [11; 4]]); [|exact X].
  destruct (createMPSFromTensor libZ 1 (Some 2) exc) as (h', [(m, w)|e]) eqn:E.
  - exists h', m. assert (V : snd (createMPSFromTensor libZ 1 (Some 2) exc) = Ok (mkMps [4; 5; 6] 2 None, false)) by (vm_compute; reflexivity).
    rewrite E in V. cbn [snd] in V. injection V as -> ->. split; [reflexivity|]. split; [reflexivity|].
    assert (V : map (legs_of (fst (createMPSFromTensor libZ 1 (Some 2) exc))) [4; 5; 6] = [[2; 8]; [9; 3; 10]; [11; 4]]) by (vm_compute; reflexivity).
    rewrite E in V. exact V.
  - assert (V : snd (createMPSFromTensor libZ 1 (Some 2) exc) = Ok (mkMps [4; 5; 6] 2 None, false)) by (vm_compute; reflexivity). rewrite E in V. discriminate V.
Qed.
