(** Property theorems for FreeBoundaryMPS: C47 and C50. *)
From Coq Require Import List Arith Bool ZArith Lia String Permutation.
From Verif Require Import Base Sums NdModel NdProofs HeapModel FuncsModel TensorModel TensorSpec ContractModel NetSpec ShareProofs NetProofs
  GroupSpec NetSameProofs SvdModel SvdSpec SchmidtSpec MpsModel MpsSpec MpsNewProofs MpsMoveProofs ContractProps MergeLinkProps.
Import ListNotations.
Local Open Scope list_scope.
Local Open Scope nat_scope.

(** moveTensor(i, j): the outgoing leg at position i is taken out and put back at position j (so the ones in between shift by one and keep
    their order), whatever the decompositions are; all outgoing legs are the same objects; only the bonds in between are new, each of
    dimension at most chi.  If no step loses anything - in particular if the decompositions are exact and chi has room - the value of the
    whole network is unchanged. *)
Theorem C47_move : forall A (HA : SR A) (lib : linalg A), svd_total lib ->
  forall (h : heap A) ts os env lf rt i j chi act, chain h ts os env lf rt -> i < List.length ts -> j < List.length ts -> (0 <= chi)%Z ->
  exists h' ts' lf' rt', moveTensor lib (Z.of_nat i) (Z.of_nat j) (mkMps ts chi act) h = (h', Ok (mkMps ts' chi (if Nat.eqb i j then act else None))) /\
    moved h ts os env lf rt (Nat.min i j) (Nat.max i j) chi h' ts' (relocate i j os) lf' rt' /\
    (i = j -> h' = h /\ ts' = ts) /\
    (lossless_run lib (moves i j) (mkMps ts chi act) h \/ (svd_perfect lib /\ roomy h ts os rt i chi) -> same_value h (ts ++ env) h' (ts' ++ env)).
Proof. exact @move_ok. Qed.
Print Assumptions C47_move.

(** the positions of the elements after [relocate] *)
Theorem C47_positions : forall X (l : list X) i j d k, i < List.length l -> j < List.length l ->
  nth k (relocate i j l) d =
    if Nat.eqb k j then nth i l d else if Nat.leb i k && Nat.ltb k j then nth (S k) l d else if Nat.ltb j k && Nat.leb k i then nth (k - 1) l d else nth k l d.
Proof. exact @relocate_nth. Qed.
Print Assumptions C47_positions.

(** makeAdjacent(i, j) with i < j (or exchanged): the leg at i moves to j - 1, the one at j stays, and (j - 1, j) is returned. *)
Theorem C47_adjacent : forall A (HA : SR A) (lib : linalg A), svd_total lib ->
  forall (h : heap A) ts os env lf rt i j chi act, chain h ts os env lf rt -> i < List.length ts -> j < List.length ts -> i <> j -> (0 <= chi)%Z ->
  let p := Nat.min i j in let q := Nat.max i j in
  exists h' ts' lf' rt' act', makeAdjacent lib (Z.of_nat i) (Z.of_nat j) (mkMps ts chi act) h = (h', Ok (mkMps ts' chi act', Z.of_nat q - 1, Z.of_nat q)%Z) /\
    moved h ts os env lf rt p (q - 1) chi h' ts' (relocate p (q - 1) os) lf' rt' /\
    nth (q - 1) (relocate p (q - 1) os) 0 = nth p os 0 /\ nth q (relocate p (q - 1) os) 0 = nth q os 0 /\
    (lossless_run lib (moves p (q - 1)) (mkMps ts chi act) h \/ (svd_perfect lib /\ roomy h ts os rt p chi) -> same_value h (ts ++ env) h' (ts' ++ env)).
Proof. exact @adjacent_ok. Qed.
Print Assumptions C47_adjacent.

(** Positions outside the chain are rejected (for makeAdjacent also equal ones); nothing has changed. *)
Theorem C47_rejected : forall A (HA : SR A) (lib : linalg A) (h : heap A) ts chi act i j,
  (~ ((0 <= i < Z.of_nat (List.length ts)) /\ (0 <= j < Z.of_nat (List.length ts)))%Z -> moveTensor lib i j (mkMps ts chi act) h = (h, Err AssertionError)) /\
  (~ ((0 <= i < Z.of_nat (List.length ts)) /\ (0 <= j < Z.of_nat (List.length ts)))%Z \/ i = j -> makeAdjacent lib i j (mkMps ts chi act) h = (h, Err AssertionError)).
Proof. intros. split; [now apply move_rejected|now apply adjacent_rejected]. Qed.
Print Assumptions C47_rejected.

(** With a negative bound every real movement fails with ValueError. *)
Theorem C47_negative : forall A (HA : SR A) (lib : linalg A), svd_total lib ->
  forall (h : heap A) ts os env i j chi act, is_mps h ts os env -> i < List.length ts -> j < List.length ts -> (chi < 0)%Z ->
  (i <> j -> exists h', moveTensor lib (Z.of_nat i) (Z.of_nat j) (mkMps ts chi act) h = (h', Err ValueError)) /\
  (S i < j \/ S j < i -> exists h', makeAdjacent lib (Z.of_nat i) (Z.of_nat j) (mkMps ts chi act) h = (h', Err ValueError)).
Proof. intros A HA lib ST h ts os env i j chi act (lf & rt & CH) Hi Hj HC. split; intros H; [eapply move_negative|eapply adjacent_negative]; eauto. Qed.
Print Assumptions C47_negative.

(** The chains of these theorems are those the constructor makes: on a list of well-formed dense tensors of the right shape without further
    links it succeeds, changes only names, and leaves a chain. *)
Theorem C47_constructor : forall A (h : heap A) ts env chi, wf_open h (ts ++ env) -> mps_shape h ts -> no_other_links h ts ->
  (forall t, In t ts -> t_diag (tens h t) = false /\ t_like (tens h t) = false) ->
  exists h' m w os, newMps ts chi h = (h', Ok (m, w)) /\ m_ts m = ts /\ net_same h h' /\ mps_named h ts h' /\ is_mps h' ts os env.
Proof. exact @new_is_mps. Qed.
Print Assumptions C47_constructor.

(** The constructor accepts a list of well-formed tensors exactly if it has the demanded shape. *)
Theorem C47_shape : forall A (h : heap A) ts chi, wf_net h ts ->
  (mps_shape h ts -> exists h' m w, newMps ts chi h = (h', Ok (m, w)) /\ m_ts m = ts /\ net_same h h' /\ mps_named h ts h') /\
  (~ mps_shape h ts -> exists h', newMps ts chi h = (h', Err ValueError) /\ only_bonds h h').
Proof. exact @new_shape. Qed.
Print Assumptions C47_shape.

(** getChi on neighbours that share bonds: -1 without a requested chi; the warning is issued (and -1 returned) exactly for a requested chi below -1,
    whatever the dimensions of the bonds are. *)
Theorem C50_chi : forall A (h : heap A) ts chi, wf_net h ts ->
  (forall i, S i < List.length ts -> shared h (nth i ts 0) (nth (S i) ts 0) <> []) ->
  exists h', only_bonds h h' /\ 
    getChi ts chi h = (h', Ok (match chi with None => (-1, false) | Some c => if Z.ltb c (-1) then (-1, true) else (c, false) end)%Z).
Proof. exact @getChi_ok. Qed.
Print Assumptions C50_chi.

(** So an MPS made without chi has the bound -1, and its sites cannot be moved. *)
Theorem C50_default : forall A (HA : SR A) (lib : linalg A), svd_total lib ->
  forall (h : heap A) ts env, wf_open h (ts ++ env) -> mps_shape h ts -> no_other_links h ts ->
  (forall t, In t ts -> t_diag (tens h t) = false /\ t_like (tens h t) = false) ->
  exists h' m, newMps ts None h = (h', Ok (m, false)) /\ m_ts m = ts /\ m_chi m = (-1)%Z /\
    forall i j, i < List.length ts -> j < List.length ts -> i <> j -> exists h2, moveTensor lib (Z.of_nat i) (Z.of_nat j) m h' = (h2, Err ValueError).
Proof. exact @default_chi. Qed.
Print Assumptions C50_default.

(** Non-vacuity: a chain of the tensors 0, 1, 2 with a further tensor 3 at the outgoing leg of 1, and an exact decomposition of all matrices. *)
Definition exc : heap Z :=
  mkHeap (fun l => nth l [mkLeg (Some 0) 2 (NStr "a") (Some 0); mkLeg (Some 0) 3 (NStr "b") None;
                          mkLeg (Some 1) 2 (NStr "c") (Some 0); mkLeg (Some 1) 2 (NStr "d") (Some 1); mkLeg (Some 1) 2 (NStr "e") (Some 2);
                          mkLeg (Some 2) 2 (NStr "f") (Some 1); mkLeg (Some 2) 2 (NStr "g") None;
                          mkLeg (Some 3) 2 (NStr "h") (Some 2)]
                         (mkLeg None 0 NNone None))
         (fun b => nth b [mkBond 0 2; mkBond 3 5; mkBond 4 7] (mkBond 0 0))
         (fun t => match t with
                   | 0 => mkTensor [0; 1] (Some (mkArr [2; 3] (map Z.of_nat (seq 0 6)))) false false 0 None
                   | 1 => mkTensor [2; 3; 4] (Some (mkArr [2; 2; 2] (map Z.of_nat (seq 1 8)))) false false 0 None
                   | 2 => mkTensor [5; 6] (Some (mkArr [2; 2] [1; 2; 3; 5]%Z)) false false 0 None
                   | _ => mkTensor [7] (Some (mkArr [2] [1; 3]%Z)) false false 0 None
                   end)
         8 3 4 (fun _ => 0%Z) 0.
Definition exc_part (l : nat) : nat := nth l [2; 0; 0; 5; 7; 3; 0; 4] 0.
Lemma exc_wf t : t < 4 -> wf_tensor exc t.
Proof.
  intros Ht. destruct t as [|[|[|[|t]]]]; [| | | |lia]; clear Ht; apply Build_wf_tensor.
  all: try (simpl; lia).
  all: try (unfold legs_of; simpl; repeat constructor; simpl; intuition lia).
  all: try (intros l Hl; unfold legs_of in Hl; enum Hl; simpl; lia).
  all: try discriminate.
  all: try (now repeat split).
Qed.
Lemma exc_bond l b : l < 8 -> l_bond (legs exc l) = Some b -> b < 3 /\ ends exc b l (exc_part l) /\ l_bond (legs exc (exc_part l)) = Some b /\
  dim_of exc l = dim_of exc (exc_part l) /\ exc_part l < 8.
Proof.
  intros Hl Eb. do 8 (destruct l as [|l]; [simpl in Eb; first [discriminate Eb|injection Eb as <-; split; [lia|split; [first [now left|now right]|split; [reflexivity|split; [reflexivity|vm_compute; lia]]]]]|]). lia.
Qed.
Lemma exc_linked l l' : l < 8 -> linked exc l l' -> l' = exc_part l.
Proof. intros Hl (b & Eb & K). destruct (exc_bond l b Hl Eb) as (_ & E & _). apply (linked_fun exc l); exists b; auto. Qed.
Lemma exc_open : wf_open exc ([0; 1; 2] ++ [3]).
Proof.
  assert (AL : forall l, In l (all_legs exc [0; 1; 2; 3]) -> l < 8) by (intros l Hl; enum Hl; lia).
  constructor; [constructor|..].
  - intros t Ht. apply exc_wf. enum Ht; lia.
  - intros t Ht l Hl. enum Ht; enum Hl; reflexivity.
  - nd.
  - nd.
  - intros l b Hl Eb. exists (exc_part l). destruct (exc_bond l b (AL l Hl) Eb) as (_ & X & Y & Z & _). auto.
  - intros l b Hl Eb. apply (exc_bond l b (AL l Hl) Eb).
  - intros l l' Hl Lk. rewrite (exc_linked l l' (AL l Hl) Lk). destruct Lk as (b & Eb & _). apply (exc_bond l b (AL l Hl) Eb).
Qed.

Definition libE : linalg Z := mkLinalg (fun m =>
    let r := nth 0 (ashape m) 0 in let c := nth 1 (ashape m) 0 in
    let one := fun n => tab [n; n] (fun x => if Nat.eqb (nth 0 x 0) (nth 1 x 0) then 1%Z else 0%Z) in
    if Nat.leb r c then (one r, np_ones r, tab [c; c] (fun x => if Nat.ltb (nth 0 x 0) r then aget m x else 0%Z))
    else (tab [r; r] (fun x => if Nat.ltb (nth 1 x 0) c then aget m x else 0%Z), np_ones c, one c))
  (fun x => x) (fun x => Z.ltb 0 x).
Lemma ones_get n k : k < n -> aget (np_ones n) [k] = 1%Z.
Proof.
  intros H. unfold aget, np_ones. cbn [ashape adata ravel prodn fold_right]. rewrite Nat.mul_1_r, Nat.add_0_r. revert k H.
  induction n; intros k H; [lia|]. destruct k; [reflexivity|]. cbn [repeat nth]. apply IHn. lia.
Qed.
Lemma ones_all n : List.length (filter (fun x => Z.ltb 0 x) (adata (np_ones (A := Z) n))) = n.
Proof. unfold np_ones. cbn [adata]. induction n; [reflexivity|]. exact (f_equal S IHn). Qed.
Lemma range2 n m i j : i < n -> j < m -> inrange [n; m] [i; j].
Proof. intros. repeat constructor; auto. Qed.
Lemma libE_perfect : svd_perfect libE.
Proof.
  intros m r c WM SM. unfold svd_perfect. assert (ES : svd_s libE m = np_ones (Nat.min r c)).
  { unfold svd_s, libE. cbn [np_svd]. rewrite SM. cbn [nth]. destruct (Nat.leb_spec r c); cbn [fst snd]; f_equal; lia. }
  split.
  - constructor.
    + constructor; [|rewrite ES; split; [unfold wfa, np_ones; cbn; rewrite repeat_length; lia|reflexivity]|];
      unfold svd_u, svd_v, libE; cbn [np_svd]; rewrite SM; cbn [nth]; destruct (Nat.leb r c); cbn [fst snd]; (split; [apply tab_wfa|reflexivity]).
    + intros i j Hi Hj. unfold svd_u, svd_v. rewrite (sumN_ext (Nat.min r c) _ (fun k => rmul (aget (svd_u libE m) [i; k]) (aget (svd_v libE m) [k; j]))).
      2:{ intros k Hk. rewrite ES, ones_get by auto. unfold svd_u, svd_v. f_equal. apply Z.mul_1_l. }
      unfold svd_u, svd_v, libE. cbn [np_svd]. rewrite SM. cbn [nth]. destruct (Nat.leb_spec r c) as [LE|GT]; cbn [fst snd].
      * rewrite (sumN_single _ _ i); [|lia|].
        { rewrite !aget_tab by (apply range2; lia). cbn [nth]. rewrite Nat.eqb_refl. destruct (Nat.ltb_spec i r); [|lia]. symmetry. apply Z.mul_1_l. }
        { intros k Hk N. rewrite !aget_tab by (apply range2; lia). cbn [nth]. destruct (Nat.eqb_spec i k); [congruence|reflexivity]. }
      * rewrite (sumN_single _ _ j); [|lia|].
        { rewrite !aget_tab by (apply range2; lia). cbn [nth]. rewrite Nat.eqb_refl. destruct (Nat.ltb_spec j c); [|lia]. symmetry. apply Z.mul_1_r. }
        { intros k Hk N. rewrite !aget_tab by (apply range2; lia). cbn [nth]. destruct (Nat.eqb_spec k j); [congruence|]. apply Z.mul_0_r. }
    + intros k Hk. rewrite ES, ones_get by auto. reflexivity.
  - intros i H1 H2. unfold above in H1. rewrite ES in *. change (np_big libE) with (fun x => Z.ltb 0 x) in H1. rewrite ones_all in H1.
    unfold np_ones in H2. cbn [adata] in H2. rewrite repeat_length in H2. lia.
Qed.

Example C47_example : wf_open exc ([0; 1; 2] ++ [3]) /\ mps_shape exc [0; 1; 2] /\ no_other_links exc [0; 1; 2] /\
  (forall t, In t [0; 1; 2] -> t_diag (tens exc t) = false /\ t_like (tens exc t) = false) /\
  svd_perfect libE /\ svd_total libE /\
  exists h', newMps [0; 1; 2] (Some 12%Z) exc = (h', Ok (mkMps [0; 1; 2] 12 None, false)) /\
   exists lf rt, chain h' [0; 1; 2] [1; 4; 6] [3] lf rt /\ roomy h' [0; 1; 2] [1; 4; 6] rt 0 12 /\
   relocate 0 2 [1; 4; 6] = [4; 6; 1].
Proof.
  assert (SH : mps_shape exc [0; 1; 2]).
  { split; [discriminate|]. split; [intros [|[|i]] Hi; [reflexivity|reflexivity|simpl in Hi; lia]|]. split; [intros _; split; reflexivity|].
    intros [|[|i]] H0 Hi; [lia|reflexivity|simpl in Hi; lia]. }
  assert (NO : no_other_links exc [0; 1; 2]).
  { split; [|split].
    - intros i j Hi Hj. simpl in Hj. assert (i = 0 /\ j = 2) as [-> ->] by lia. reflexivity.
    - intros t l l' Ht Hl Hl' LK. assert (l < 8) by (enum Ht; enum Hl; lia). assert (LK' := LK). apply exc_linked in LK; auto. subst l'.
      destruct LK' as (b & Eb & _). enum Ht; enum Hl; try discriminate Eb; cbv in Hl'; intuition lia.
    - discriminate. }
  split; [exact exc_open|]. split; [exact SH|]. split; [exact NO|]. split; [intros t Ht; enum Ht; auto|]. split; [exact libE_perfect|].
  split; [intros m r c WM SM; apply (sx_shape _ _ _ _ (proj1 (libE_perfect m r c WM SM)))|].
  destruct (C47_shape Z exc [0; 1; 2] (Some 12%Z) (sub_net exc [0; 1; 2] [3] exc_open)) as [CS _]. destruct (CS SH) as (h' & m & w & E & ET & NS & MN). exists h'.
  split. { rewrite E. f_equal. apply (f_equal snd) in E. cbn [snd] in E. rewrite <- E. vm_compute. reflexivity. }
  exists (fun i => nth i [0; 2; 5] 0), (fun i => nth i [0; 3; 0] 0). split; [|split; [|reflexivity]].
  - constructor.
    + reflexivity.
    + apply (ns_wf_open _ _ NS). exact exc_open.
    + intros t Ht. rewrite (ns_tens _ _ NS). enum Ht; auto.
    + intros i Hi. rewrite (ns_legs_of _ _ NS). destruct i as [|[|[|i]]]; [reflexivity|reflexivity|reflexivity|simpl in Hi; lia].
    + intros i Hi. apply (mn_o _ _ _ MN); destruct i as [|[|[|i]]]; simpl in Hi; try lia; vm_compute; intuition lia.
    + intros i Hi. apply (mn_l _ _ _ MN). destruct i as [|[|i]]; simpl in Hi; try lia; vm_compute; intuition lia.
    + intros i Hi. apply (mn_r _ _ _ MN). destruct i as [|[|i]]; simpl in Hi; try lia; vm_compute; intuition lia.
    + intros i Hi. apply (ns_linked _ _ NS). destruct i as [|[|i]]; simpl in Hi; try lia; [exists 0|exists 1]; (split; [reflexivity|now left]).
    + intros l l' Hl Hl' LK. apply (ns_linked _ _ NS) in LK. assert (LK' := LK). rewrite (ns_all _ _ NS) in Hl'. assert (l < 8) by (enum Hl; lia). apply exc_linked in LK; auto. subst l'.
      destruct LK' as (b & Eb & _). enum Hl; try discriminate Eb; cbv in Hl'; intuition lia.
  - split; [rewrite (ns_dim _ _ NS); vm_compute; discriminate|]. intros k Hk. rewrite !(ns_dim _ _ NS). destruct k as [|[|k]]; simpl in Hk; try lia; vm_compute; discriminate.
Qed.
Example C50_example : (forall i, S i < 3 -> shared exc (nth i [0; 1; 2] 0) (nth (S i) [0; 1; 2] 0) <> []) /\ 
  snd (getChi [0; 1; 2] (Some 1%Z) exc) = Ok (1%Z, false) /\ dim_of exc 0 = 2.
Proof. split; [|split; reflexivity]. intros [|[|i]] Hi; [discriminate|discriminate|lia]. Qed.
