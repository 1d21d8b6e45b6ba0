(** Property theorems for doubleMerge, doubleMergeByBond and mergeMPS: C56. *)
From Coq Require Import List Arith Bool ZArith Lia String Permutation.
From Verif Require Import Base Sums NdModel NdProofs HeapModel FuncsModel TensorModel TensorSpec ContractModel NetSpec ShareProofs NetProofs
  GroupSpec GroupProofs SvdModel SvdSpec MpsModel MpsSpec MpsContractModel MpsContractSpec MpsDoubleSpec MpsDoubleMainProofs MpsBondProofs MpsMergeProofs RankLibProofs
  ContractProps.
Import ListNotations.
Local Open Scope list_scope.
Local Open Scope nat_scope.

(** doubleMerge at two neighbouring sites of each of two MPSes whose outgoing legs are linked to each other, straight or crossed, in any closed network: the two bonds
    have become one, between a new outgoing leg of either MPS; both are MPSes again, within their bounds; the other outgoing legs and the rest of the network are
    as before.  With a decomposition that finds the rank the new bond is no larger than the two it replaces.  With an exact decomposition and bounds that leave room
    for the other outgoing legs, the value of the network is unchanged. *)
Theorem C56_double : forall A (HA : SR A) (lib : linalg A), svd_total lib -> forall (h : heap A) XA YA XB YB e a1 a2 b1 b2 XO YO PO QO x1 x2 y1 y2 lfA rtA lfB rtB chia chib acta actb,
  let tsA := XA ++ [a1; a2] ++ YA in let tsB := XB ++ [b1; b2] ++ YB in
  chain h tsA (XO ++ [x1; x2] ++ YO) (tsB ++ e) lfA rtA -> chain h tsB (PO ++ [y1; y2] ++ QO) (tsA ++ e) lfB rtB -> closed h (tsA ++ tsB ++ e) ->
  List.length XO = List.length XA -> List.length PO = List.length XB ->
  linked h x1 y1 /\ linked h x2 y2 \/ linked h x1 y2 /\ linked h x2 y1 ->
  bonds_positive h tsA rtA -> bonds_positive h tsB rtB -> (0 <= chia)%Z -> (0 <= chib)%Z ->
  exists h' tsA' tsB' x y bd,
    doubleMerge lib (mkMps tsA chia acta) (mkMps tsB chib actb) (Z.of_nat (List.length XA)) (Z.of_nat (List.length XB)) h = (h', Ok (mkMps tsA' chia None, mkMps tsB' chib None, bd)) /\
    doubled h tsA tsB e XO YO PO QO x1 x2 y1 y2 rtA rtB chia chib h' tsA' tsB' x y bd /\
    (svd_rank lib -> dim_of h' x <= dim_of h x1 * dim_of h x2) /\
    (svd_perfect lib -> ends_fit h XO YO chia -> ends_fit h PO QO chib ->
     (Z.of_nat (prodn (map (dim_of h) (XO ++ YO))) <= Z.min chia chib)%Z \/ (Z.of_nat (prodn (map (dim_of h) (PO ++ QO))) <= Z.min chia chib)%Z ->
     same_value h (tsA ++ tsB ++ e) h' (tsA' ++ tsB' ++ e)).
Proof. exact @double_merge. Qed.
Print Assumptions C56_double.

(** doubleMergeByBond, with an exact decomposition that finds the rank, of two bonds between two MPSes with room for everything: wherever the sites are, the two bonds
    are replaced by one, and the value of the network is unchanged. *)
Theorem C56_bond : forall A (HA : SR A) (lib : linalg A), svd_perfect lib -> svd_rank lib ->
  forall (h : heap A) tsA tsB e osA osB q chia chib acta actb RA RB x1 x2 y1 y2 bd1 bd2,
  exact_pair h tsA tsB e osA osB q (Z.min chia chib) ->
  Permutation osA (x1 :: x2 :: RA) -> Permutation osB (y1 :: y2 :: RB) -> linked h x1 y1 -> linked h x2 y2 -> l_bond (legs h x1) = Some bd1 -> l_bond (legs h x2) = Some bd2 ->
  exists h' tsA' tsB' osA' osB' x y bd q', doubleMergeByBond lib (mkMps tsA chia acta) (mkMps tsB chib actb) bd1 bd2 h = (h', Ok (mkMps tsA' chia None, mkMps tsB' chib None, bd)) /\
    merged h tsA tsB e osA osB RA RB q (Z.min chia chib) h' tsA' tsB' osA' osB' q' x y bd.
Proof. exact @by_bond. Qed.
Print Assumptions C56_bond.

(** A bond that does not lead from one MPS to the other is refused; nothing has changed. *)
Theorem C56_stray : forall A (HA : SR A) (lib : linalg A) (h : heap A) a b bd bd2,
  (forall x y, ends h bd x y -> In (l_tensor (legs h x)) (map Some (m_ts a)) -> ~ In (l_tensor (legs h y)) (map Some (m_ts b))) ->
  doubleMergeByBond lib a b bd bd2 h = (h, Err AssertionError).
Proof. exact @stray_bond. Qed.
Print Assumptions C56_stray.

(** mergeMPS of two MPSes with room for everything that share two bonds, or any number of bonds if begin is set: afterwards they share exactly one, and the value
    of the network is unchanged. *)
Theorem C56_merge : forall A (HA : SR A) (lib : linalg A), svd_perfect lib -> svd_rank lib -> forall (h : heap A) tsA tsB e osA osB q chia chib acta actb begin,
  exact_pair h tsA tsB e osA osB q (Z.min chia chib) -> let P := pairs_between h osA osB in 2 <= List.length P -> (begin = true \/ List.length P = 2) ->
  exists h' tsA' tsB' osA' osB' x y bd q', 
    mergeMPS lib (OMps (mkMps tsA chia acta)) (OMps (mkMps tsB chib actb)) begin h = (h', Ok (OMps (mkMps tsA' chia None), OMps (mkMps tsB' chib None))) /\
    merged h tsA tsB e osA osB (others osA (map fst P)) (others osB (map snd P)) q (Z.min chia chib) h' tsA' tsB' osA' osB' q' x y bd /\
    pairs_between h' osA' osB' = [(x, y)].
Proof. exact @merge_mps. Qed.
Print Assumptions C56_merge.

(** With at most one common bond nothing happens. *)
Theorem C56_few : forall A (HA : SR A) (lib : linalg A) (h : heap A) tsA tsB e osA osB lfA rtA lfB rtB chia chib acta actb begin,
  chain h tsA osA (tsB ++ e) lfA rtA -> chain h tsB osB (tsA ++ e) lfB rtB -> closed h (tsA ++ tsB ++ e) -> List.length (pairs_between h osA osB) <= 1 ->
  mergeMPS lib (OMps (mkMps tsA chia acta)) (OMps (mkMps tsB chib actb)) begin h = (h, Ok (OMps (mkMps tsA chia acta), OMps (mkMps tsB chib actb))).
Proof. exact @merge_few. Qed.
Print Assumptions C56_few.

(** Three common bonds or more, without begin: AssertionError, and nothing has changed. *)
Theorem C56_refused : forall A (HA : SR A) (lib : linalg A) (h : heap A) tsA tsB e osA osB lfA rtA lfB rtB chia chib acta actb,
  chain h tsA osA (tsB ++ e) lfA rtA -> chain h tsB osB (tsA ++ e) lfB rtB -> closed h (tsA ++ tsB ++ e) -> 2 < List.length (pairs_between h osA osB) ->
  mergeMPS lib (OMps (mkMps tsA chia acta)) (OMps (mkMps tsB chib actb)) false h = (h, Err AssertionError).
Proof. exact @merge_refused. Qed.
Print Assumptions C56_refused.

(** Non-vacuity: an MPS of three sites and one of two, with all dimensions 2.  The first and the last leg of the one are linked to the two legs of the other; the middle
    leg is free. *)
Definition exm : heap bool :=
  mkHeap (fun l => mkLeg (Some (nth l [0; 0; 1; 1; 1; 2; 2; 3; 3; 4; 4] 0)) 2 (NStr (nth l ["r"; "o"; "l"; "r"; "o"; "l"; "o"; "r"; "o"; "l"; "o"] "x")%string)
           (nth l [Some 0; Some 3; Some 0; Some 1; None; Some 1; Some 4; Some 2; Some 3; Some 2; Some 4] None))
         (fun b => nth b [mkBond 0 2; mkBond 3 5; mkBond 7 9; mkBond 1 8; mkBond 6 10] (mkBond 0 0))
         (fun t => let ls := nth t [[0; 1]; [2; 3; 4]; [5; 6]; [7; 8]; [9; 10]] [] in
                   mkTensor ls (Some (tab (map (fun _ => 2) ls) (fun _ => true))) false false 0 None)
         11 5 5 (fun _ => false) 0.
Definition exm_part (l : nat) : nat := nth l [2; 8; 0; 5; 0; 3; 10; 9; 1; 7; 6] 0.
Lemma exm_wf t : t < 5 -> wf_tensor exm t.
Proof.
  intros Ht. destruct t as [|[|[|[|[|t]]]]]; [| | | | |lia]; clear Ht; apply Build_wf_tensor.
  all: try (simpl; lia).
  all: try (unfold legs_of; simpl; repeat constructor; simpl; intuition lia).
  all: try (intros l Hl; unfold legs_of in Hl; enum Hl; simpl; lia).
  all: try discriminate.
  all: try (now repeat split).
Qed.
Lemma exm_bond l b : l < 11 -> l_bond (legs exm l) = Some b -> b < 5 /\ ends exm b l (exm_part l) /\ l_bond (legs exm (exm_part l)) = Some b /\
  dim_of exm l = dim_of exm (exm_part l) /\ exm_part l < 11.
Proof.
  intros Hl Eb. do 11 (destruct l as [|l]; [simpl in Eb; first [discriminate Eb|injection Eb as <-; split; [lia|split; [first [now left|now right]|split; [reflexivity|split; [reflexivity|vm_compute; lia]]]]]|]). lia.
Qed.
Lemma exm_linked l l' : l < 11 -> linked exm l l' -> l' = exm_part l.
Proof. intros Hl (b & Eb & K). destruct (exm_bond l b Hl Eb) as (_ & E & _). apply (linked_fun exm l); exists b; auto. Qed.
Lemma exm_open : wf_open exm ([0; 1; 2] ++ [3; 4] ++ []).
Proof.
  assert (AL : forall l, In l (all_legs exm ([0; 1; 2] ++ [3; 4] ++ [])) -> l < 11) by (intros l Hl; enum Hl; lia).
  constructor; [constructor|..].
  - intros t Ht. apply exm_wf. enum Ht; lia.
  - intros t Ht l Hl. enum Ht; enum Hl; reflexivity.
  - nd.
  - nd.
  - intros l b Hl Eb. exists (exm_part l). destruct (exm_bond l b (AL l Hl) Eb) as (_ & X & Y & Z & _). auto.
  - intros l b Hl Eb. apply (exm_bond l b (AL l Hl) Eb).
  - intros l l' Hl Lk. rewrite (exm_linked l l' (AL l Hl) Lk). destruct Lk as (b & Eb & _). apply (exm_bond l b (AL l Hl) Eb).
Qed.
Lemma exm_A : chain exm [0; 1; 2] [1; 4; 6] ([3; 4] ++ []) (fun i => nth i [0; 2; 5] 0) (fun i => nth i [0; 3; 0] 0).
Proof.
  constructor; [reflexivity|exact exm_open|..].
  - intros t Ht. enum Ht; auto.
  - intros i Hi. destruct i as [|[|[|i]]]; [reflexivity|reflexivity|reflexivity|simpl in Hi; lia].
  - intros i Hi. destruct i as [|[|[|i]]]; [reflexivity|reflexivity|reflexivity|simpl in Hi; lia].
  - intros i Hi. destruct i as [|[|i]]; simpl in Hi; [reflexivity|reflexivity|lia].
  - intros i Hi. destruct i as [|[|i]]; simpl in Hi; [reflexivity|reflexivity|lia].
  - intros i Hi. destruct i as [|[|i]]; simpl in Hi; try lia; [exists 0|exists 1]; (split; [reflexivity|now left]).
  - intros l l' Hl Hl' LK. assert (LK' := LK). assert (l < 11) by (enum Hl; lia). apply exm_linked in LK; auto. subst l'.
    destruct LK' as (b & Eb & _). enum Hl; try discriminate Eb; cbv in Hl'; intuition lia.
Qed.
Lemma exm_B : chain exm [3; 4] [8; 10] ([0; 1; 2] ++ []) (fun i => nth i [0; 9] 0) (fun i => nth i [7; 0] 0).
Proof.
  constructor; [reflexivity|eapply MpsSwapProofs.wf_open_perm; [apply MpsDoubleProofs.st_perm|exact exm_open]|..].
  - intros t Ht. enum Ht; auto.
  - intros i Hi. destruct i as [|[|i]]; [reflexivity|reflexivity|simpl in Hi; lia].
  - intros i Hi. destruct i as [|[|i]]; [reflexivity|reflexivity|simpl in Hi; lia].
  - intros i Hi. destruct i as [|i]; simpl in Hi; [reflexivity|lia].
  - intros i Hi. destruct i as [|i]; simpl in Hi; [reflexivity|lia].
  - intros i Hi. destruct i as [|i]; simpl in Hi; try lia. exists 2. split; [reflexivity|now left].
  - intros l l' Hl Hl' LK. assert (LK' := LK). assert (l < 11) by (enum Hl; lia). apply exm_linked in LK; auto. subst l'.
    destruct LK' as (b & Eb & _). enum Hl; try discriminate Eb; cbv in Hl'; intuition lia.
Qed.
Lemma exm_closed : closed exm ([0; 1; 2] ++ [3; 4] ++ []).
Proof. intros l l' Hl (b & Eb & _). change (free_legs exm ([0; 1; 2] ++ [3; 4] ++ [])) with [4] in Hl. enum Hl; discriminate Eb. Qed.
Lemma exm_exact : exact_pair exm [0; 1; 2] [3; 4] [] [1; 4; 6] [8; 10] (fun _ => 2) 8.
Proof.
  split; [exact exm_closed|]. split.
  { exists (fun _ => 0). split; [|vm_compute; discriminate]. intros l _. unfold dim_of. cbn [exm legs l_dim]. lia. }
  split; [intros; lia|]. eexists _, _, _, _. split; [exact exm_A|]. split; [exact exm_B|]. split; (split; [intros l _; unfold dim_of; cbn [exm legs l_dim]; lia|split; [|vm_compute; discriminate]]);
    intros k Hk; cbn [List.length] in Hk; destruct k as [|[|k]]; try lia; vm_compute; lia.
Qed.
Example C56_example : svd_perfect libB /\ svd_rank libB /\ exact_pair exm [0; 1; 2] [3; 4] [] [1; 4; 6] [8; 10] (fun _ => 2) (Z.min 8 9) /\
  pairs_between exm [1; 4; 6] [8; 10] = [(1, 8); (6, 10)] /\ Permutation [1; 4; 6] [1; 6; 4] /\ l_bond (legs exm 1) = Some 3 /\ l_bond (legs exm 6) = Some 4 /\
  (forall x y, ends exm 0 x y -> In (l_tensor (legs exm x)) (map Some [0; 1; 2]) -> ~ In (l_tensor (legs exm y)) (map Some [3; 4])) /\
  exists h' a b, mergeMPS libB (OMps (mkMps [0; 1; 2] 8 None)) (OMps (mkMps [3; 4] 9 None)) false exm = (h', Ok (OMps a, OMps b)).
Proof.
  split; [exact libB_perfect|]. split; [exact libB_rank|]. split; [exact exm_exact|]. split; [reflexivity|]. split; [apply perm_skip, perm_swap|]. split; [reflexivity|]. split; [reflexivity|]. split.
  - intros x y [E|E] _; cbn in E; injection E as <- <-; cbn; intuition congruence.
  - destruct (C56_merge bool SR_bool libB libB_perfect libB_rank exm [0; 1; 2] [3; 4] [] [1; 4; 6] [8; 10] (fun _ => 2) 8 9 None None false exm_exact) as (h' & tsA' & tsB' & osA' & osB' & x & y & bd & q' & E & _).
    + change (2 <= 2). lia.
    + now right.
    + exists h'. eexists _, _. exact E.
Qed.
