(** Property theorems for link.py, contract.py and the contraction of lists: C12 - C18, C20, C22. *)
From Coq Require Import List Arith Bool ZArith Lia String Permutation Relations.
From Verif Require Import Base Sums NdModel HeapModel FuncsModel FuncsSpec TensorModel TensorSpec ContractModel NetSpec
  ShareProofs ContractProofs DiagContractProofs OneDiagProofs OuterProofs LinkProofs NetProofs SeqProofs.
Import ListNotations.
Local Open Scope list_scope.
Local Open Scope nat_scope.

(** A concrete heap for the non-vacuity examples.
    Tensor 0: dense 2 x 3 x 2, legs 0 1 2.  Tensor 1: diagonal, legs 3 4, entries 5 7.
    Tensor 2: dense 2 x 3, legs 5 6.  Tensor 3: diagonal, legs 7 8, entries 1 2.
    Tensor 4: dense TensorLike of dimension 2, leg 9.  Tensor 5: diagonal without legs, value 3.
    Tensor 6: diagonal, leg 10 of dimension 3.
    Links 2-3, 5-4, 1-6; legs 0, 7, 8, 9, 10 are free. *)
Definition exn : heap Z :=
  mkHeap (fun l => nth l [mkLeg (Some 0) 2 (NStr "a") None; mkLeg (Some 0) 3 (NStr "b") (Some 2);
                          mkLeg (Some 0) 2 (NStr "c") (Some 0); mkLeg (Some 1) 2 (NStr "d") (Some 0);
                          mkLeg (Some 1) 2 (NStr "e") (Some 1); mkLeg (Some 2) 2 (NStr "f") (Some 1);
                          mkLeg (Some 2) 3 (NStr "g") (Some 2); mkLeg (Some 3) 2 (NStr "h") None;
                          mkLeg (Some 3) 2 (NStr "i") None; mkLeg (Some 4) 2 (NStr "j") None;
                          mkLeg (Some 6) 3 (NStr "k") None]
                         (mkLeg None 0 NNone None))
         (fun b => nth b [mkBond 2 3; mkBond 5 4; mkBond 1 6] (mkBond 0 0))
         (fun t => match t with
                   | 0 => mkTensor [0; 1; 2] (Some (mkArr [2; 3; 2] (map Z.of_nat (seq 0 12)))) false false 0 None
                   | 1 => mkTensor [3; 4] (Some (mkArr [2] [5; 7]%Z)) true false 2 None
                   | 2 => mkTensor [5; 6] (Some (mkArr [2; 3] [1; 2; 3; 4; 5; 6]%Z)) false false 0 None
                   | 3 => mkTensor [7; 8] (Some (mkArr [2] [1; 2]%Z)) true false 2 None
                   | 4 => mkTensor [9] None false true 0 None
                   | 5 => mkTensor [] (Some (mkArr [] [3]%Z)) true false 1 None
                   | _ => mkTensor [10] (Some (mkArr [3] [1; 2; 3]%Z)) true false 3 None
                   end)
         11 3 7 (fun _ => 0%Z) 0.
Ltac enum H := simpl in H; repeat (destruct H as [H|H]; [subst; try discriminate|]); try contradiction.
Lemma exn_wf t : t < 7 -> wf_tensor exn t.
Proof.
  intros Ht. destruct t as [|[|[|[|[|[|[|t]]]]]]]; [| | | | | | |lia]; clear Ht; apply Build_wf_tensor.
  all: try (simpl; lia).
  all: try (unfold legs_of; simpl; repeat constructor; simpl; intuition lia).
  all: try (intros l Hl; unfold legs_of in Hl; enum Hl; simpl; lia).
  all: try discriminate.
  all: try (now repeat split).
  all: intros _; split; [first [discriminate|reflexivity]|intros l Hl; unfold legs_of in Hl; enum Hl; reflexivity].
Qed.
Lemma exn_owned t : t < 7 -> owned exn t.
Proof. intros Ht. do 7 (destruct t as [|t]; [intros l Hl; enum Hl; reflexivity|]). lia. Qed.
Lemma exn_sym : sym_links exn.
Proof.
  intros l b Hl Eb. simpl in Hl.
  assert (E : l_bond (legs exn l) = nth l [None; Some 2; Some 0; Some 0; Some 1; Some 1; Some 2] None).
  { do 11 (destruct l as [|l]; [reflexivity|]). lia. }
  rewrite E in Eb. do 7 (destruct l as [|l]; [simpl in Eb; first [discriminate Eb|injection Eb as <-; split; [simpl; lia|];
    first [exists 6; split; [simpl; lia|]; split; [first [now left|now right]|split; reflexivity]
          |exists 3; split; [simpl; lia|]; split; [first [now left|now right]|split; reflexivity]
          |exists 2; split; [simpl; lia|]; split; [first [now left|now right]|split; reflexivity]
          |exists 5; split; [simpl; lia|]; split; [first [now left|now right]|split; reflexivity]
          |exists 4; split; [simpl; lia|]; split; [first [now left|now right]|split; reflexivity]
          |exists 1; split; [simpl; lia|]; split; [first [now left|now right]|split; reflexivity]]]|]).
  destruct l; discriminate.
Qed.
Lemma exn_links L : (forall l, In l L -> l < 11) -> links_ok exn L.
Proof. intros HL l b Hl Eb. destruct (exn_sym l b (HL l Hl) Eb) as (_ & l' & _ & X & Y). exists l'. auto. Qed.
Lemma exn_pair ta tb : ta < 7 -> tb < 7 -> ta <> tb -> NoDup (legs_of exn ta ++ legs_of exn tb) -> wf_pair exn ta tb.
Proof.
  intros Ha Hb N ND. constructor; auto using exn_wf. apply exn_links. intros l Hl. apply in_app_iff in Hl.
  destruct Hl as [Hl|Hl]; [exact (wt_alloc _ _ (exn_wf ta Ha) l Hl)|exact (wt_alloc _ _ (exn_wf tb Hb) l Hl)].
Qed.
Ltac nd := unfold legs_of; simpl; repeat constructor; simpl; intuition lia.
Lemma exn_net : wf_net exn [0; 1; 2].
Proof.
  constructor.
  - intros t Ht. apply exn_wf. enum Ht; lia.
  - intros t Ht. apply exn_owned. enum Ht; lia.
  - repeat constructor; simpl; intuition lia.
  - unfold all_legs, legs_of. simpl. repeat constructor; simpl; intuition lia.
  - apply exn_links. intros l Hl. unfold all_legs, legs_of in Hl. enum Hl; lia.
Qed.

(** ** C12: makeLink *)
Theorem C12_makeLink : forall A (h : heap A) ra rb ta tb ps,
  Forall2 (denotes h ta) ra (map Some (map fst ps)) -> Forall2 (denotes h tb) rb (map Some (map snd ps)) ->
  linkable h ps ->
  exists h' bs, makeLink ra rb ta tb h = (h', Ok bs) /\ links_added h h' ps.
Proof. exact @makeLink_ok. Qed.
Print Assumptions C12_makeLink.
Theorem C12_anotherSide : forall A (h h' : heap A) ps l l', links_added h h' ps -> In (l, l') ps ->
  anotherSide h' l = Ok (Some l') /\ anotherSide h' l' = Ok (Some l).
Proof. exact @links_added_sides. Qed.
Print Assumptions C12_anotherSide.
Theorem C12_other_links_kept : forall A (h h' : heap A) ps l l', links_added h h' ps -> sym_links h ->
  l < nleg h -> linked h l l' -> ~ In l (map fst ps ++ map snd ps) ->
  anotherSide h l = Ok (Some l') /\ anotherSide h' l = Ok (Some l').
Proof. exact @links_added_other. Qed.
Print Assumptions C12_other_links_kept.
Theorem C12_length_mismatch_raises : forall A (h : heap A) ra rb ta tb oa ob,
  Forall2 (denotes h ta) ra oa -> Forall2 (denotes h tb) rb ob -> List.length ra <> List.length rb ->
  makeLink ra rb ta tb h = (h, Err AssertionError).
Proof. exact @makeLink_len. Qed.
Print Assumptions C12_length_mismatch_raises.
Theorem C12_bad_pair_raises : forall A (h : heap A) ra rb ta tb ps x y oa ob,
  Forall2 (denotes h ta) ra (map Some (map fst ps) ++ x :: oa) ->
  Forall2 (denotes h tb) rb (map Some (map snd ps) ++ y :: ob) ->
  List.length ra = List.length rb -> linkable h ps ->
  (match x, y with Some l, Some l' => dim_of h l <> dim_of h l' | _, _ => True end) ->
  exists h', makeLink ra rb ta tb h =
      (h', Err (match x, y with Some _, Some _ => AssertionError | _, _ => AttributeError end)) /\
    links_added h h' ps.
Proof. exact @makeLink_fail. Qed.
Print Assumptions C12_bad_pair_raises.
Theorem C12_links_stay_symmetric : forall A (h h' : heap A) ra rb ta tb oa ob r, sym_links h ->
  Forall2 (denotes h ta) ra oa -> Forall2 (denotes h tb) rb ob ->
  (forall x, In (Some x) (oa ++ ob) -> x < nleg h /\ l_bond (legs h x) = None) ->
  NoDup (filter (fun o => match o with Some _ => true | None => false end) (oa ++ ob)) ->
  makeLink ra rb ta tb h = (h', r) -> sym_links h'.
Proof. exact @makeLink_sym. Qed.
Print Assumptions C12_links_stay_symmetric.
Theorem C12_any_call_sequence : forall A (h h' : heap A),
  clos_refl_trans (heap A) (fun h1 h2 => exists ra rb ta tb oa ob r,
     Forall2 (denotes h1 ta) ra oa /\ Forall2 (denotes h1 tb) rb ob /\
     (forall x, In (Some x) (oa ++ ob) -> x < nleg h1 /\ l_bond (legs h1 x) = None) /\
     NoDup (filter (fun o => match o with Some _ => true | None => false end) (oa ++ ob)) /\
     makeLink ra rb ta tb h1 = (h2, r)) h h' ->
  sym_links h -> sym_links h'.
Proof. exact @makeLink_calls. Qed.
Print Assumptions C12_any_call_sequence.
Example C12_example :
  linkable exn [(0, 9); (7, 8)] /\ sym_links exn /\
  Forall2 (denotes exn (Some 0)) [RStr "a"; RLeg 7] [Some 0; Some 7] /\
  Forall2 (denotes exn (Some 4)) [RStr "a"; RStr "j"] [None; Some 9] /\ dim_of exn 0 <> dim_of exn 10.
Proof.
  split; [|split; [apply exn_sym|split; [|split]]].
  - split; [|split].
    + simpl. repeat constructor; simpl; intuition lia.
    + intros l Hl. enum Hl; split; simpl; (lia || reflexivity).
    + intros p Hp. enum Hp; reflexivity.
  - repeat constructor. exists [], [1; 2]. now repeat split.
  - repeat constructor.
    + simpl. now intros [H|[]].
    + exists [], []. now repeat split.
  - simpl. discriminate.
Qed.

(** ** C13: relinking *)
Theorem C13_relink_dangling : forall A (h : heap A) l1 l2 l3 b,
  l1 <> l2 -> l3 <> l1 -> l3 <> l2 -> b < nbond h ->
  l_bond (legs h l1) = Some b -> l_bond (legs h l2) = Some b -> ends h b l1 l2 -> dim_of h l1 = dim_of h l3 ->
  exists h' b', makeLink [RLeg l1] [RLeg l3] None None h = (h', Ok [b']) /\
    anotherSide h' l1 = Ok (Some l3) /\ anotherSide h' l3 = Ok (Some l1) /\ anotherSide h' l2 = Ok (Some l1).
Proof. exact @relink. Qed.
Print Assumptions C13_relink_dangling.
Example C13_example : l_bond (legs exn 2) = Some 0 /\ l_bond (legs exn 3) = Some 0 /\ ends exn 0 2 3 /\ dim_of exn 2 = dim_of exn 7.
Proof. repeat split. now left. Qed.

(** ** C14: dense contraction *)
Theorem C14_dense_contraction : forall A (HA : SR A) (h : heap A) ta tb, wf_pair h ta tb ->
  t_like (tens h ta) = false -> t_like (tens h tb) = false ->
  t_diag (tens h ta) = false -> t_diag (tens h tb) = false ->
  contracts_to h (contractTwoTensors ta tb h) ta tb (restA h ta tb ++ restB h ta tb) false.
Proof. exact @contract_dense. Qed.
Print Assumptions C14_dense_contraction.
Example C14_example : wf_pair exn 0 2 /\ shared exn 0 2 = [(1, 6)] /\ restA exn 0 2 = [0; 2] /\ restB exn 0 2 = [5] /\
  einsum exn 0 2 (fun _ => 1%nat) = (7 * 4 + 9 * 5 + 11 * 6)%Z /\
  (let '(h', r) := contractTwoTensors 0 2 exn in
   match r with Ok tc => entry h' tc (fun _ => 1%nat) = 139%Z | Err _ => False end).
Proof. split; [apply exn_pair; try lia; nd|]. repeat split. Qed.

(** ** C15: contraction with diagonal tensors *)
Theorem C15_two_diagonals : forall A (HA : SR A) (h : heap A) ta tb, wf_pair h ta tb ->
  t_like (tens h ta) = false -> t_like (tens h tb) = false ->
  t_diag (tens h ta) = true -> t_diag (tens h tb) = true -> shared h ta tb <> [] ->
  contracts_to h (contractTwoTensors ta tb h) ta tb (restA h ta tb ++ restB h ta tb) true.
Proof. exact @contract_diag2. Qed.
Print Assumptions C15_two_diagonals.
Theorem C15_diagonal_first : forall A (HA : SR A) (h : heap A) ta tb, wf_pair h ta tb ->
  t_like (tens h ta) = false -> t_like (tens h tb) = false ->
  t_diag (tens h ta) = true -> t_diag (tens h tb) = false -> shared h ta tb <> [] ->
  contracts_to h (contractTwoTensors ta tb h) ta tb (restB h ta tb ++ restA h ta tb) false.
Proof. exact @contract_diag_first. Qed.
Print Assumptions C15_diagonal_first.
Theorem C15_diagonal_second : forall A (HA : SR A) (h : heap A) ta tb, wf_pair h ta tb ->
  t_like (tens h ta) = false -> t_like (tens h tb) = false ->
  t_diag (tens h ta) = false -> t_diag (tens h tb) = true -> shared h ta tb <> [] ->
  contracts_to h (contractTwoTensors ta tb h) ta tb (restA h ta tb ++ restB h ta tb) false.
Proof. exact @contract_diag_second. Qed.
Print Assumptions C15_diagonal_second.
Example C15_example : wf_pair exn 0 1 /\ shared exn 0 1 = [(2, 3)] /\ shared exn 1 0 <> [] /\
  einsum exn 0 1 (fun _ => 1%nat) = (9 * 7)%Z /\
  (let '(h', r) := contractTwoTensors 1 0 exn in
   match r with Ok tc => entry h' tc (fun _ => 1%nat) = 63%Z | Err _ => False end).
Proof. split; [apply exn_pair; try lia; nd|]. repeat split. discriminate. Qed.

(** ** C16: outer products *)
Theorem C16_dense_outer : forall A (HA : SR A) (h : heap A) ta tb, wf_pair h ta tb ->
  t_like (tens h ta) = false -> t_like (tens h tb) = false ->
  t_diag (tens h ta) = false -> t_diag (tens h tb) = false -> shared h ta tb = [] ->
  exists h' tc, contractTwoTensors ta tb h = (h', Ok tc) /\
    contracted h h' ta tb tc (legs_of h ta ++ legs_of h tb) /\
    forall s, in_bounds h (legs_of h ta ++ legs_of h tb) s -> entry h' tc s = rmul (entry h ta s) (entry h tb s).
Proof. exact @contract_dense_outer. Qed.
Print Assumptions C16_dense_outer.
Theorem C16_diagonal_dense_outer : forall A (HA : SR A) (h : heap A) td tb, wf_pair h td tb ->
  t_like (tens h td) = false -> t_like (tens h tb) = false ->
  t_diag (tens h td) = true -> t_diag (tens h tb) = false -> shared h td tb = [] -> legs_of h td <> [] ->
  (exists h' tc, contractTwoTensors td tb h = (h', Ok tc) /\
    contracted h h' td tb tc (legs_of h td ++ legs_of h tb) /\
    forall s, in_bounds h (legs_of h td ++ legs_of h tb) s -> entry h' tc s = rmul (entry h td s) (entry h tb s)) /\
  (exists h' tc, contractTwoTensors tb td h = (h', Ok tc) /\
    contracted h h' td tb tc (legs_of h td ++ legs_of h tb) /\
    forall s, in_bounds h (legs_of h td ++ legs_of h tb) s -> entry h' tc s = rmul (entry h td s) (entry h tb s)).
Proof. exact @contract_diag_outer. Qed.
Print Assumptions C16_diagonal_dense_outer.
Theorem C16_scalar_diagonal_raises : forall A (HA : SR A) (h : heap A) td tb, wf_pair h td tb ->
  t_like (tens h td) = false -> t_like (tens h tb) = false ->
  t_diag (tens h td) = true -> t_diag (tens h tb) = false -> legs_of h td = [] ->
  exists h' h'', contractTwoTensors td tb h = (h', Err ValueError) /\
    contractTwoTensors tb td h = (h'', Err ValueError) /\ only_bonds h h' /\ only_bonds h h''.
Proof. exact @contract_scalar_diag. Qed.
Print Assumptions C16_scalar_diagonal_raises.
(** two diagonal tensors: only the entries with all indices equal are kept *)
Theorem C16_two_diagonals : forall A (HA : SR A) (h : heap A) ta tb, wf_pair h ta tb ->
  t_like (tens h ta) = false -> t_like (tens h tb) = false ->
  t_diag (tens h ta) = true -> t_diag (tens h tb) = true ->
  shared h ta tb = [] -> legs_of h ta <> [] -> legs_of h tb <> [] -> t_len (tens h ta) = t_len (tens h tb) ->
  exists h' tc, contractTwoTensors ta tb h = (h', Ok tc) /\
    contracted h h' ta tb tc (legs_of h ta ++ legs_of h tb) /\
    t_diag (tens h' tc) = true /\ t_like (tens h' tc) = false /\
    forall s, in_bounds h (legs_of h ta ++ legs_of h tb) s ->
      ((forall l l', In l (legs_of h ta ++ legs_of h tb) -> In l' (legs_of h ta ++ legs_of h tb) -> s l = s l') ->
         entry h' tc s = rmul (entry h ta s) (entry h tb s)) /\
      (forall l l', In l (legs_of h ta ++ legs_of h tb) -> In l' (legs_of h ta ++ legs_of h tb) -> s l <> s l' ->
         entry h' tc s = r0).
Proof. exact @contract_diag2_outer. Qed.
Print Assumptions C16_two_diagonals.
Theorem C16_two_diagonals_lengths_raise : forall A (HA : SR A) (h : heap A) ta tb, wf_pair h ta tb ->
  t_like (tens h ta) = false -> t_like (tens h tb) = false ->
  t_diag (tens h ta) = true -> t_diag (tens h tb) = true ->
  legs_of h ta <> [] -> legs_of h tb <> [] -> t_len (tens h ta) <> t_len (tens h tb) ->
  exists h', contractTwoTensors ta tb h = (h', Err ValueError) /\ only_bonds h h'.
Proof. exact @contract_diag2_len. Qed.
Print Assumptions C16_two_diagonals_lengths_raise.
Theorem C16_two_scalar_diagonals_raise : forall A (HA : SR A) (h : heap A) ta tb, wf_pair h ta tb ->
  t_like (tens h ta) = false -> t_like (tens h tb) = false ->
  t_diag (tens h ta) = true -> t_diag (tens h tb) = true -> legs_of h ta = [] -> legs_of h tb = [] ->
  exists h', contractTwoTensors ta tb h = (h', Err IndexError) /\ only_bonds h h'.
Proof. exact @contract_scalar_diag2. Qed.
Print Assumptions C16_two_scalar_diagonals_raise.
Theorem C16_two_diagonals_refuted : exists (h h' : heap Z) ta tb tc s, wf_pair h ta tb /\ shared h ta tb = [] /\
  contractTwoTensors ta tb h = (h', Ok tc) /\ in_bounds h (legs_of h ta ++ legs_of h tb) s /\
  entry h' tc s <> rmul (entry h ta s) (entry h tb s).
Proof.
  exists exn, (fst (contractTwoTensors 1 3 exn)), 1, 3, 7, (fun l => if Nat.ltb l 5 then 0 else 1).
  split; [apply exn_pair; try lia; nd|]. split; [reflexivity|]. split; [apply injective_projections; reflexivity|].
  split; [intros l Hl; enum Hl; unfold dim_of; simpl; lia|]. vm_compute. discriminate.
Qed.
Print Assumptions C16_two_diagonals_refuted.
Example C16_example : wf_pair exn 3 2 /\ shared exn 3 2 = [] /\ legs_of exn 3 <> [] /\ wf_pair exn 0 5 /\ legs_of exn 5 = [] /\
  wf_pair exn 1 3 /\ t_len (tens exn 1) = t_len (tens exn 3) /\ wf_pair exn 1 6 /\ t_len (tens exn 1) <> t_len (tens exn 6).
Proof.
  split; [apply exn_pair; try lia; nd|]. split; [reflexivity|]. split; [discriminate|].
  split; [apply exn_pair; try lia; nd|]. split; [reflexivity|]. split; [apply exn_pair; try lia; nd|].
  split; [reflexivity|]. split; [apply exn_pair; try lia; nd|discriminate].
Qed.

(** ** C17: one step of a network *)
Theorem C17_contraction_succeeds : forall A (HA : SR A) (h : heap A) ta tb, wf_pair h ta tb ->
  t_like (tens h ta) = false -> t_like (tens h tb) = false -> contractible h ta tb ->
  exists L, Permutation L (restA h ta tb ++ restB h ta tb) /\
    contracts_to h (contractTwoTensors ta tb h) ta tb L (t_diag (tens h ta) && t_diag (tens h tb)).
Proof. exact @contract_any. Qed.
Print Assumptions C17_contraction_succeeds.
Theorem C17_step_preserves_network : forall A (HA : SR A) (h : heap A) ta tb rest,
  wf_net h (ta :: tb :: rest) ->
  t_like (tens h ta) = false -> t_like (tens h tb) = false -> contractible h ta tb ->
  exists h' tc, contractTwoTensors ta tb h = (h', Ok tc) /\
    wf_net h' (tc :: rest) /\
    Permutation (free_legs h' (tc :: rest)) (free_legs h (ta :: tb :: rest)) /\
    (forall l, In l (free_legs h (ta :: tb :: rest)) ->
       dim_of h' l = dim_of h l /\ l_name (legs h' l) = l_name (legs h l)) /\
    (forall s, in_bounds h (free_legs h (ta :: tb :: rest)) s ->
       netval h' (tc :: rest) s = netval h (ta :: tb :: rest) s).
Proof. exact @net_step. Qed.
Print Assumptions C17_step_preserves_network.
Theorem C17_order_of_list_irrelevant : forall A (HA : SR A) (h : heap A) ts ts' s,
  Permutation ts ts' -> wf_net h ts -> netval h ts s = netval h ts' s.
Proof. exact @netval_perm. Qed.
Print Assumptions C17_order_of_list_irrelevant.
Example C17_example : wf_net exn [0; 1; 2] /\ contractible exn 0 1 /\ free_legs exn [0; 1; 2] = [0] /\
  inner exn [0; 1; 2] = [(1, 6); (2, 3); (4, 5)] /\
  netval exn [0; 1; 2] (fun _ => 0%nat) = (0*1*5 + 2*2*5 + 4*3*5 + 1*4*7 + 3*5*7 + 5*6*7)%Z.
Proof. split; [apply exn_net|]. repeat split; try discriminate. Qed.

(** ** C18: order independence *)
Theorem C18_sequence_value : forall A (HA : SR A) (h : heap A) ts sq n,
  wf_net h ts -> (forall t, In t ts -> t_like (tens h t) = false) ->
  (forall p, In p (inner h ts) -> 0 < dim_of h (fst p)) ->
  complete (group_ok h) (group_cost h) (singles ts) sq n ->
  exists h' t0 cur, contractWithSeq ts sq true h = (h', Ok (t0, n, cur)) /\
    wf_tensor h' t0 /\ t_like (tens h' t0) = false /\ t_diag (tens h' t0) = all_diag h ts /\
    Permutation (legs_of h' t0) (free_legs h ts) /\
    (forall l, In l (free_legs h ts) -> l_name (legs h' l) = l_name (legs h l) /\ dim_of h' l = dim_of h l) /\
    forall s, in_bounds h (free_legs h ts) s -> entry h' t0 s = netval h ts s.
Proof. exact @contractWithSeq_inplace. Qed.
Print Assumptions C18_sequence_value.
(** without diagonal tensors every complete sequence qualifies *)
Theorem C18_dense_any_sequence : forall A (h : heap A) ts sq n,
  (forall t, In t ts -> t_diag (tens h t) = false) ->
  complete (fun _ _ => True) (group_cost h) (singles ts) sq n ->
  complete (group_ok h) (group_cost h) (singles ts) sq n.
Proof. exact @complete_dense. Qed.
Print Assumptions C18_dense_any_sequence.
Theorem C18_order_independent : forall A (HA : SR A) (h : heap A) ts sq sq' n n',
  wf_net h ts -> (forall t, In t ts -> t_like (tens h t) = false) ->
  (forall p, In p (inner h ts) -> 0 < dim_of h (fst p)) ->
  complete (group_ok h) (group_cost h) (singles ts) sq n ->
  complete (group_ok h) (group_cost h) (singles ts) sq' n' ->
  exists h1 t1 cur1 h2 t2 cur2, contractWithSeq ts sq true h = (h1, Ok (t1, n, cur1)) /\
    contractWithSeq ts sq' true h = (h2, Ok (t2, n', cur2)) /\
    Permutation (legs_of h1 t1) (legs_of h2 t2) /\
    forall s, in_bounds h1 (legs_of h1 t1) s -> entry h1 t1 s = entry h2 t2 s.
Proof. exact @seq_order_independent. Qed.
Print Assumptions C18_order_independent.
Example C18_example : complete (group_ok exn) (group_cost exn) (singles [0; 1; 2]) [(2, 1); (0, 1)] 18 /\
  complete (group_ok exn) (group_cost exn) (singles [0; 1; 2]) [(0, 2); (0, 1)] 26.
Proof.
  split.
  - apply (complete_step (group_ok exn) (group_cost exn) (singles [0; 1; 2]) [(0, [0])] 2 1 [2] [1] [(0, 1)] 12); [discriminate| | |].
    + change (Permutation (rev [(2, [2]); (1, [1]); (0, [0])]) [(2, [2]); (1, [1]); (0, [0])]).
      symmetry. apply Permutation_rev.
    + repeat split; discriminate.
    + apply (complete_step (group_ok exn) (group_cost exn) _ [] 0 1 [0] [2; 1] [] 0); [discriminate|simpl; constructor| |constructor].
      repeat split; discriminate.
  - apply (complete_step (group_ok exn) (group_cost exn) (singles [0; 1; 2]) [(1, [1])] 0 2 [0] [2] [(0, 1)] 2); [discriminate| | |].
    + simpl. constructor. constructor.
    + repeat split; discriminate.
    + apply (complete_step (group_ok exn) (group_cost exn) _ [] 0 1 [0; 2] [1] [] 0); [discriminate|reflexivity| |constructor].
      repeat split; discriminate.
Qed.

(** ** C20: mixing Tensor and TensorLike *)
Theorem C20_mixed_raises : forall A (HA : SR A) (h : heap A) ta tb, wf_pair h ta tb ->
  t_like (tens h ta) <> t_like (tens h tb) ->
  exists h', contractTwoTensors ta tb h = (h', Err TypeError) /\
    legs h' = legs h /\ tens h' = tens h /\ nleg h' = nleg h /\ nbond h' = nbond h /\ ntens h' = ntens h /\
    forall l, partner h' l = partner h l.
Proof. exact @contract_mixed_frame. Qed.
Print Assumptions C20_mixed_raises.
Example C20_example : wf_pair exn 0 4 /\ t_like (tens exn 0) <> t_like (tens exn 4).
Proof. split; [apply exn_pair; try lia; nd|discriminate]. Qed.

(** ** C22: contractCost *)
Theorem C22_dense_cost : forall A (h : heap A) ta tb, wf_pair h ta tb ->
  t_diag (tens h ta) = false -> t_diag (tens h tb) = false ->
  (forall p, In p (shared h ta tb) -> 0 < dim_of h (fst p)) ->
  let bonds := restA h ta tb ++ map fst (shared h ta tb) ++ restB h ta tb in
  exists h', contractCost ta tb h =
      (h', Ok (prodn (map (dim_of h) bonds), Z.of_nat (List.length bonds))) /\ only_bonds h h'.
Proof. exact @cost_dense. Qed.
Print Assumptions C22_dense_cost.
Theorem C22_one_diagonal_cost : forall A (h : heap A) ta tb, wf_pair h ta tb ->
  t_diag (tens h ta) <> t_diag (tens h tb) ->
  (forall p, In p (shared h ta tb) -> 0 < dim_of h (fst p)) ->
  let result := restA h ta tb ++ restB h ta tb in
  exists h', contractCost ta tb h =
      (h', Ok (prodn (map (dim_of h) result), Z.of_nat (List.length result))) /\ only_bonds h h'.
Proof. exact @cost_one_diag. Qed.
Print Assumptions C22_one_diagonal_cost.
Theorem C22_two_diagonals_cost : forall A (h : heap A) ta tb, wf_tensor h ta ->
  t_diag (tens h ta) = true -> t_diag (tens h tb) = true ->
  exists n, contractCost ta tb h = (h, Ok (n, 1%Z)) /\ forall l, In l (legs_of h ta) -> n = dim_of h l.
Proof. exact @cost_two_diag. Qed.
Print Assumptions C22_two_diagonals_cost.
(** a shared bond of dimension 0 makes contractCost divide by zero *)
Theorem C22_zero_dimension_raises : forall A (h : heap A) ta tb, wf_pair h ta tb ->
  t_diag (tens h ta) && t_diag (tens h tb) = false ->
  (exists p, In p (shared h ta tb) /\ dim_of h (fst p) = 0) ->
  exists h', contractCost ta tb h = (h', Err ZeroDivisionError) /\ only_bonds h h'.
Proof. exact @contractCost_zero. Qed.
Print Assumptions C22_zero_dimension_raises.
Example C22_example : wf_pair exn 0 2 /\ (forall p, In p (shared exn 0 2) -> 0 < dim_of exn (fst p)) /\
  snd (contractCost 0 2 exn) = Ok (2 * 2 * 3 * 2, 4%Z) /\ snd (contractCost 0 1 exn) = Ok (2 * 3 * 2, 3%Z).
Proof. split; [apply exn_pair; try lia; nd|]. split; [intros p Hp; enum Hp; unfold dim_of; simpl; lia|]. split; reflexivity. Qed.
