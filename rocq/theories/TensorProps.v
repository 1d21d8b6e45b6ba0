(** Property theorems for tensor.py and diagonalTensor.py: C01 - C11. *)
From Coq Require Import List Arith Bool ZArith Lia String Permutation.
From Verif Require Import Base Sums NdModel HeapModel FuncsModel FuncsSpec TensorModel TensorSpec
  FuncsProofs NdProofs TensorProofs LabelProofs MatrixProofs MergeProofs CtorProofs DiagCtorProofs CopyProofs.
Import ListNotations.
Local Open Scope list_scope.
Local Open Scope nat_scope.

(** A concrete heap for the non-vacuity examples: tensor 0 is a 2 x 3 x 2 array 0..11 with legs a, b, c;
    tensor 1 is diagonal with legs a, b and entries 5, 7. *)
Definition exh : heap Z :=
  mkHeap (fun l => nth l [mkLeg (Some 0) 2 (NStr "a") None; mkLeg (Some 0) 3 (NStr "b") None;
                          mkLeg (Some 0) 2 (NStr "c") None; mkLeg (Some 1) 2 (NStr "a") None;
                          mkLeg (Some 1) 2 (NStr "b") None] (mkLeg None 0 NNone None))
         (fun _ => mkBond 0 0)
         (fun t => match t with
                   | 0 => mkTensor [0; 1; 2] (Some (mkArr [2; 3; 2] (map Z.of_nat (seq 0 12)))) false false 0 None
                   | _ => mkTensor [3; 4] (Some (mkArr [2] [5; 7]%Z)) true false 2 None
                   end)
         5 0 2 (fun _ => 0%Z) 0.
Ltac enum H := simpl in H; repeat (destruct H as [H|H]; [subst; try discriminate|]); try contradiction.
Lemma exh_wf0 : wf_tensor exh 0.
Proof.
  constructor; simpl.
  - lia.
  - unfold legs_of. simpl. repeat constructor; simpl; intuition lia.
  - intros l Hl. enum Hl; lia.
  - split; reflexivity.
  - discriminate.
Qed.
Lemma exh_wf1 : wf_tensor exh 1.
Proof.
  constructor; simpl.
  - lia.
  - unfold legs_of. simpl. repeat constructor; simpl; intuition lia.
  - intros l Hl. enum Hl; lia.
  - split; reflexivity.
  - intros _. split; [discriminate|]. intros l Hl. enum Hl; reflexivity.
Qed.

(** ** C01: reordering *)
Theorem C01_moveLegsToFront : forall A (HA : SR A) (h : heap A) t ls,
  wf_tensor h t -> NoDup ls -> incl ls (legs_of h t) ->
  exists h', moveLegsToFront t ls h = (h', Ok tt) /\ only_tensor h h' t /\ wf_tensor h' t /\
    legs_of h' t = ls ++ filter (fun l => negb (inb l ls)) (legs_of h t) /\
    t_diag (tens h' t) = t_diag (tens h t) /\ t_like (tens h' t) = t_like (tens h t) /\
    t_len (tens h' t) = t_len (tens h t) /\ t_name (tens h' t) = t_name (tens h t) /\
    forall s, in_bounds h (legs_of h t) s -> entry h' t s = entry h t s.
Proof. exact @moveLegsToFront_ok. Qed.
Print Assumptions C01_moveLegsToFront.
Theorem C01_moveLegsToFront_raises : forall A (HA : SR A) (h : heap A) t ls,
  NoDup (legs_of h t) -> ~ (NoDup ls /\ incl ls (legs_of h t)) ->
  exists h', moveLegsToFront t ls h = (h', Err ValueError) /\ only_tensor h h' t.
Proof. exact @moveLegsToFront_err. Qed.
Print Assumptions C01_moveLegsToFront_raises.
Theorem C01_moveLabelsToFront : forall A (HA : SR A) (h : heap A) t labs, wf_tensor h t ->
  (forall lab, count lab labs <= count lab (names_of h t)) ->
  exists ls h', getLegsByLabel h t labs = Ok ls /\ moveLabelsToFront t labs h = (h', Ok tt) /\
    map (fun l => l_name (legs h l)) ls = labs /\
    only_tensor h h' t /\ wf_tensor h' t /\
    legs_of h' t = ls ++ filter (fun l => negb (inb l ls)) (legs_of h t) /\
    forall s, in_bounds h (legs_of h t) s -> entry h' t s = entry h t s.
Proof. exact @moveLabelsToFront_ok. Qed.
Print Assumptions C01_moveLabelsToFront.
Theorem C01_moveLabelsToFront_raises : forall A (HA : SR A) (h : heap A) t labs,
  (exists lab, count lab labs > count lab (names_of h t)) ->
  moveLabelsToFront t labs h = (h, Err ValueError).
Proof. exact @moveLabelsToFront_err. Qed.
Print Assumptions C01_moveLabelsToFront_raises.
Theorem C01_reArrange : forall A (HA : SR A) (h : heap A) t labs,
  wf_tensor h t -> Permutation (names_of h t) labs ->
  exists h', reArrange t labs h = (h', Ok tt) /\ only_tensor h h' t /\ wf_tensor h' t /\
    names_of h' t = labs /\ Permutation (legs_of h' t) (legs_of h t) /\
    forall s, in_bounds h (legs_of h t) s -> entry h' t s = entry h t s.
Proof. exact @reArrange_ok. Qed.
Print Assumptions C01_reArrange.
Theorem C01_reArrange_raises : forall A (HA : SR A) (h : heap A) t labs, ~ Permutation (names_of h t) labs ->
  reArrange t labs h = (h, Err AssertionError).
Proof. exact @reArrange_err. Qed.
Print Assumptions C01_reArrange_raises.
Example C01_ex : wf_tensor exh 0 /\ NoDup [2; 0] /\ incl [2; 0] (legs_of exh 0) /\
  Permutation (names_of exh 0) [NStr "c"; NStr "a"; NStr "b"] /\
  legs_of (fst (moveLegsToFront 0 [2; 0] exh)) 0 = [2; 0; 1] /\
  t_arr (tens (fst (moveLegsToFront 0 [2; 0] exh)) 0) = Some (mkArr [2; 2; 3] [0; 2; 4; 6; 8; 10; 1; 3; 5; 7; 9; 11]%Z).
Proof.
  split; [exact exh_wf0|]. split; [repeat constructor; simpl; intuition lia|].
  split; [intros x Hx; unfold legs_of; simpl in *; tauto|].
  split; [change (names_of exh 0) with ([NStr "a"; NStr "b"] ++ [NStr "c"]); apply Permutation_app_comm|].
  split; reflexivity.
Qed.

(** ** C02: toMatrix.  toMatrix is a function of the heap, so the tensor cannot change. *)
Theorem C02_toMatrix : forall A (HA : SR A) (h : heap A) t rows cols,
  wf_tensor h t -> t_like (tens h t) = false ->
  match toMatrix h t rows cols with
  | Ok m => exists rl cl, split_of h t rows cols rl cl /\ wfa m /\
      ashape m = [prodn (map (dim_of h) rl); prodn (map (dim_of h) cl)] /\
      forall s, in_bounds h (legs_of h t) s ->
        aget m [ravel (map (dim_of h) rl) (map s rl); ravel (map (dim_of h) cl) (map s cl)] = entry h t s
  | Err _ => forall rl cl, ~ split_of h t rows cols rl cl
  end.
Proof. exact @toMatrix_spec. Qed.
Print Assumptions C02_toMatrix.
Theorem C02_split_unique : forall A (h : heap A) t rows cols rl cl rl' cl',
  split_of h t rows cols rl cl -> split_of h t rows cols rl' cl' -> rl = rl' /\ cl = cl'.
Proof. exact @split_unique. Qed.
Print Assumptions C02_split_unique.
Theorem C02_digits : forall sh k, k < prodn sh -> inrange sh (digits sh k) /\ ravel sh (digits sh k) = k.
Proof. intros sh k H. exact (conj (digits_inrange sh k H) (ravel_digits sh k H)). Qed.
Print Assumptions C02_digits.
Theorem C02_toMatrix_like_raises : forall A (HA : SR A) (h : heap A) t rows cols, t_like (tens h t) = true ->
  toMatrix h t rows cols = Err AssertionError.
Proof. exact @toMatrix_like. Qed.
Print Assumptions C02_toMatrix_like_raises.
Example C02_ex : split_of exh 0 (Some [RStr "c"]) (Some [RStr "b"; RStr "a"]) [2] [1; 0] /\
  toMatrix exh 0 (Some [RStr "c"]) (Some [RStr "b"; RStr "a"]) = Ok (mkArr [2; 6] [0; 6; 2; 8; 4; 10; 1; 7; 3; 9; 5; 11]%Z) /\
  toMatrix exh 1 (Some [RLeg 3]) None = Ok (mkArr [2; 2] [5; 0; 0; 7]%Z) /\
  (exists e, toMatrix exh 0 (Some [RLeg 0]) (Some [RLeg 0; RLeg 1]) = Err e).
Proof.
  split.
  { apply split_both.
    - split; [discriminate|]. right. exists ["c"%string]. split; auto. constructor; [|constructor].
      exists [0; 1], []. split; auto. split; auto. intros l Hl. enum Hl; try discriminate.
    - split; [discriminate|]. right. exists ["b"; "a"]%string. split; auto. constructor; [|constructor; [|constructor]].
      + exists [0], [2]. split; auto. split; auto. intros l Hl. enum Hl; try discriminate.
      + exists [], [1; 2]. repeat split. intros l [].
    - change (Permutation ([2] ++ [1; 0]) ([0; 1] ++ [2])).
      etransitivity; [apply Permutation_app_comm|]. apply Permutation_app_tail. apply perm_swap. }
  split; [reflexivity|]. split; [reflexivity|]. eexists. reflexivity.
Qed.

(** ** C03: outProduct *)
Theorem C03_outProduct : forall A (HA : SR A) (h : heap A) t ls lab,
  wf_tensor h t -> t_diag (tens h t) = false -> ls <> [] -> NoDup ls -> incl ls (legs_of h t) ->
  (t_like (tens h t) = false -> forall l, In l (legs_of h t) -> ~ In l ls -> 0 < dim_of h l) ->
  exists h', outProduct t ls lab h = (h', Ok (nleg h)) /\ merged h h' t ls (nleg h) lab /\ wf_tensor h' t /\
    (forall s s', in_bounds h (legs_of h t) s ->
      (forall l, In l (legs_of h t) -> ~ In l ls -> s' l = s l) ->
      s' (nleg h) = ravel (map (dim_of h) ls) (map s ls) ->
      entry h' t s' = entry h t s).
Proof. exact @outProduct_ok. Qed.
Print Assumptions C03_outProduct.
(** what happens outside those hypotheses *)
Theorem C03_zero_dim_raises : forall A (HA : SR A) (h : heap A) t ls lab l,
  wf_tensor h t -> t_diag (tens h t) = false -> t_like (tens h t) = false ->
  ls <> [] -> NoDup ls -> incl ls (legs_of h t) -> In l (legs_of h t) -> ~ In l ls -> dim_of h l = 0 ->
  exists h', outProduct t ls lab h = (h', Err ValueError).
Proof. exact @outProduct_zero. Qed.
Print Assumptions C03_zero_dim_raises.
Theorem C03_diagonal_raises : forall A (HA : SR A) (h : heap A) t ls lab, t_diag (tens h t) = true ->
  outProduct t ls lab h = (h, Err TypeError).
Proof. exact @outProduct_diag. Qed.
Print Assumptions C03_diagonal_raises.
Theorem C03_empty_raises : forall A (HA : SR A) (h : heap A) t lab, t_diag (tens h t) = false ->
  outProduct t [] lab h = (h, Err AssertionError).
Proof. exact @outProduct_empty. Qed.
Print Assumptions C03_empty_raises.
Theorem C03_foreign_legs_raise : forall A (HA : SR A) (h : heap A) t ls lab,
  NoDup (legs_of h t) -> t_diag (tens h t) = false -> ls <> [] -> ~ (NoDup ls /\ incl ls (legs_of h t)) ->
  exists h', outProduct t ls lab h = (h', Err ValueError) /\ only_tensor h h' t.
Proof. exact @outProduct_bad. Qed.
Print Assumptions C03_foreign_legs_raise.
Example C03_ex : wf_tensor exh 0 /\ t_diag (tens exh 0) = false /\ NoDup [2; 1] /\ incl [2; 1] (legs_of exh 0) /\
  (forall l, In l (legs_of exh 0) -> ~ In l [2; 1] -> 0 < dim_of exh l) /\
  t_arr (tens (fst (outProduct 0 [2; 1] (NStr "m") exh)) 0) =
    Some (mkArr [6; 2] [0; 6; 2; 8; 4; 10; 1; 7; 3; 9; 5; 11]%Z).
Proof.
  split; [exact exh_wf0|]. split; [reflexivity|]. split; [repeat constructor; simpl; intuition lia|].
  split; [intros x Hx; unfold legs_of; simpl in *; tauto|].
  split; [|reflexivity]. intros l Hl _. unfold legs_of in Hl. enum Hl; unfold dim_of; simpl; lia.
Qed.

(** ** C04: sumOutLeg *)
Theorem C04_sumOutLeg : forall A (HA : SR A) (h : heap A) t l w,
  wf_tensor h t -> t_like (tens h t) = false -> In l (legs_of h t) ->
  match w with None => True | Some v => ashape v = [dim_of h l] /\ List.length (legs_of h t) <= 25 end ->
  exists h', sumOutLeg t l w h = (h', Ok tt) /\ only_tensor h h' t /\ wf_tensor h' t /\
    legs_of h' t = others (legs_of h t) [l] /\
    t_diag (tens h' t) = t_diag (tens h t) /\ t_like (tens h' t) = false /\
    forall s, in_bounds h (others (legs_of h t) [l]) s ->
      entry h' t s = sumN (dim_of h l) (fun i => rmul (weight w i) (entry h t (upd s l i))).
Proof. exact @sumOutLeg_ok. Qed.
Print Assumptions C04_sumOutLeg.
Theorem C04_absent_leg : forall A (HA : SR A) (h : heap A) t l w,
  ~ In l (legs_of h t) -> sumOutLeg t l w h = (h, Ok tt).
Proof. exact @sumOutLeg_absent. Qed.
Print Assumptions C04_absent_leg.
Example C04_ex :
  t_arr (tens (fst (sumOutLeg 0 1 (Some (mkArr [3] [1; 10; 100]%Z)) exh)) 0) = Some (mkArr [2; 2] [420; 531; 1086; 1197]%Z) /\
  t_arr (tens (fst (sumOutLeg 1 3 (Some (mkArr [2] [1; 10]%Z)) exh)) 1) = Some (mkArr [2] [5; 70]%Z).
Proof. split; reflexivity. Qed.

(** ** C05: trace *)
Theorem C05_trace_dense : forall A (HA : SR A) (h : heap A) t rows cols rl cl,
  wf_tensor h t -> t_like (tens h t) = false -> t_diag (tens h t) = false -> split_of h t rows cols rl cl ->
  let dr := map (dim_of h) rl in let dc := map (dim_of h) cl in
  trace h t rows cols =
    if Nat.eqb (prodn dr) (prodn dc)
    then Ok (sumN (prodn dr) (fun k => entry h t (put2 rl cl (digits dr k) (digits dc k) (fun _ => 0))))
    else Err AssertionError.
Proof. exact @trace_dense. Qed.
Print Assumptions C05_trace_dense.
Theorem C05_trace_pairs : forall A (HA : SR A) (h : heap A) t rows cols rl cl s,
  wf_tensor h t -> t_like (tens h t) = false -> t_diag (tens h t) = false -> split_of h t rows cols rl cl ->
  map (dim_of h) rl = map (dim_of h) cl ->
  trace h t rows cols = Ok (sumpairs (dim_of h) (combine rl cl) (entry h t) s).
Proof. exact @trace_pairs. Qed.
Print Assumptions C05_trace_pairs.
Theorem C05_no_split_raises : forall A (HA : SR A) (h : heap A) t rows cols,
  wf_tensor h t -> t_diag (tens h t) = false -> (forall rl cl, ~ split_of h t rows cols rl cl) ->
  exists e, trace h t rows cols = Err e.
Proof. exact @trace_nosplit. Qed.
Print Assumptions C05_no_split_raises.
Theorem C05_trace_diagonal : forall A (HA : SR A) (h : heap A) t rows cols,
  wf_tensor h t -> t_like (tens h t) = false -> t_diag (tens h t) = true ->
  trace h t rows cols = Ok (sumN (t_len (tens h t)) (fun i => entry h t (fun _ => i))).
Proof. exact @trace_diag. Qed.
Print Assumptions C05_trace_diagonal.
Theorem C05_trace_diagonal_pair : forall A (HA : SR A) (h : heap A) t rows cols l1 l2 s,
  wf_tensor h t -> t_like (tens h t) = false -> t_diag (tens h t) = true -> legs_of h t = [l1; l2] ->
  trace h t rows cols = Ok (sumpairs (dim_of h) [(l1, l2)] (entry h t) s).
Proof. exact @trace_diag_pair. Qed.
Print Assumptions C05_trace_diagonal_pair.
Example C05_ex : wf_tensor exh 1 /\ legs_of exh 1 = [3; 4] /\ trace exh 1 None None = Ok 12%Z /\
  trace exh 0 (Some [RLeg 0]) None = Err AssertionError.
Proof. split; [exact exh_wf1|]. repeat split; reflexivity. Qed.
(** a dense 2 x 2 tensor *)
Definition exm : heap Z := fst (mkDense (Some [2; 2]) None (Some (mkArr [4] [1; 2; 3; 4]%Z)) None None false exh).
Example C05_ex2 : trace exm 2 (Some [RStr "a"]) (Some [RStr "b"]) = Ok 5%Z /\ legs_of exm 2 = [5; 6] /\
  map (dim_of exm) [5] = map (dim_of exm) [6].
Proof. repeat split; reflexivity. Qed.

(** ** C06: the constructor of Tensor *)
Theorem C06_constructor : forall A (h : heap A) sh labs data name ls like, args_wf h data ls ->
  match mkDense sh labs data name ls like h with
  | (h', Ok t) => dense_args_ok h sh labs data ls /\ new_tensor h h' t ls /\ wf_tensor h' t /\ owned h' t /\
      t_diag (tens h' t) = false /\ t_like (tens h' t) = like /\ t_name (tens h' t) = name /\
      (forall l, ls = Some l -> legs_of h' t = l) /\
      (forall l, labs = Some l -> names_of h' t = l) /\
      (forall l, sh = Some l -> dims_of h' t = l) /\
      (forall a, data = Some a -> sh = None -> ls = None -> dims_of h' t = ashape a) /\
      (forall a, data = Some a -> like = false -> exists a', t_arr (tens h' t) = Some a' /\ adata a' = adata a)
  | (h', Err e) => h' = h /\ ~ (dense_args_ok h sh labs data ls) /\
      (e = ValueError \/ e = AssertionError \/ e = OutOfFuel /\ labs <> None /\ sh = None /\ ls = None /\ data = None)
  end.
Proof. exact @mkDense_spec. Qed.
Print Assumptions C06_constructor.
Example C06_ex : names_of exm 2 = [NStr "a"; NStr "b"] /\
  snd (mkDense (Some [2; 2]) None (Some (mkArr [3] [1; 2; 3]%Z)) None None false exh) = Err ValueError /\
  snd (mkDense (Some [2; 2]) (Some [NStr "x"]) None None None true exh) = Err ValueError.
Proof. repeat split; reflexivity. Qed.

(** ** C07: the constructor of DiagonalTensor.
    The full claim ("stores exactly one entry per diagonal position") is false of the code; it holds
    whenever the data handed over has one entry per diagonal position or one axis per leg. *)
Theorem C07_constructor_partial : forall A (HA : SR A) (h : heap A) sh labs data name ls like, args_wf h data ls ->
  match mkDiag sh labs data name ls like h with
  | (h', Ok t) => new_tensor h h' t ls /\ owned h' t /\ NoDup (legs_of h' t) /\
      (forall l, In l (legs_of h' t) -> dim_of h' l = t_len (tens h' t)) /\
      t_diag (tens h' t) = true /\ t_like (tens h' t) = like /\ t_name (tens h' t) = name /\
      (forall l, ls = Some l -> legs_of h' t = l) /\
      (forall l, labs = Some l -> names_of h' t = l) /\
      (forall l, sh = Some (DList l) -> ls <> None \/ labs <> None \/ (forall a, data = Some a -> ashape a <> []) -> dims_of h' t = l) /\
      (forall n, sh = Some (DInt n) -> forall l, In l (legs_of h' t) -> dim_of h' l = n) /\
      (diag_data_sane h' t data like -> wf_tensor h' t /\
         (like = false -> exists a', t_arr (tens h' t) = Some a' /\
           match data with
           | None => a' = match legs_of h' t with [] => np_scalar r1 | _ => np_ones (t_len (tens h' t)) end
           | Some a => match ashape a with
                       | [] | [_] => a' = a
                       | _ => forall i, i < t_len (tens h' t) -> aget a' [i] = aget a (repeat i (List.length (legs_of h' t)))
                       end
           end))
  | (h', Err e) => h' = h
  end.
Proof. exact @mkDiag_spec. Qed.
Print Assumptions C07_constructor_partial.
(** DiagonalTensor(shape=(2,2), data=[1,2,3,4]) is accepted and stores four entries for two positions *)
Theorem C07_refuted : exists (h h' : heap Z) t a,
  mkDiag (Some (DList [2; 2])) None (Some (mkArr [4] [1; 2; 3; 4]%Z)) None None false h = (h', Ok t) /\
  dims_of h' t = [2; 2] /\ t_arr (tens h' t) = Some a /\ List.length (adata a) = 4.
Proof.
  exists exh, (fst (mkDiag (Some (DList [2; 2])) None (Some (mkArr [4] [1; 2; 3; 4]%Z)) None None false exh)), 2,
    (mkArr [4] [1; 2; 3; 4]%Z).
  split; [apply injective_projections; reflexivity|]. repeat split; reflexivity.
Qed.
Print Assumptions C07_refuted.
(** DiagonalTensor(shape=(2,2), data=np.array(3)) ignores the shape and yields a scalar *)
Theorem C07_shape_ignored : exists (h h' : heap Z) t,
  mkDiag (Some (DList [2; 2])) None (Some (mkArr [] [3]%Z)) None None false h = (h', Ok t) /\ dims_of h' t = [].
Proof.
  exists exh, (fst (mkDiag (Some (DList [2; 2])) None (Some (mkArr [] [3]%Z)) None None false exh)), 2.
  split; [apply injective_projections; reflexivity|reflexivity].
Qed.
Print Assumptions C07_shape_ignored.
Example C07_ex : exists h', mkDiag None (Some [NStr "x"; NStr "y"; NStr "z"]) (Some (mkArr [2] [4; 9]%Z)) None None false exh = (h', Ok 2)
  /\ dims_of h' 2 = [2; 2; 2] /\ diag_data_sane h' 2 (Some (mkArr [2] [4; 9]%Z)) false.
Proof.
  exists (fst (mkDiag None (Some [NStr "x"; NStr "y"; NStr "z"]) (Some (mkArr [2] [4; 9]%Z)) None None false exh)).
  split; [apply injective_projections; reflexivity|]. split; [reflexivity|]. left. split; [discriminate|reflexivity].
Qed.

(** ** C08: copy.  [h'] still contains the original untouched ([new_tensor]); afterwards the two tensors
    evolve independently under any interleaving [os] of in-place operations, returning or raising. *)
Theorem C08_copy : forall A (HA : SR A) (h : heap A) t, wf_tensor h t ->
  ~ (t_diag (tens h t) = true /\ t_like (tens h t) = false /\ legs_of h t = []) ->
  exists h' t', copy t h = (h', Ok t') /\ copied h h' t t' /\ t_like (tens h' t') = t_like (tens h t) /\
    forall s s', map s' (legs_of h' t') = map s (legs_of h t) -> entry h' t' s' = entry h t s.
Proof. exact @copy_ok. Qed.
Print Assumptions C08_copy.
Theorem C08_original_unchanged : forall A (h h' : heap A) t t',
  wf_tensor h t -> copied h h' t t' -> apart h' t t' /\ same_state h h' t.
Proof. exact @copied_apart. Qed.
Print Assumptions C08_original_unchanged.
Theorem C08_independent : forall A (HA : SR A) (h h1 : heap A) t t' os o (b : bool),
  wf_tensor h t -> copy t h = (h1, Ok t') ->
  let h2 := run2 t t' os h1 in
  same_state h2 (after o (if b then t else t') h2) (if b then t' else t).
Proof. exact @copy_independent. Qed.
Print Assumptions C08_independent.
Theorem C08_same_state_entry : forall A (HA : SR A) (h h' : heap A) t s, same_state h h' t ->
  entry h' t s = entry h t s /\ legs_of h' t = legs_of h t /\ names_of h' t = names_of h t /\ dims_of h' t = dims_of h t.
Proof. exact @same_state_entry. Qed.
Print Assumptions C08_same_state_entry.
(** the one tensor copy() fails on: a diagonal tensor without legs *)
Theorem C08_scalar_diagonal_raises : forall A (HA : SR A) (h : heap A) t, wf_tensor h t -> t_diag (tens h t) = true ->
  t_like (tens h t) = false -> legs_of h t = [] -> copy t h = (h, Err IndexError).
Proof. exact @copy_scalar_diag. Qed.
Print Assumptions C08_scalar_diagonal_raises.
Theorem C08_toTensorLike : forall A (HA : SR A) (h : heap A) t, wf_tensor h t ->
  exists h' t', toTensorLike t h = (h', Ok t') /\ copied h h' t t' /\ t_like (tens h' t') = true.
Proof. exact @toTensorLike_ok. Qed.
Print Assumptions C08_toTensorLike.
Example C08_ex : let h1 := fst (copy 0 exh) in snd (copy 0 exh) = Ok 2 /\ legs_of h1 2 = [5; 6; 7] /\
  names_of h1 2 = names_of exh 0 /\
  names_of (run2 0 2 [(true, OpRename (NStr "a") (NStr "q")); (false, OpSumLeg 6 None)] h1) 2 = [NStr "a"; NStr "c"] /\
  names_of (run2 0 2 [(true, OpRename (NStr "a") (NStr "q")); (false, OpSumLeg 6 None)] h1) 0 = [NStr "q"; NStr "b"; NStr "c"].
Proof. repeat split; reflexivity. Qed.

(** ** C09: renaming *)
Theorem C09_renameLabel : forall A (h : heap A) t cf ct, NoDup (legs_of h t) ->
  exists h' L, renameLabel t cf ct h = (h', Ok tt) /\
    only_names h h' L (fun _ => ct) /\
    (match getLeg h t cf false with Some l => L = [l] | None => L = [] end) /\ incl L (legs_of h t) /\
    names_of h' t = replace_first cf ct (names_of h t).
Proof. exact @renameLabel_ok. Qed.
Print Assumptions C09_renameLabel.
Theorem C09_getLeg_is_first : forall A (h : heap A) t lab,
  match getLeg h t lab false with
  | None => ~ In lab (names_of h t)
  | Some l => exists u v, legs_of h t = u ++ l :: v /\ l_name (legs h l) = lab /\
                          forall l', In l' u -> l_name (legs h l') <> lab
  end.
Proof. exact @getLeg_first. Qed.
Print Assumptions C09_getLeg_is_first.
Theorem C09_renameLabels : forall A (h : heap A) t cf ct, NoDup (legs_of h t) -> List.length cf = List.length ct ->
  exists h' f, renameLabels t cf ct h = (h', Ok tt) /\ only_names h h' (legs_of h t) f /\
    names_of h' t = fold_left (fun N p => replace_first (fst p) (snd p) N) (combine cf ct) (names_of h t).
Proof. exact @renameLabels_ok. Qed.
Print Assumptions C09_renameLabels.
Theorem C09_renameLabels_raises : forall A (h : heap A) t cf ct, List.length cf <> List.length ct ->
  renameLabels t cf ct h = (h, Err AssertionError).
Proof. exact @renameLabels_err. Qed.
Print Assumptions C09_renameLabels_raises.
Theorem C09_simultaneous : forall X (DX : Dec X) (d : X) cf ct N, List.length cf = List.length ct ->
  (forall i j, i < j -> j < List.length cf -> nth i ct d <> nth j cf d) ->
  fold_left (fun N p => replace_first (fst p) (snd p) N) (combine cf ct) N = simul d cf ct N.
Proof. exact @simul_fold. Qed.
Print Assumptions C09_simultaneous.
Theorem C09_swap_does_not_swap : forall X (DX : Dec X) (a b : X), a <> b ->
  fold_left (fun N p => replace_first (fst p) (snd p) N) (combine [a; b] [b; a]) [a; b] = [a; b].
Proof. exact @swap_does_not_swap. Qed.
Print Assumptions C09_swap_does_not_swap.
Example C09_ex : names_of (fst (renameLabels 0 [NStr "b"; NStr "x"] [NStr "q"; NStr "z"] exh)) 0 = [NStr "a"; NStr "q"; NStr "c"]
  /\ names_of (fst (renameLabels 1 [NStr "a"; NStr "b"] [NStr "b"; NStr "a"] exh)) 1 = [NStr "a"; NStr "b"]
  /\ simul NNone [NStr "a"; NStr "b"] [NStr "b"; NStr "a"] [NStr "a"; NStr "b"] = [NStr "b"; NStr "a"].
Proof. repeat split; reflexivity. Qed.

(** ** C10: tags *)
Theorem C10_roundtrip : forall A (h : heap A) t tag, NoDup (legs_of h t) ->
  (forall l, In l (legs_of h t) -> exists s, l_name (legs h l) = NStr s /\ ~ has_dash s) ->
  exists h1 h2, addTensorTag t tag h = (h1, Ok tt) /\ removeTensorTag t h1 = (h2, Ok tt) /\
    (forall l s, In l (legs_of h t) -> l_name (legs h l) = NStr s -> l_name (legs h1 l) = NStr (tag ++ "-" ++ s)) /\
    (~ has_dash tag -> only_names h h2 (legs_of h t) (fun l => l_name (legs h l))) /\
    (forall u v, tag = (u ++ "-" ++ v)%string -> ~ has_dash u ->
       forall l s, In l (legs_of h t) -> l_name (legs h l) = NStr s ->
         l_name (legs h2 l) = NStr (v ++ "-" ++ s) /\ l_name (legs h2 l) <> l_name (legs h l)).
Proof. exact @tag_roundtrip_spec. Qed.
Print Assumptions C10_roundtrip.
Theorem C10_already_tagged : forall A (h : heap A) t tag u x v s, NoDup (legs_of h t) -> legs_of h t = u ++ x :: v ->
  (forall l, In l u -> exists s', l_name (legs h l) = NStr s' /\ ~ has_dash s') ->
  l_name (legs h x) = NStr s -> has_dash s ->
  exists h', addTensorTag t tag h = (h', Err AssertionError) /\
    only_names h h' u (fun l => match l_name (legs h l) with NStr s => NStr (tag ++ "-" ++ s) | n => n end).
Proof. exact @tag_err_spec. Qed.
Print Assumptions C10_already_tagged.
Example C10_ex : (forall l, In l (legs_of exh 0) -> exists s, l_name (legs exh l) = NStr s /\ ~ has_dash s) /\
  names_of (fst (addTensorTag 0 "T-1" exh)) 0 = [NStr "T-1-a"; NStr "T-1-b"; NStr "T-1-c"] /\
  names_of (fst (removeTensorTag 0 (fst (addTensorTag 0 "T-1" exh)))) 0 = [NStr "1-a"; NStr "1-b"; NStr "1-c"] /\
  names_of (fst (removeTensorTag 0 (fst (addTensorTag 0 "T1" exh)))) 0 = [NStr "a"; NStr "b"; NStr "c"].
Proof.
  split; [|repeat split; reflexivity].
  intros l Hl. unfold legs_of in Hl. enum Hl; eexists; (split; [reflexivity|]; now apply findDash_None).
Qed.

(** ** C11: getLegsByLabel *)
Theorem C11_getLegsByLabel : forall A (h : heap A) t labs,
  match getLegsByLabel h t labs with
  | Ok ls =>
      List.length ls = List.length labs /\
      (forall k lab, nth_error labs k = Some lab ->
         nth_error ls k = nth_error (filter (named h lab) (legs_of h t)) (count lab (firstn k labs))) /\
      (NoDup (legs_of h t) -> NoDup ls) /\ incl ls (legs_of h t) /\
      (forall lab, count lab labs <= count lab (names_of h t))
  | Err e => e = ValueError /\ exists lab, count lab labs > count lab (names_of h t)
  end.
Proof. exact @getLegsByLabel_spec. Qed.
Print Assumptions C11_getLegsByLabel.
Example C11_ex : getLegsByLabel (fst (renameLabel 0 (NStr "c") (NStr "a") exh)) 0 [NStr "a"; NStr "b"; NStr "a"] = Ok [0; 1; 2]
  /\ getLegsByLabel exh 0 [NStr "a"; NStr "a"] = Err ValueError.
Proof. split; reflexivity. Qed.
