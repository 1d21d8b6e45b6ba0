(** Property theorems for link.py mergeLink: C21. *)
From Coq Require Import List Arith Bool ZArith Lia String Permutation.
From Verif Require Import Base Sums NdModel HeapModel FuncsModel FuncsSpec TensorModel TensorSpec ContractModel NetSpec
  MergeLinkSpec NetProofs MergeLinkProofs ContractProps.
Import ListNotations.
Local Open Scope list_scope.
Local Open Scope nat_scope.

(** Two or more bonds between two tensors that are not diagonal become one, of the product dimension; the value of every
    network containing the two tensors is unchanged. The names are the given ones or the old ones joined by "|". *)
Theorem C21_merge : forall A (HA : SR A) (h : heap A) ts ta tb rest bn na nb, wf_list h ts -> Permutation ts (ta :: tb :: rest) ->
  t_diag (tens h ta) = false -> t_diag (tens h tb) = false ->
  (t_like (tens h ta) = false -> forall l, In l (restA h ta tb) -> 0 < dim_of h l) ->
  (t_like (tens h tb) = false -> forall l, In l (restB h ta tb) -> 0 < dim_of h l) ->
  2 <= List.length (shared h ta tb) -> bond_names h (shared h ta tb) bn na nb ->
  exists h' la lb, mergeLink ta tb bn h = (h', Ok tt) /\ link_merged h h' ta tb la lb na nb /\ wf_list h' ts /\
    Permutation (free_legs h' ts) (free_legs h ts) /\
    forall s, in_bounds h (free_legs h ts) s -> netval h' ts s = netval h ts s.
Proof. exact @mergeLink_ok. Qed.
Print Assumptions C21_merge.

Theorem C21_none : forall A (HA : SR A) (h : heap A) ts ta tb bn, wf_list h ts -> In ta ts -> In tb ts -> shared h ta tb = [] ->
  mergeLink ta tb bn h = (h, Ok tt).
Proof. exact @mergeLink_none. Qed.
Print Assumptions C21_none.

Theorem C21_one : forall A (HA : SR A) (h : heap A) ts ta tb la lb, wf_list h ts -> In ta ts -> In tb ts -> ta <> tb -> shared h ta tb = [(la, lb)] ->
  mergeLink ta tb None h = (h, Ok tt) /\
  forall n, exists h', mergeLink ta tb (Some n) h = (h', Ok tt) /\ only_names h h' [la; lb] (fun _ => n).
Proof. exact @mergeLink_one. Qed.
Print Assumptions C21_one.

(** Diagonal tensors raise TypeError. If only the second one is diagonal the first has been changed by then: its old legs are gone and
    the two tensors are no longer linked. *)
Theorem C21_diagonal_first : forall A (HA : SR A) (h : heap A) ts ta tb bn na nb, wf_list h ts -> In ta ts -> In tb ts ->
  t_diag (tens h ta) = true -> 2 <= List.length (shared h ta tb) -> bond_names h (shared h ta tb) bn na nb ->
  mergeLink ta tb bn h = (h, Err TypeError).
Proof. exact @mergeLink_diagA. Qed.
Print Assumptions C21_diagonal_first.
Theorem C21_diagonal_second : forall A (HA : SR A) (h : heap A) ts ta tb rest bn na nb, wf_list h ts -> Permutation ts (ta :: tb :: rest) ->
  t_diag (tens h ta) = false -> t_diag (tens h tb) = true -> (t_like (tens h ta) = false -> forall l, In l (restA h ta tb) -> 0 < dim_of h l) ->
  2 <= List.length (shared h ta tb) -> bond_names h (shared h ta tb) bn na nb ->
  exists h', mergeLink ta tb bn h = (h', Err TypeError) /\ legs_of h' ta = nleg h :: restA h ta tb /\ legs_of h' tb = legs_of h tb /\ shared h' ta tb = [].
Proof. exact @mergeLink_diagB. Qed.
Print Assumptions C21_diagonal_second.

(** Tensors 0 (2 x 3 x 2, legs 0 1 2) and 1 (3 x 2 x 2, legs 3 4 5) share the bonds 0-4 and 1-3; leg 5 is linked to leg 6 of
    tensor 2 (2 x 1, legs 6 7); tensor 3 (dense, legs 8 9) and the diagonal tensor 4 (legs 10 11) share 8-10 and 9-11. *)
Definition exm : heap Z :=
  mkHeap (fun l => nth l [mkLeg (Some 0) 2 (NStr "a") (Some 0); mkLeg (Some 0) 3 (NStr "b") (Some 1);
                          mkLeg (Some 0) 2 (NStr "c") None; mkLeg (Some 1) 3 (NStr "d") (Some 1);
                          mkLeg (Some 1) 2 (NStr "e") (Some 0); mkLeg (Some 1) 2 (NStr "f") (Some 2);
                          mkLeg (Some 2) 2 (NStr "g") (Some 2); mkLeg (Some 2) 1 (NStr "h") None;
                          mkLeg (Some 3) 2 (NStr "i") (Some 3); mkLeg (Some 3) 2 (NStr "j") (Some 4);
                          mkLeg (Some 4) 2 (NStr "k") (Some 3); mkLeg (Some 4) 2 (NStr "l") (Some 4)]
                         (mkLeg None 0 NNone None))
         (fun b => nth b [mkBond 0 4; mkBond 1 3; mkBond 5 6; mkBond 8 10; mkBond 11 9] (mkBond 0 0))
         (fun t => match t with
                   | 0 => mkTensor [0; 1; 2] (Some (mkArr [2; 3; 2] (map Z.of_nat (seq 0 12)))) false false 0 None
                   | 1 => mkTensor [3; 4; 5] (Some (mkArr [3; 2; 2] (map Z.of_nat (seq 1 12)))) false false 0 None
                   | 2 => mkTensor [6; 7] (Some (mkArr [2; 1] [1; 2]%Z)) false false 0 None
                   | 3 => mkTensor [8; 9] (Some (mkArr [2; 2] [1; 2; 3; 4]%Z)) false false 0 None
                   | _ => mkTensor [10; 11] (Some (mkArr [2] [1; 2]%Z)) true false 2 None
                   end)
         12 5 5 (fun _ => 0%Z) 0.
Definition exm_part (l : nat) : nat := nth l [4; 3; 0; 1; 0; 6; 5; 0; 10; 11; 8; 9] 0.
Lemma exm_wf t : t < 5 -> wf_tensor exm t.
Proof.
  intros Ht. destruct t as [|[|[|[|[|t]]]]]; [| | | | |lia]; clear Ht; apply Build_wf_tensor.
  all: try (simpl; lia).
  all: try (unfold legs_of; simpl; repeat constructor; simpl; intuition lia).
  all: try (intros l Hl; unfold legs_of in Hl; enum Hl; simpl; lia).
  all: try discriminate.
  all: try (now repeat split).
  all: intros _; split; [first [discriminate|reflexivity]|intros l Hl; unfold legs_of in Hl; enum Hl; reflexivity].
Qed.
Lemma exm_bond l b : l < 12 -> l_bond (legs exm l) = Some b -> b < 5 /\ ends exm b l (exm_part l) /\ l_bond (legs exm (exm_part l)) = Some b /\
  dim_of exm l = dim_of exm (exm_part l).
Proof.
  intros Hl Eb. do 12 (destruct l as [|l]; [simpl in Eb; first [discriminate Eb|injection Eb as <-; split; [lia|]; split; [first [now left|now right]|split; reflexivity]]|]). lia.
Qed.
Lemma exm_linked l l' : l < 12 -> linked exm l l' -> l' < 12 /\ forall t, l_tensor (legs exm l') = Some t -> In l' (legs_of exm t).
Proof.
  intros Hl (b & Eb & K). assert (l' < 12) as L'.
  { destruct K as [K|K]; do 12 (destruct l as [|l]; [simpl in Eb; first [discriminate Eb|injection Eb as <-; injection K; lia]|]); lia. }
  split; auto. intros t Et. do 12 (destruct l' as [|l']; [simpl in Et; injection Et as <-; simpl; lia|]). lia.
Qed.
Lemma exm_list ts : (forall t, In t ts -> t < 5) -> NoDup ts -> NoDup (all_legs exm ts) -> wf_list exm ts.
Proof.
  intros T N1 N2. assert (AL : forall l, In l (all_legs exm ts) -> l < 12).
  { intros l Hl. apply all_legs_In in Hl. destruct Hl as (t & Ht & Hl). exact (wt_alloc _ _ (exm_wf t (T t Ht)) l Hl). }
  constructor; [constructor|..]; auto using exm_wf.
  - intros t Ht l Hl. specialize (T t Ht). do 5 (destruct t as [|t]; [enum Hl; reflexivity|]). lia.
  - intros l b Hl Eb. exists (exm_part l). destruct (exm_bond l b (AL l Hl) Eb) as (_ & X & Y). auto.
  - intros l b Hl Eb. apply (exm_bond l b (AL l Hl) Eb).
  - intros l l' Hl Lk. apply (exm_linked l l' (AL l Hl) Lk).
  - intros l l' t' Hl Lk Et _. now apply (exm_linked l l' (AL l Hl) Lk).
Qed.
Example C21_example : wf_list exm [2; 0; 1] /\ Permutation [2; 0; 1] [0; 1; 2] /\ shared exm 0 1 = [(0, 4); (1, 3)] /\
  (forall l, In l (restA exm 0 1) -> 0 < dim_of exm l) /\ (forall l, In l (restB exm 0 1) -> 0 < dim_of exm l) /\
  bond_names exm (shared exm 0 1) None (NStr "a|b") (NStr "e|d").
Proof.
  split; [apply exm_list; [intros t Ht; enum Ht; lia|nd|nd]|]. split; [apply (Permutation_cons_append [0; 1] 2)|]. split; [reflexivity|].
  split; [intros l Hl; vm_compute in Hl; enum Hl; unfold dim_of; simpl; lia|]. split; [intros l Hl; vm_compute in Hl; enum Hl; unfold dim_of; simpl; lia|].
  apply (bn_join exm (shared exm 0 1) ["a"; "b"]%string ["e"; "d"]%string); reflexivity.
Qed.
Example C21_example_cases : wf_list exm [0; 2; 1; 3; 4] /\ shared exm 0 2 = [] /\ shared exm 1 2 = [(5, 6)] /\
  shared exm 4 3 = [(10, 8); (11, 9)] /\ t_diag (tens exm 4) = true /\ t_diag (tens exm 3) = false /\ restA exm 3 4 = [] /\
  bond_names exm (shared exm 4 3) (Some (NPair "x" "y")) (NStr "x") (NStr "y").
Proof.
  split; [apply exm_list; [intros t Ht; enum Ht; lia|nd|nd]|]. repeat (split; [reflexivity|]). constructor.
Qed.
