(** FiniteTensorNetwork.contract: the value it computes, and the sequence it keeps. *)
From Coq Require Import List Arith Bool String ZArith Lia Permutation.
From Verif Require Import Base Sums NdModel HeapModel TensorModel TensorSpec NetSpec ContractModel SearchModel SearchSpec GraphModel NetGraphModel FtnModel FtnSpec FtnNetSpec
  FtnProofs FtnMainProofs FtnStaleProofs ContractProps SearchProps NetGraphProps FtnProps.
Import ListNotations.
Local Open Scope nat_scope.
Local Open Scope string_scope.
Local Open Scope list_scope.

(** ** C35 FiniteTensorNetwork.contract computes the linked network *)
(** Whenever the call returns and every leg is in at most one link, never to its own tensor, the result is the Einstein sum of
    the tensors in the dictionary along the declared links; its legs are the free legs (joined by the declared outer products)
    under their renamed and, if asked for, untagged names.  A sequence already stored must fit the tensors; the sequence stored
    afterwards does. *)
Theorem C35_contract_value : forall A (HA : SR A) symdiff, symdiff_ok symdiff -> forall fuel (w : world A) f d b w' t links ps,
  contract symdiff fuel f d b w = (w', Ok t) ->
  (forall p, In p d -> wf_tensor (w_heap w) (snd p) /\ t_like (tens (w_heap w) (snd p)) = false) -> NoDup (map fst d) ->
  f_links (w_ftn w f) = map stored links -> Forall2 (declares (w_heap w) (f_before (w_ftn w f)) d) links ps -> proper ps ->
  (forall sq, f_seq (w_ftn w f) = Some sq -> exists us, Permutation us d /\ namesOf w f = map fst us /\ seq_fits (w_heap w) us ps sq) ->
  (exists items, result_items (w_heap w) (f_before (w_ftn w f)) d ps (f_out (w_ftn w f)) (f_after (w_ftn w f)) b items /\
    represents (w_heap w) (w_heap w') t items (rval (w_heap w) d ps)) /\
  exists us sq, Permutation us d /\ namesOf w f = map fst us /\ f_seq (w_ftn w' f) = Some sq /\ seq_fits (w_heap w) us ps sq.
Proof. exact @contract_value. Qed.
Print Assumptions C35_contract_value.
(** the declared links always name legs that exist, and the dictionary has exactly the declared tensors *)
Theorem C35_links_found : forall A (HA : SR A) symdiff fuel (w : world A) f d b w' t links,
  contract symdiff fuel f d b w = (w', Ok t) -> (forall p, In p d -> wf_tensor (w_heap w) (snd p)) -> NoDup (map fst d) ->
  f_links (w_ftn w f) = map stored links ->
  Permutation (namesOf w f) (map fst d) /\ exists ps, Forall2 (declares (w_heap w) (f_before (w_ftn w f)) d) links ps.
Proof. exact @contract_declares. Qed.
Print Assumptions C35_links_found.
(** a later call, with other tensors under the same names and the sequence of the first call, is right as well, provided the
    same names hold diagonal tensors *)
Theorem C35_reused_sequence : forall A (HA : SR A) symdiff fuel, symdiff_ok symdiff -> forall (w : world A) f d b w1 t1 links ps w2 d2 b2 w3 t3 more ps2,
  contract symdiff fuel f d b w = (w1, Ok t1) -> usable (w_heap w) d -> f_links (w_ftn w f) = map stored links ->
  Forall2 (declares (w_heap w) (f_before (w_ftn w f)) d) links ps -> proper ps -> f_seq (w_ftn w f) = None ->
  f_seq (w_ftn w2 f) = f_seq (w_ftn w1 f) -> namesOf w2 f = namesOf w f -> f_links (w_ftn w2 f) = map stored (links ++ more) ->
  contract symdiff fuel f d2 b2 w2 = (w3, Ok t3) -> usable (w_heap w2) d2 ->
  Forall2 (declares (w_heap w2) (f_before (w_ftn w2 f)) d2) (links ++ more) ps2 -> proper ps2 ->
  (forall nm t t2, In (nm, t) d -> In (nm, t2) d2 -> t_diag (tens (w_heap w2) t2) = t_diag (tens (w_heap w) t)) ->
  exists items, result_items (w_heap w2) (f_before (w_ftn w2 f)) d2 ps2 (f_out (w_ftn w2 f)) (f_after (w_ftn w2 f)) b2 items /\
    represents (w_heap w2) (w_heap w3) t3 items (rval (w_heap w2) d2 ps2).
Proof. exact @contract_again. Qed.
Print Assumptions C35_reused_sequence.
Lemma usable_exn d : NoDup (map fst d) -> (forall p, In p d -> snd p < 4) -> usable exn d.
Proof.
  intros ND H. split; [|exact ND]. intros p Hp. specialize (H p Hp). split; [apply exn_wf; lia|].
  destruct (snd p) as [|[|[|[|]]]]; try reflexivity; lia.
Qed.
(** prog0 renames leg a of A to x, links leg c of A to leg f of B, and renames leg g of B to y afterwards *)
Example C35_example : let w := go prog0 start in let d := [("B", 2); ("A", 0)] in let w' := fst (contract sd 10 0 d true w) in
  snd (contract sd 10 0 d true w) = Ok 9 /\ usable (w_heap w) d /\ f_links (w_ftn w 0) = map stored [(("A", "c"), ("B", "f"))] /\
  Forall2 (declares (w_heap w) (f_before (w_ftn w 0)) d) [(("A", "c"), ("B", "f"))] [(("A", 2), ("B", 5))] /\
  proper [(("A", 2), ("B", 5))] /\ f_seq (w_ftn w 0) = None /\
  rval (w_heap w) d [(("A", 2), ("B", 5))] (fun r => if dec r ("A", 0) then 1 else 2) = (10 * 3 + 11 * 6)%Z /\
  names_of (w_heap w') 9 = [NStr "x"; NStr "b"; NStr "y"] /\ legs_of (w_heap w') 9 = [13; 14; 12] /\
  entry (w_heap w') 9 (fun l => if dec l 13 then 1 else 2) = (10 * 3 + 11 * 6)%Z.
Proof.
  cbv zeta. split; [vm_compute; reflexivity|]. split.
  { change (usable exn [("B", 2); ("A", 0)]). apply usable_exn; [repeat constructor; simpl; intuition discriminate|]. intros p [<-|[<-|[]]]; simpl; lia. }
  split; [reflexivity|]. split.
  { constructor; [|constructor]. split.
    - exists 0, [(0, NStr "x"); (1, NStr "b")], []. split; [simpl; auto|]. split; [vm_compute; reflexivity|]. split; [simpl; intuition discriminate|reflexivity].
    - exists 2, [], [(6, NStr "g")]. split; [simpl; auto|]. split; [vm_compute; reflexivity|]. split; [simpl; tauto|reflexivity]. }
  split.
  { split; [repeat constructor; simpl; intuition discriminate|]. intros p [<-|[]]. simpl. discriminate. }
  repeat split; vm_compute; reflexivity.
Qed.
(** Without the condition that no link joins two legs of the same tensor the claim is false: the two legs stay in the result *)
Lemma pair_snd {X Y} (p : X * Y) y : snd p = y -> p = (fst p, y).
Proof. destruct p; simpl; congruence. Qed.
Theorem C35_self_link_refuted : exists (w w' : world Z) d t links ps,
  contract sd 10 0 d true w = (w', Ok t) /\ usable (w_heap w) d /\ f_links (w_ftn w 0) = map stored links /\
  Forall2 (declares (w_heap w) (f_before (w_ftn w 0)) d) links ps /\ NoDup (map fst ps ++ map snd ps) /\ f_seq (w_ftn w 0) = None /\
  ~ exists items, result_items (w_heap w) (f_before (w_ftn w 0)) d ps (f_out (w_ftn w 0)) (f_after (w_ftn w 0)) true items /\
      represents (w_heap w) (w_heap w') t items (rval (w_heap w) d ps).
Proof.
  set (w := go [ONewList ["A"]; ONew (Some 1) false 10; OLink 0 "A" "a" "A" "c"] start).
  exists w, (fst (contract sd 10 0 [("A", 0)] true w)), [("A", 0)], 7, [(("A", "a"), ("A", "c"))], [(("A", 0), ("A", 2))].
  split; [apply pair_snd; vm_compute; reflexivity|]. split.
  { change (usable exn [("A", 0)]). apply usable_exn; [repeat constructor; simpl; intuition discriminate|]. intros p [<-|[]]; simpl; lia. }
  split; [reflexivity|]. split.
  { constructor; [|constructor]. split.
    - exists 0, [], [(1, NStr "b"); (2, NStr "c")]. split; [simpl; auto|]. split; [vm_compute; reflexivity|]. split; [simpl; tauto|reflexivity].
    - exists 0, [(0, NStr "a"); (1, NStr "b")], []. split; [simpl; auto|]. split; [vm_compute; reflexivity|]. split; [simpl; intuition discriminate|reflexivity]. }
  split; [repeat constructor; simpl; intuition discriminate|]. split; [reflexivity|].
  intros (items & (rs & items1 & P & J & E) & R). apply rp_names in R.
  assert (EN : List.length (map fst items) = 3) by (rewrite <- R; vm_compute; reflexivity).
  change (f_out (w_ftn w 0)) with (@nil (list pname * string)) in J. inversion J; subst items1 items. clear J.
  unfold renamed in EN. rewrite map_length, combine_length in EN. rewrite !map_length in EN.
  apply Permutation_length in P. change (List.length rs = 1) in P. lia.
Qed.
Print Assumptions C35_self_link_refuted.

(** ** C36 The cached sequence goes stale after edits *)
(** with realCost off, the stored sequence never changes again, whatever operations follow *)
Theorem C36_sequence_kept : forall A (HA : SR A) symdiff fuel (w : world A) f sq os,
  f < w_nftn w -> f_real (w_ftn w f) = false -> f_seq (w_ftn w f) = Some sq -> f_seq (w_ftn (run symdiff fuel os w) f) = Some sq.
Proof. exact @history_sequence. Qed.
Print Assumptions C36_sequence_kept.
(** A first call, then any operations after which the list of names has grown: if the next call returns, the tensors added are
    left out; the result is the network of the old names only *)
Theorem C36_added_left_out : forall A (HA : SR A) symdiff fuel, symdiff_ok symdiff -> forall (w : world A) f d b w1 t1 links ps os d2 b2 w3 t3 ps2 extra,
  let w2 := run symdiff fuel os w1 in
  f < w_nftn w -> contract symdiff fuel f d b w = (w1, Ok t1) -> usable (w_heap w) d -> f_links (w_ftn w f) = map stored links ->
  Forall2 (declares (w_heap w) (f_before (w_ftn w f)) d) links ps -> proper ps -> f_seq (w_ftn w f) = None -> f_real (w_ftn w f) = false ->
  namesOf w2 f = namesOf w f ++ extra -> contract symdiff fuel f d2 b2 w2 = (w3, Ok t3) -> usable (w_heap w2) d2 ->
  forall more, f_links (w_ftn w2 f) = map stored (links ++ more) ->
  Forall2 (declares (w_heap w2) (f_before (w_ftn w2 f)) d2) (links ++ more) ps2 -> proper ps2 ->
  (forall nm t t2, In (nm, t) d -> In (nm, t2) d2 -> t_diag (tens (w_heap w2) t2) = t_diag (tens (w_heap w) t)) ->
  exists us xs items, Permutation (us ++ xs) d2 /\ map fst us = namesOf w f /\ map fst xs = extra /\
    result_items (w_heap w2) (f_before (w_ftn w2 f)) us (within us ps2) (f_out (w_ftn w2 f)) (f_after (w_ftn w2 f)) b2 items /\
    represents (w_heap w2) (w_heap w3) t3 items (rval (w_heap w2) us (within us ps2)).
Proof. exact @history_added. Qed.
Print Assumptions C36_added_left_out.
(** after any operations that leave fewer names, the next call never returns *)
Theorem C36_removed_raises : forall A (HA : SR A) symdiff fuel, symdiff_ok symdiff -> forall (w : world A) f d b w1 t1 links ps os d2 b2,
  let w2 := run symdiff fuel os w1 in
  f < w_nftn w -> contract symdiff fuel f d b w = (w1, Ok t1) -> usable (w_heap w) d -> f_links (w_ftn w f) = map stored links ->
  Forall2 (declares (w_heap w) (f_before (w_ftn w f)) d) links ps -> proper ps -> f_seq (w_ftn w f) = None -> f_real (w_ftn w f) = false ->
  List.length (namesOf w2 f) < List.length (namesOf w f) -> forall w3 t3, contract symdiff fuel f d2 b2 w2 <> (w3, Ok t3).
Proof. exact @history_removed. Qed.
Print Assumptions C36_removed_raises.
(** realCost=True does not help when the added tensor has been seen before: whenever all leg names are known with their
    dimensions, the old sequence is used and the other tensors are left out *)
Theorem C36_real_cost : forall A (HA : SR A) symdiff, symdiff_ok symdiff -> forall fuel (w : world A) f d b w' t links ps us xs sq,
  contract symdiff fuel f d b w = (w', Ok t) ->
  (forall p, In p d -> wf_tensor (w_heap w) (snd p) /\ t_like (tens (w_heap w) (snd p)) = false) -> NoDup (map fst d) ->
  f_links (w_ftn w f) = map stored links -> Forall2 (declares (w_heap w) (f_before (w_ftn w f)) d) links ps -> proper ps ->
  Permutation (us ++ xs) d -> namesOf w f = map fst (us ++ xs) ->
  f_seq (w_ftn w f) = Some sq -> seq_fits (w_heap w) us ps sq -> not_recomputed (w_heap w) (w_ftn w f) d ->
  exists items, result_items (w_heap w) (f_before (w_ftn w f)) us (within us ps) (f_out (w_ftn w f)) (f_after (w_ftn w f)) b items /\
    represents (w_heap w) (w_heap w') t items (rval (w_heap w) us (within us ps)) /\ f_seq (w_ftn w' f) = Some sq.
Proof. exact @contract_stale. Qed.
Print Assumptions C36_real_cost.

(** A and B are contracted; then C (tensor 3) is added and the second call returns, without the legs of C *)
Definition progA (real : bool) : list (op Z) := [ONewList ["A"; "B"]; ONew (Some 1) real 10; OLink 0 "A" "c" "B" "f"].
Example C36_example : let w := go (progA false) start in let d := [("A", 0); ("B", 2)] in let d2 := [("A", 0); ("B", 2); ("C", 3)] in
  let w1 := fst (contract sd 10 0 d true w) in let w2 := go [OUnlock 0; OAdd 0 "C"] w1 in
  0 < w_nftn w /\ snd (contract sd 10 0 d true w) = Ok 9 /\ usable (w_heap w) d /\
  f_links (w_ftn w 0) = map stored [(("A", "c"), ("B", "f"))] /\
  Forall2 (declares (w_heap w) (f_before (w_ftn w 0)) d) [(("A", "c"), ("B", "f"))] [(("A", 2), ("B", 5))] /\
  proper [(("A", 2), ("B", 5))] /\ f_seq (w_ftn w 0) = None /\ f_real (w_ftn w 0) = false /\
  namesOf w2 0 = namesOf w 0 ++ ["C"] /\ snd (contract sd 10 0 d2 true w2) = Ok 13 /\
  f_links (w_ftn w2 0) = map stored ([(("A", "c"), ("B", "f"))] ++ []) /\
  names_of (w_heap (fst (contract sd 10 0 d2 true w2))) 13 = [NStr "a"; NStr "b"; NStr "g"] /\
  (* removing a tensor instead *)
  let w3 := go [OUnlock 0; ORemove 0 "C"] (fst (contract sd 10 0 d2 true (go [OAdd 0 "C"] w))) in
  List.length (namesOf w3 0) < 3 /\ snd (contract sd 10 0 d true w3) = Err IndexError /\
  (* and with realCost=True *)
  let w4 := go [OUnlock 0; ORemove 0 "C"] (fst (contract sd 10 0 d2 true (go [OAdd 0 "C"] (go (progA true) start)))) in
  snd (contract sd 10 0 d true w4) = Err IndexError.
Proof.
  cbv zeta. split; [simpl; lia|]. split; [vm_compute; reflexivity|]. split.
  { change (usable exn [("A", 0); ("B", 2)]). apply usable_exn; [repeat constructor; simpl; intuition discriminate|]. intros p [<-|[<-|[]]]; simpl; lia. }
  split; [reflexivity|]. split.
  { constructor; [|constructor]. split.
    - exists 0, [(0, NStr "a"); (1, NStr "b")], []. split; [simpl; auto|]. split; [vm_compute; reflexivity|]. split; [simpl; intuition discriminate|reflexivity].
    - exists 2, [], [(6, NStr "g")]. split; [simpl; auto|]. split; [vm_compute; reflexivity|]. split; [simpl; tauto|reflexivity]. }
  split.
  { split; [repeat constructor; simpl; intuition discriminate|]. intros p [<-|[]]. simpl. discriminate. }
  do 6 (split; [vm_compute; reflexivity|]). split; [vm_compute; lia|]. split; vm_compute; reflexivity.
Qed.
