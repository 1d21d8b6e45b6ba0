(** FiniteTensorNetwork: the lock, the inputs of contract, and the shared default list of names. *)
From Coq Require Import List Arith Bool String ZArith Lia Permutation.
From Verif Require Import Base NdModel HeapModel TensorModel TensorSpec NetSpec ContractModel SearchModel GraphModel NetGraphModel FtnModel FtnSpec
  FtnProofs FtnFrameProofs ContractProps SearchProps NetGraphProps.
Import ListNotations.
Local Open Scope nat_scope.
Local Open Scope string_scope.
Local Open Scope list_scope.

(** ** C33 A locked network refuses edits *)
(** every edit of a locked network raises and changes nothing at all *)
Theorem C33_refused : forall A (HA : SR A) symdiff fuel (w : world A) f o, f_locked (w_ftn w f) = true -> edits f o ->
  perform symdiff fuel o w = (w, Err AssertionError).
Proof. exact @locked_refuses. Qed.
Print Assumptions C33_refused.
(** contract locks, whether it returns or raises, and leaves the structure and all other networks alone *)
Theorem C33_contract_locks : forall A (HA : SR A) symdiff fuel f d b (w : world A),
  f_locked (w_ftn (fst (contract symdiff fuel f d b w)) f) = true.
Proof. exact @contract_locks. Qed.
Print Assumptions C33_contract_locks.
Theorem C33_contract_keeps : forall A (HA : SR A) symdiff fuel f d b (w : world A), let w' := fst (contract symdiff fuel f d b w) in
  w_names w' = w_names w /\ w_nnames w' = w_nnames w /\ w_nftn w' = w_nftn w /\ (forall g, g <> f -> w_ftn w' g = w_ftn w g) /\
  same_structure (w_ftn w f) (w_ftn w' f) /\ (f_locked (w_ftn w f) = true -> f_locked (w_ftn w' f) = true).
Proof. exact @contract_kept. Qed.
Print Assumptions C33_contract_keeps.
(** after any operations of any kind on any networks, except unlocking this one *)
Theorem C33_until_unlock : forall A (HA : SR A) symdiff fuel (os : list (op A)) f (w : world A),
  f < w_nftn w -> f_locked (w_ftn w f) = true -> ~ In (OUnlock f) os ->
  f_locked (w_ftn (run symdiff fuel os w) f) = true /\ same_structure (w_ftn w f) (w_ftn (run symdiff fuel os w) f).
Proof. exact @locked_until_unlock. Qed.
Print Assumptions C33_until_unlock.
(** the list of names of a network changes only through an unlocked network holding the same list *)
Theorem C33_names : forall A (HA : SR A) symdiff fuel (os : list (op A)) n (w : world A),
  n < w_nnames w -> w_names (run symdiff fuel os w) n <> w_names w n ->
  exists os1 o os2 g s, os = os1 ++ o :: os2 /\ (o = OAdd g s \/ o = ORemove g s) /\ f_names (w_ftn (run symdiff fuel os1 w) g) = n /\
    f_locked (w_ftn (run symdiff fuel os1 w) g) = false.
Proof. exact @names_changed. Qed.
Print Assumptions C33_names.
(** an unlocked network accepts every edit, and the edit does what it says and nothing else *)
Theorem C33_unlocked : forall A (HA : SR A) symdiff fuel (w : world A) f, f_locked (w_ftn w f) = false ->
  let perform := perform symdiff fuel in
  (forall n, exists w', perform (OAdd f n) w = (w', Ok tt) /\ only_list w w' f (namesOf w f ++ [n])) /\
  (forall n u v, namesOf w f = u ++ n :: v -> ~ In n u -> exists w', perform (ORemove f n) w = (w', Ok tt) /\ only_list w w' f (u ++ v)) /\
  (forall n, ~ In n (namesOf w f) -> perform (ORemove f n) w = (w, Err AssertionError)) /\
  (forall a la b lb, exists w', perform (OLink f a la b lb) w = (w', Ok tt) /\
     only_ftn w w' f (set_links (f_links (w_ftn w f) ++ [((a, (a ++ "-" ++ la)%string), (b, (b ++ "-" ++ lb)%string))]) (w_ftn w f))) /\
  (forall n l m, exists w', perform (OPre f n l m) w = (w', Ok tt) /\ only_ftn w w' f (set_before (f_before (w_ftn w f) ++ [(n, l, m)]) (w_ftn w f))) /\
  (forall n l m, exists w', perform (OPost f n l m) w = (w', Ok tt) /\ only_ftn w w' f (set_after (f_after (w_ftn w f) ++ [(n, l, m)]) (w_ftn w f))) /\
  (forall l m, exists w', perform (OOut f l m) w = (w', Ok tt) /\ only_ftn w w' f (set_out (f_out (w_ftn w f) ++ [(l, m)]) (w_ftn w f))) /\
  (forall n l m u v, f_before (w_ftn w f) = u ++ (n, l, m) :: v -> ~ In (n, l, m) u ->
     exists w', perform (ORemPre f n l m) w = (w', Ok tt) /\ only_ftn w w' f (set_before (u ++ v) (w_ftn w f))) /\
  (forall n l m, ~ In (n, l, m) (f_before (w_ftn w f)) -> perform (ORemPre f n l m) w = (w, Err ValueError)) /\
  (forall n l m u v, f_after (w_ftn w f) = u ++ (n, l, m) :: v -> ~ In (n, l, m) u ->
     exists w', perform (ORemPost f n l m) w = (w', Ok tt) /\ only_ftn w w' f (set_after (u ++ v) (w_ftn w f))) /\
  (forall n l m, ~ In (n, l, m) (f_after (w_ftn w f)) -> perform (ORemPost f n l m) w = (w, Err ValueError)).
Proof. exact @unlocked_edits. Qed.
Print Assumptions C33_unlocked.
(** unlock() always works and changes nothing but the lock *)
Theorem C33_unlock : forall A (HA : SR A) symdiff fuel (w : world A) f, exists w', perform symdiff fuel (OUnlock f) w = (w', Ok tt) /\
  only_ftn w w' f (set_locked false (w_ftn w f)) /\ f_locked (w_ftn w' f) = false.
Proof. exact @unlock_works. Qed.
Print Assumptions C33_unlock.

(** two networks over the tensors of [exn]: number 0 with its own list of names, linking leg c of A to leg f of B *)
Definition prog0 : list (op Z) := [ONewList ["A"; "B"]; ONew (Some 1) true 10; OLink 0 "A" "c" "B" "f"; OPre 0 "A" "a" "x"; OPost 0 "B" "g" "y"].
Definition start : world Z := mkWorld exn (fun _ => []) 1 (fun _ => mkFtn 0 None true [] [] false false [] [] [] None) 0.
Notation go := (run sd 10).
Notation result o w := (snd (perform sd 10 o w)).
Example C33_example : let w := go prog0 start in
  w_nftn w = 1 /\ f_locked (w_ftn w 0) = false /\ namesOf w 0 = ["A"; "B"] /\
  result (OContract 0 [("B", 2); ("A", 0)] true) w = Ok tt /\
  let w' := go [OContract 0 [("B", 2); ("A", 0)] true] w in
  f_locked (w_ftn w' 0) = true /\ f_seq (w_ftn w' 0) = Some [(0, 1)] /\ result (OAdd 0 "C") w' = Err AssertionError /\
  let w'' := go [OUnlock 0] w' in result (OAdd 0 "C") w'' = Ok tt /\ namesOf (go [OAdd 0 "C"] w'') 0 = ["A"; "B"; "C"].
Proof. repeat split; vm_compute; reflexivity. Qed.

(** ** C34 contract does not touch its inputs *)
(** no leg, bond or tensor that existed before is changed in any way, whether the call returns or raises; the result and its
    legs are new objects *)
Theorem C34_frame : forall A (HA : SR A) symdiff fuel (w w' : world A) f d b r, contract symdiff fuel f d b w = (w', r) ->
  (forall l, l < nleg (w_heap w) -> legs (w_heap w') l = legs (w_heap w) l) /\
  (forall b, b < nbond (w_heap w) -> bonds (w_heap w') b = bonds (w_heap w) b) /\
  (forall t, t < ntens (w_heap w) -> tens (w_heap w') t = tens (w_heap w) t) /\
  match r with Ok t => ntens (w_heap w) <= t < ntens (w_heap w') /\ forall l, In l (legs_of (w_heap w') t) -> nleg (w_heap w) <= l | Err _ => True end.
Proof. exact @contract_frame. Qed.
Print Assumptions C34_frame.
(** one tensor in two roles: the square of tensor 0 over its leg a; and a call that raises after copying, renaming and tagging *)
Definition prog1 : list (op Z) := [ONewList ["A"; "B"]; ONew (Some 1) false 10; OLink 0 "A" "a" "B" "a"].
Definition prog2 : list (op Z) := [ONewList ["A"; "B"]; ONew (Some 1) false 10; OPre 0 "A" "a" "x"; OLink 0 "A" "x" "B" "b"].
Example C34_example :
  snd (contract sd 10 0 [("A", 0); ("B", 0)] true (go prog1 start)) = Ok 9 /\
  names_of (w_heap (fst (contract sd 10 0 [("A", 0); ("B", 0)] true (go prog1 start)))) 9 = [NStr "b"; NStr "c"; NStr "b"; NStr "c"] /\
  snd (contract sd 10 0 [("A", 0); ("B", 0)] true (go prog2 start)) = Err AssertionError.
Proof. repeat split; vm_compute; reflexivity. Qed.

(** ** C37 Networks built with the default list of names share it *)
(** two networks made without a list, at any two points of any program: the second starts with the names of the first, and
    after any further operations both have the same names *)
Theorem C37_shared : forall A (HA : SR A) symdiff fuel (w0 : world A) r1 t1 os r2 t2 os',
  let w1 := fst (newFtn None r1 t1 w0) in let w2 := run symdiff fuel os w1 in let w3 := fst (newFtn None r2 t2 w2) in
  let w4 := run symdiff fuel os' w3 in let f := w_nftn w0 in let g := w_nftn w2 in
  f <> g /\ snd (newFtn None r1 t1 w0) = Ok f /\ snd (newFtn None r2 t2 w2) = Ok g /\
  namesOf w3 g = namesOf w2 f /\ namesOf w4 f = namesOf w4 g /\ f_names (w_ftn w4 f) = f_names (w_ftn w4 g).
Proof. exact @default_shared. Qed.
Print Assumptions C37_shared.
(** adding a tensor to one network therefore adds it to every network with the same list, locked or not *)
Theorem C37_add : forall A (HA : SR A) symdiff fuel (w : world A) f g n, f_locked (w_ftn w f) = false ->
  f_names (w_ftn w g) = f_names (w_ftn w f) ->
  exists w', perform symdiff fuel (OAdd f n) w = (w', Ok tt) /\ namesOf w' g = namesOf w g ++ [n] /\ w_ftn w' g = w_ftn w g.
Proof. exact @add_shared. Qed.
Print Assumptions C37_add.
(** and a network whose names no longer match the dictionary cannot be contracted *)
Theorem C37_contract_raises : forall A (HA : SR A) symdiff fuel (w : world A) f d b, ~ Permutation (namesOf w f) (map fst d) ->
  exists w', contract symdiff fuel f d b w = (w', Err AssertionError) /\ only_ftn w w' f (set_locked true (w_ftn w f)).
Proof. exact @wrong_keys. Qed.
Print Assumptions C37_contract_raises.
Example C37_example : let w := go [ONew None true 10; OAdd 0 "A"; OLock 0; ONew None false 10; OAdd 1 "B"] start in
  namesOf w 0 = ["A"; "B"] /\ namesOf w 1 = ["A"; "B"] /\ f_locked (w_ftn w 0) = true /\
  result (OContract 0 [("A", 0)] true) w = Err AssertionError /\ result (OContract 1 [("B", 0)] true) w = Err AssertionError.
Proof. repeat split; vm_compute; reflexivity. Qed.
