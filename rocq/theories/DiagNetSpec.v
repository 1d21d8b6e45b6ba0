(** Vocabulary for networks in which the same tensors are diagonal in every call. *)
From Coq Require Import List Arith Bool String.
From Verif Require Import Base Sums NdModel HeapModel ContractModel TensorSpec NetSpec FtnModel FtnNetSpec NamedSpec NetsSpec.
Import ListNotations.
Local Open Scope nat_scope.
Local Open Scope string_scope.
Local Open Scope list_scope.

(** all tensors at the places [I] are diagonal; [pat] tells which names belong to diagonal tensors *)
Definition all_pat (pat : string -> bool) (names : list string) (I : list nat) : bool :=
  forallb (fun i => match nth_error names i with Some n => pat n | None => false end) I.
(** the sequence contracts all tensors, and two groups of diagonal tensors only if they are linked *)
Definition pat_fits (names : list string) (links : list plink) (pat : string -> bool) (sq : list (nat * nat)) : Prop :=
  exists n, complete (fun I J => all_pat pat names I = true -> all_pat pat names J = true ->
      exists a b, (In (a, b) links \/ In (b, a) links) /\ (exists i, In i I /\ nth_error names i = Some (fst a)) /\ (exists j, In j J /\ nth_error names j = Some (fst b)))
    (fun _ _ => 0) (singles (seq 0 (List.length names))) sq n.

Section Sp.
Context {A : Type} {HA : SR A}.
Record ftn_pat (w : world A) (f : nat) (names : list string) (links : list plink) (out : list (list pname * string)) (after : list (string * string * string)) (pat : string -> bool) : Prop := {
  fp_is : ftn_is w f names links out after;
  fp_seq : forall sq, f_seq (w_ftn w f) = Some sq -> pat_fits names links pat sq }.
(** network [f] has structure [N] and is ready for calls in which the tensors are diagonal as told by [pat] *)
Definition is_net_for (w : world A) (f : nat) (N : net) (pat : string -> bool) : Prop := ftn_pat w f (n_names N) (n_links N) (n_out N) (n_after N) pat.
(** a tensor with exactly the legs listed, in any order: a diagonal one or a dense one *)
Definition legs_as (diag : bool) (h : heap A) (t : tid) (m : list (string * nat)) : Prop :=
  (wf_tensor h t /\ t_like (tens h t) = false /\ t_diag (tens h t) = diag) /\ has_legs h t m.
Notation diag_legs := (legs_as true).
End Sp.
Notation diag_legs := (legs_as true).
(** in the networks of CTMRG the corners are diagonal *)
Definition corner_diag (n : string) : bool := if in_dec string_dec n ["c"; "alu"; "ald"; "aru"; "ard"] then true else false.
