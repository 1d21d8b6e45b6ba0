(** Vocabulary for FiniteTensorNetwork. *)
From Coq Require Import List Arith Bool String Permutation.
From Verif Require Import Base NdModel HeapModel TensorSpec NetSpec FtnModel.
Import ListNotations.
Local Open Scope nat_scope.

(** the operations that change the structure of network [f] *)
Inductive edits {A} (f : nat) : op A -> Prop :=
| ed_add n : edits f (OAdd f n) | ed_remove n : edits f (ORemove f n)
| ed_link a la b lb : edits f (OLink f a la b lb)
| ed_pre n l m : edits f (OPre f n l m) | ed_post n l m : edits f (OPost f n l m)
| ed_rempre n l m : edits f (ORemPre f n l m) | ed_rempost n l m : edits f (ORemPost f n l m)
| ed_out l n : edits f (OOut f l n).

(** the structure of a network, apart from the contents of its list of names *)
Definition same_structure (r r' : ftn) : Prop :=
  f_names r' = f_names r /\ f_links r' = f_links r /\ f_before r' = f_before r /\ f_after r' = f_after r /\ f_out r' = f_out r /\
  f_real r' = f_real r /\ f_typ r' = f_typ r.

(** only [g] was applied to network [f] *)
Definition only_ftn {A} (w w' : world A) (f : nat) (r : ftn) : Prop :=
  w_heap w' = w_heap w /\ w_names w' = w_names w /\ w_nnames w' = w_nnames w /\ w_nftn w' = w_nftn w /\
  w_ftn w' f = r /\ forall g, g <> f -> w_ftn w' g = w_ftn w g.
(** only the contents of the list of names of network [f] changed *)
Definition only_list {A} (w w' : world A) (f : nat) (l : list string) : Prop :=
  w_heap w' = w_heap w /\ w_nnames w' = w_nnames w /\ w_nftn w' = w_nftn w /\ w_ftn w' = w_ftn w /\
  w_names w' (f_names (w_ftn w f)) = l /\ forall n, n <> f_names (w_ftn w f) -> w_names w' n = w_names w n.
