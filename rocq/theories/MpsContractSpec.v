(** Vocabulary for contracting networks of matrix product states. *)
From Coq Require Import List Arith Bool String ZArith Permutation.
From Verif Require Import Base Sums NdModel HeapModel TensorSpec NetSpec GroupSpec SvdModel SvdSpec MpsModel MpsSpec MpsContractModel.
Import ListNotations.

Section Sp.
Context {A : Type} {HA : SR A}.
Notation heap := (heap A).

(** the free legs of the network carry no links: every link joins two legs of different tensors of the network *)
Definition closed (h : heap) (N : list tid) : Prop := forall l l', In l (free_legs h N) -> ~ linked h l l'.

(** the tensors [env], their legs and the links of these are the same in both heaps *)
Record untouched (h : heap) (env : list tid) (h' : heap) : Prop := {
  ut_tens : forall t, In t env -> tens h' t = tens h t;
  ut_legs : forall l, In l (all_legs h env) -> legs h' l = legs h l;
  ut_links : forall l l', In l (all_legs h env) -> linked h' l l' <-> linked h l l' }.

(** the legs [L] have the same dimension, bond and links in both heaps *)
Definition kept_legs (h h' : heap) (L : list lid) : Prop :=
  forall l, In l L -> dim_of h' l = dim_of h l /\ l_bond (legs h' l) = l_bond (legs h l) /\ forall l', linked h' l l' <-> linked h l l'.

(** the tensors of an object that takes part in the contraction: an MPS or a single tensor *)
Definition sites (o : mobj) : list tid := match o with OMps m => m_ts m | OTensor t => [t] | ONone => [] end.

(** the list without the element at position i *)
Definition without {X} (i : nat) (l : list X) : list X := firstn i l ++ skipn (S i) l.

(** The MPSes with outgoing legs [osA] and [osB] have been contracted into the object [o], whose outgoing legs are [os]: a tensor without legs if
    there are none, an MPS otherwise.  The tensors [e] around them are untouched, the outgoing legs are kept, and the free legs of the network are the same.
    If no bond was larger than the sizes [q] of the outgoing legs on either side of it allow, then the same holds afterwards for sizes [q'] of the same total. *)
Record contracted_to (h : heap) (tsA tsB e : list tid) (osA osB : list lid) (rtA rtB : nat -> lid) (os : list lid) (chi : Z) (h' : heap) (o : mobj) : Prop := {
  ct_wf : wf_open h' (sites o ++ e);
  ct_scalar : os = [] -> exists t, o = OTensor t /\ legs_of h' t = [] /\ t_diag (tens h' t) = false /\ t_like (tens h' t) = false;
  ct_chain : os <> [] -> exists ts lf rt, o = OMps (mkMps ts chi None) /\ chain h' ts os e lf rt /\
    forall q, (forall l, 1 <= q l)%nat -> (forall l, In l (osA ++ osB) -> dim_of h l <= q l)%nat -> slim h q osA rtA -> slim h q osB rtB ->
      exists q', (forall l, q l <= q' l)%nat /\ (forall l, ~ In l os -> q' l = q l) /\
        prodn (map q' os) = (prodn (map q osA) * prodn (map q osB))%nat /\ slim h' q' os rt;
  ct_env : untouched h e h';
  ct_kept : kept_legs h h' os;
  ct_closed : closed h' (sites o ++ e);
  ct_free : same_free h (tsA ++ tsB ++ e) h' (sites o ++ e) }.
End Sp.
