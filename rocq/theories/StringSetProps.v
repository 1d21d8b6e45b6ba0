(** StringSet: fresh names for every history and every random source. *)
From Coq Require Import List Arith Bool String Ascii ZArith Lia.
From Verif Require Import Base StringSetModel StringSetSpec StringSetProofs.
Import ListNotations.
Local Open Scope nat_scope.
Local Open Scope string_scope.
Local Open Scope list_scope.

(** ** C45 StringSet never hands out a name twice *)
(** a name is handed out a second time only after it was removed *)
Theorem C45_never_twice : forall rnd fuel n0 pos os x' tr, calls rnd fuel os (newSet n0 pos) = (x', tr) ->
  forall u i s v j w, tr = u ++ (SNew i, Ok (Some s)) :: v ++ (SNew j, Ok (Some s)) :: w -> In (SRemove s, Ok None) v.
Proof. exact never_twice. Qed.
Print Assumptions C45_never_twice.
(** every call of every history answers as documented; contains tells which names are in use; add and remove change the
    length of the names generated later *)
Theorem C45_history : forall rnd fuel n0 pos os x' tr, calls rnd fuel os (newSet n0 pos) = (x', tr) ->
  (forall s, containsStr s x' = true <-> in_use tr s) /\ ss_n x' = later_length n0 tr /\
  forall u o r v, tr = u ++ (o, r) :: v -> exists p, fresh_call rnd fuel n0 u p o r.
Proof. exact history_calls. Qed.
Print Assumptions C45_history.
(** newString() returns exactly when the random source ever draws an unused name *)
Theorem C45_returns : forall rnd x, (exists fuel s, snd (newString rnd fuel None x) = Ok s) <->
  exists k, ~ In (word rnd (ss_pos x) (Z.to_nat (ss_n x)) k) (ss_set x).
Proof. exact returns_iff. Qed.
Print Assumptions C45_returns.
(** once removals have brought the length to 0, the second call never returns *)
Theorem C45_stuck : forall rnd fuel x, (ss_n x <= 0)%Z -> In EmptyString (ss_set x) -> newString rnd fuel None x = (x, Err OutOfFuel).
Proof. exact stuck_empty. Qed.
Print Assumptions C45_stuck.
(** a source drawing a, a, b, c, ...; names of length 1; adding a name makes later ones longer *)
Definition src (k : nat) : nat := k - 1.
Example C45_example : let tr := snd (calls src 10 [SNew None; SNew None; SAdd "zz"; SNew None; SRemove "a"; SRemove "b"; SNew None; SNew None; SNew (Some "zz")] (newSet 1 0)) in
  tr = [(SNew None, Ok (Some "a")); (SNew None, Ok (Some "b")); (SAdd "zz", Ok None); (SNew None, Ok (Some "cd"));
        (SRemove "a", Ok None); (SRemove "b", Ok None); (SNew None, Ok (Some "")); (SNew None, Err OutOfFuel); (SNew (Some "zz"), Err AssertionError)] /\
  later_length 1 tr = 0%Z /\ in_use tr "cd".
Proof.
  cbv zeta. split; [vm_compute; reflexivity|]. split; [vm_compute; reflexivity|].
  match goal with |- in_use ?t _ => let t' := eval vm_compute in t in change (in_use t' "cd") end.
  eexists [_; _; _], _, _. split; [reflexivity|]. split; [left; eexists; reflexivity|]. intros e He. simpl in He. unfold takes. intuition (subst; discriminate).
Qed.
