(** The value of a network in terms of names only: a port is a leg given by the name of its tensor and its own name. *)
From Coq Require Import List Arith Bool String Permutation.
From Verif Require Import Base Sums NdModel HeapModel ContractModel TensorSpec NetSpec FtnModel FtnNetSpec.
Import ListNotations.
Local Open Scope nat_scope.

Definition port : Type := string * string.
Definition passign := port -> nat.
Definition pupd (s : passign) (p : port) (i : nat) : passign := fun q => if dec q p then i else s q.
(** two ports joined by a link *)
Notation plink := (port * port)%type.
(** a leg of the result: its name and the ports it stands for *)
Notation pitem := (pname * list port)%type.

(** every port is linked at most once, and never to a port of the same tensor *)
Definition plinks_ok (links : list plink) : Prop :=
  NoDup (map fst links ++ map snd links) /\ forall p, In p links -> fst (fst p) <> fst (snd p).

(** the value of the first pair with the given key *)
Fixpoint look {X} (m : list (string * X)) (d : X) (n : string) : X :=
  match m with [] => d | (k, v) :: m' => if dec n k then v else look m' d n end.

Section Values.
Context {A : Type} {HA : SR A}.
Notation heap := (heap A).

(** the entry of a tensor where the index of a leg is given by the name of the leg *)
Definition at_names (h : heap) (t : tid) (g : pname -> nat) : A := entry h t (fun l => g (l_name (legs h l))).
(** the same with a list of names and indices *)
Definition index_in (m : list (string * nat)) (n : pname) : nat := match n with NStr x => look m 0 x | _ => 0 end.
Definition at_ (h : heap) (t : tid) (m : list (string * nat)) : A := at_names h t (index_in m).
(** the tensor has exactly the legs listed with their dimensions, in any order *)
Definition has_legs (h : heap) (t : tid) (m : list (string * nat)) : Prop :=
  Permutation (combine (names_of h t) (dims_of h t)) (map (fun p => (NStr (fst p), snd p)) m).

(** Einstein sum over the links of the product of the entries; [D] gives the dimension of a port *)
Fixpoint psum (D : port -> nat) (links : list plink) (f : passign -> A) (s : passign) : A :=
  match links with
  | [] => f s
  | (a, b) :: ls => sumN (D a) (fun i => psum D ls f (pupd (pupd s a i) b i))
  end.
Fixpoint pprod (h : heap) (us : list (string * tid)) (s : passign) : A :=
  match us with
  | [] => r1
  | (nm, t) :: us' => rmul (at_names h t (fun n => match n with NStr x => s (nm, x) | _ => 0 end)) (pprod h us' s)
  end.
(** the tensors of the dictionary have the listed leg names, in any order, and the dimensions [D] *)
Definition has_ports (h : heap) (D : port -> nat) (d : list (string * tid)) (N : list (string * list string)) : Prop :=
  Forall2 (fun p q => fst p = fst q /\ has_legs h (snd p) (map (fun n => (n, D (fst q, n))) (snd q)) /\ NoDup (snd q)) d N.
End Values.

(** what the legs of the result should be, from the names of the legs of the tensors *)
Definition port_items (N : list (string * list string)) : list pitem :=
  flat_map (fun q => map (fun n => (NStr (fst q ++ "-" ++ n), [(fst q, n)])) (snd q)) N.
Definition free_items (N : list (string * list string)) (links : list plink) : list pitem :=
  filter (fun it => negb (existsb (fun p => inb p (map fst links ++ map snd links)) (snd it))) (port_items N).
(** one outer product: the items with the given labels become one, in the order of the labels *)
Definition pick (I : list pitem) (lab : pname) : list port := flat_map snd (filter (fun it => if dec (fst it) lab then true else false) I).
Definition join (I : list pitem) (o : list pname * string) : list pitem :=
  let labs := map join_label (fst o) in
  (NStr ("res-" ++ snd o), flat_map (pick I) labs) :: filter (fun it => negb (inb (fst it) labs)) I.
Definition join_all (I : list pitem) (os : list (list pname * string)) : list pitem := fold_left join os I.
(** one renaming *)
Definition rename1 (e : string * string * string) (n : pname) : pname :=
  let '(t, a, b) := e in if dec n (NStr (t ++ "-" ++ a)) then NStr (t ++ "-" ++ b) else n.
Definition rename_item (g : pname -> pname) (it : pitem) : pitem := (g (fst it), snd it).
Definition rename_all (I : list pitem) (es : list (string * string * string)) : list pitem :=
  fold_left (fun I e => map (rename_item (rename1 e)) I) es I.
Definition expected (N : list (string * list string)) (links : list plink) (out : list (list pname * string))
    (after : list (string * string * string)) (removeTag : bool) : list pitem :=
  let I := rename_all (join_all (free_items N links) out) after in
  if removeTag then map (rename_item untag_name) I else I.
(** at no point are there two legs with the same name *)
Fixpoint distinct_join (I : list pitem) (os : list (list pname * string)) : Prop :=
  NoDup (map fst I) /\ match os with [] => True | o :: os' => distinct_join (join I o) os' end.
Fixpoint distinct_rename (I : list pitem) (es : list (string * string * string)) : Prop :=
  NoDup (map fst I) /\ match es with [] => True | e :: es' => distinct_rename (map (rename_item (rename1 e)) I) es' end.
Definition distinct_names (N : list (string * list string)) (links : list plink) (out : list (list pname * string))
    (after : list (string * string * string)) : Prop :=
  distinct_join (free_items N links) out /\ distinct_rename (join_all (free_items N links) out) after.

(** tensor [t] of [h'] has the legs [items] in some order, and its entry is [F] *)
Record has_value {A} {HA : SR A} (h' : heap A) (t : tid) (D : port -> nat) (items : list pitem) (F : passign -> A) : Prop := {
  hv_wf : wf_tensor h' t;
  hv_legs : Permutation (combine (names_of h' t) (dims_of h' t)) (map (fun it => (fst it, prodn (map D (snd it)))) items);
  hv_entry : forall (s : passign) (g : pname -> nat),
    (forall p, In p (flat_map snd items) -> s p < D p) ->
    (forall it, In it items -> g (fst it) = ravel (map D (snd it)) (map s (snd it))) -> at_names h' t g = F s }.

(** a network with the given structure, ready to contract dense tensors: it has no sequence yet, or one that can be run *)
Record ftn_is {A} (w : world A) (f : nat) (names : list string) (links : list plink) (out : list (list pname * string))
    (after : list (string * string * string)) : Prop := {
  fi_id : f < w_nftn w;
  fi_names : namesOf w f = names;
  fi_links : f_links (w_ftn w f) = map stored links;
  fi_before : f_before (w_ftn w f) = [];
  fi_out : f_out (w_ftn w f) = out;
  fi_after : f_after (w_ftn w f) = after;
  fi_seq : forall sq, f_seq (w_ftn w f) = Some sq -> exists (h : heap A) us ps, List.length us = List.length names /\ seq_fits h us ps sq }.
