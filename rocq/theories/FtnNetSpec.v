(** What FiniteTensorNetwork.contract should return: the network of the tensors in the dictionary, joined along the declared
    links.  A role is a leg of a tensor together with the name under which the tensor is used, so one tensor can appear
    under several names. *)
From Coq Require Import List Arith Bool String Ascii Permutation.
From Verif Require Import Base Sums NdModel HeapModel ContractModel TensorSpec NetSpec FtnModel.
Import ListNotations.
Local Open Scope nat_scope.

Definition role : Type := string * lid.
Definition rassign := role -> nat.
Definition rupd (s : rassign) (r : role) (i : nat) : rassign := fun x => if dec x r then i else s x.
(** a link between two roles *)
Definition rlink : Type := role * role.

(** the name without everything up to the first dash *)
Fixpoint after_dash (s : string) : option string :=
  match s with
  | EmptyString => None
  | String c s' => if Ascii.eqb c "-" then Some s' else after_dash s'
  end.
Definition untag_name (n : pname) : pname :=
  match n with NStr s => NStr (match after_dash s with Some v => v | None => s end) | _ => n end.
Definition tag_name (nm : string) (n : pname) : pname :=
  match n with NStr s => NStr (nm ++ "-" ++ s) | _ => n end.

(** a leg of the result: its name and the roles it stands for (more than one after an outer product) *)
Definition item : Type := pname * list role.

(** the first item called [lab] is at position [k] *)
Definition first_at (items : list item) (lab : pname) (k : nat) : Prop :=
  nth_error (map fst items) k = Some lab /\ ~ In lab (firstn k (map fst items)).
(** one declared outer product: the first items with the given labels are joined, in the order of the labels, to a new
    first item; the others stay in order *)
Definition join_label (lab : pname) : pname := match lab with NPair a b => NStr (a ++ "-" ++ b) | n => n end.
Definition joined (items : list item) (o : list pname * string) (items' : list item) : Prop :=
  exists ks, Forall2 (first_at items) (map join_label (fst o)) ks /\ NoDup ks /\ ks <> [] /\
    items' = (NStr ("res-" ++ snd o), flat_map (fun k => snd (nth k items (NNone, []))) ks)
             :: map snd (filter (fun p => negb (inb (fst p) ks)) (combine (seq 0 (List.length items)) items)).
Inductive joined_all : list item -> list (list pname * string) -> list item -> Prop :=
| ja_nil items : joined_all items [] items
| ja_cons items o os items1 items2 : joined items o items1 -> joined_all items1 os items2 -> joined_all items (o :: os) items2.
(** the names changed by [g], which acts on the list of all names *)
Definition renamed (g : list pname -> list pname) (items : list item) : list item := combine (g (map fst items)) (map snd items).
Definition post_names (after : list (string * string * string)) (N : list pname) : list pname :=
  fold_left (fun N e => let '(t, a, b) := e in replace_first (NStr (t ++ "-" ++ a)) (NStr (t ++ "-" ++ b)) N) after N.

Section Spec.
Context {A : Type} {HA : SR A}.
Notation heap := (heap A).
Variable h : heap.
Variable before : list (string * string * string).

(** names of the legs of a tensor used as [nm], after the declared renamings *)
Definition pre_names (p : string * tid) : list pname :=
  fold_left (fun N e => let '(n, a, b) := e in if dec n (fst p) then replace_first (NStr a) (NStr b) N else N)
            before (names_of h (snd p)).
Definition roles1 (p : string * tid) : list role := map (pair (fst p)) (legs_of h (snd p)).
Definition roles (us : list (string * tid)) : list role := flat_map roles1 us.
Definition rdim (r : role) : nat := dim_of h (snd r).
(** every role with its tagged name *)
Definition role_names (us : list (string * tid)) : list (role * pname) :=
  flat_map (fun p => combine (roles1 p) (map (tag_name (fst p)) (pre_names p))) us.

(** (a, leg) of a declared link stands for the first leg of that name, after renaming, of the tensor used as [a] *)
Definition role_named (d : list (string * tid)) (a leg : string) (r : role) : Prop :=
  exists t u v, In (a, t) d /\ combine (legs_of h t) (pre_names (a, t)) = u ++ (snd r, NStr leg) :: v /\
    ~ In (NStr leg) (map snd u) /\ fst r = a.
Definition declares (d : list (string * tid)) (e : (string * string) * (string * string)) (p : rlink) : Prop :=
  role_named d (fst (fst e)) (snd (fst e)) (fst p) /\ role_named d (fst (snd e)) (snd (snd e)) (snd p).
(** every leg is linked at most once, and never to a leg of the same tensor *)
Definition proper (ps : list rlink) : Prop :=
  NoDup (map fst ps ++ map snd ps) /\ forall p, In p ps -> fst (fst p) <> fst (snd p).
(** the links between the tensors [us] *)
Definition within (us : list (string * tid)) (ps : list rlink) : list rlink :=
  filter (fun p => inb (fst (fst p)) (map fst us) && inb (fst (snd p)) (map fst us)) ps.
Definition free_role (ps : list rlink) (r : role) : bool := negb (inb r (map fst ps ++ map snd ps)).

(** Einstein sum over the links of the product of the entries *)
Fixpoint rsum (ps : list rlink) (f : rassign -> A) (s : rassign) : A :=
  match ps with
  | [] => f s
  | (a, b) :: ps' => sumN (rdim a) (fun i => rsum ps' f (rupd (rupd s a i) b i))
  end.
Fixpoint rprod (us : list (string * tid)) (s : rassign) : A :=
  match us with
  | [] => r1
  | (nm, t) :: us' => rmul (entry h t (fun l => s (nm, l))) (rprod us' s)
  end.
Definition rval (us : list (string * tid)) (ps : list rlink) (s : rassign) : A := rsum ps (rprod us) s.

(** tensor [t] of heap [h'] has one leg for each item, in order, and the entries [F] *)
Record represents (h' : heap) (t : tid) (items : list item) (F : rassign -> A) : Prop := {
  rp_wf : wf_tensor h' t;
  rp_names : names_of h' t = map fst items;
  rp_dims : dims_of h' t = map (fun it => prodn (map rdim (snd it))) items;
  rp_entry : forall s s', (forall r, In r (flat_map snd items) -> s r < rdim r) ->
    map s' (legs_of h' t) = map (fun it => ravel (map rdim (snd it)) (map s (snd it))) items -> entry h' t s' = F s }.

(** the items of the result: free roles in some order, then the outer products, the renamings and the removal of tags *)
Definition result_items (us : list (string * tid)) (ps : list rlink) (out : list (list pname * string))
    (after : list (string * string * string)) (removeTag : bool) (items : list item) : Prop :=
  exists rs items1, Permutation rs (filter (fun p => free_role ps (fst p)) (role_names us)) /\
    joined_all (map (fun p => (snd p, [fst p])) rs) out items1 /\
    items = renamed (fun N => let N' := post_names after N in if removeTag then map untag_name N' else N') items1.

(** a sequence contracts the tensors [us], never joining two groups of diagonal tensors without a link between them *)
Definition diag_at (us : list (string * tid)) (I : list nat) : bool :=
  forallb (fun i => match nth_error us i with Some p => t_diag (tens h (snd p)) | None => false end) I.
Definition used_at (us : list (string * tid)) (I : list nat) (nm : string) : Prop :=
  exists i t, In i I /\ nth_error us i = Some (nm, t).
Definition seq_fits (us : list (string * tid)) (ps : list rlink) (sq : list (nat * nat)) : Prop :=
  exists n, complete (fun I J => diag_at us I = true -> diag_at us J = true ->
      exists a b, (In (a, b) ps \/ In (b, a) ps) /\ used_at us I (fst a) /\ used_at us J (fst b))
    (fun _ _ => 0) (singles (seq 0 (List.length us))) sq n.
End Spec.

(** the sequence is not computed anew: realCost is off, or every leg name is known with its dimension *)
Definition not_recomputed {A} (h : heap A) (r : ftn) (d : list (string * tid)) : Prop :=
  f_real r = false \/ forall x n, In (x, n) (role_names h (f_before r) d) -> dictGet (f_dims r) n = Some (rdim h x).

(** how a declared link is stored *)
Definition stored (e : (string * string) * (string * string)) : link :=
  let '((a, la), (b, lb)) := e in ((a, (a ++ "-" ++ la)%string), (b, (b ++ "-" ++ lb)%string)).

(** the dictionary: dense or diagonal tensors with data, each name once *)
Definition usable {A} {HA : SR A} (h : heap A) (d : list (string * tid)) : Prop :=
  (forall p, In p d -> wf_tensor h (snd p) /\ t_like (tens h (snd p)) = false) /\ NoDup (map fst d).
