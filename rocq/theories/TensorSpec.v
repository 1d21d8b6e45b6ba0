(** Specification vocabulary for tensors, independent of how the operations are computed:
    what a tensor object represents (an entry for every assignment of indices to its legs),
    well-formedness, Einstein sums over pairs of legs, and frame relations between heaps. *)
From Coq Require Import List Arith Bool String Permutation.
From Verif Require Import Base Sums NdModel HeapModel FuncsSpec.
From Verif Require Import TensorModel. (* only for the type of row and column references *)
Import ListNotations.
Local Open Scope sr_scope.

Definition assignment := nat -> nat.

Section Spec.
Context {A : Type} {HA : SR A}.
Notation heap := (heap A).

(** The entry represented by a tensor for an assignment of an index to each leg.
    A diagonal tensor is zero unless all its legs carry the same index. *)
Definition entry_of (r : tensor A) (s : assignment) : A :=
  match t_arr r with
  | None => 0
  | Some a =>
      if t_diag r then
        match t_legs r with
        | [] => aget a []
        | l :: ls => if forallb (fun l' => Nat.eqb (s l') (s l)) ls then aget a [s l] else 0
        end
      else aget a (map s (t_legs r))
  end.
Definition entry (h : heap) (t : tid) (s : assignment) : A := entry_of (tens h t) s.

Definition dim_of (h : heap) (l : lid) : nat := l_dim (legs h l).
Definition legs_of (h : heap) (t : tid) : list lid := t_legs (tens h t).
Definition names_of (h : heap) (t : tid) : list pname := map (fun l => l_name (legs h l)) (legs_of h t).
Definition dims_of (h : heap) (t : tid) : list nat := map (dim_of h) (legs_of h t).

(** every leg of the list carries an index below its dimension *)
Definition in_bounds (h : heap) (ls : list lid) (s : assignment) : Prop :=
  forall l, In l ls -> (s l < dim_of h l)%nat.

(** The data of a tensor object agrees with its legs. *)
Definition data_ok (h : heap) (r : tensor A) : Prop :=
  match t_like r, t_arr r with
  | true, None => True
  | false, Some a =>
      List.length (adata a) = prodn (ashape a) /\
      ashape a = (if t_diag r then match t_legs r with [] => [] | _ => [t_len r] end
                  else map (dim_of h) (t_legs r))
  | _, _ => False
  end.

Record wf_tensor (h : heap) (t : tid) : Prop := {
  wt_id : (t < ntens h)%nat;
  wt_nodup : NoDup (legs_of h t);
  wt_alloc : forall l, In l (legs_of h t) -> (l < nleg h)%nat;
  wt_data : data_ok h (tens h t);
  wt_diag : t_diag (tens h t) = true ->
            (legs_of h t = [] -> t_len (tens h t) = 1%nat) /\
            forall l, In l (legs_of h t) -> dim_of h l = t_len (tens h t) }.

(** the legs know their tensor *)
Definition owned (h : heap) (t : tid) : Prop :=
  forall l, In l (legs_of h t) -> l_tensor (legs h l) = Some t.

(** [h'] differs from [h] at most in the tensor object [t] *)
Record only_tensor (h h' : heap) (t : tid) : Prop := {
  ot_legs : legs h' = legs h; ot_bonds : bonds h' = bonds h;
  ot_tens : forall t', t' <> t -> tens h' t' = tens h t';
  ot_nleg : nleg h' = nleg h; ot_nbond : nbond h' = nbond h; ot_ntens : ntens h' = ntens h;
  ot_rng : rng h' = rng h; ot_rpos : rpos h' = rpos h }.

(** [h'] differs from [h] at most in the names of the legs [L], which are now [f] *)
Record only_names (h h' : heap) (L : list lid) (f : lid -> pname) : Prop := {
  on_bonds : bonds h' = bonds h; on_tens : tens h' = tens h;
  on_nleg : nleg h' = nleg h; on_nbond : nbond h' = nbond h; on_ntens : ntens h' = ntens h;
  on_rng : rng h' = rng h; on_rpos : rpos h' = rpos h;
  on_in : forall l, In l L -> legs h' l = mkLeg (l_tensor (legs h l)) (l_dim (legs h l)) (f l) (l_bond (legs h l));
  on_out : forall l, ~ In l L -> legs h' l = legs h l }.

(** [h'] is [h] after the legs [ls] of [t] were merged into the new leg [n] called [lab] *)
Record merged (h h' : heap) (t : tid) (ls : list lid) (n : lid) (lab : pname) : Prop := {
  mg_legs : forall l, (l < nleg h)%nat -> legs h' l = legs h l;
  mg_bonds : bonds h' = bonds h;
  mg_tens : forall t', t' <> t -> tens h' t' = tens h t';
  mg_new : legs h' n = mkLeg (Some t) (prodn (map (dim_of h) ls)) lab None;
  mg_flags : t_diag (tens h' t) = t_diag (tens h t) /\ t_like (tens h' t) = t_like (tens h t) /\
             t_len (tens h' t) = t_len (tens h t) /\ t_name (tens h' t) = t_name (tens h t);
  mg_tlegs : legs_of h' t = n :: filter (fun l => negb (inb l ls)) (legs_of h t);
  mg_nleg : nleg h' = S (nleg h) /\ n = nleg h;
  mg_nbond : nbond h' = nbond h; mg_ntens : ntens h' = ntens h;
  mg_rng : rng h' = rng h; mg_rpos : rpos h' = rpos h }.

(** [t] is a new tensor of [h']; everything else is as in [h], except that legs handed to the
    constructor ([ls]) now belong to [t].  Legs made by the constructor are new and unlinked. *)
Record new_tensor (h h' : heap) (t : tid) (ls : option (list lid)) : Prop := {
  nt_id : t = ntens h;
  nt_bonds : bonds h' = bonds h; nt_nbond : nbond h' = nbond h; nt_rng : rng h' = rng h;
  nt_tens : forall t', (t' < ntens h)%nat -> tens h' t' = tens h t';
  nt_ntens : ntens h' = S (ntens h);
  nt_nleg : nleg h' = (nleg h + match ls with Some _ => 0 | None => List.length (legs_of h' t) end)%nat;
  nt_legs : match ls with
    | Some l0 =>
        (forall l, In l l0 -> legs h' l = mkLeg (Some t) (l_dim (legs h l)) (l_name (legs h l)) (l_bond (legs h l))) /\
        (forall l, ~ In l l0 -> legs h' l = legs h l)
    | None =>
        (forall l, (l < nleg h)%nat -> legs h' l = legs h l) /\
        legs_of h' t = seq (nleg h) (List.length (legs_of h' t)) /\
        (forall l, In l (legs_of h' t) -> l_bond (legs h' l) = None)
    end }.

(** when the arguments of Tensor(...) agree with each other *)
Definition dense_args_ok (h : heap) (sh : option (list nat)) (labs : option (list pname))
  (data : option (arr A)) (ls : option (list lid)) : Prop :=
  let size_ok n := match data with Some a => prodn (ashape a) = n | None => True end in
  match ls, sh, data with
  | Some l, _, _ =>
      (match labs with Some n => n = map (fun x => l_name (legs h x)) l | None => True end) /\
      (match sh with Some s => s = map (dim_of h) l | None => True end) /\
      size_ok (prodn (map (dim_of h) l))
  | None, Some s, _ =>
      (match labs with Some n => List.length n = List.length s | None => (List.length s <= 26)%nat end) /\
      size_ok (prodn s)
  | None, None, Some a =>
      match labs with Some n => List.length n = List.length (ashape a) | None => (List.length (ashape a) <= 26)%nat end
  | None, None, None => False
  end.

(** Einstein sum: sum over one common index for every pair of legs. *)
Fixpoint sumpairs (d : lid -> nat) (P : list (lid * lid)) (f : assignment -> A) (s : assignment) : A :=
  match P with
  | [] => f s
  | (l, l') :: P' => sumN (d l) (fun i => sumpairs d P' f (upd (upd s l i) l' i))
  end.

(** the first leg of [t] called [n] *)
Definition first_named (h : heap) (t : tid) (n : pname) (l : lid) : Prop :=
  exists u v, legs_of h t = u ++ l :: v /\ l_name (legs h l) = n /\
              forall l', In l' u -> l_name (legs h l') <> n.

(** a list of leg objects or a list of labels (each standing for the first leg called so) *)
Definition refs_are (h : heap) (t : tid) (rs : list legref) (ls : list lid) : Prop :=
  rs <> [] /\
  (rs = map RLeg ls \/
   exists ss, rs = map RStr ss /\ Forall2 (fun s l => first_named h t (NStr s) l) ss ls).

Definition others (cur ls : list lid) : list lid := filter (fun l => negb (inb l ls)) cur.

(** rows and cols split the legs of [t]; an omitted side stands for all other legs in order *)
Inductive split_of (h : heap) (t : tid) : option (list legref) -> option (list legref) ->
  list lid -> list lid -> Prop :=
| split_both rs cs rl cl : refs_are h t rs rl -> refs_are h t cs cl ->
    Permutation (rl ++ cl) (legs_of h t) -> split_of h t (Some rs) (Some cs) rl cl
| split_rows rs rl : refs_are h t rs rl -> NoDup rl -> incl rl (legs_of h t) ->
    split_of h t (Some rs) None rl (others (legs_of h t) rl)
| split_cols cs cl : refs_are h t cs cl -> NoDup cl -> incl cl (legs_of h t) ->
    split_of h t None (Some cs) (others (legs_of h t) cl) cl.

(** give the legs [ls] the indices [idx] *)
Fixpoint put (ls : list lid) (idx : list nat) (s : assignment) : assignment :=
  match ls, idx with
  | l :: ls', i :: idx' => upd (put ls' idx' s) l i
  | _, _ => s
  end.

(** ** Vocabulary of single properties *)
(** the leg carries this name *)
Definition named (h : heap) (n : pname) (l : lid) : bool := if dec n (l_name (legs h l)) then true else false.

(** give the legs [rl] the indices [i] and the legs [cl] the indices [j] *)
Definition put2 (rl cl : list lid) (i j : list nat) (s : assignment) : assignment := put cl j (put rl i s).

(** an omitted weight is 1 *)
Definition weight (w : option (arr A)) (i : nat) : A := match w with None => r1 | Some v => aget v [i] end.

(** the data array is a real array, the legs handed over are distinct existing legs *)
Record args_wf (h : heap) (data : option (arr A)) (ls : option (list lid)) : Prop := {
  aw_data : match data with Some a => wfa a | None => True end;
  aw_legs : match ls with Some l => NoDup l /\ (forall x, In x l -> (x < nleg h)%nat) | None => True end }.

(** the data handed over has one entry per diagonal position or one axis per leg *)
Definition diag_data_sane (h' : heap) (t : tid) (data : option (arr A)) (like : bool) : Prop :=
  match data with
  | None => True
  | Some a => (legs_of h' t <> [] /\ ashape a = [t_len (tens h' t)]) \/
              (List.length (ashape a) = List.length (legs_of h' t) /\ (legs_of h' t = [] -> like = false))
  end.

(** what a copy is *)
Record copied (h h' : heap) (t t' : tid) : Prop := {
  cp_new : new_tensor h h' t' None;
  cp_wf : wf_tensor h' t';
  cp_owned : owned h' t';
  cp_names : names_of h' t' = names_of h t;
  cp_dims : dims_of h' t' = dims_of h t;
  cp_diag : t_diag (tens h' t') = t_diag (tens h t);
  cp_name : t_name (tens h' t') = t_name (tens h t) }.

(** the in-place operations of a tensor, with any arguments *)
Inductive iop :=
| OpRename (cf ct : pname) | OpRenames (cf ct : list pname) | OpAddTag (tag : string) | OpRemoveTag
| OpMoveLegs (ls : list lid) | OpMoveLabels (labs : list pname) | OpReArrange (labs : list pname)
| OpToTensor (labs : option (list pname))
| OpOutProduct (ls : list lid) (lab : pname) | OpOutProductLabels (labs : list pname) (lab : pname)
| OpSumLeg (l : lid) (w : option (arr A)) | OpSumLabel (lab : pname) (b : bool) (w : option (arr A))
| OpSumLabels (labs : list pname) (b : bool) (w : option (arr A)).

(** the state after calling the operation on [t], whether it returned or raised *)
Definition after (o : iop) (t : tid) (h : heap) : heap :=
  match o with
  | OpRename cf ct => fst (renameLabel t cf ct h)
  | OpRenames cf ct => fst (renameLabels t cf ct h)
  | OpAddTag tag => fst (addTensorTag t tag h)
  | OpRemoveTag => fst (removeTensorTag t h)
  | OpMoveLegs ls => fst (moveLegsToFront t ls h)
  | OpMoveLabels labs => fst (moveLabelsToFront t labs h)
  | OpReArrange labs => fst (reArrange t labs h)
  | OpToTensor labs => fst (toTensor t labs h)
  | OpOutProduct ls lab => fst (outProduct t ls lab h)
  | OpOutProductLabels labs lab => fst (outProductLabels t labs lab h)
  | OpSumLeg l w => fst (sumOutLeg t l w h)
  | OpSumLabel lab b w => fst (sumOutLegByLabel t lab b w h)
  | OpSumLabels labs b w => fst (sumOutLegsByLabel t labs b w h)
  end.

(** any interleaving of operations on the two tensors; [true] acts on [t] *)
Definition run2 (t t' : tid) (os : list (bool * iop)) (h : heap) : heap :=
  fold_left (fun (h : heap) (p : bool * iop) => after (snd p) (if fst p then t else t') h) os h.

(** two tensors with no leg in common *)
Definition apart (h : heap) (t t' : tid) : Prop :=
  t <> t' /\ (forall l, In l (legs_of h t) -> (l < nleg h)%nat /\ ~ In l (legs_of h t')) /\
  (forall l, In l (legs_of h t') -> (l < nleg h)%nat).
(** the whole state of the tensor object [t] and of its legs *)
Definition same_state (h h' : heap) (t : tid) : Prop :=
  tens h' t = tens h t /\ (forall l, In l (legs_of h t) -> legs h' l = legs h l) /\ bonds h' = bonds h.
End Spec.

(** mixed-radix digits, most significant first *)
Fixpoint digits (sh : list nat) (k : nat) : list nat :=
  match sh with
  | [] => []
  | _ :: sh' => (k / prodn sh')%nat :: digits sh' (k mod prodn sh')
  end.

(** replace the first occurrence of [a] by [b] *)
Fixpoint replace_first {X} `{Dec X} (a b : X) (l : list X) : list X :=
  match l with
  | [] => []
  | x :: l' => if dec a x then b :: l' else x :: replace_first a b l'
  end.

(** every name replaced at once: the k-th occurrence of a name among the legs takes the new name paired
    with the k-th occurrence of that name in [cf] *)
Section Sim.
Context {X : Type} {DX : Dec X}.
Variable d : X.
Definition simul (cf ct : list X) (N : list X) : list X :=
  map (fun i => let n := nth i N d in
                match nth_occ n (count n (firstn i N)) cf with Some k => nth k ct d | None => n end)
      (seq 0 (List.length N)).
End Sim.

Definition has_dash (s : string) : Prop := exists u v, s = (u ++ "-" ++ v)%string.
