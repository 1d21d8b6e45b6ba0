(** Specification vocabulary for links, contractions and tensor networks. *)
From Coq Require Import List Arith Bool Permutation.
From Verif Require Import Base Sums NdModel HeapModel TensorSpec.
From Verif Require Import TensorModel. (* only for the type of leg references *)
Import ListNotations.
Local Open Scope sr_scope.

Section Net.
Context {A : Type} {HA : SR A}.
Notation heap := (heap A).

(** the two ends of a bond, in either order *)
Definition ends (h : heap) (b : bid) (l l' : lid) : Prop :=
  bonds h b = mkBond l l' \/ bonds h b = mkBond l' l.
(** [l] carries a bond whose other end is [l'] *)
Definition linked (h : heap) (l l' : lid) : Prop :=
  exists b, l_bond (legs h l) = Some b /\ ends h b l l'.
(** the other end of the bond of [l], if it has one that contains [l] *)
Definition partner (h : heap) (l : lid) : option lid :=
  match l_bond (legs h l) with
  | None => None
  | Some b => if Nat.eqb (b0 (bonds h b)) l then Some (b1 (bonds h b))
              else if Nat.eqb (b1 (bonds h b)) l then Some (b0 (bonds h b)) else None
  end.

(** Links of a set of legs are in order: a leg is an end of its bond; when the other end is in the set
    too, it carries the same bond and has the same dimension. *)
Definition links_ok (h : heap) (L : list lid) : Prop :=
  forall l b, In l L -> l_bond (legs h l) = Some b ->
    exists l', ends h b l l' /\ (In l' L -> l_bond (legs h l') = Some b /\ dim_of h l = dim_of h l').

(** every link of the heap is mutual, between legs of equal dimension *)
Definition sym_links (h : heap) : Prop :=
  forall l b, (l < nleg h)%nat -> l_bond (legs h l) = Some b ->
    (b < nbond h)%nat /\
    exists l', (l' < nleg h)%nat /\ ends h b l l' /\ l_bond (legs h l') = Some b /\ dim_of h l = dim_of h l'.

(** what a leg argument of makeLink stands for: a leg object, the first leg of the tensor with that
    name, or nothing if the tensor has no such name *)
Inductive denotes (h : heap) : option tid -> legref -> option lid -> Prop :=
| dn_leg t l : denotes h t (RLeg l) (Some l)
| dn_name t s l : first_named h t (NStr s) l -> denotes h (Some t) (RStr s) (Some l)
| dn_missing t s : ~ In (NStr s) (names_of h t) -> denotes h (Some t) (RStr s) None.

(** legs that can be linked pairwise: different, allocated, free, of equal dimensions *)
Definition linkable (h : heap) (ps : list (lid * lid)) : Prop :=
  NoDup (map fst ps ++ map snd ps) /\
  (forall l, In l (map fst ps ++ map snd ps) -> (l < nleg h)%nat /\ l_bond (legs h l) = None) /\
  (forall p, In p ps -> dim_of h (fst p) = dim_of h (snd p)).

(** [h'] is [h] with the pairs [ps] linked and nothing else changed *)
Record links_added (h h' : heap) (ps : list (lid * lid)) : Prop := {
  la_in : forall l l', In (l, l') ps -> linked h' l l' /\ linked h' l' l /\ l_bond (legs h' l) = l_bond (legs h' l');
  la_fields : forall l, l_tensor (legs h' l) = l_tensor (legs h l) /\ l_dim (legs h' l) = l_dim (legs h l) /\
                        l_name (legs h' l) = l_name (legs h l);
  la_out : forall l, ~ In l (map fst ps ++ map snd ps) -> legs h' l = legs h l;
  la_bonds : forall b, (b < nbond h)%nat -> bonds h' b = bonds h b;
  la_nbond : nbond h' = (nbond h + List.length ps)%nat;
  la_tens : tens h' = tens h; la_nleg : nleg h' = nleg h; la_ntens : ntens h' = ntens h;
  la_rng : rng h' = rng h; la_rpos : rpos h' = rpos h }.

(** the links from legs in [L1] to legs in [L2] *)
Definition pairs_between (h : heap) (L1 L2 : list lid) : list (lid * lid) :=
  flat_map (fun l => match partner h l with
                     | Some l' => if inb l' L2 then [(l, l')] else []
                     | None => [] end) L1.
Definition shared (h : heap) (ta tb : tid) : list (lid * lid) := pairs_between h (legs_of h ta) (legs_of h tb).

(** two different well-formed tensors with separate legs and links in order *)
Record wf_pair (h : heap) (ta tb : tid) : Prop := {
  wp_a : wf_tensor h ta; wp_b : wf_tensor h tb; wp_ne : ta <> tb;
  wp_nodup : NoDup (legs_of h ta ++ legs_of h tb);
  wp_links : links_ok h (legs_of h ta ++ legs_of h tb) }.

(** the legs left over by a contraction *)
Definition restA (h : heap) (ta tb : tid) : list lid := others (legs_of h ta) (map fst (shared h ta tb)).
Definition restB (h : heap) (ta tb : tid) : list lid := others (legs_of h tb) (map snd (shared h ta tb)).

(** bonds keep their ends, possibly in the other order *)
Definition bonds_kept (h h' : heap) : Prop :=
  forall b, bonds h' b = bonds h b \/ bonds h' b = mkBond (b1 (bonds h b)) (b0 (bonds h b)).

(** [h'] differs from [h] at most in the order of the ends of bonds *)
Record only_bonds (h h' : heap) : Prop := {
  ob_legs : legs h' = legs h; ob_tens : tens h' = tens h;
  ob_nleg : nleg h' = nleg h; ob_nbond : nbond h' = nbond h; ob_ntens : ntens h' = ntens h;
  ob_rng : rng h' = rng h; ob_rpos : rpos h' = rpos h; ob_kept : bonds_kept h h' }.

(** a tensor object that at most had its legs reordered: same represented tensor *)
Record reordered (h h' : heap) (t : tid) : Prop := {
  ro_legs : Permutation (legs_of h' t) (legs_of h t);
  ro_diag : t_diag (tens h' t) = t_diag (tens h t); ro_like : t_like (tens h' t) = t_like (tens h t);
  ro_len : t_len (tens h' t) = t_len (tens h t); ro_name : t_name (tens h' t) = t_name (tens h t);
  ro_wf : wf_tensor h' t;
  ro_entry : forall s, in_bounds h (legs_of h t) s -> entry h' t s = entry h t s }.

(** [tc] was made from [ta] and [tb] and took over the legs [L]; everything else is as before *)
Record contracted (h h' : heap) (ta tb tc : tid) (L : list lid) : Prop := {
  ct_id : tc = ntens h; ct_ntens : ntens h' = S (ntens h);
  ct_nleg : nleg h' = nleg h; ct_nbond : nbond h' = nbond h; ct_rng : rng h' = rng h;
  ct_bonds : bonds_kept h h';
  ct_in : forall l, In l L -> legs h' l = mkLeg (Some tc) (l_dim (legs h l)) (l_name (legs h l)) (l_bond (legs h l));
  ct_out : forall l, (l < nleg h)%nat -> ~ In l L -> legs h' l = legs h l;
  ct_tens : forall t, (t < ntens h)%nat -> t <> ta -> t <> tb -> tens h' t = tens h t;
  ct_a : reordered h h' ta; ct_b : reordered h h' tb;
  ct_wf : wf_tensor h' tc; ct_owned : owned h' tc; ct_legs : legs_of h' tc = L }.

(** the Einstein sum of two tensors over their shared links *)
Definition einsum (h : heap) (ta tb : tid) (s : assignment) : A :=
  sumpairs (dim_of h) (shared h ta tb) (fun s => entry h ta s * entry h tb s) s.

(** the call succeeded; its result holds the legs [L], has diagonal flag [dg] and represents the Einstein sum *)
Definition contracts_to (h : heap) (r : heap * res tid) (ta tb : tid) (L : list lid) (dg : bool) : Prop :=
  exists h' tc, r = (h', Ok tc) /\ contracted h h' ta tb tc L /\
    t_diag (tens h' tc) = dg /\ t_like (tens h' tc) = false /\
    forall s, in_bounds h (restA h ta tb ++ restB h ta tb) s -> entry h' tc s = einsum h ta tb s.

(** ** Networks *)
Definition all_legs (h : heap) (ts : list tid) : list lid := flat_map (legs_of h) ts.

Record wf_net (h : heap) (ts : list tid) : Prop := {
  wn_wf : forall t, In t ts -> wf_tensor h t;
  wn_owned : forall t, In t ts -> owned h t;
  wn_ids : NoDup ts;
  wn_nodup : NoDup (all_legs h ts);
  wn_links : links_ok h (all_legs h ts) }.

(** every link between different tensors of the list, once *)
Fixpoint inner (h : heap) (ts : list tid) : list (lid * lid) :=
  match ts with
  | [] => []
  | t :: ts' => pairs_between h (legs_of h t) (all_legs h ts') ++ inner h ts'
  end.
(** product of all entries *)
Fixpoint prod_entries (h : heap) (ts : list tid) (s : assignment) : A :=
  match ts with
  | [] => 1
  | t :: ts' => entry h t s * prod_entries h ts' s
  end.
(** the value of the network for an assignment of the free legs *)
Definition netval (h : heap) (ts : list tid) (s : assignment) : A :=
  sumpairs (dim_of h) (inner h ts) (prod_entries h ts) s.
(** free legs: not an end of an inner link *)
Definition free_legs (h : heap) (ts : list tid) : list lid :=
  others (all_legs h ts) (map fst (inner h ts) ++ map snd (inner h ts)).

(** ** Sequences of contractions *)

(** pairs for which contractTwoTensors returns the Einstein sum: two diagonal tensors must share a
    link, and a diagonal tensor without legs must not meet a dense one *)
Definition contractible (h : heap) (ta tb : tid) : Prop :=
  let da := t_diag (tens h ta) in let db := t_diag (tens h tb) in
  (da = true -> db = true -> shared h ta tb <> []) /\
  (da = true -> db = false -> legs_of h ta <> []) /\
  (da = false -> db = true -> legs_of h tb <> []).

(** groups of tensors of the original list, as they get contracted together *)
Definition all_diag (h : heap) (G : list tid) : bool := forallb (fun t => t_diag (tens h t)) G.
Definition groups_linked (h : heap) (G1 G2 : list tid) : Prop :=
  exists l l', In l (all_legs h G1) /\ In l' (all_legs h G2) /\ linked h l l'.
Definition group_ok (h : heap) (G1 G2 : list tid) : Prop :=
  (all_diag h G1 = true -> all_diag h G2 = true -> groups_linked h G1 G2) /\
  (all_diag h G1 = true -> all_diag h G2 = false -> free_legs h G1 <> []) /\
  (all_diag h G1 = false -> all_diag h G2 = true -> free_legs h G2 <> []).

(** the cost of contracting two groups: all indices for two dense tensors, the indices of the result when
    one is diagonal, one index for two diagonal tensors *)
Definition group_cost (h : heap) (G1 G2 : list tid) : nat :=
  let size L := prodn (map (dim_of h) L) in
  match all_diag h G1, all_diag h G2 with
  | true, true => match free_legs h G1 with l :: _ => dim_of h l | [] => 0 end
  | false, false => size (free_legs h (G1 ++ G2) ++ map fst (pairs_between h (free_legs h G1) (free_legs h G2)))
  | _, _ => size (free_legs h (G1 ++ G2))
  end.

(** [complete ok cost gs sq n]: with the groups [gs] at their list positions, the sequence [sq] contracts two
    different live positions at a time, the result going to the smaller one, until only position 0 is
    left; every pair of groups satisfies [ok]; [n] is the sum of the costs *)
Inductive complete (ok : list tid -> list tid -> Prop) (cost : list tid -> list tid -> nat) :
  list (nat * list tid) -> list (nat * nat) -> nat -> Prop :=
| complete_done G : complete ok cost [(0%nat, G)] [] 0
| complete_step gs rest s t G1 G2 sq n :
    s <> t -> Permutation gs ((s, G1) :: (t, G2) :: rest) -> ok G1 G2 ->
    complete ok cost ((Nat.min s t, G1 ++ G2) :: rest) sq n ->
    complete ok cost gs ((s, t) :: sq) (cost G1 G2 + n)%nat.

(** a well-formed list whose bonds and partners are allocated and whose legs' partners know their owner: a leg that claims
    to belong to a tensor of the list is one of its legs *)
Record wf_list (h : heap) (ts : list tid) : Prop := {
  wl_net : wf_net h ts;
  wl_bonds : forall l b, In l (all_legs h ts) -> l_bond (legs h l) = Some b -> (b < nbond h)%nat;
  wl_alloc : forall l l', In l (all_legs h ts) -> linked h l l' -> (l' < nleg h)%nat;
  wl_owner : forall l l' t', In l (all_legs h ts) -> linked h l l' -> l_tensor (legs h l') = Some t' -> In t' ts ->
             In l' (legs_of h t') }.

(** [ct] and [cp] send the tensors and legs of the list [ts] to fresh ones that mirror them: same names,
    dimensions and order of legs, links exactly where the originals have links inside the list *)
Record net_copy (h h' : heap) (ts : list tid) (ct cp : nat -> nat) : Prop := {
  nc_tens : forall t, In t ts -> (ntens h <= ct t < ntens h')%nat;
  nc_alloc : forall l, In l (all_legs h ts) -> (nleg h <= cp l < nleg h')%nat;
  nc_inj_t : forall t t', In t ts -> In t' ts -> ct t = ct t' -> t = t';
  nc_inj : forall l l', In l (all_legs h ts) -> In l' (all_legs h ts) -> cp l = cp l' -> l = l';
  nc_legs : forall t, In t ts -> legs_of h' (ct t) = map cp (legs_of h t);
  nc_leg : forall l, In l (all_legs h ts) ->
           l_name (legs h' (cp l)) = l_name (legs h l) /\ dim_of h' (cp l) = dim_of h l;
  nc_flags : forall t, In t ts -> t_diag (tens h' (ct t)) = t_diag (tens h t) /\ t_name (tens h' (ct t)) = t_name (tens h t);
  nc_linked : forall l l', In l (all_legs h ts) -> In l' (all_legs h ts) -> linked h' (cp l) (cp l') <-> linked h l l';
  nc_free : forall l, In l (all_legs h ts) -> (forall l', linked h l l' -> ~ In l' (all_legs h ts)) ->
            l_bond (legs h' (cp l)) = None;
  nc_wf : wf_net h' (map ct ts);
  nc_old_legs : forall l, (l < nleg h)%nat -> legs h' l = legs h l;
  nc_old_bonds : forall b, (b < nbond h)%nat -> bonds h' b = bonds h b;
  nc_old_tens : forall t, (t < ntens h)%nat -> tens h' t = tens h t }.

(** every tensor of the list is its own group *)
Definition singles (ts : list tid) : list (nat * list tid) :=
  combine (seq 0 (List.length ts)) (map (fun t => [t]) ts).
End Net.
