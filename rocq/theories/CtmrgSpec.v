(** Vocabulary for the corner transfer matrix renormalization group. *)
From Coq Require Import List Arith Bool String.
From Verif Require Import Base Sums NdModel HeapModel TensorSpec ContractModel SvdModel SvdSpec FtnModel NamedSpec NetsSpec DiagNetSpec TrgModel TrgSpec CtmrgModel.
Import ListNotations.
Local Open Scope nat_scope.
Local Open Scope string_scope.
Local Open Scope list_scope.

(** a corner (a diagonal matrix of size [e_k]), a horizontal edge (indices l, r, u) and a vertical edge (indices u, d, r) *)
Record env (A : Type) := mkEnv { e_k : nat; e_c : nat -> A; e_h : nat -> nat -> nat -> A; e_v : nat -> nat -> nat -> A }.
Arguments mkEnv {A}. Arguments e_k {A}. Arguments e_c {A}. Arguments e_h {A}. Arguments e_v {A}.

Section Sp.
Context {A B : Type} {HA : SR A}.
Notation heap := (heap A).
Notation world := (world A).
Notation ctmrg := (ctmrg A B).
Notation fun4 := (nat -> nat -> nat -> nat -> A).
Local Open Scope sr_scope.

(** a matrix given by its entries *)
Definition mat2 (r c : nat) (f : nat -> nat -> A) : arr A := tab [r; c] (fun idx => f (nth 0 idx 0%nat) (nth 1 idx 0%nat)).

(** no sites at all *)
Definition no_sites : env A := mkEnv 1 (fun _ => 1) (fun _ _ _ => 1) (fun _ _ _ => 1).

(** ** One more row and column of sites.  [T] has the indices l, r, u, d; l and r have dimension [H], u and d dimension [V] *)
Section Extend.
Variables H V : nat.
Variable T : fun4.
Variable E : env A.
(** rows: the two indices u, columns: the two indices r *)
Definition ext_c (p q : nat) : A := sumN (e_k E) (fun x => sumN H (fun l => sumN V (fun d =>
  e_c E x * e_h E x (q / H)%nat d * e_v E (p / V)%nat x l * T l (q mod H)%nat (p mod V)%nat d))).
Definition ext_h (p q u : nat) : A := sumN V (fun d => e_h E (p / H)%nat (q / H)%nat d * T (p mod H)%nat (q mod H)%nat u d).
Definition ext_v (p q r : nat) : A := sumN H (fun l => e_v E (p / V)%nat (q / V)%nat l * T l r (p mod V)%nat (q mod V)%nat).
Definition ext_mat : arr A := mat2 (e_k E * V) (e_k E * H) ext_c.

(** ** The corner is decomposed, the edges are multiplied by u or by v *)
Variable lib : linalg A.
Variable chi : nat.
Definition cut_k : nat := Nat.min chi (Nat.min (e_k E * V) (e_k E * H)).
Definition cut_u (p z : nat) : A := aget (svd_u lib ext_mat) [p; z].
Definition cut_s (z : nat) : A := aget (svd_s lib ext_mat) [z].
Definition cut_v (z q : nat) : A := aget (svd_v lib ext_mat) [z; q].
Definition red_h (y z u : nat) : A := sumN (e_k E * H) (fun p => sumN (e_k E * H) (fun q => cut_v y p * cut_v z q * ext_h p q u)).
Definition red_v (y z r : nat) : A := sumN (e_k E * V) (fun p => sumN (e_k E * V) (fun q => cut_u p y * cut_u q z * ext_v p q r)).
Definition step_env : env A := mkEnv cut_k cut_s red_h red_v.
(** nothing is lost: the values kept give back the corner, the rows and columns kept are orthonormal, and the edges lie in the space they span *)
Record exact_cut : Prop := {
  ec_shape : svd_shape lib ext_mat (e_k E * V) (e_k E * H);
  ec_corner : forall p q, (p < e_k E * V)%nat -> (q < e_k E * H)%nat -> ext_c p q = sumN cut_k (fun z => cut_u p z * cut_s z * cut_v z q);
  ec_u : forall y z, (y < cut_k)%nat -> (z < cut_k)%nat -> sumN (e_k E * V) (fun p => cut_u p y * cut_u p z) = if Nat.eqb y z then 1 else 0;
  ec_v : forall y z, (y < cut_k)%nat -> (z < cut_k)%nat -> sumN (e_k E * H) (fun q => cut_v y q * cut_v z q) = if Nat.eqb y z then 1 else 0;
  ec_vEdge : forall p q r, (p < e_k E * V)%nat -> (q < e_k E * V)%nat -> (r < H)%nat ->
    sumN cut_k (fun y => sumN cut_k (fun z => cut_u p y * cut_u q z * red_v y z r)) = ext_v p q r;
  ec_hEdge : forall p q u, (p < e_k E * H)%nat -> (q < e_k E * H)%nat -> (u < V)%nat ->
    sumN cut_k (fun y => sumN cut_k (fun z => cut_v y p * cut_v z q * red_h y z u)) = ext_h p q u }.
(** the first half of this: the corner loses nothing, but nothing is said about the edges *)
Record corner_cut : Prop := {
  cc_shape : svd_shape lib ext_mat (e_k E * V) (e_k E * H);
  cc_corner : forall p q, (p < e_k E * V)%nat -> (q < e_k E * H)%nat -> ext_c p q = sumN cut_k (fun z => cut_u p z * cut_s z * cut_v z q);
  cc_u : forall y z, (y < cut_k)%nat -> (z < cut_k)%nat -> sumN (e_k E * V) (fun p => cut_u p y * cut_u p z) = if Nat.eqb y z then 1 else 0;
  cc_v : forall y z, (y < cut_k)%nat -> (z < cut_k)%nat -> sumN (e_k E * H) (fun q => cut_v y q * cut_v z q) = if Nat.eqb y z then 1 else 0 }.
(** the numbers of a network made of four corners, or of four corners, four edges and a centre *)
Definition even_value : A := sumN (e_k E) (fun z => pow (e_c E z) 4).
Definition odd_value : A :=
  sumN (e_k E) (fun z1 => sumN (e_k E) (fun z2 => sumN (e_k E) (fun z3 => sumN (e_k E) (fun z4 => e_c E z1 * e_c E z2 * e_c E z3 * e_c E z4 *
    sumN H (fun x => sumN H (fun x' => sumN V (fun y => sumN V (fun y' =>
      e_v E z1 z3 x * e_v E z2 z4 x' * e_h E z3 z4 y * e_h E z1 z2 y' * T x x' y' y)))))))).
End Extend.
(** two envs with the same entries; the second one is divided by the norms given *)
Record scaled (H V : nat) (E E' : env A) (nc nh nv : A) : Prop := {
  sc_k : e_k E' = e_k E;
  sc_c : forall z, (z < e_k E)%nat -> e_c E z = nc * e_c E' z;
  sc_h : forall y z u, (y < e_k E)%nat -> (z < e_k E)%nat -> (u < V)%nat -> e_h E y z u = nh * e_h E' y z u;
  sc_v : forall y z r, (y < e_k E)%nat -> (z < e_k E)%nat -> (r < H)%nat -> e_v E y z r = nv * e_v E' y z r }.

(** ** Names and entries of the factors that tensorSVDDecomposition makes *)
Definition svd_name (names : list string) : string := String.concat "|" names.
Definition svd_inner (inner : option (string * string)) (rows cols : list string) : string * string :=
  match inner with Some p => p | None => ("inner:" ++ svd_name rows, "inner:" ++ svd_name cols)%string end.
(** tensors [u], [s], [v] hold the first [k] columns, values and rows of the decomposition of the r x c matrix [m] *)
Record svd_tensors (lib : linalg A) (h : heap) (m : arr A) (r c k : nat) (rn rl cl cn : string) (u s v : tid) : Prop := {
  sn_u : dense_legs h u [(rn, r); (rl, k)];
  sn_s : diag_legs h s [(rn, k); (cn, k)];
  sn_v : dense_legs h v [(cl, k); (cn, c)];
  sn_ue : forall i z, (i < r)%nat -> (z < k)%nat -> at_ h u [(rn, i); (rl, z)] = aget (svd_u lib m) [i; z];
  sn_se : forall z, (z < k)%nat -> at_ h s [(rn, z); (cn, z)] = aget (svd_s lib m) [z];
  sn_ve : forall z j, (z < k)%nat -> (j < c)%nat -> at_ h v [(cl, z); (cn, j)] = aget (svd_v lib m) [z; j] }.

(** ** The object *)
Record cnets_ready (w : world) (fs : cnets) : Prop := {
  cr_hExt : is_net w (c_hExt fs) hEdge_extend_net; cr_vExt : is_net w (c_vExt fs) vEdge_extend_net;
  cr_cExt : is_net_for w (c_cExt fs) corner_extend_net corner_diag;
  cr_vBuild : is_net w (c_vBuild fs) vEdge_build_net; cr_hBuild : is_net w (c_hBuild fs) hEdge_build_net;
  cr_even : is_net_for w (c_even fs) evenZ_net corner_diag; cr_odd : is_net_for w (c_odd fs) oddZ_net corner_diag;
  cr_nd : NoDup [c_hExt fs; c_vExt fs; c_cExt fs; c_vBuild fs; c_hBuild fs; c_even fs; c_odd fs] }.
(** a dense tensor with legs l, r, u, d (in any order), and its entries *)
Definition site_tensor (h : heap) (t : tid) (H V : nat) : Prop := dense_legs h t [("l", H); ("r", H); ("u", V); ("d", V)].
Definition site_entry (h : heap) (t : tid) : fun4 := fun l r u d => at_ h t [("l", l); ("r", r); ("u", u); ("d", d)].
(** a diagonal corner and two dense edges *)
Record env_tensors (h : heap) (c he ve : tid) (H V k : nat) : Prop := {
  et_c : diag_legs h c [("u", k); ("r", k)];
  et_h : dense_legs h he [("l", k); ("r", k); ("u", V)];
  et_v : dense_legs h ve [("u", k); ("d", k); ("r", H)] }.
Definition env_of (h : heap) (c he ve : tid) (k : nat) : env A :=
  mkEnv k (fun z => at_ h c [("u", z); ("r", z)]) (fun l r u => at_ h he [("l", l); ("r", r); ("u", u)]) (fun u d r => at_ h ve [("u", u); ("d", d); ("r", r)]).
(** two envs with the same entries *)
Record same_env (H V : nat) (E E' : env A) : Prop := {
  se_k : e_k E' = e_k E;
  se_c : forall z, (z < e_k E)%nat -> e_c E' z = e_c E z;
  se_h : forall y z u, (y < e_k E)%nat -> (z < e_k E)%nat -> (u < V)%nat -> e_h E' y z u = e_h E y z u;
  se_v : forall y z r, (y < e_k E)%nat -> (z < e_k E)%nat -> (r < H)%nat -> e_v E' y z r = e_v E y z r }.
(** the entries of [E'] are those of [E] divided by the norms *)
Record divided (num : numerics A B) (H V : nat) (E E' : env A) (nc nh nv : A) : Prop := {
  dv_k : e_k E' = e_k E;
  dv_c : forall z, (z < e_k E)%nat -> e_c E' z = nu_div num (e_c E z) nc;
  dv_h : forall y z u, (y < e_k E)%nat -> (z < e_k E)%nat -> (u < V)%nat -> e_h E' y z u = nu_div num (e_h E y z u) nh;
  dv_v : forall y z r, (y < e_k E)%nat -> (z < e_k E)%nat -> (r < H)%nat -> e_v E' y z r = nu_div num (e_v E y z r) nv }.
(** the object holds a tensor with horizontal dimension [H] and vertical dimension [V]; the corner has size [k] *)
Record cstate (w : world) (g : ctmrg) (H V k : nat) : Prop := {
  cs_nets : cnets_ready w (m_nets g);
  cs_a : site_tensor (w_heap w) (m_a g) H V;
  cs_env : env_tensors (w_heap w) (m_corner g) (m_hEdge g) (m_vEdge g) H V k }.
Definition genv (w : world) (g : ctmrg) (k : nat) : env A := env_of (w_heap w) (m_corner g) (m_hEdge g) (m_vEdge g) k.
Definition gsite (w : world) (g : ctmrg) : fun4 := site_entry (w_heap w) (m_a g).
End Sp.
