(** Model of the contraction-order searches of src/CTL/tensor/contract/tensorGraph.py
    ([TensorGraph.optimalContractSequence], lines 112-419).

    A set of vertices is a Python int used as a bit set: [Z] here, with Python's unbounded two's complement
    bit operators.  Tables indexed by bit sets are total functions on [Z] with [None] where Python has None.
    Exceptions are values; a fuelled loop that runs out of fuel returns [Err OutOfFuel].
    Simplifications: the float cost of [getCost] is computed exactly; warnings are dropped. *)
From Coq Require Import List Arith Bool Lia ZArith.
From Verif Require Import Base FuncsModel.
Import ListNotations.
Local Open Scope nat_scope.

(** tensorGraph.py 136-137 [lowbitI]: [(x & (-x)).bit_length() - 1], used on non-empty sets only *)
Definition bit_length (x : Z) : Z := if (x =? 0)%Z then 0%Z else (Z.log2 x + 1)%Z.
Definition lowbit (x : Z) : Z := Z.land x (- x).
Definition lowbitI (x : Z) : nat := Z.to_nat (bit_length (lowbit x) - 1).

(** tensorGraph.py 141-147 [subsetIterator], as the list of the values it yields; the loop makes fewer
    than [x] steps *)
Definition next_subset (x lb : Z) : Z :=
  let nlb := lowbit (x - lb) in (Z.land lb (Z.lnot (nlb - 1)) + nlb)%Z.
Fixpoint subset_loop (fuel : nat) (x lb : Z) : list Z :=
  match fuel with
  | O => []
  | S f => if (lb * 2 <? x)%Z then lb :: subset_loop f x (next_subset x lb) else []
  end.
Definition subsetIterator (x : Z) : list Z := subset_loop (Z.to_nat x) x (lowbit x).

Definition updZ {X} (f : Z -> X) (k : Z) (v : X) : Z -> X := fun x => if (x =? k)%Z then v else f x.

(** a loop whose body may raise *)
Fixpoint rfold {S X} (f : S -> X -> res S) (l : list X) (s : S) : res S :=
  match l with
  | [] => Ok s
  | x :: l' => letr s' := f s x in rfold f l' s'
  end.

(** tensorGraph.py 151-164: a (partly contracted) tensor is the list of its edge indices, the list of their
    weights and its diagonal flag *)
Definition vres : Type := list nat * list nat * bool.
Definition r_edges (r : vres) : list nat := fst (fst r).
Definition r_shape (r : vres) : list nat := snd (fst r).
Definition r_diag (r : vres) : bool := snd r.

(** the arguments of the search *)
Section Search.
(** [funcs.listSymmetricDifference] (funcs.py 171-185) returns [list(set(x) ^ set(y))], whose order is
    unspecified: a parameter. *)
Variable symdiff : list nat -> list nat -> list nat.
(** [edges], [shapes] and [diagonalFlags] of the vertices, tensorGraph.py 151-152, 42-48 *)
Variable verts : list vres.
(** [typicalDim]; None selects [getCost], tensorGraph.py 255-259 *)
Variable typ : option nat.

(** tensorGraph.py 173-197 [getCost].  Python multiplies by sqrt(s) for every occurrence of a common edge and
    returns int(res + 0.5).  Here res is kept as num * sqrt(sq) and rounded exactly:
    floor(num * sqrt(sq) + 1/2) = (floor(sqrt(4 num^2 sq)) + 1) / 2. *)
Definition getCost (ra rb : vres) : res nat :=
  if r_diag ra && r_diag rb then
    match r_shape ra with [] => Err IndexError | s :: _ => Ok s end
  else
    let diagonal := r_diag ra || r_diag rb in
    let clb := commonElements (r_edges ra) (r_edges rb) in
    let ls := combine (r_edges ra ++ r_edges rb) (r_shape ra ++ r_shape rb) in
    let '(num, sq) := fold_left (fun '(num, sq) '(l, s) =>
      if inb l clb then (if negb diagonal then (num, sq * s) else (num, sq)) else (num * s, sq)) ls (1, 1) in
    Ok ((Nat.sqrt (4 * num * num * sq) + 1) / 2).

(** tensorGraph.py 199-211 [getCostTypical] *)
Definition getCostTypical (typicalDim : nat) (ra rb : vres) : res nat :=
  let costOrder :=
    if r_diag ra && r_diag rb then 1
    else
      let clb := dedup (commonElements (r_edges ra) (r_edges rb)) in
      if r_diag ra || r_diag rb
      then List.length (r_edges ra) + List.length (r_edges rb) - 2 * List.length clb
      else List.length (r_edges ra) + List.length (r_edges rb) - List.length clb in
  Ok (typicalDim ^ costOrder).

(** tensorGraph.py 255-259 *)
Definition costFunc : vres -> vres -> res nat :=
  match typ with None => getCost | Some d => getCostTypical d end.

(** tensorGraph.py 213-222, 224-225 *)
Definition isSharingBond (ra rb : vres) : bool :=
  0 <? List.length (commonElements (r_edges ra) (r_edges rb)).
Definition isDiagonalOuterProduct (ra rb : vres) : bool :=
  r_diag ra && r_diag rb && negb (isSharingBond ra rb).

(** tensorGraph.py 227-245 [calculateContractRes]; the weight of an edge of the result is the last one
    listed for it.  Every edge of the result has one (shape and edge lists have equal length); the model's
    default 0 stands for Python's None. *)
Definition last_weight (ls : list (nat * nat)) (e : nat) : nat :=
  fold_left (fun w '(l, s) => if Nat.eqb l e then s else w) ls 0.
Definition calculateContractRes (ra rb : vres) : vres :=
  let edges := symdiff (r_edges ra) (r_edges rb) in
  let ls := combine (r_edges ra ++ r_edges rb) (r_shape ra ++ r_shape rb) in
  (edges, map (last_weight ls) edges, r_diag ra && r_diag rb).

(** tensorGraph.py 247-253 [getSize] *)
Definition getSize (ra rb : vres) : nat := prodn (r_shape (calculateContractRes ra rb)).

(** tensorGraph.py 154-164: the tables *)
Record sst := mkSst { s_cost : Z -> option nat; s_seq : Z -> option (list (nat * nat)); s_res : Z -> option vres }.
Definition init_st : sst :=
  fold_left (fun st '(i, r) =>
      let k := (2 ^ Z.of_nat i)%Z in
      mkSst (updZ (s_cost st) k (Some 0)) (updZ (s_seq st) k (Some [])) (updZ (s_res st) k (Some r)))
    (combine (seq 0 (List.length verts)) verts)
    (mkSst (fun _ => None) (fun _ => None) (fun _ => None)).
Definition n : nat := List.length verts.
Definition full : Z := (2 ^ Z.of_nat n - 1)%Z.

(** reading a table entry that may still be None: using it raises TypeError *)
Definition need {X} (o : option X) : res X := match o with Some x => Ok x | None => Err TypeError end.

(** tensorGraph.py 261-287 [solveSet]; the recursion depth is at most the number of vertices *)
Fixpoint solveSet (fuel : nat) (x : Z) (st : sst) : res sst :=
  match fuel with
  | O => Err OutOfFuel
  | S f =>
    match s_cost st x with
    | Some _ => Ok st
    | None =>
      letr p := rfold (fun '(st, best) tsA =>
          let tsB := (x - tsA)%Z in
          letr st := (match s_cost st tsA with Some _ => Ok st | None => solveSet f tsA st end) in
          letr st := (match s_cost st tsB with Some _ => Ok st | None => solveSet f tsB st end) in
          letr ra := need (s_res st tsA) in
          letr rb := need (s_res st tsB) in
          let st := (match s_res st x with
                     | Some _ => st
                     | None => mkSst (s_cost st) (s_seq st) (updZ (s_res st) x (Some (calculateContractRes ra rb)))
                     end) in
          letr localCost := costFunc ra rb in
          letr ca := need (s_cost st tsA) in
          letr cb := need (s_cost st tsB) in
          let currCost := ca + cb + localCost in
          let better := match best with None => true | Some (m, _, _) => currCost <? m end in
          Ok (st, if better then Some (currCost, tsA, tsB) else best))
        (subsetIterator x) (st, None) in
      let '(st, best) := p in
      letr (c, a, b) := need best in
      letr sa := need (s_seq st a) in
      letr sb := need (s_seq st b) in
      Ok (mkSst (updZ (s_cost st) x (Some c)) (updZ (s_seq st) x (Some (sa ++ sb ++ [(lowbitI a, lowbitI b)]))) (s_res st))
    end
  end.

(** tensorGraph.py 289-296 [bruteForce] with the cost that [optimalCostResult] (99-110) reports *)
Definition bruteForce : res (list (nat * nat) * nat) :=
  letr st := solveSet (S n) full init_st in
  letr s := need (s_seq st full) in
  letr c := need (s_cost st full) in
  Ok (s, c).

(** tensorGraph.py 298-320 [greedySearch].  State: the live vertices, the table of results (a Python list of
    length n), the sequence and the cost.  When no two live tensors share a bond, the indices stay -1: the
    cost of the last table entry with itself is computed (it may raise) and [tensorSet.remove(-1)] raises
    ValueError. *)
Definition greedyPair (cr : nat -> vres) (ps : list (nat * nat)) : option (nat * nat * nat) :=
  fold_left (fun best '(a, b) =>
      if isSharingBond (cr a) (cr b) then
        let newSize := getSize (cr a) (cr b) in
        match best with
        | Some (m, _, _) => if newSize <? m then Some (newSize, a, b) else best
        | None => Some (newSize, a, b)
        end
      else best) ps None.
Fixpoint greedyLoop (fuel : nat) (live : list nat) (cr : nat -> vres) (sq : list (nat * nat)) (cost : nat)
  : res (list (nat * nat) * nat) :=
  if List.length live <=? 1 then Ok (sq, cost) else
  match fuel with
  | O => Err OutOfFuel
  | S f =>
    match greedyPair cr (pairIterator live) with
    | None => letr _ := getCost (cr (n - 1)) (cr (n - 1)) in Err ValueError
    | Some (_, a, b) =>
      letr c := getCost (cr a) (cr b) in
      letr live' := match remove_one b live with Some l => Ok l | None => Err ValueError end in
      greedyLoop f live' (upd cr a (calculateContractRes (cr a) (cr b))) (sq ++ [(a, b)]) (cost + c)
    end
  end.
Definition greedySearch : res (list (nat * nat) * nat) :=
  greedyLoop n (seq 0 n) (fun i => nth i verts ([], [], false)) [] 0.

(** tensorGraph.py 339-362 [obj_iterator]: the lists do not change while they are iterated over (the loop
    appends to a longer size only) *)
Fixpoint triangle (pre rest : list Z) : list (Z * Z) :=
  match rest with
  | [] => []
  | x :: rest' => map (fun y => (y, x)) pre ++ triangle (pre ++ [x]) rest'
  end.
Definition obj_iterator (obj : nat -> list Z) (c1 c2 : nat) : list (Z * Z) :=
  if Nat.eqb c1 c2 then triangle [] (obj c1) else list_prod (obj c1) (obj c2).

Record cst := mkCst { c_st : sst; c_obj : nat -> list Z; c_new : Z -> bool; c_next : nat }.

(** tensorGraph.py 371-400: one pair *)
Definition cap_pair (mu_old mu_new c : nat) (s : cst) (p : Z * Z) : res cst :=
  let '(t1, t2) := p in
  if negb (Z.land t1 t2 =? 0)%Z then Ok s else
  letr r1 := need (s_res (c_st s) t1) in
  letr r2 := need (s_res (c_st s) t2) in
  if isDiagonalOuterProduct r1 r2 then Ok s else
  let tt := Z.lor t1 t2 in
  let st := match s_res (c_st s) tt with
            | Some _ => c_st s
            | None => mkSst (s_cost (c_st s)) (s_seq (c_st s)) (updZ (s_res (c_st s)) tt (Some (calculateContractRes r1 r2)))
            end in
  let s := mkCst st (c_obj s) (c_new s) (c_next s) in
  let mu_0 := if c_new s t1 || c_new s t2 then 0 else mu_old in
  letr o1 := need (s_cost st t1) in
  letr o2 := need (s_cost st t2) in
  letr lc := costFunc r1 r2 in
  let mu_curr := o1 + o2 + lc in
  if mu_new <? mu_curr then
    Ok (mkCst st (c_obj s) (c_new s) (if mu_curr <? c_next s then mu_curr else c_next s))
  else if (mu_0 <? mu_curr) && (mu_curr <=? mu_new) then
    let old := s_cost st tt in
    let obj := match old with None => upd (c_obj s) c (c_obj s c ++ [tt]) | Some _ => c_obj s end in
    let better := match old with None => true | Some o => mu_curr <? o end in
    if better then
      letr s1 := need (s_seq st t1) in
      letr s2 := need (s_seq st t2) in
      Ok (mkCst (mkSst (updZ (s_cost st) tt (Some mu_curr))
                       (updZ (s_seq st) tt (Some (s1 ++ s2 ++ [(lowbitI t1, lowbitI t2)]))) (s_res st))
                obj (updZ (c_new s) tt true) (c_next s))
    else Ok (mkCst st obj (c_new s) (c_next s))
  else Ok s.

(** tensorGraph.py 368-400: one pass over all sizes *)
Definition cap_size (mu_old mu_new : nat) (s : cst) (c : nat) : res cst :=
  rfold (fun s c1 => rfold (cap_pair mu_old mu_new c) (obj_iterator (c_obj s) c1 (c - c1)) s) (seq 1 (c / 2)) s.
Definition cap_pass (mu_old mu_new : nat) (s : cst) : res cst :=
  rfold (cap_size mu_old mu_new) (seq 2 (n - 1)) (mkCst (c_st s) (c_obj s) (c_new s) mu_new).

(** tensorGraph.py 404-406: the flags are cleared for every listed set *)
Definition clear_new (s : cst) : Z -> bool :=
  fold_left (fun f c => fold_left (fun f tt => updZ f tt false) (c_obj s c) f) (seq 0 (S n)) (c_new s).

(** tensorGraph.py 364-406: the main loop *)
Fixpoint cap_loop (fuel : nat) (chi_min mu_old mu_new : nat) (s : cst) : res cst :=
  match c_obj s n with
  | _ :: _ => Ok s
  | [] =>
    match fuel with
    | O => Err OutOfFuel
    | S f =>
      letr s := cap_pass mu_old mu_new s in
      cap_loop f chi_min mu_new (Nat.max (c_next s) (mu_new * chi_min))
               (mkCst (c_st s) (c_obj s) (clear_new s) (c_next s))
    end
  end.

(** [min(l)], ValueError for an empty list *)
Definition py_min (l : list nat) : res nat :=
  match l with [] => Err ValueError | x :: l' => Ok (fold_left Nat.min l' x) end.

(** tensorGraph.py 322-413 [capping].  With no vertex, [obj_list[1]] does not exist: IndexError. *)
Definition capping (fuel : nat) : res (list (nat * nat) * nat) :=
  letr chi := match typ with
              | None => letr ms := rmapM (fun r => py_min (r_shape r)) verts in py_min ms
              | Some d => Ok d
              end in
  if Nat.eqb n 0 then Err IndexError else
  let obj := upd (fun _ => []) 1 (map (fun i => (2 ^ Z.of_nat i)%Z) (seq 0 n)) in
  letr s := cap_loop fuel (Nat.max chi 2) 0 1 (mkCst init_st obj (fun _ => true) 1) in
  letr sq := need (s_seq (c_st s) full) in
  letr c := need (s_cost (c_st s) full) in
  Ok (sq, c).
End Search.
