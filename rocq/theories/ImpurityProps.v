(** Impurity tensor networks: expectation values with the renormalization group. *)
From Coq Require Import List Arith Bool String ZArith Lia QArith Qcanon.
From Verif Require Import Base Sums FuncsSpec NdModel HeapModel TensorModel TensorSpec ContractModel SvdModel CanonModel SearchSpec FtnModel FtnNetSpec NamedSpec NetsModel NetsSpec TorusSpec DoubleSpec TrgModel TrgSpec HotrgModel HotrgSpec MomentSpec ImpurityModel ImpuritySpec
  TorusProofs TrgProofs NamedMatProofs TrgExampleProofs HotrgProofs HotrgRunProofs HotrgExampleProofs MomentProofs ImpurityProofs ImpurityRunProofs ImpurityMeasureProofs ImpurityExampleProofs SearchProps HotrgSpec.
Import ListNotations.
Local Open Scope nat_scope.
Local Open Scope string_scope.
Local Open Scope list_scope.

(** ** C61 Impurity tensors give the moments of the mean of an observable *)
(** the constructor: copies, truncated to the number of orders or filled up with None *)
Theorem C61_init : forall A (HA : SR A) ts ho V H (w w' : world A) s, newImpurityTN ts ho w = (w', Ok s) -> given_all (w_heap w) ts V H ->
  let n := order_of ho ts in
  preserved (w_heap w) (w_heap w') /\ i_order s = n /\ i_rg s = None /\ i_archive s = [] /\ i_norms s = [] /\ i_idx s = 0 /\ i_init s = false /\ List.length (i_imps s) = n /\
  (forall i t df, i < n -> nth_error ts i = Some (t, df) -> nth_error (i_imps s) i = Some (Some (imp s i, df)) /\ ~ (exists m, dense_legs (w_heap w) (imp s i) m) /\ square (w_heap w') (imp s i) V H /\
     forall u l d r, imp_entry (w_heap w') s i u l d r = entry4 (w_heap w) t u l d r) /\
  (forall i, List.length ts <= i < n -> nth_error (i_imps s) i = Some None) /\
  (forall i j, i < n -> j < n -> i < List.length ts -> j < List.length ts -> imp s i = imp s j -> i = j).
Proof. exact @new_imp_spec. Qed.
Print Assumptions C61_init.
(** initialize(): every tensor is divided by the first norm of the RG and archived *)
Theorem C61_initialize : forall A B (HA : SR A) (num : numerics A B) (w w' : world A) s s' g dof V H, initializeI num s w = (w', Ok s') -> istate w s g dof V H ->
  exists n cs, nth_error (o_norms g) 0 = Some n /\ istate w' s' g dof V H /\ i_init s' = true /\ i_order s' = i_order s /\ i_idx s' = i_idx s /\ i_norms s' = i_norms s ++ [n] /\ i_archive s' = i_archive s ++ [cs] /\
    archived_all (w_heap w') s' cs V H /\
    forall i u l d r, i < i_order s -> u < V -> l < H -> d < V -> r < H -> imp_entry (w_heap w') s' i u l d r = nu_div num (imp_entry (w_heap w) s i u l d r) n.
Proof. exact @initialize_spec. Qed.
Print Assumptions C61_initialize.
(** the first call of iterate() calls initialize() *)
Theorem C61_first : forall A B (HA : SR A) symdiff fuel (num : numerics A B) half (w w' : world A) s s', i_init s = false -> initializeI num s w = (w', Ok s') ->
  iterateI symdiff fuel num half s w = iterateI symdiff fuel num half s' w'.
Proof. exact @first_iterate. Qed.
Print Assumptions C61_first.
(** iterate(): the new tensor of order i is the mean of the fused pairs of orders j and i - j, with binomial weights, divided by the norm of the step of the RG *)
Theorem C61_iterate : forall A B (HA : SR A) symdiff, symdiff_ok symdiff -> forall fuel (num : numerics A B) half (w w' : world A) s s' g dof V H k d P,
  iterateI symdiff fuel num half s w = (w', Ok s') -> istate w s g dof V H -> i_init s = true ->
  nth_error (o_choices g) (i_idx s) = Some d -> nth_error (o_projs g) (i_idx s) = Some P -> wfa P -> ashape P = [cut d V H * cut d V H; k] ->
  exists n cs, nth_error (o_norms g) (S (i_idx s)) = Some n /\ In d dirs /\ istate w' s' g (2 * dof) (newV d V k) (newH d H k) /\ i_init s' = true /\ i_order s' = i_order s /\ i_idx s' = S (i_idx s) /\
    i_norms s' = i_norms s ++ [n] /\ i_archive s' = i_archive s ++ [cs] /\ archived_all (w_heap w') s' cs (newV d V k) (newH d H k) /\ preserved (w_heap w) (w_heap w') /\
    forall i u l dd r, i < i_order s -> u < newV d V k -> l < newH d H k -> dd < newV d V k -> r < newH d H k ->
      imp_entry (w_heap w') s' i u l dd r = nu_div num (nu_div num (mixed num half (w_heap w) s V H d P i u l dd r) (total_weight half i)) n.
Proof. exact @iterateI_spec. Qed.
Print Assumptions C61_iterate.
(** the weights add up to one *)
Theorem C61_weights : forall A (HA : SR A) (half : A), (half + half = 1)%sr -> forall i, total_weight half i = 1%sr.
Proof. exact @total_one. Qed.
Print Assumptions C61_weights.
(** one step without loss: the sum over all placements of i observables on the lattice with twice as many sites *)
Theorem C61_step : forall A B (HA : SR A) symdiff, symdiff_ok symdiff -> forall fuel (num : numerics A B) half, (half + half = 1)%sr -> invertible num 1%sr -> forall (w w' : world A) s s' g dof V H k d P,
  iterateI symdiff fuel num half s w = (w', Ok s') -> istate w s g dof V H -> i_init s = true ->
  nth_error (o_choices g) (i_idx s) = Some d -> nth_error (o_projs g) (i_idx s) = Some P -> wfa P -> ashape P = [cut d V H * cut d V H; k] ->
  (forall i j, i + j < i_order s -> lossless_pair (kept d V H) (cut d V H) k (turn d (imp_entry (w_heap w) s i)) (turn d (imp_entry (w_heap w) s j)) (fun x o => aget P [x; o]) (fun x o => nu_conj num (aget P [x; o]))) ->
  exists n, nth_error (o_norms g) (S (i_idx s)) = Some n /\ In d dirs /\ forall L i, torus L -> invertible num n -> i < i_order s ->
    placements (double d L) H V (imp_entry (w_heap w) s) i = (pow n (List.length (sites L)) * pow (natA 2) i * placements L (newH d H k) (newV d V k) (imp_entry (w_heap w') s') i)%sr.
Proof. exact @one_stepI. Qed.
Print Assumptions C61_step.
(** the object after a run *)
Theorem C61_run : forall A B (HA : SR A) symdiff, symdiff_ok symdiff -> forall fuel (num : numerics A B) half ts ho V0 H0 (w w1 w2 w3 : world A) s1 s2 s3 g dof n V H,
  newImpurityTN ts ho w = (w1, Ok s1) -> given_all (w_heap w) ts V0 H0 -> nets_ready w g -> 0 < order_of ho ts <= List.length ts -> snd (nth 0 ts (0, None)) = Some dof ->
  initializeI num (setRG s1 g) w1 = (w2, Ok s2) -> exact_runI num half symdiff fuel g w2 s2 V0 H0 n w3 s3 V H ->
  istate w3 s3 g (2 ^ n * dof) V H /\ i_order s3 = order_of ho ts /\ i_norms s3 = firstn (S n) (o_norms g) /\ List.length (i_norms s3) = S n /\ List.length (i_archive s3) = S n /\
  n <= List.length (o_choices g) /\ preserved (w_heap w) (w_heap w3).
Proof. exact @run_spec. Qed.
Print Assumptions C61_run.
(** every archived tensor of order i stands for the sum over the placements of i observables on the lattice it was made from *)
Theorem C61_archive : forall A B (HA : SR A) symdiff, symdiff_ok symdiff -> forall fuel (num : numerics A B) half, (half + half = 1)%sr -> invertible num 1%sr ->
  forall ts ho V0 H0 (w w1 w2 w3 : world A) s1 s2 s3 g dof n V H,
  newImpurityTN ts ho w = (w1, Ok s1) -> given_all (w_heap w) ts V0 H0 -> nets_ready w g -> 0 < order_of ho ts <= List.length ts -> snd (nth 0 ts (0, None)) = Some dof ->
  initializeI num (setRG s1 g) w1 = (w2, Ok s2) -> exact_runI num half symdiff fuel g w2 s2 V0 H0 n w3 s3 V H -> (forall x, In x (o_norms g) -> invertible num x) ->
  forall m, m <= n -> exists cs Vm Hm, nth_error (i_archive s3) m = Some cs /\ List.length cs = order_of ho ts /\ (forall c, In c cs -> square (w_heap w3) c Vm Hm) /\
    forall L i, torus L -> i < order_of ho ts -> placements (fine (firstn m (o_choices g)) L) H0 V0 (given_entry (w_heap w) ts) i =
      (pow (norm_product (firstn (S m) (o_norms g))) (List.length (sites L)) * pow (natA (2 ^ m)) i * placements L Hm Vm (fun j => entry4 (w_heap w3) (nth j cs 0%nat)) i)%sr.
Proof. exact @impurity_archive. Qed.
Print Assumptions C61_archive.
(** measureObservables(): row m, column i times the partition function and the i-th power of the number of sites is the sum over all placements of i observables on the torus of step m *)
Theorem C61_measure : forall A B (HA : SR A) symdiff, symdiff_ok symdiff -> forall fuel (num : numerics A B) half, (half + half = 1)%sr -> invertible num 1%sr -> forall (eig : eigen A)
  (w0 wa wr w w1 w2 w3 : world A) x chiH chiV dofx T ga g ds Vr Hr ts ho V0 H0 s1 s2 s3 dof n V H,
  newHotrg num (Some x) chiH chiV w0 = (wa, Ok ga) -> given (w_heap w0) x dofx V0 H0 T -> exact_runH eig num symdiff fuel wa ga V0 H0 ds wr g Vr Hr -> (forall x, In x (o_norms g) -> invertible num x) ->
  preserved (w_heap wr) (w_heap w) -> nets_ready w g ->
  newImpurityTN ts ho w = (w1, Ok s1) -> given_all (w_heap w) ts V0 H0 -> 0 < order_of ho ts <= List.length ts -> snd (nth 0 ts (0, None)) = Some dof ->
  initializeI num (setRG s1 g) w1 = (w2, Ok s2) -> exact_runI num half symdiff fuel g w2 s2 V0 H0 n w3 s3 V H ->
  (forall m y, m <= n -> pureTensorTrace (w_heap w3) g m = Ok y -> invertible num y) ->
  exists xss, measureObservables num (w_heap w3) s3 = Ok xss /\ List.length xss = S n /\
    forall m i, m <= n -> i < order_of ho ts -> exists xs y, nth_error xss m = Some xs /\ List.length xs = order_of ho ts /\ nth_error xs i = Some y /\
      let L := grid (2 ^ col_steps (firstn m ds)) (2 ^ row_steps (firstn m ds)) in
      (y * pow (natA (2 ^ m)) i * partition L H0 V0 (fun _ => T) = placements L H0 V0 (given_entry (w_heap w) ts) i)%sr.
Proof. exact @impurity_measure. Qed.
Print Assumptions C61_measure.
(** if the tensor of order j is T times the j-th power of an observable: the i-th moment of the mean of the observable over the sites *)
Theorem C61_moments : forall A B (HA : SR A) symdiff, symdiff_ok symdiff -> forall fuel (num : numerics A B) half, (half + half = 1)%sr -> invertible num 1%sr -> forall (eig : eigen A)
  (w0 wa wr w w1 w2 w3 : world A) x chiH chiV dofx T ga g ds Vr Hr ts ho V0 H0 s1 s2 s3 dof n V H o,
  newHotrg num (Some x) chiH chiV w0 = (wa, Ok ga) -> given (w_heap w0) x dofx V0 H0 T -> exact_runH eig num symdiff fuel wa ga V0 H0 ds wr g Vr Hr -> (forall x, In x (o_norms g) -> invertible num x) ->
  preserved (w_heap wr) (w_heap w) -> nets_ready w g ->
  newImpurityTN ts ho w = (w1, Ok s1) -> given_all (w_heap w) ts V0 H0 -> 0 < order_of ho ts <= List.length ts -> snd (nth 0 ts (0, None)) = Some dof ->
  initializeI num (setRG s1 g) w1 = (w2, Ok s2) -> exact_runI num half symdiff fuel g w2 s2 V0 H0 n w3 s3 V H ->
  (forall m y, m <= n -> pureTensorTrace (w_heap w3) g m = Ok y -> invertible num y) ->
  (forall j u l d r, j < order_of ho ts -> u < V0 -> l < H0 -> d < V0 -> r < H0 -> given_entry (w_heap w) ts j u l d r = (T u l d r * pow (o u l d r) j)%sr) ->
  exists xss, measureObservables num (w_heap w3) s3 = Ok xss /\ List.length xss = S n /\
    forall m i, m <= n -> i < order_of ho ts -> exists xs y, nth_error xss m = Some xs /\ List.length xs = order_of ho ts /\ nth_error xs i = Some y /\
      let L := grid (2 ^ col_steps (firstn m ds)) (2 ^ row_steps (firstn m ds)) in
      (y * pow (natA (2 ^ m)) i * partition L H0 V0 (fun _ => T) = moment L H0 V0 T o i)%sr.
Proof. exact @impurity_moments. Qed.
Print Assumptions C61_moments.
(** *** Errors *)
(** with a highestOrder above the number of tensors the object can never be initialized *)
Theorem C61_padded : forall A B (HA : SR A) (num : numerics A B) ts ho V H (w w' : world A) s g n, newImpurityTN ts ho w = (w', Ok s) -> given_all (w_heap w) ts V H -> List.length ts < order_of ho ts ->
  nth_error (o_norms g) 0 = Some n -> exists w2, initializeI num (setRG s g) w' = (w2, Err AttributeError).
Proof. exact @padded. Qed.
Print Assumptions C61_padded.
Theorem C61_no_rg : forall A B (HA : SR A) symdiff fuel (num : numerics A B) half (w : world A) s, i_rg s = None ->
  initializeI num s w = (w, Err AssertionError) /\ (i_init s = false -> iterateI symdiff fuel num half s w = (w, Err AssertionError)).
Proof. exact @no_rg. Qed.
Print Assumptions C61_no_rg.
(** more steps than the RG has made *)
Theorem C61_behind : forall A B (HA : SR A) symdiff fuel (num : numerics A B) half (w : world A) s g, i_rg s = Some g -> i_init s = true -> List.length (o_norms g) <= S (i_idx s) ->
  iterateI symdiff fuel num half s w = (w, Err AssertionError).
Proof. exact @rg_behind. Qed.
Print Assumptions C61_behind.
Theorem C61_no_orders : forall A B (HA : SR A) symdiff fuel (num : numerics A B) half (w : world A) s g n, i_rg s = Some g -> i_init s = true -> nth_error (o_norms g) (S (i_idx s)) = Some n -> i_imps s = [] ->
  iterateI symdiff fuel num half s w = (w, Err IndexError).
Proof. exact @no_orders. Qed.
Print Assumptions C61_no_orders.
(** the first tensor needs a degreeOfFreedom *)
Theorem C61_no_dof : forall A B (HA : SR A) symdiff fuel (num : numerics A B) half (w : world A) s g n t l, i_rg s = Some g -> i_init s = true -> nth_error (o_norms g) (S (i_idx s)) = Some n ->
  i_imps s = Some (t, None) :: l -> iterateI symdiff fuel num half s w = (w, Err TypeError).
Proof. exact @no_dof. Qed.
Print Assumptions C61_no_dof.

(** *** An example *)
Definition qn (n : Z) : Qc := Q2Qc (inject_Z n).
Definition qeq (x y : Qc) : bool := Qc_eq_bool x y.
Lemma qeq_ok x y : qeq x y = true -> x = y.
Proof. apply Qc_eq_bool_correct. Qed.
(** two configurations of each bond of a chain *)
Definition T4 (a b : Z) : arr Qc := mkArr [1; 2; 1; 2] (map qn [a; 0; 0; b]%Z).
(** tensors of the orders 0, 1, 2: the observable is 2 where l is 0, and -1 elsewhere *)
Definition put (a b : Z) (h : heap Qc) : heap Qc := fst (mkDense None (Some [NStr "u"; NStr "l"; NStr "d"; NStr "r"]) (Some (T4 a b)) None None false h).
Definition h3 (h : heap Qc) : heap Qc := put 12 2 (put 6 (-2) (put 3 2 h)).
Definition ts_of (h : heap Qc) : list (tid * option nat) := [(ntens h, Some 1); (ntens (put 3 2 h), None); (ntens (put 6 (-2) (put 3 2 h)), Some 7)].
Definition obs (u l d r : nat) : Qc := if Nat.eqb l 0 then qn 2 else qn (-1).
Lemma T4_holds a b : holds [NStr "u"; NStr "l"; NStr "d"; NStr "r"] (T4 a b) 1 2 (fun u l d r => aget (T4 a b) [u; l; d; r]).
Proof. split; [apply Permutation.Permutation_refl|reflexivity|reflexivity|]. intros. reflexivity. Qed.
Lemma put_spec a b (h : heap Qc) : grown h (put a b h) /\ square (put a b h) (ntens h) 1 2 /\ forall u l d r, u < 1 -> l < 2 -> d < 1 -> r < 2 -> entry4 (put a b h) (ntens h) u l d r = aget (T4 a b) [u; l; d; r].
Proof.
  assert (E : exists t, mkDense None (Some [NStr "u"; NStr "l"; NStr "d"; NStr "r"]) (Some (T4 a b)) None None false h = (put a b h, Ok t)) by (eexists; reflexivity). destruct E as (t & E).
  destruct (holds_tensor h _ t _ _ 1 2 _ (T4_holds a b) E) as (NT & Q & EV). rewrite <- (nt_id _ _ _ _ NT). split; [exact (new_grown _ _ _ NT)|]. split; [exact Q|exact EV].
Qed.
Lemma given_ok (h : heap Qc) : grown h (h3 h) /\ given_all (h3 h) (ts_of h) 1 2 /\ forall u l d r, u < 1 -> l < 2 -> d < 1 -> r < 2 ->
  given_entry (h3 h) (ts_of h) 0 u l d r = aget (T4 3 2) [u; l; d; r] /\ given_entry (h3 h) (ts_of h) 1 u l d r = aget (T4 6 (-2)) [u; l; d; r] /\ given_entry (h3 h) (ts_of h) 2 u l d r = aget (T4 12 2) [u; l; d; r].
Proof.
  unfold h3, ts_of. destruct (put_spec 3 2 h) as (G1 & Q1 & E1). set (h1 := put 3 2 h) in *. clearbody h1. destruct (put_spec 6 (-2) h1) as (G2 & Q2 & E2). set (h2 := put 6 (-2) h1) in *. clearbody h2.
  destruct (put_spec 12 2 h2) as (G3 & Q3 & E3). set (h3 := put 12 2 h2) in *. clearbody h3. pose proof (grown_trans _ _ _ G2 G3) as G23.
  destruct (grown_dense _ _ _ _ G23 Q1) as (Q1' & V1 & _). destruct (grown_dense _ _ _ _ G3 Q2) as (Q2' & V2 & _).
  split; [exact (grown_trans _ _ _ G1 G23)|]. split; [intros t [<-|[<-|[<-|[]]]]; assumption|]. intros u l d r Hu Hl Hd Hr. unfold given_entry. cbn [nth fst]. split; [|split].
  - unfold entry4. rewrite V1. apply E1; assumption.
  - unfold entry4. rewrite V2. apply E2; assumption.
  - apply E3; assumption.
Qed.
Lemma obs_ok (h : heap Qc) j u l d r : j < 3 -> u < 1 -> l < 2 -> d < 1 -> r < 2 -> given_entry (h3 h) (ts_of h) j u l d r = rmul (aget (T4 3 2) [u; l; d; r]) (pow (obs u l d r) j).
Proof.
  intros Hj Hu Hl Hd Hr. destruct (given_ok h) as (_ & _ & X). destruct (X u l d r Hu Hl Hd Hr) as (X0 & X1 & X2).
  destruct j as [|[|[|j]]]; [rewrite X0|rewrite X1|rewrite X2|lia]; clear X X0 X1 X2 Hj; (destruct u as [|u]; [|lia]); (destruct l as [|[|l]]; [| |lia]); (destruct d as [|d]; [|lia]); (destruct r as [|[|r]]; [| |lia]);
    apply qeq_ok; vm_compute; reflexivity.
Qed.
(** all that has to be computed, in one computation: the RG, its step, the impurity tensors and their step *)
Definition z_of (r0 : world Qc * res (hotrg Qc)) := iterateH sd 40 num_Qc eig_Qc (snd (afterH r0)) (fst (afterH r0)).
Definition s_of (z : world Qc * hotrg Qc) := newImpurityTN (ts_of (w_heap (fst z))) None (with_heap (fst z) (h3 (w_heap (fst z)))).
Definition same_strings (a b : list string) : bool := if list_eq_dec string_dec a b then true else false.
Definition test_step (z0 z1 : world Qc * hotrg Qc) : bool :=
  Nat.eqb (proj_dim eig_Qc (w_heap (fst z0)) (snd z0) 1 2 "u") 1 && same_strings (o_choices (snd z1)) (o_choices (snd z0) ++ ["u"]) &&
  losslessb qeq 2 1 1 (turn "u" (entry4 (w_heap (fst z0)) (o_a (snd z0)))) (proj eig_Qc (env_of (w_heap (fst z0)) (snd z0) 1 2 "u") 1) (proj_conj eig_Qc num_Qc (env_of (w_heap (fst z0)) (snd z0) 1 2 "u") 1) &&
  forallb (fun x => negb (is0 x)) (o_norms (snd z1)).
Definition test_imp (z1 : world Qc * hotrg Qc) (s2 s3 : world Qc * impurityTN Qc) : bool :=
  match nth_error (o_choices (snd z1)) 0 with Some d => String.eqb d "u" | None => false end &&
  match nth_error (o_projs (snd z1)) 0 with
  | Some P => Nat.eqb (List.length (adata P)) 1 && (if list_eq_dec Nat.eq_dec (ashape P) [1; 1] then true else false) &&
      all_pairs 3 (fun i j => lossless2b qeq 2 1 1 (turn "u" (imp_entry (w_heap (fst s2)) (snd s2) i)) (turn "u" (imp_entry (w_heap (fst s2)) (snd s2) j)) (fun x o => aget P [x; o]) (fun x o => nu_conj num_Qc (aget P [x; o])))
  | None => false
  end && Nat.eqb (i_order (snd s2)) 3 && forallb (fun m => match pureTensorTrace (w_heap (fst s3)) (snd z1) m with Ok y => negb (is0 y) | Err _ => true end) [0; 1] &&
  match measureObservables num_Qc (w_heap (fst s3)) (snd s3) with
  | Ok x => if list_eq_dec (list_eq_dec Qc_eq_dec) x (map (map Q2Qc) [[1; 4 # 5; 14 # 5]; [1; 14 # 13; 40 # 13]]%Q) then true else false
  | Err _ => false
  end.
Definition test (r0 : world Qc * res (hotrg Qc)) : bool :=
  let z0 := afterH r0 in
  let r1 := z_of r0 in let z1 := afterH r1 in
  let r2 := s_of z1 in let s1 := afterI r2 in
  let r3 := initializeI num_Qc (setRG (snd s1) (snd z1)) (fst s1) in let s2 := afterI r3 in
  let r4 := iterateI sd 40 num_Qc half_Qc (snd s2) (fst s2) in let s3 := afterI r4 in
  okH r0 && okH r1 && okH r2 && okH r3 && okH r4 && test_step z0 z1 && test_imp z1 s2 s3.
Lemma tested : test (newHotrg num_Qc (Some (TArray (T4 3 2))) 5 (Some 2) (empty 0%Qc)) = true.
Proof. vm_compute. reflexivity. Qed.
Lemma step_ok (z0 z1 : world Qc * hotrg Qc) : iterateH sd 40 num_Qc eig_Qc (snd z0) (fst z0) = (fst z1, Ok (snd z1)) -> test_step z0 z1 = true ->
  exact_runH eig_Qc num_Qc sd 40 (fst z0) (snd z0) 1 2 ["u"] (fst z1) (snd z1) 1 2 /\ forall x, In x (o_norms (snd z1)) -> invertible num_Qc x.
Proof.
  unfold test_step. intros R E. apply andb_prop in E as (E & E4). apply andb_prop in E as (E & E3). apply andb_prop in E as (E1 & E2). apply Nat.eqb_eq in E1. split.
  - assert (X1 := eh_step eig_Qc num_Qc sd 40 (fst z0) (snd z0) 1 2 [] (fst z0) (snd z0) 1 2 "u" (fst z1) (snd z1) (eh_start _ _ _ _ _ _ _ _) R). rewrite E1 in X1.
    apply X1; [intros d _; apply diag_shape; reflexivity| |].
    + unfold same_strings in E2. destruct (list_eq_dec string_dec (o_choices (snd z1)) (o_choices (snd z0) ++ ["u"])) as [X|X]; [exact X|discriminate E2].
    + apply (losslessb_ok qeq qeq_ok). exact E3.
  - intros x Hx. apply div_Qc. intros ->. rewrite forallb_forall in E4. specialize (E4 _ Hx). discriminate E4.
Qed.
Lemma imp_ok (z1 : world Qc * hotrg Qc) (s2 s3 : world Qc * impurityTN Qc) : iterateI sd 40 num_Qc half_Qc (snd s2) (fst s2) = (fst s3, Ok (snd s3)) -> test_imp z1 s2 s3 = true ->
  exact_runI num_Qc half_Qc sd 40 (snd z1) (fst s2) (snd s2) 1 2 1 (fst s3) (snd s3) 1 2 /\ (forall m y, m <= 1 -> pureTensorTrace (w_heap (fst s3)) (snd z1) m = Ok y -> invertible num_Qc y) /\
  measureObservables num_Qc (w_heap (fst s3)) (snd s3) = Ok (map (map Q2Qc) [[1; 4 # 5; 14 # 5]; [1; 14 # 13; 40 # 13]]%Q).
Proof.
  unfold test_imp. intros R E. apply andb_prop in E as (E & E5). apply andb_prop in E as (E & E4). apply andb_prop in E as (E & E3). apply andb_prop in E as (E1 & E2). apply Nat.eqb_eq in E3. split; [|split].
  - destruct (nth_error (o_choices (snd z1)) 0) as [d|] eqn:ED; [|discriminate E1]. apply String.eqb_eq in E1. subst d. destruct (nth_error (o_projs (snd z1)) 0) as [P|] eqn:EP; [|discriminate E2].
    apply andb_prop in E2 as (E2 & EL). apply andb_prop in E2 as (EW & ES). apply Nat.eqb_eq in EW. destruct (list_eq_dec Nat.eq_dec (ashape P) [1; 1]) as [SP|]; [|discriminate ES].
    assert (X := ei_step num_Qc half_Qc sd 40 (snd z1) (fst s2) (snd s2) 1 2 0 (fst s2) (snd s2) 1 2 "u" P 1 (fst s3) (snd s3) (ei_start _ _ _ _ _ _ _ _ _) R ED EP). apply X; [unfold wfa; rewrite SP; exact EW|exact SP|].
    rewrite E3. intros i j Hij. apply (lossless2b_ok qeq qeq_ok). exact (all_pairs_ok 3 _ EL i j Hij).
  - intros m y Hm Ey. apply div_Qc. intros ->. rewrite forallb_forall in E4. specialize (E4 m ltac:(cbn; lia)). rewrite Ey in E4. discriminate E4.
  - destruct (measureObservables num_Qc (w_heap (fst s3)) (snd s3)) as [x|]; [|discriminate E5]. match type of E5 with (if ?D then _ else _) = true => destruct D as [X|X]; [now rewrite X|discriminate E5] end.
Qed.
Lemma test_ok r0 : test r0 = true -> exists z0 z1 s1 s2 s3, r0 = (fst z0, Ok (snd z0)) /\ iterateH sd 40 num_Qc eig_Qc (snd z0) (fst z0) = (fst z1, Ok (snd z1)) /\ test_step z0 z1 = true /\
  s_of z1 = (fst s1, Ok (snd s1)) /\ initializeI num_Qc (setRG (snd s1) (snd z1)) (fst s1) = (fst s2, Ok (snd s2)) /\ iterateI sd 40 num_Qc half_Qc (snd s2) (fst s2) = (fst s3, Ok (snd s3)) /\ test_imp z1 s2 s3 = true.
Proof.
  unfold test, z_of. cbv zeta. intros E. apply andb_prop in E as (E & E7). apply andb_prop in E as (E & E6). apply andb_prop in E as (E & E5). apply andb_prop in E as (E & E4). apply andb_prop in E as (E & E3). apply andb_prop in E as (E1 & E2).
  do 5 eexists. split; [apply afterH_ok; exact E1|]. split; [apply afterH_ok; exact E2|]. split; [exact E6|]. split; [apply afterI_ok; exact E3|]. split; [apply afterI_ok; exact E4|]. split; [apply afterI_ok; exact E5|exact E7].
Qed.
(** the mean of the observable and of its square, on one site and on two *)
Example C61_example : exists z0 z1 s1 s2 s3, let w := with_heap (fst z1) (h3 (w_heap (fst z1))) in let ts := ts_of (w_heap (fst z1)) in
  newHotrg num_Qc (Some (TArray (T4 3 2))) 5 (Some 2) (empty 0%Qc) = (fst z0, Ok (snd z0)) /\ given (w_heap (empty 0%Qc)) (TArray (T4 3 2)) 1 1 2 (fun u l d r => aget (T4 3 2) [u; l; d; r]) /\
  exact_runH eig_Qc num_Qc sd 40 (fst z0) (snd z0) 1 2 ["u"] (fst z1) (snd z1) 1 2 /\ (forall x, In x (o_norms (snd z1)) -> invertible num_Qc x) /\ preserved (w_heap (fst z1)) (w_heap w) /\ nets_ready w (snd z1) /\
  newImpurityTN ts None w = (fst s1, Ok (snd s1)) /\ given_all (w_heap w) ts 1 2 /\ 0 < order_of None ts <= List.length ts /\ snd (nth 0 ts (0, None)) = Some 1 /\
  initializeI num_Qc (setRG (snd s1) (snd z1)) (fst s1) = (fst s2, Ok (snd s2)) /\ exact_runI num_Qc half_Qc sd 40 (snd z1) (fst s2) (snd s2) 1 2 1 (fst s3) (snd s3) 1 2 /\
  (forall m y, m <= 1 -> pureTensorTrace (w_heap (fst s3)) (snd z1) m = Ok y -> invertible num_Qc y) /\
  (forall j u l d r, j < order_of None ts -> u < 1 -> l < 2 -> d < 1 -> r < 2 -> given_entry (w_heap w) ts j u l d r = rmul (aget (T4 3 2) [u; l; d; r]) (pow (obs u l d r) j)) /\
  measureObservables num_Qc (w_heap (fst s3)) (snd s3) = Ok (map (map Q2Qc) [[1; 4 # 5; 14 # 5]; [1; 14 # 13; 40 # 13]]%Q).
Proof.
  destruct (test_ok _ tested) as (z0 & z1 & s1 & s2 & s3 & R0 & R1 & ES & R2 & R3 & R4 & EI). exists z0, z1, s1, s2, s3. cbv zeta. unfold s_of in R2.
  destruct (step_ok _ _ R1 ES) as (RZ & NZ). destruct (imp_ok _ _ _ R4 EI) as (RI & NP & EM). destruct (given_ok (w_heap (fst z1))) as (G & GA & _).
  assert (GV : given (w_heap (empty 0%Qc)) (TArray (T4 3 2)) 1 1 2 (fun u l d r => aget (T4 3 2) [u; l; d; r])) by now constructor.
  destruct (runH_spec sd sd_ok 40 num_Qc eig_Qc _ _ _ _ _ _ _ _ _ _ _ _ _ _ _ R0 GV RZ) as (HS & _).
  split; [exact R0|]. split; [exact GV|]. split; [exact RZ|]. split; [exact NZ|]. split; [apply grown_preserved; exact G|]. split; [apply nets_heap; exact (hs_nets _ _ _ _ HS)|].
  split; [exact R2|]. split; [exact GA|]. split; [cbn; lia|]. split; [reflexivity|]. split; [exact R3|]. split; [exact RI|]. split; [exact NP|]. split; [exact (obs_ok (w_heap (fst z1)))|exact EM].
Qed.
