(** Decompositions of tensors by tensorSVDDecomposition, and the corner transfer matrix renormalization group. *)
From Coq Require Import List Arith Bool String ZArith Lia QArith Qcanon.
From Verif Require Import Base Sums NdModel NdProofs HeapModel FuncsModel TensorModel TensorSpec TensorProofs CopyProofs ContractModel SvdModel SvdSpec CanonModel SearchSpec FtnModel FtnProofs NamedSpec NetsSpec NamedProofs NetsModel NetsProofs NamedMatProofs TrgModel TrgSpec DiagNetSpec OpenSpec OpenMirrorProofs
  CtmrgModel CtmrgSpec CtmrgRunSpec CtmrgStepProofs CtmrgIterProofs CtmrgInitProofs CtmrgRunProofs CtmrgGetProofs CtmrgExactProofs CtmrgExampleProofs TrgExampleProofs ImpurityExampleProofs SearchProps.
Import ListNotations.
Local Open Scope nat_scope.
Local Open Scope string_scope.
Local Open Scope list_scope.

(** ** C63 tensorSVDDecomposition cuts a tensor into two isometries and a diagonal tensor *)
Theorem C63_factors : forall A B (HA : SR A) (num : numerics A B) (w w' : world A) a R C inner chi order u s v e,
  tensorSVDDecomposition num a (Some (map fst R)) (Some (map fst C)) inner chi order w = (w', Ok (u, s, v, e)) ->
  dense_legs (w_heap w) a (R ++ C) -> NoDup (map fst (R ++ C)) -> R <> [] -> C <> [] ->
  let rn := svd_name (map fst R) in let cn := svd_name (map fst C) in let rl := fst (svd_inner inner (map fst R) (map fst C)) in let cl := snd (svd_inner inner (map fst R) (map fst C)) in
  NoDup [rn; rl] -> NoDup [cl; cn] -> rn <> cn ->
  exists m, toMatrix (w_heap w) a (Some (map RStr (map fst R))) (Some (map RStr (map fst C))) = Ok m /\ wfa m /\ ashape m = [prodn (map snd R); prodn (map snd C)] /\
    (forall is js, inrange (map snd R) is -> inrange (map snd C) js ->
      aget m [ravel (map snd R) is; ravel (map snd C) js] = at_ (w_heap w) a (combine (map fst (R ++ C)) (is ++ js))) /\
    (svd_shape (nu_lib num) m (prodn (map snd R)) (prodn (map snd C)) ->
      let k := Nat.min chi (Nat.min (prodn (map snd R)) (prodn (map snd C))) in
      svd_tensors (nu_lib num) (w_heap w') m (prodn (map snd R)) (prodn (map snd C)) k rn rl cl cn u s v /\ e = cut_error num m (Nat.min (prodn (map snd R)) (prodn (map snd C))) chi order /\
      w' = mkWorld (w_heap w') (w_names w) (w_nnames w) (w_ftn w) (w_nftn w) /\ grown (w_heap w) (w_heap w') /\ u = ntens (w_heap w) /\ s = S u /\ v = S s /\ ntens (w_heap w') = S v).
Proof. exact @tsvd_ok. Qed.
Print Assumptions C63_factors.
(** their product is the tensor if the values left out are 0 *)
Theorem C63_product : forall A (HA : SR A) (lib : linalg A) (h : heap A) m r c chi rn rl cl cn u s v i j, svd_exact lib m r c -> lossless lib m (Nat.min chi (Nat.min r c)) ->
  svd_tensors lib h m r c (Nat.min chi (Nat.min r c)) rn rl cl cn u s v -> i < r -> j < c ->
  aget m [i; j] = sumN (Nat.min chi (Nat.min r c)) (fun z => at_ h u [(rn, i); (rl, z)] * at_ h s [(rn, z); (cn, z)] * at_ h v [(cl, z); (cn, j)])%sr.
Proof. exact @tsvd_product. Qed.
Print Assumptions C63_product.
(** rows and cols have default None, with which the function cannot be used *)
Theorem C63_none : forall A B (HA : SR A) (num : numerics A B) (w : world A) a inner chi order rows cols m, (rows = None \/ cols = None) -> toMatrix (w_heap w) a (option_map (map RStr) rows) (option_map (map RStr) cols) = Ok m ->
  snd (tensorSVDDecomposition num a rows cols inner chi order w) = Err TypeError.
Proof. exact @tsvd_none. Qed.
Print Assumptions C63_none.
(** the tensor of the second example below, with rows l, u and columns r, d *)
Definition libF : linalg Z := mkLinalg (fun m => (tab [4; 4] (fun i => if Nat.eqb (nth 0 i 0) (nth 1 i 0) then 1%Z else 0%Z), mkArr [4] [0; 2; 3; 0]%Z, mkArr [4; 4] [0; 0; 0; 1; 0; 1; 0; 0; 0; 0; 1; 0; 1; 0; 0; 0]%Z)) (fun x => x) (fun _ => true).
Definition numF : numerics Z Z := mkNum libF (fun x => x) (fun _ => 1%Z) (fun x _ => x) (fun x => x) 1%Z Z.mul (fun x _ => x).
Definition testF (r : world Z * res (nat * nat * nat * Z)) : bool := match r with (w', Ok (1, 2, 3, e)) => true | _ => false end.
Example C63_example : exists w' u s v e, tensorSVDDecomposition numF 0 (Some (map fst [("l", 2); ("u", 2)])) (Some (map fst [("r", 2); ("d", 2)])) None 4 2 wTop = (w', Ok (u, s, v, e)) /\
  dense_legs (w_heap wTop) 0 ([("l", 2); ("u", 2)] ++ [("r", 2); ("d", 2)]) /\ svd_name ["l"; "u"] = "l|u" /\ svd_inner None ["l"; "u"] ["r"; "d"] = ("inner:l|u", "inner:r|d") /\ (forall m, svd_shape libF m 4 4).
Proof.
  assert (E : testF (tensorSVDDecomposition numF 0 (Some ["l"; "u"]) (Some ["r"; "d"]) None 4 2 wTop) = true) by (vm_compute; reflexivity).
  cbn [map fst]. destruct (tensorSVDDecomposition numF 0 (Some ["l"; "u"]) (Some ["r"; "d"]) None 4 2 wTop) as (w' & [(((u & s) & v) & e)|x]); [|discriminate E]. exists w', u, s, v, e. split; [reflexivity|].
  split; [|split; [reflexivity|split; [reflexivity|]]].
  - eapply legs_perm_as; [|exact siteTop]. constructor. apply Permutation.perm_swap.
  - intros m. split; split; reflexivity.
Qed.

(** ** C64 CTMRG without loss computes a lattice with open boundary *)
(** __init__: the corner and the edges of a single site *)
Theorem C64_init : forall A B (HA : SR A) symdiff, symdiff_ok symdiff -> forall fuel (num : numerics A B) (w w' : world A) a chi (g : ctmrg A B) H V,
  newCtmrg symdiff fuel num a chi w = (w', Ok g) -> site_tensor (w_heap w) a H V ->
  let T := site_entry (w_heap w) a in svd_shape (nu_lib num) (ext_mat H V T no_sites) (1 * V) (1 * H) ->
  cstate w' g H V (cut_k H V (no_sites (A := A)) chi) /\ (forall l r u d, gsite w' g l r u d = T l r u d) /\ m_chi g = chi /\
  m_cLog g = nu_zero num /\ m_hLog g = nu_zero num /\ m_vLog g = nu_zero num /\ m_cRec g = [] /\ m_hRec g = [] /\ m_vRec g = [] /\
  m_errors g = [cut_error num (ext_mat H V T no_sites) (Nat.min (1 * V) (1 * H)) chi 4] /\
  grown (w_heap w) (w_heap w') /\ ntens (w_heap w) <= m_a g /\
  same_env H V (step_env H V T no_sites (nu_lib num) chi) (genv w' g (cut_k H V (no_sites (A := A)) chi)).
Proof. exact @newCtmrg_ok. Qed.
Print Assumptions C64_init.
(** iterate: one more site in each direction; the old tensors and logarithms are recorded, the new tensors are divided by their norms *)
Theorem C64_iterate : forall A B (HA : SR A) symdiff, symdiff_ok symdiff -> forall fuel (num : numerics A B) (w w' : world A) (g g' : ctmrg A B) H V k nc nh nv,
  iterateC symdiff fuel num g w = (w', Ok (g', (nc, nh, nv))) -> cstate w g H V k ->
  let E := genv w g k in let T := gsite w g in svd_shape (nu_lib num) (ext_mat H V T E) (k * V) (k * H) ->
  exists c h v, cstate w' g' H V (cut_k H V E (m_chi g)) /\ m_a g' = m_a g /\ m_chi g' = m_chi g /\ m_nets g' = m_nets g /\
    m_cRec g' = m_cRec g ++ [(c, m_cLog g)] /\ m_hRec g' = m_hRec g ++ [(h, m_hLog g)] /\ m_vRec g' = m_vRec g ++ [(v, m_vLog g)] /\
    m_cLog g' = nu_plus num (nu_plus num (nu_plus num (nu_log num nc) (m_cLog g)) (m_hLog g)) (m_vLog g) /\ m_hLog g' = nu_plus num (nu_log num nh) (m_hLog g) /\ m_vLog g' = nu_plus num (nu_log num nv) (m_vLog g) /\
    m_errors g' = m_errors g ++ [cut_error num (ext_mat H V T E) (Nat.min (k * V) (k * H)) (m_chi g) 4] /\
    grown (w_heap w) (w_heap w') /\ env_tensors (w_heap w') c h v H V k /\ same_env H V E (env_of (w_heap w') c h v k) /\
    normalized num (w_heap w') (m_corner g') nc /\ normalized num (w_heap w') (m_hEdge g') nh /\ normalized num (w_heap w') (m_vEdge g') nv /\
    divided num H V (step_env H V T E (nu_lib num) (m_chi g)) (genv w' g' (cut_k H V E (m_chi g))) nc nh nv.
Proof. exact @iterateC_ok. Qed.
Print Assumptions C64_iterate.
(** getZ with all reductions exact: the lattice in which the right half and the upper half are mirrored.  At this point L / 2 is at most the number of sites along the corner *)
Theorem C64_value : forall A B (HA : SR A) symdiff, symdiff_ok symdiff -> forall fuel (num : numerics A B) (ex : exponential A B), exp_ok num ex -> forall H V T chi n (w w' : world A) g g' L z,
  exact_run symdiff fuel num ex H V T chi n w g -> 1 <= L -> L / 2 <= n -> getZ symdiff fuel num ex g L w = (w', Ok (g', z)) -> z = open_mirrored L H V T /\ g' = g.
Proof. exact @ctmrg_value. Qed.
Print Assumptions C64_value.
(** otherwise it first iterates *)
Theorem C64_iterates : forall A B (HA : SR A) symdiff fuel (num : numerics A B) (ex : exponential A B) (g : ctmrg A B) L (w : world A), List.length (m_cRec g) + 1 < L / 2 ->
  getZ symdiff fuel num ex g L w = wbind (iterateC symdiff fuel num g) (fun p => getZ symdiff fuel num ex (fst p) L) w.
Proof. exact @getZ_iterates. Qed.
Print Assumptions C64_iterates.
(** with mirror symmetry this is the lattice with the same tensor on every site *)
Theorem C64_lattice : forall A B (HA : SR A) symdiff, symdiff_ok symdiff -> forall fuel (num : numerics A B) (ex : exponential A B), exp_ok num ex -> forall H V T chi n (w w' : world A) g g' L z,
  mirror_symmetric H V T -> exact_run symdiff fuel num ex H V T chi n w g -> 1 <= L -> L / 2 <= n -> getZ symdiff fuel num ex g L w = (w', Ok (g', z)) -> z = open_lattice L H V T.
Proof.
  intros A B HA symdiff Hsd fuel num ex Hex H V T chi n w w' g g' L z M R L1 LN G. rewrite <- (mirrored_same H V T L M). exact (proj1 (C64_value A B HA symdiff Hsd fuel num ex Hex H V T chi n w w' g g' L z R L1 LN G)).
Qed.
Print Assumptions C64_lattice.
(** a step that keeps all values, with orthogonal factors, is exact *)
Theorem C64_full : forall A (HA : SR A) (lib : linalg A) H V T (E : env A) chi, let n := e_k E * V in let m := ext_mat H V T E in e_k E * H = n -> n <= chi -> svd_shape lib m n n ->
  (forall p q, p < n -> q < n -> aget m [p; q] = sumN n (fun z => aget (svd_u lib m) [p; z] * aget (svd_s lib m) [z] * aget (svd_v lib m) [z; q])%sr) ->
  (forall y z, y < n -> z < n -> sumN n (fun p => aget (svd_u lib m) [p; y] * aget (svd_u lib m) [p; z])%sr = if Nat.eqb y z then r1 else r0) ->
  (forall p q, p < n -> q < n -> sumN n (fun y => aget (svd_u lib m) [p; y] * aget (svd_u lib m) [q; y])%sr = if Nat.eqb p q then r1 else r0) ->
  (forall y z, y < n -> z < n -> sumN n (fun q => aget (svd_v lib m) [y; q] * aget (svd_v lib m) [z; q])%sr = if Nat.eqb y z then r1 else r0) ->
  (forall p q, p < n -> q < n -> sumN n (fun y => aget (svd_v lib m) [y; p] * aget (svd_v lib m) [y; q])%sr = if Nat.eqb p q then r1 else r0) -> exact_cut H V T E lib chi.
Proof. exact @full_cut. Qed.
Print Assumptions C64_full.
(** L = 0 *)
Theorem C64_zero_first : forall A B (HA : SR A) symdiff, symdiff_ok symdiff -> forall fuel (num : numerics A B) (ex : exponential A B), exp_ok num ex -> forall H V T chi (w : world A) g,
  exact_run symdiff fuel num ex H V T chi 1 w g -> snd (getZ symdiff fuel num ex g 0 w) = Err IndexError.
Proof. exact @ctmrg_zero_first. Qed.
Print Assumptions C64_zero_first.
Theorem C64_zero : forall A B (HA : SR A) symdiff, symdiff_ok symdiff -> forall fuel (num : numerics A B) (ex : exponential A B), exp_ok num ex -> forall H V T chi n (w w' : world A) g g' z,
  exact_run symdiff fuel num ex H V T chi (S n) w g -> 1 <= n -> getZ symdiff fuel num ex g 0 w = (w', Ok (g', z)) -> z = open_mirrored (2 * n) H V T.
Proof. exact @ctmrg_zero. Qed.
Print Assumptions C64_zero.
(** independent columns, two sites along the corner, lattice of 16 sites *)
Example C64_example : exp_ok num34 exp34 /\ mirror_symmetric 1 2 T34 /\ exists w1 g1 w2 g2 w3 g3, newCtmrg sd 40 num34 0 3 w34 = (w1, Ok g1) /\ exact_run sd 40 num34 exp34 1 2 T34 3 1 w1 g1 /\ exact_run sd 40 num34 exp34 1 2 T34 3 2 w2 g2 /\
  getZ sd 40 num34 exp34 g2 4 w2 = (w3, Ok (g3, qc (inject_Z ((49 * 25 ^ 3) ^ 4)))) /\ qc (inject_Z ((49 * 25 ^ 3) ^ 4)) = open_lattice 4 1 2 T34.
Proof.
  assert (M : mirror_symmetric 1 2 T34).
  { intros l r u d Hl Hr Hu Hd. assert (l = 0) as -> by lia. assert (r = 0) as -> by lia. destruct u as [|[|u]]; [| |lia]; (destruct d as [|[|d]]; [| |lia]); split; reflexivity. }
  split; [exact exp34_ok|]. split; [exact M|]. destruct run34 as (w1 & g1 & w2 & g2 & w3 & g3 & R1 & X1 & X2 & R3). exists w1, g1, w2, g2, w3, g3. split; [exact R1|]. split; [exact X1|]. split; [exact X2|]. split; [exact R3|].
  exact (C64_lattice _ _ _ sd sd_ok 40 num34 exp34 exp34_ok 1 2 T34 3 2 w2 w3 g2 g3 4 _ M X2 ltac:(lia) ltac:(cbn; lia) R3).
Qed.
(** the shapes that C64_init and C64_iterate ask for *)
Example C64_shape_example : forall m, svd_shape (nu_lib num34) m 2 1. Proof. exact shape34. Qed.
(** a step of C64_full *)
Example C64_full_example : let m := ext_mat 2 2 TTop no_sites in svd_shape libI2 m 2 2 /\ (forall p q, p < 2 -> q < 2 -> aget m [p; q] = sumN 2 (fun z => aget (svd_u libI2 m) [p; z] * aget (svd_s libI2 m) [z] * aget (svd_v libI2 m) [z; q])%sr) /\
  (forall y z, y < 2 -> z < 2 -> sumN 2 (fun p => aget (svd_u libI2 m) [p; y] * aget (svd_u libI2 m) [p; z])%sr = if Nat.eqb y z then r1 else r0) /\ exact_cut 2 2 TTop no_sites libI2 4.
Proof.
  cbv zeta. split; [split; split; reflexivity|].
  assert (X : exact_cut 2 2 TTop no_sites libI2 4) by (apply (cut_test_ok Z.eqb (fun x y => proj1 (Z.eqb_eq x y))); [split; split; reflexivity|exact cutTop]).
  split; [|split; [exact (ec_u _ _ _ _ _ _ X)|exact X]]. intros p q Hp Hq. destruct p as [|[|p]]; [| |lia]; (destruct q as [|[|q]]; [| |lia]); vm_compute; reflexivity.
Qed.
(** without mirror symmetry the answer is not the lattice with the same tensor on every site, and nothing tells the user *)
Theorem C64_lattice_refuted : exists (num : numerics Z Z) (ex : exponential Z Z) H V T chi n (w w' : world Z) g g' L z, exp_ok num ex /\ exact_run sd 40 num ex H V T chi n w g /\ 1 <= L /\ L / 2 <= n /\
  getZ sd 40 num ex g L w = (w', Ok (g', z)) /\ z <> open_lattice L H V T.
Proof.
  destruct runTop as (w1 & g1 & w2 & g2 & X & R). exists numI2, expI2, 2, 2, TTop, 4, 1, w1, w2, g1, g2, 2, 97%Z. split; [exact expI2_ok|]. split; [exact X|]. split; [lia|]. split; [cbn; lia|]. split; [exact R|]. rewrite valueTop. discriminate.
Qed.
Print Assumptions C64_lattice_refuted.
(** corners that lose nothing are not enough, and the errors reported only tell about the corners *)
Theorem C64_corners_refuted : exists (num : numerics Qc Qc) (ex : exponential Qc Qc) H V T chi a (w0 w1 w2 w3 : world Qc) g1 g2 g3 k nc nh nv z, exp_ok num ex /\ mirror_symmetric H V T /\ site_tensor (w_heap w0) a H V /\
  (forall l r u d, site_entry (w_heap w0) a l r u d = T l r u d) /\ newCtmrg sd 40 num a chi w0 = (w1, Ok g1) /\ corner_cut H V T no_sites (nu_lib num) chi /\ cstate w1 g1 H V k /\ corner_cut H V T (genv w1 g1 k) (nu_lib num) chi /\
  iterateC sd 40 num g1 w1 = (w2, Ok (g2, (nc, nh, nv))) /\ good_norm num ex nc /\ good_norm num ex nh /\ good_norm num ex nv /\ getZ sd 40 num ex g2 4 w2 = (w3, Ok (g3, z)) /\ z <> open_lattice 4 H V T.
Proof.
  destruct (testE_ok _ testedE) as (w1 & g1 & w2 & g2 & nc & nh & nv & w3 & g3 & R1 & C1 & R2 & N1 & N2 & N3 & R3).
  assert (M : mirror_symmetric 1 2 TE).
  { intros l r u d Hl Hr Hu Hd. assert (l = 0) as -> by lia. assert (r = 0) as -> by lia. destruct u as [|[|u]]; [| |lia]; (destruct d as [|[|d]]; [| |lia]); split; reflexivity. }
  exists numE, expE, 1, 2, TE, 3, 0, wE, w1, w2, w3, g1, g2, g3, 1, nc, nh, nv, (qc (inject_Z (500 ^ 4))). split; [split; reflexivity|]. split; [exact M|]. split; [exact siteE|]. split; [reflexivity|]. split; [exact R1|].
  split; [apply (corner_cut_ok eqQ eqQ_ok); [apply shapeE|exact cornerE]|]. split; [exact (proj1 (newCtmrg_ok sd sd_ok 40 numE wE w1 0 3 g1 1 2 R1 siteE (shapeE _)))|]. split; [apply (corner_cut_ok eqQ eqQ_ok); [apply shapeE|exact C1]|]. split; [exact R2|].
  assert (GN : forall n, eqQ n 0%Qc = false -> good_norm numE expE n) by (intros n E; exact (norm34_ok n E)).
  split; [now apply GN|]. split; [now apply GN|]. split; [now apply GN|]. split; [exact R3|]. rewrite <- (mirrored_same 1 2 TE 4 M), valueE. intros E. discriminate E.
Qed.
Print Assumptions C64_corners_refuted.
